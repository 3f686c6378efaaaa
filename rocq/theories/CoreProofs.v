(** * Proofs about int, char and string conversions. *)
From Coq Require Import ZArith List Bool Lia Zquot.
From Verif Require Import PackModel PackSpec PackProofs CoreModel.
Import ListNotations.
Local Open Scope Z_scope.

Lemma new_enum_den ub m t :
  exists b, new_enum ub m t = Some b /\ extends m (b_mem b) /\ den (b_mem b) (b_val b) (DUnion t (DStruct [])).
Proof.
  unfold new_enum. destruct (new_struct_den ub m [] [] (Forall2_nil _)) as (u & Eu & Xu & Du).
  rewrite Eu. destruct (new_union_den ub (b_mem u) t _ _ Du) as (b & Eb & Xb & Db).
  exists b. split; [exact Eb|]. split; [eapply extends_trans; eauto | exact Db].
Qed.

(** The data of a positive number. *)
Fixpoint pos_data (p : positive) : data :=
  match p with
  | xH => DUnion 0 (DStruct [])
  | xO q => DUnion 1 (pos_data q)
  | xI q => DUnion 2 (pos_data q)
  end.

Lemma make_intp_den ub : forall fuel p m, Zpos p < 2 ^ Z.of_nat fuel ->
  exists w m', make_intp ub fuel m (Zpos p) = Some (w, m') /\ extends m m' /\ den m' w (pos_data p).
Proof.
  induction fuel as [|fuel IH]; intros p m Hp.
  { simpl in Hp. lia. }
  replace (Z.of_nat (S fuel)) with (1 + Z.of_nat fuel) in Hp by lia.
  rewrite Z.pow_add_r in Hp by lia. change (2^1) with 2 in Hp.
  cbn [make_intp].
  destruct (Z.ltb_spec 0 (Zpos p)); [|lia]. cbn [negb].
  destruct p as [q|q|].
  - change (Zpos q~1 =? 1) with false. cbv iota.
    replace (Z.quot (Zpos q~1) 2) with (Zpos q) by
      (rewrite Z.quot_div_nonneg by lia; rewrite Pos2Z.inj_xI;
       apply Z.div_unique with 1; lia).
    destruct (IH q m ltac:(lia)) as (w & m1 & E & X & D). rewrite E.
    replace (Z.to_nat (1 + Z.rem (Zpos q~1) 2)) with 2%nat.
    2:{ replace (Z.rem (Zpos q~1) 2) with 1; [reflexivity|].
        rewrite Z.rem_mod_nonneg by lia. rewrite Pos2Z.inj_xI.
        apply Z.mod_unique with (Zpos q); lia. }
    destruct (new_union_den ub m1 2 w _ D) as (b & Eb & Xb & Db). rewrite Eb.
    eexists _, _. split; [reflexivity|]. split; [eapply extends_trans; eauto | exact Db].
  - change (Zpos q~0 =? 1) with false. cbv iota.
    replace (Z.quot (Zpos q~0) 2) with (Zpos q) by
      (rewrite Z.quot_div_nonneg by lia; rewrite Pos2Z.inj_xO;
       apply Z.div_unique with 0; lia).
    destruct (IH q m ltac:(lia)) as (w & m1 & E & X & D). rewrite E.
    replace (Z.to_nat (1 + Z.rem (Zpos q~0) 2)) with 1%nat.
    2:{ replace (Z.rem (Zpos q~0) 2) with 0; [reflexivity|].
        rewrite Z.rem_mod_nonneg by lia. rewrite Pos2Z.inj_xO.
        apply Z.mod_unique with (Zpos q); lia. }
    destruct (new_union_den ub m1 1 w _ D) as (b & Eb & Xb & Db). rewrite Eb.
    eexists _, _. split; [reflexivity|]. split; [eapply extends_trans; eauto | exact Db].
  - cbn [Z.eqb]. cbv iota. change (1 =? 1) with true. cbv iota.
    destruct (new_enum_den ub m 0) as (b & Eb & Xb & Db). rewrite Eb.
    eexists _, _. split; [reflexivity|]. split; [exact Xb | exact Db].
Qed.

Lemma int64_ok z : - 2^63 <= z < 2^63 -> int64 z = Some z.
Proof.
  intros H. unfold int64. destruct (Z.leb_spec (- 2^63) z); [|lia].
  destruct (Z.ltb_spec z (2^63)); [reflexivity|lia].
Qed.

Lemma read_intp_den ub : forall fuel p m w, Zpos p < 2 ^ Z.of_nat fuel -> Zpos p < 2^63 ->
  den m w (pos_data p) -> read_intp ub fuel m w = Some (Zpos p).
Proof.
  induction fuel as [|fuel IH]; intros p m w Hp H63 D.
  { simpl in Hp. lia. }
  replace (Z.of_nat (S fuel)) with (1 + Z.of_nat fuel) in Hp by lia.
  rewrite Z.pow_add_r in Hp by lia. change (2^1) with 2 in Hp.
  cbn [read_intp]. destruct p as [q|q|]; cbn [pos_data] in D;
    rewrite (den_union_tag _ _ _ _ D).
  - destruct (den_union_arg ub _ _ _ _ D) as (a & Ea & Da). rewrite Ea.
    rewrite (IH q m a) by (auto; lia). rewrite int64_ok by lia. rewrite int64_ok by lia.
    reflexivity.
  - destruct (den_union_arg ub _ _ _ _ D) as (a & Ea & Da). rewrite Ea.
    rewrite (IH q m a) by (auto; lia). rewrite int64_ok by lia. reflexivity.
  - reflexivity.
Qed.

(** The data of an integer. *)
Definition int_data (x : Z) : data :=
  match x with
  | Zneg p => DUnion 0 (pos_data p)
  | Z0 => DUnion 1 (DStruct [])
  | Zpos p => DUnion 2 (pos_data p)
  end.

Lemma new_int_den ub m x : - 2^63 < x < 2^63 ->
  exists w m', new_int ub m x = Some (w, m') /\ extends m m' /\ den m' w (int_data x).
Proof.
  intros Hx. unfold new_int. destruct x as [|p|p].
  - cbn [Z.ltb Z.compare Z.eqb]. cbv iota.
    change (0 <? 0) with false. change (0 =? 0) with true. cbv iota.
    destruct (new_enum_den ub m 1) as (b & Eb & Xb & Db). rewrite Eb. eauto 10.
  - change (Zpos p <? 0) with false. change (Zpos p =? 0) with false. cbv iota.
    destruct (make_intp_den ub int_fuel p m) as (w & m1 & E & X & D).
    { change (Z.of_nat int_fuel) with 64. lia. }
    rewrite E. destruct (new_union_den ub m1 2 w _ D) as (b & Eb & Xb & Db). rewrite Eb.
    eexists _, _. split; [reflexivity|]. split; [eapply extends_trans; eauto | exact Db].
  - change (Zneg p <? 0) with true. cbv iota.
    rewrite int64_ok by lia. change (- Zneg p) with (Zpos p).
    destruct (make_intp_den ub int_fuel p m) as (w & m1 & E & X & D).
    { change (Z.of_nat int_fuel) with 64. lia. }
    rewrite E. destruct (new_union_den ub m1 0 w _ D) as (b & Eb & Xb & Db). rewrite Eb.
    eexists _, _. split; [reflexivity|]. split; [eapply extends_trans; eauto | exact Db].
Qed.

Lemma int_access_den ub m w x : - 2^63 < x < 2^63 -> den m w (int_data x) ->
  int_access ub m w = Some x.
Proof.
  intros Hx D. unfold int_access. destruct x as [|p|p]; cbn [int_data] in D;
    rewrite (den_union_tag _ _ _ _ D).
  - reflexivity.
  - destruct (den_union_arg ub _ _ _ _ D) as (a & Ea & Da). rewrite Ea.
    apply read_intp_den; auto; [change (Z.of_nat int_fuel) with 64; lia | lia].
  - destruct (den_union_arg ub _ _ _ _ D) as (a & Ea & Da). rewrite Ea.
    rewrite (read_intp_den ub int_fuel p) by (auto; try change (Z.of_nat int_fuel) with 64; lia).
    rewrite int64_ok by lia. reflexivity.
Qed.

(** ** Characters and strings *)
Lemma index_of_nth c l t : index_of c l = Some t -> nth_error l t = Some c.
Proof.
  revert t. induction l as [|x l IH]; intros t H; [discriminate|]. simpl in H.
  destruct (Z.eqb_spec x c).
  - inversion H; subst. reflexivity.
  - destruct (index_of c l) as [t'|]; [|discriminate]. inversion H; subst. simpl. auto.
Qed.

Lemma index_of_in c l : In c l -> exists t, index_of c l = Some t.
Proof.
  induction l as [|x l IH]; intros H; [contradiction|]. simpl.
  destruct (Z.eqb_spec x c); [eauto|]. destruct H as [H|H]; [congruence|].
  destruct (IH H) as [t ->]. simpl. eauto.
Qed.

Lemma index_of_not_in c l : ~ In c l -> index_of c l = None.
Proof.
  induction l as [|x l IH]; intros H; [reflexivity|]. simpl.
  destruct (Z.eqb_spec x c); [exfalso; apply H; left; auto|].
  rewrite IH; [reflexivity|]. intros H'. apply H. right. auto.
Qed.

Definition char_norm (c : Z) : Z := if in_dec Z.eq_dec c chars then c else 63.

Lemma char_tag_spec c : exists t, char_tag c = Some t /\ nth_error chars t = Some (char_norm c).
Proof.
  unfold char_tag, char_norm. destruct (in_dec Z.eq_dec c chars) as [H|H].
  - destruct (Z.eqb_spec c 0) as [->|].
    { exfalso. clear - H. unfold chars in H. simpl in H. intuition discriminate. }
    destruct (index_of_in _ _ H) as [t E]. rewrite E. exists t. split; auto. apply index_of_nth. auto.
  - rewrite (index_of_not_in _ _ H). replace (if c =? 0 then None else None) with (@None nat) by (destruct (c =? 0); auto).
    exists 33%nat. split; reflexivity.
Qed.

Lemma char_access_den m w t c d : den m w (DUnion t d) -> nth_error chars t = Some c -> char_access m w = Some c.
Proof. intros D E. unfold char_access. rewrite (den_union_tag _ _ _ _ D). exact E. Qed.

(** Data of a string given by tags. *)
Definition str_data (ts : list nat) : data := data_list (map (fun t => DUnion t (DStruct [])) ts).

Lemma new_string_den ub m s : exists ts w m', new_string ub m s = Some (w, m') /\ extends m m' /\
  Forall2 (fun c t => nth_error chars t = Some (char_norm c)) s ts /\ den m' w (str_data ts).
Proof.
  unfold new_string. destruct (new_enum_den ub m 1) as (e & Ee & Xe & De). rewrite Ee.
  assert (L: forall rs m w d, den m w d ->
     exists ts w' m', string_loop ub m rs w = Some (w', m') /\ extends m m' /\
       Forall2 (fun c t => nth_error chars t = Some (char_norm c)) rs ts /\
       den m' w' (fold_left (fun d l => DUnion 0 (DStruct [DUnion l (DStruct []); d])) ts d)).
  { clear. induction rs as [|c rest IH]; intros m w d D; cbn [string_loop].
    - exists [], w, m. split; [reflexivity|]. split; [apply extends_refl|]. split; [constructor|exact D].
    - destruct (char_tag_spec c) as (t & Et & Hn). unfold new_char. rewrite Et.
      destruct (new_enum_den ub m t) as (a & Ea & Xa & Da). rewrite Ea.
      destruct (new_struct_den ub (b_mem a) [b_val a; w] [DUnion t (DStruct []); d]) as (p & Ep & Xp & Dp).
      { constructor; [exact Da|]. constructor; [eapply den_extends; eauto | constructor]. }
      rewrite Ep. destruct (new_union_den ub (b_mem p) 0 _ _ Dp) as (u & Eu & Xu & Du). rewrite Eu.
      destruct (IH (b_mem u) (b_val u) _ Du) as (ts & w' & m' & E' & X' & F' & D').
      exists (t :: ts), w', m'. split; [exact E'|]. split.
      { eapply extends_trans; [exact Xa|]. eapply extends_trans; [exact Xp|].
        eapply extends_trans; [exact Xu|exact X']. }
      split; [constructor; auto|]. exact D'. }
  destruct (L (rev s) (b_mem e) (b_val e) _ De) as (ts & w & m' & E & X & F & D).
  exists (rev ts), w, m'. split; [exact E|]. split; [eapply extends_trans; eauto|]. split.
  - rewrite <- (rev_involutive s). clear - F. induction F; simpl; [constructor|]. apply Forall2_app; auto.
  - unfold str_data, data_list. rewrite <- (fold_left_rev_right (fun l d => DUnion 0 (DStruct [DUnion l (DStruct []); d]))) in D.
    clear - D. revert D. generalize (rev ts) as l. intros l D.
    replace (fold_right (fun d t => DUnion 0 (DStruct [d; t])) (DUnion 1 (DStruct []))
            (map (fun l => DUnion l (DStruct [])) l))
    with (fold_right (fun l d => DUnion 0 (DStruct [DUnion l (DStruct []); d])) (DUnion 1 (DStruct [])) l);
    [exact D|].
    clear D. induction l; simpl; congruence.
Qed.

Lemma string_access_den ub : forall ts s fuel m w,
  Forall2 (fun c t => nth_error chars t = Some (char_norm c)) s ts ->
  (length s <= fuel)%nat -> den m w (str_data ts) ->
  string_access ub fuel m w = Some (map char_norm s).
Proof.
  induction ts as [|t ts IH]; intros s fuel m w F Hf D; inversion F as [|c ? s' ? Hc F']; subst.
  - destruct fuel; cbn [string_access]; unfold str_data in D; simpl in D;
      rewrite (den_union_tag _ _ _ _ D); reflexivity.
  - simpl in Hf. destruct fuel as [|fuel]; [lia|]. cbn [string_access].
    change (str_data (t :: ts)) with (DUnion 0 (DStruct [DUnion t (DStruct []); str_data ts])) in D.
    rewrite (den_union_tag _ _ _ _ D).
    destruct (den_union_arg ub _ _ _ _ D) as (p & Ep & Dp). rewrite Ep.
    destruct (den_struct_field ub m p _ 0 (DUnion t (DStruct [])) Dp) as (cv & Ecv & Dcv); [reflexivity|].
    destruct (den_struct_field ub m p _ 1 (str_data ts) Dp) as (r & Er & Dr); [reflexivity|].
    rewrite Ecv, Er, (char_access_den _ _ _ _ _ Dcv Hc).
    rewrite (IH s' fuel m r) by (auto; lia). reflexivity.
Qed.
