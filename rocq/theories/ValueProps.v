(** * Theorems C01-C07 and C15: values, packing, conversions, references. *)
From Coq Require Import ZArith List Bool Lia.
From Verif Require Import PackModel PackSpec PackProofs CoreModel CoreProofs RefProofs.
Import ListNotations.
Local Open Scope Z_scope.

(** An arbitrary instance of the undefined-shift oracle, used in examples. *)
Definition ub0 : Z -> Z -> Z := fun w _ => w.

(** ** C01 *)

(** Reading field [i] of a newly built struct gives the same value as argument [i];
    the struct is itself a legal argument; earlier memory is untouched; whatever an
    undefined shift returns. *)
Theorem struct_value_roundtrip : forall ub m args,
  Forall valid_arg args ->
  exists b, new_struct ub m args = Some b /\
    valid_arg (b_val b) /\
    (b_mem b = m \/ exists o, b_mem b = m ++ [o]) /\
    forall i w, nth_error args i = Some w ->
      exists w', struct_field ub (b_mem b) (b_val b) i = Some w' /\ same_value w w'.
Proof.
  intros ub m args Hok. destruct (new_struct_spec ub m args Hok) as (b & E & Hb).
  exists b. split; [exact E|].
  destruct Hb as [(ds & H2 & Hp & Hm) | (Hv & Hm)].
  - split; [right; eauto|]. split; [left; exact Hm|]. intros i w Hi.
    assert (exists d, nth_error ds i = Some d /\ packed_as w d) as (d & Hd & Hw).
    { clear - H2 Hi. revert i Hi. induction H2; intros [|i] Hi; try discriminate; simpl in *.
      - inversion Hi; subst. eauto.
      - eauto. }
    destruct (struct_field_packed ub (b_mem b) _ _ _ _ Hp Hd) as (w' & E' & Hw').
    exists w'. split; [exact E'|]. right. eauto.
  - split; [rewrite Hv; left; apply addr_of_not_packed|]. split; [right; eauto|].
    intros i w Hi. exists w. split; [|left; reflexivity].
    assert (Hl: lookup (b_mem b) (b_val b) = Some (OStruct args)).
    { rewrite Hm, Hv, lookup_addr_of, nth_error_app2, Nat.sub_diag by lia. reflexivity. }
    destruct (lookup_strict _ _ _ Hl) as [Hs Hz]; [discriminate|].
    unfold struct_field. rewrite Hs, Hz, Hl, Hv, addr_of_not_packed. exact Hi.
Qed.

(** Building any data bottom-up with the constructors and then following any access
    path with the accessors reaches the data the path denotes. *)
Theorem built_data_reads_back : forall ub m d,
  exists w m', build ub m d = Some (w, m') /\
    forall p d', subdata d p = Some d' ->
      exists w', access ub m' w p = Some w' /\
        match d' with
        | DStruct _ => True
        | DUnion t a =>
          union_tag m' w' = Some (Some t) /\
          forall f, f <> t -> union_field ub m' w' f = Some wrong_union_tag
        end.
Proof.
  intros ub m d. destruct (build_den ub d m) as (w & m' & E & _ & D).
  exists w, m'. split; [exact E|]. intros p d' Hs.
  destruct (access_den ub m' p w d d' D Hs) as (w' & E' & D'). exists w'. split; [exact E'|].
  destruct d' as [ds|t a]; [exact I|]. split; [eapply den_union_tag; eauto|].
  intros f Hf. destruct (den_union_field ub m' w' t a f D') as (w2 & E2 & H2).
  destruct (Nat.eqb_spec t f); [congruence|]. rewrite E2, H2. reflexivity.
Qed.

(** Non-vacuity: a struct of two enums around the packing boundary, one packed with
    its 64 bits fully used, and the same plus one more field, which is allocated. *)
Definition pair_of_enums : data :=
  DStruct [DUnion 27 (DStruct []); DUnion 25 (DStruct [])].

Example pair_packs :
  match build ub0 [] pair_of_enums with
  | Some (w, m) => is_packed w = true /\ m = []
  | None => False
  end.
Proof. vm_compute. split; reflexivity. Qed.

Example larger_pair_allocates :
  match build ub0 [] (DStruct [DUnion 28 (DStruct []); DUnion 25 (DStruct [])]) with
  | Some (w, m) => is_packed w = false /\ length m = 1%nat
  | None => False
  end.
Proof. vm_compute. split; reflexivity. Qed.

Example valid_args_exist : Forall valid_arg [1; 16].
Proof.
  constructor; [|constructor; [left; reflexivity|constructor]].
  right. exists (DStruct []). split; [unfold is_word; lia|]. split; [|simpl; lia].
  intros i Hi. destruct i as [|[|[|i]]]; [reflexivity|reflexivity|reflexivity|simpl in Hi; lia].
Qed.

(** ** C02 *)
Theorem union_value_roundtrip : forall ub m tag arg,
  valid_arg arg ->
  exists b, new_union ub m tag arg = Some b /\
    valid_arg (b_val b) /\
    (b_mem b = m \/ exists o, b_mem b = m ++ [o]) /\
    union_tag (b_mem b) (b_val b) = Some (Some tag) /\
    (exists w', union_arg ub (b_mem b) (b_val b) = Some w' /\ same_value arg w') /\
    (exists w', union_field ub (b_mem b) (b_val b) tag = Some w' /\ same_value arg w') /\
    (forall f, f <> tag -> union_field ub (b_mem b) (b_val b) f = Some wrong_union_tag).
Proof.
  intros ub m tag arg Hok. destruct (new_union_spec ub m tag arg Hok) as (b & E & _ & Hb).
  exists b. split; [exact E|].
  destruct Hb as [(d & Hd & Hp & Hm) | (Hv & Hm)].
  - split; [right; eauto|]. split; [left; exact Hm|].
    split; [eapply union_tag_packed; eauto|]. split; [|split].
    + destruct (union_arg_packed ub (b_mem b) _ _ _ Hp) as (w' & E' & Hw').
      exists w'. split; [exact E'|]. right. eauto.
    + destruct (union_field_packed ub (b_mem b) _ _ _ tag Hp) as (w' & E' & Hw').
      rewrite Nat.eqb_refl in Hw'. exists w'. split; [exact E'|]. right. eauto.
    + intros f Hf. destruct (union_field_packed ub (b_mem b) _ _ _ f Hp) as (w' & E' & Hw').
      destruct (Nat.eqb_spec tag f); [congruence|]. rewrite E', Hw'. reflexivity.
  - assert (Hl: lookup (b_mem b) (b_val b) = Some (OUnion tag arg)).
    { rewrite Hm, Hv, lookup_addr_of, nth_error_app2, Nat.sub_diag by lia. reflexivity. }
    destruct (lookup_strict _ _ _ Hl) as [Hs Hz]; [discriminate|].
    assert (Hi: is_packed (b_val b) = false) by (rewrite Hv; apply addr_of_not_packed).
    split; [left; exact Hi|]. split; [right; eauto|].
    split; [unfold union_tag; rewrite Hs, Hz, Hl, Hi; reflexivity|].
    split; [|split].
    + exists arg. split; [|left; reflexivity]. unfold union_arg. rewrite Hs, Hz, Hl, Hi. reflexivity.
    + exists arg. split; [|left; reflexivity]. unfold union_field.
      rewrite Hs, Hz, Hl, Hi, Nat.eqb_refl. reflexivity.
    + intros f Hf. unfold union_field. rewrite Hs, Hz, Hl, Hi.
      destruct (Nat.eqb_spec tag f); [congruence|]. reflexivity.
Qed.

Theorem enum_value_roundtrip : forall ub m tag,
  exists b, new_enum ub m tag = Some b /\ union_tag (b_mem b) (b_val b) = Some (Some tag).
Proof.
  intros ub m tag. destruct (new_enum_den ub m tag) as (b & E & _ & D).
  exists b. split; [exact E|]. eapply den_union_tag; eauto.
Qed.

Example enum_60_packs_61_does_not :
  (match new_enum ub0 [] 60 with Some b => is_packed (b_val b) | None => false end) = true /\
  (match new_enum ub0 [] 61 with Some b => is_packed (b_val b) | None => true end) = false.
Proof. split; vm_compute; reflexivity. Qed.

(** ** C03 *)

(** Words the constructors pack are odd 64-bit words, hence different from NULL, from
    every even address and from the sentinels; and two builds that give the same
    packed word were builds of the same data. *)
Theorem packed_words_canonical : forall ub m m1 m2 d1 d2 w1 w2 m1' m2',
  build ub m1 d1 = Some (w1, m1') -> build ub m2 d2 = Some (w2, m2') ->
  is_packed w1 = true ->
  Z.odd w1 = true /\ - 2^63 <= w1 < 2^63 /\
  w1 <> 0 /\ w1 <> tail_call_sentinel /\ w1 <> wrong_union_tag /\ lookup m w1 = None /\
  (w1 = w2 -> d1 = d2).
Proof.
  intros ub m m1 m2 d1 d2 w1 w2 m1' m2' B1 B2 Hp.
  destruct (build_den ub d1 m1) as (w1' & mm1 & E1 & _ & D1). rewrite B1 in E1. inversion E1; subst.
  destruct (build_den ub d2 m2) as (w2' & mm2 & E2 & _ & D2). rewrite B2 in E2. inversion E2; subst.
  pose proof (den_packed_inv _ _ _ Hp D1) as P1. destruct P1 as (Hw & Hh & Hl).
  split; [unfold is_packed in Hp; rewrite Z.bit0_odd in Hp; exact Hp|].
  split; [exact Hw|].
  split; [intros ->; discriminate|].
  split; [intros ->; discriminate|].
  split; [intros ->; discriminate|].
  split.
  - destruct (lookup m w1') as [o|] eqn:El; auto. apply lookup_is_addr in El.
    destruct El as (i & -> & _). rewrite addr_of_not_packed in Hp. discriminate.
  - intros ->. eapply packed_as_inj; [split; eauto|]. eapply den_packed_inv; eauto.
Qed.

(** ** C04 *)

(** The property "packing performs only defined shifts" is false: the enum with tag 60
    is packed into all 64 bits, and putting it into a struct shifts by 64. *)
Theorem packing_shifts_defined_refuted : forall ub,
  exists e b, new_enum ub [] 60 = Some e /\ new_struct ub (b_mem e) [b_val e] = Some b /\ b_ub b = true.
Proof. intros ub. eexists _, _. split; [vm_compute; reflexivity|]. split; [vm_compute; reflexivity|]. reflexivity. Qed.

(** What does hold: union construction and all reads never execute an undefined
    shift (their results above are never [None]), and struct construction does so only
    when some argument's encoding takes all 64 bits. *)
Lemma pack_loop_ub ub : forall rargs data nb u r,
  Forall (fun w => is_packed w = false \/ exists d, packed_as w d /\ (length (enc d) <= 63)%nat) rargs ->
  pack_loop ub rargs data nb u = Some r -> snd r = u.
Proof.
  induction rargs as [|a rest IH]; intros data nb u r H E; cbn [pack_loop] in E.
  - inversion E; reflexivity.
  - inversion H as [|? ? Ha Hr]; subst. destruct (is_packed a) eqn:Ep.
    + destruct Ha as [?|(d & Hd & Hl)]; [congruence|].
      pose proof Hd as (_ & Hh & Hl'). apply holds_cons in Hh. destruct Hh as [_ Hh].
      rewrite (packed_value_length_spec d _ []) in E by (try apply holds_self; auto).
      cbv zeta in E. apply IH in E; auto. rewrite E.
      destruct (Z.leb_spec 64 (Z.of_nat (length (enc d)))); [lia|]. apply orb_false_r.
    + inversion E; reflexivity.
Qed.

Theorem packing_shifts_defined_partial : forall ub m args b,
  Forall (fun w => is_packed w = false \/ exists d, packed_as w d /\ (length (enc d) <= 63)%nat) args ->
  new_struct ub m args = Some b -> b_ub b = false.
Proof.
  intros ub m args b H E. unfold new_struct in E.
  destruct (pack_loop ub (rev args) 0 0 false) as [[[data nb] u]|] eqn:EL; [|discriminate].
  assert (Hu: u = false).
  { apply (pack_loop_ub ub (rev args) 0 0 false (data, nb, u)); [apply Forall_rev; auto | exact EL]. }
  destruct (nb + Z.of_nat (length args) + 1 <? 64); inversion E; subst; reflexivity.
Qed.

Theorem union_shifts_defined : forall ub m tag arg b,
  valid_arg arg -> new_union ub m tag arg = Some b -> b_ub b = false.
Proof.
  intros ub m tag arg b Hok E. destruct (new_union_spec ub m tag arg Hok) as (b' & E' & H & _). congruence.
Qed.

(** ** C05 *)
Theorem list_value_elements : forall ub m args,
  Forall valid_arg args ->
  exists w m' ws, new_list ub m args = Some (w, m') /\
    list_of ub m' w ws /\ Forall2 same_value args ws.
Proof.
  intros ub m args H. destruct (new_list_listlike ub m args H) as (w & m' & E & X & [_ L]).
  destruct (L m' w (extends_refl _) (or_introl eq_refl)) as (ws & Lo & F). eauto 10.
Qed.

Theorem literal_value_letters : forall ub m letters,
  exists w m' ws, new_literal ub m letters = Some (w, m') /\
    list_of ub m' w ws /\ Forall2 (fun l x => union_tag m' x = Some (Some l)) letters ws.
Proof.
  intros ub m letters. destruct (new_literal_den ub m letters) as (w & m' & E & _ & D).
  exists w, m'. enough (exists ws, list_of ub m' w ws /\ Forall2 (fun l x => union_tag m' x = Some (Some l)) letters ws)
    as (ws & ?) by eauto.
  clear E. revert w D. induction letters as [|l ls IH]; intros w D; cbn [map data_list fold_right] in D.
  - exists []. split; [|constructor]. apply lo_nil. eapply den_union_tag; eauto.
  - change (fold_right _ _ _) with (data_list (map (fun l => DUnion l (DStruct [])) ls)) in D.
    destruct (den_union_arg ub _ _ _ _ D) as (c & Ec & Dc).
    destruct (den_struct_field ub m' c _ 0 _ Dc eq_refl) as (x & Ex & Dx).
    destruct (den_struct_field ub m' c _ 1 _ Dc eq_refl) as (t & Et & Dt).
    destruct (IH t Dt) as (ws & Lo & F).
    exists (x :: ws). split; [|constructor; auto; eapply den_union_tag; eauto].
    eapply lo_cons; eauto. eapply den_union_tag; eauto.
Qed.

Example list_of_three :
  match new_list ub0 [] [1; 16; 1] with Some (w, m) => is_packed w = false /\ (0 < length m)%nat | None => False end.
Proof. vm_compute. split; [reflexivity|lia]. Qed.

(** ** C06 *)
Theorem int_value_roundtrip : forall ub m x,
  - 2^63 < x < 2^63 ->
  exists w m', new_int ub m x = Some (w, m') /\ int_access ub m' w = Some x.
Proof.
  intros ub m x Hx. destruct (new_int_den ub m x Hx) as (w & m' & E & _ & D).
  exists w, m'. split; [exact E|]. apply int_access_den; auto.
Qed.

(** INT64_MIN: [-x] overflows. *)
Theorem int_value_min_refuted : forall ub m, new_int ub m (- 2^63) = None.
Proof. intros. reflexivity. Qed.

Example int_roundtrip_example :
  match new_int ub0 [] 1234567890123456789 with
  | Some (w, m) => int_access ub0 m w = Some 1234567890123456789 /\ m <> []
  | None => False
  end.
Proof. vm_compute. split; [reflexivity | discriminate]. Qed.

(** ** C07 *)

(** Newline, tab and the printable ASCII characters. *)
Definition supported_char (c : Z) : Prop := c = 10 \/ c = 9 \/ 32 <= c <= 126.

Definition sanitize (c : Z) : Z :=
  if (c =? 10) || (c =? 9) || ((32 <=? c) && (c <=? 126)) then c else 63.

Lemma in_chars c : In c chars <-> supported_char c.
Proof.
  unfold supported_char. split.
  - unfold chars. simpl. intros H. repeat (destruct H as [<-|H]; [lia|]). contradiction.
  - intros [->|[->|H]]; [left; reflexivity | right; left; reflexivity|].
    change chars with (10 :: 9 :: map Z.of_nat (seq 32 95)). right. right.
    apply in_map_iff. exists (Z.to_nat c). split; [lia|]. apply in_seq. lia.
Qed.

Lemma char_norm_sanitize c : char_norm c = sanitize c.
Proof.
  unfold char_norm, sanitize.
  destruct (in_dec Z.eq_dec c chars) as [H|H]; rewrite in_chars in H; unfold supported_char in H;
  destruct (Z.eqb_spec c 10), (Z.eqb_spec c 9), (Z.leb_spec 32 c), (Z.leb_spec c 126); simpl; lia.
Qed.

Theorem string_value_roundtrip : forall ub m s,
  exists w m', new_string ub m s = Some (w, m') /\
    string_access ub (length s) m' w = Some (map sanitize s).
Proof.
  intros ub m s. destruct (new_string_den ub m s) as (ts & w & m' & E & _ & F & D).
  exists w, m'. split; [exact E|]. rewrite (string_access_den ub ts s) by auto.
  f_equal. apply map_ext. apply char_norm_sanitize.
Qed.

Theorem supported_string_roundtrip : forall ub m s,
  Forall supported_char s ->
  exists w m', new_string ub m s = Some (w, m') /\ string_access ub (length s) m' w = Some s.
Proof.
  intros ub m s Hs. destruct (string_value_roundtrip ub m s) as (w & m' & E & A).
  exists w, m'. split; [exact E|]. rewrite A. f_equal.
  clear - Hs. induction Hs as [|c s Hc Hs IH]; [reflexivity|]. simpl. rewrite IH. f_equal.
  unfold sanitize, supported_char in *.
  destruct (Z.eqb_spec c 10), (Z.eqb_spec c 9), (Z.leb_spec 32 c), (Z.leb_spec c 126); simpl; lia.
Qed.

(** ** C15 *)

(** Memories reachable by allocating values, creating references and assigning any
    client value (a packed word or an allocated object) to any reference. *)
Inductive ref_history : mem -> Prop :=
| rh_nil : ref_history []
| rh_alloc m o : ref_history m -> (forall v, o <> ORef v) -> ref_history (m ++ [o])
| rh_new m : ref_history m -> ref_history (snd (new_ref m))
| rh_assign m ref v b m' : ref_history m ->
    is_packed v = true \/ lookup m v <> None ->
    assign_ref m ref v = Some (b, m') -> ref_history m'.

Lemma ref_history_inv m : ref_history m -> refs_ok m /\ acyclic m.
Proof.
  induction 1 as [|m o H [IH1 IH2] Ho|m H [IH1 IH2]|m ref v b m' H [IH1 IH2] Hv E].
  - split; [intros [|i] v H; discriminate|]. intros n [|i]; simpl; discriminate.
  - apply alloc_acyclic; auto. intros v ->. exfalso. eapply Ho. reflexivity.
  - unfold new_ref, alloc. cbn [snd]. apply alloc_acyclic; auto. intros v E. congruence.
  - destruct b.
    + eapply assign_ref_acyclic; eauto.
    + unfold assign_ref in E. destruct (unwrap_loop (length m) m v) as [x|]; [|discriminate].
      destruct (x =? ref); [inversion E; subst; auto|].
      destruct (lookup m ref) as [[]|]; discriminate.
Qed.

Lemma lookup_client m w : lookup m w <> None -> exists i, idx m w = Some i.
Proof. unfold idx. destruct (lookup m w); [eauto|congruence]. Qed.

(** Dereferencing terminates and ends on something that is not a reference (NULL when
    an unassigned reference is met). *)
Theorem dereference_terminates : forall m w,
  ref_history m -> is_packed w = true \/ lookup m w <> None ->
  exists r, strict m w = Some r /\ forall v, lookup m r <> Some (ORef v) \/ r = 0.
Proof.
  intros m w H Hw. destruct (ref_history_inv m H) as [Hok Hac].
  destruct (strict_total m w Hok Hac) as [r Hr].
  { destruct Hw as [Hw|Hw]; [right; left; auto|]. right. right. apply lookup_client. auto. }
  exists r. split; [exact Hr|]. intros v.
  destruct (is_alloced r) eqn:Ea.
  - destruct (strict_loop_result _ _ _ _ Hr Ea) as (o & Ho & Hn). left. rewrite Ho. intros E.
    inversion E. eapply Hn. eassumption.
  - unfold is_alloced in Ea. destruct (is_packed r) eqn:Ep; simpl in Ea.
    + left. intros E. apply lookup_is_addr in E. destruct E as (i & -> & _).
      rewrite addr_of_not_packed in Ep. discriminate.
    + right. destruct (Z.eqb_spec r 0); [auto|discriminate].
Qed.

(** [w] refers to [r]: following reference cells from [w] reaches [r]. *)
Inductive refers (m : mem) : Z -> Z -> Prop :=
| refers_here w : refers m w w
| refers_step w v r : lookup m w = Some (ORef v) -> v <> 0 -> refers m v r -> refers m w r.

Lemma unwrap_refers m : forall fuel w r, unwrap_loop fuel m w = Some r -> refers m w r.
Proof.
  induction fuel as [|fuel IH]; intros w r H; cbn [unwrap_loop] in H;
    (destruct (is_packed w); [inversion H; constructor|]);
    (destruct (lookup m w) as [[| |v|]|] eqn:El; try discriminate; try (inversion H; constructor));
    (destruct (Z.eqb_spec v 0); [inversion H; constructor|]); try discriminate.
  eapply refers_step; eauto.
Qed.

Lemma terminal_refers m a x : terminal m a -> refers m a x -> x = a.
Proof.
  intros Ht Hx. inversion Hx as [|? v' ? Hl Hv Hx']; subst; auto. exfalso.
  destruct Ht as [Hp|(o & Ho & Hz)].
  - apply lookup_is_addr in Hl. destruct Hl as (i & -> & _). rewrite addr_of_not_packed in Hp. discriminate.
  - rewrite Ho in Hl. inversion Hl; subst. apply Hv. auto.
Qed.

Lemma refers_terminal m w r : refers m w r -> terminal m r -> forall x, refers m w x -> terminal m x -> x = r.
Proof.
  induction 1 as [a|a v r Hl Hv H IH]; intros Ht x Hx Htx.
  - apply (terminal_refers m); auto.
  - inversion Hx as [|? v' ? Hl' Hv' Hx']; subst.
    + symmetry. apply (terminal_refers m); auto. eapply refers_step; eauto.
    + rewrite Hl in Hl'. inversion Hl'; subst. auto.
Qed.

(** Assigning to a not-yet-assigned reference always returns; it is refused (and then
    changes nothing) exactly when the value already refers to that reference. *)
Theorem assign_ref_refuses_exactly_cycles : forall m ref v,
  ref_history m -> lookup m ref = Some (ORef 0) -> is_packed v = true \/ lookup m v <> None ->
  exists b m', assign_ref m ref v = Some (b, m') /\
    (b = false <-> refers m v ref) /\ (b = false -> m' = m) /\
    (b = true -> exists t, refers m v t /\ lookup m' ref = Some (ORef t)).
Proof.
  intros m ref v H Hr Hv. destruct (ref_history_inv m H) as [Hok Hac].
  assert (Hv': is_packed v = true \/ exists i, idx m v = Some i).
  { destruct Hv as [?|Hv]; auto. right. apply lookup_client. auto. }
  destruct (unwrap_loop_total m Hok (length m) v Hv') as [[t Ht]|(i & j & Hi & Hj)].
  2:{ exfalso. pose proof (acyclic_bound m Hac _ _ _ (idx_lt _ _ _ Hi) Hj). lia. }
  pose proof (unwrap_refers _ _ _ _ Ht) as Hrt. pose proof (unwrap_loop_terminal _ _ _ _ Ht) as Htt.
  assert (Href: terminal m ref).
  { right. eexists. split; [exact Hr|]. intros x E. inversion E. reflexivity. }
  unfold assign_ref. rewrite Ht. destruct (Z.eqb_spec t ref) as [->|Hne].
  - exists false, m. split; [reflexivity|]. split; [tauto|]. split; [auto|discriminate].
  - rewrite Hr. exists true, (store m ref (ORef t)). split; [reflexivity|].
    split; [|split; [discriminate|]].
    + split; [discriminate|]. intros Hx. exfalso. apply Hne.
      exact (refers_terminal m v ref Hx Href t Hrt Htt).
    + intros _. exists t. split; [exact Hrt|].
      destruct (lookup_is_addr _ _ _ Hr) as (i & -> & Hn). rewrite store_addr, lookup_addr_of.
      eapply update_nth_same; eauto.
Qed.

(** Reading through references: accessors see through any chain. *)
Theorem accessors_see_through_refs : forall ub m w r i,
  strict m w = Some r -> strict m r = Some r ->
  struct_field ub m w i = struct_field ub m r i /\ union_tag m w = union_tag m r /\
  union_arg ub m w = union_arg ub m r.
Proof.
  intros ub m w r i H H'. unfold struct_field, union_tag, union_arg. rewrite H, H'. auto.
Qed.

Example ref_history_example :
  exists m, ref_history m /\ lookup m 16 = Some (ORef 0) /\ refers m 32 16.
Proof.
  exists [ORef 0; ORef 16]. split; [|split].
  - apply (rh_assign [ORef 0; ORef 0] 32 16 true); [|right; discriminate|reflexivity].
    apply (rh_new [ORef 0]). apply (rh_new []). constructor.
  - reflexivity.
  - eapply refers_step; [reflexivity|discriminate|constructor].
Qed.

Print Assumptions struct_value_roundtrip.
Print Assumptions built_data_reads_back.
Print Assumptions union_value_roundtrip.
Print Assumptions enum_value_roundtrip.
Print Assumptions packed_words_canonical.
Print Assumptions packing_shifts_defined_refuted.
Print Assumptions packing_shifts_defined_partial.
Print Assumptions union_shifts_defined.
Print Assumptions list_value_elements.
Print Assumptions literal_value_letters.
Print Assumptions int_value_roundtrip.
Print Assumptions int_value_min_refuted.
Print Assumptions string_value_roundtrip.
Print Assumptions supported_string_roundtrip.
Print Assumptions dereference_terminates.
Print Assumptions assign_ref_refuses_exactly_cycles.
Print Assumptions accessors_see_through_refs.
