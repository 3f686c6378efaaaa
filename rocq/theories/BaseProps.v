(** * C35, C36, C37: vectors, allocation accounting, shared strings. *)
From Coq Require Import ZArith List Bool Lia.
From Verif Require Import BaseModel.
Import ListNotations.
Local Open Scope Z_scope.

(** ** C36: allocation accounting *)

Inductive aop := Alloc (size : Z) | Realloc (ptr : option nat) (size : Z) | Free (ptr : option nat) | Reset.

Definition aexec (s : astate) (o : aop) : option astate :=
  match o with
  | Alloc n => Some (alloc s n)
  | Realloc p n => realloc s p n
  | Free p => free s p
  | Reset => Some (reset s)
  end.

(** Specification: the bytes in use are the sum of the sizes of the live allocations. *)
Definition bytes_in_use (s : astate) : Z := fold_right (fun x t => snd x + t) 0 (live s).

Definition request (o : aop) : Z := match o with Alloc n | Realloc _ n => n | _ => 0 end.

(** Histories, with the list of the values [bytes_in_use] has taken since the last reset
    (or the start), most recent first.  No allocation that could exceed the address space. *)
Inductive history : astate -> list Z -> Prop :=
| h_start : history a_init [0]
| h_step s us o s' : history s us -> 0 <= request o < 2^63 -> aexec s o = Some s' ->
    bytes_in_use s' < 2^63 ->
    history s' (match o with Reset => [bytes_in_use s'] | _ => bytes_in_use s' :: us end).

Definition maximum (l : list Z) : Z := fold_right Z.max 0 l.

Lemma size_t_small z : 0 <= z < 2^64 -> size_t z = z.
Proof. apply Z.mod_small. Qed.

Lemma drop_sum i l n : size_of i l = Some n -> fold_right (fun x t => snd x + t) 0 (drop i l) = fold_right (fun x t => snd x + t) 0 l - n.
Proof.
  induction l as [|[j k] l IH]; cbn; [discriminate|]. destruct (Nat.eq_dec i j); cbn; intros H.
  - injection H as ->. lia.
  - rewrite IH; auto. lia.
Qed.

Lemma drop_in i l x : In x (drop i l) -> In x l.
Proof.
  induction l as [|[j k] l IH]; cbn; auto. destruct (Nat.eq_dec i j); cbn; tauto.
Qed.

Lemma size_of_in i l n : size_of i l = Some n -> In (i, n) l.
Proof.
  induction l as [|[j k] l IH]; cbn; [discriminate|]. destruct (Nat.eq_dec i j).
  - intros [= ->]. subst. auto.
  - auto.
Qed.

Lemma sum_nonneg (l : list (nat * Z)) : (forall x, In x l -> 0 <= snd x) -> 0 <= fold_right (fun x t => snd x + t) 0 l.
Proof.
  induction l as [|x l IH]; cbn; intros H; [lia|]. pose proof (H x (or_introl eq_refl)).
  specialize (IH (fun y Hy => H y (or_intror Hy))). lia.
Qed.

Lemma sum_ge (l : list (nat * Z)) x : (forall x, In x l -> 0 <= snd x) -> In x l -> snd x <= fold_right (fun x t => snd x + t) 0 l.
Proof.
  induction l as [|y l IH]; intros H Hx; [destruct Hx|]. cbn.
  assert (0 <= fold_right (fun x t => snd x + t) 0 l) by (apply sum_nonneg; intros z Hz; apply H; cbn; auto).
  pose proof (H y (or_introl eq_refl)).
  destruct Hx as [->|Hx]; [lia|]. specialize (IH (fun y Hy => H y (or_intror Hy)) Hx). lia.
Qed.

Lemma bump_max t m : bump t m = Z.max t m.
Proof. unfold bump. destruct (Z.ltb_spec m t); lia. Qed.

Lemma accounting_inv s us : history s us ->
  total s = bytes_in_use s /\ max_total s = maximum us /\ (forall x, In x (live s) -> 0 <= snd x) /\
  (exists r, us = bytes_in_use s :: r) /\ bytes_in_use s < 2^63.
Proof.
  intros H. induction H as [|s us o s' H [T [M [P [[r Hu] Hb]]]] Hr E B].
  - cbn. split; [reflexivity|]. split; [reflexivity|]. split; [intros x []|]. split; [eauto|reflexivity].
  - assert (Pn : 0 <= bytes_in_use s) by (apply sum_nonneg; auto).
    assert (Mx : bytes_in_use s <= maximum us) by (rewrite Hu; cbn; lia).
    assert (A : forall n, 0 <= n < 2^63 -> bytes_in_use (alloc s n) < 2^63 ->
      total (alloc s n) = bytes_in_use (alloc s n) /\
      max_total (alloc s n) = maximum (bytes_in_use (alloc s n) :: us) /\
      (forall x, In x (live (alloc s n)) -> 0 <= snd x)).
    { intros n Hn Bn. unfold bytes_in_use in *. cbn [alloc live fold_right snd total max_total] in *.
      rewrite T, size_t_small by lia. split; [lia|]. split; [rewrite bump_max, M; unfold maximum in *; cbn [fold_right]; lia|].
      intros x [<-|Hx]; cbn; auto; lia. }
    destruct o as [n|[i|] n|[i|]|]; cbn [aexec request realloc free] in *.
    + injection E as <-. destruct (A n Hr B) as [A1 [A2 A3]]. eauto 10.
    + destruct (size_of i (live s)) as [old|] eqn:Es; [|discriminate]. injection E as <-.
      pose proof (P _ (size_of_in _ _ _ Es)) as Po. cbn in Po.
      pose proof (sum_ge _ _ P (size_of_in _ _ _ Es)) as Pg. cbn in Pg.
      unfold bytes_in_use in *. cbn [live fold_right snd total max_total] in *. rewrite (drop_sum _ _ _ Es) in *.
      assert (Et : size_t (total s + size_t (n - old)) = n + (fold_right (fun x t => snd x + t) 0 (live s) - old)).
      { unfold size_t. rewrite Zplus_mod_idemp_r, T. rewrite Z.mod_small; lia. }
      rewrite Et. split; [reflexivity|]. split; [rewrite bump_max, M; unfold maximum in *; cbn [fold_right]; lia|].
      split; [intros x [<-|Hx]; [cbn; lia|eapply P, drop_in; eauto]|]. eauto.
    + injection E as <-. destruct (A n Hr B) as [A1 [A2 A3]]. eauto 10.
    + destruct (size_of i (live s)) as [old|] eqn:Es; [|discriminate]. injection E as <-.
      pose proof (P _ (size_of_in _ _ _ Es)) as Po. cbn in Po.
      pose proof (sum_ge _ _ P (size_of_in _ _ _ Es)) as Pg. cbn in Pg.
      unfold bytes_in_use in *. cbn [live total max_total] in *. rewrite (drop_sum _ _ _ Es) in *.
      rewrite T, size_t_small by lia. split; [reflexivity|].
      split; [rewrite M; cbn; unfold maximum in *; lia|].
      split; [intros x Hx; eapply P, drop_in; eauto|]. split; [eauto|lia].
    + injection E as <-. split; [exact T|]. split; [rewrite M; cbn; unfold maximum in *; lia|].
      split; [exact P|]. split; [eauto|auto].
    + injection E as <-. unfold bytes_in_use in *. cbn [reset live total max_total] in *.
      rewrite T. split; [reflexivity|]. split; [cbn; lia|]. split; [exact P|]. split; [eauto|auto].
Qed.

(** C36: the total is exact and the reported maximum is the largest number of bytes in use
    at any moment since the last reset. *)
Theorem max_bytes_is_watermark s us : history s us ->
  total s = bytes_in_use s /\ max_total s = maximum us.
Proof. intros H. apply accounting_inv in H. tauto. Qed.

(** Freeing or resizing a live allocation is always possible, and each allocation is in
    exactly one state: no number is handed out twice. *)
Lemma live_fresh s us : history s us -> NoDup (map fst (live s)) /\ forall x, In x (live s) -> (fst x < fresh s)%nat.
Proof.
  intros H. induction H as [|s us o s' H [N F] Hr E B]; [split; [constructor|intros x []]|].
  assert (D : forall i l, NoDup (map fst l) -> NoDup (map (@fst nat Z) (drop i l))).
  { intros i l. induction l as [|[j k] l IH]; cbn; auto. intros Nl. apply NoDup_cons_iff in Nl.
    destruct (Nat.eq_dec i j); cbn; [tauto|]. constructor; [|tauto]. intros Q. apply (proj1 Nl).
    apply in_map_iff in Q. destruct Q as [x [E1 Q]]. apply in_map_iff. exists x. split; auto. eapply drop_in; eauto. }
  assert (A : forall l n, NoDup (map fst l) -> (forall x, In x l -> (fst x < fresh s)%nat) ->
     NoDup (map fst ((fresh s, n : Z) :: l)) /\ forall x, In x ((fresh s, n) :: l) -> (fst x < S (fresh s))%nat).
  { intros l n Nl Fl. split.
    - cbn. constructor; auto. intros Q. apply in_map_iff in Q. destruct Q as [x [E1 Q]]. apply Fl in Q. lia.
    - intros x [<-|Hx]; cbn; [lia|]. apply Fl in Hx. lia. }
  destruct o as [n|[i|] n|[i|]|]; cbn [aexec realloc free] in E.
  - injection E as <-. apply A; auto.
  - destruct (size_of i (live s)) eqn:Es; [|discriminate]. injection E as <-. apply A; auto.
    intros x Hx. apply F. eapply drop_in; eauto.
  - injection E as <-. apply A; auto.
  - destruct (size_of i (live s)) eqn:Es; [|discriminate]. injection E as <-. split; [apply D; auto|].
    intros x Hx. apply F. eapply drop_in; eauto.
  - injection E as <-. auto.
  - injection E as <-. auto.
Qed.

(** The leak check at exit reports a leak exactly if some live allocation has a size
    other than 0. *)
Theorem leak_check_exact s us : history s us ->
  (leak_reported s = true <-> exists x, In x (live s) /\ snd x <> 0).
Proof.
  intros H. apply accounting_inv in H. destruct H as [T [_ [P _]]]. unfold leak_reported. rewrite T.
  rewrite negb_true_iff, Z.eqb_neq. unfold bytes_in_use.
  induction (live s) as [|x l IH]; cbn; [split; [lia|intros [x [[] _]]]|].
  assert (0 <= fold_right (fun x t => snd x + t) 0 l) by (apply sum_nonneg; intros z Hz; apply P; cbn; auto).
  pose proof (P x (or_introl eq_refl)). specialize (IH (fun y Hy => P y (or_intror Hy))).
  split.
  - intros Hne. destruct (Z.eq_dec (snd x) 0) as [E|E]; [|eauto].
    destruct (proj1 IH) as [y [Hy1 Hy2]]; [lia|eauto].
  - intros [y [[->|Hy] Hn]]; [lia|]. assert (fold_right (fun x t => snd x + t) 0 l <> 0) by (apply IH; eauto). lia.
Qed.

Local Ltac go H o :=
  match type of H with history ?s ?us =>
    let r := eval vm_compute in (aexec s o) in
    match r with Some ?s2 =>
      let H2 := fresh in
      assert (H2 : history s2 (match o with Reset => [bytes_in_use s2] | _ => bytes_in_use s2 :: us end));
      [apply (h_step s us o s2 H); [cbn; lia|vm_compute; reflexivity|vm_compute; reflexivity]
      |vm_compute in H2; clear H; rename H2 into H]
    end
  end.

Example accounting_example : exists s us, history s us /\ max_total s = 150 /\ bytes_in_use s = 40 /\ length us = 3%nat.
Proof.
  pose proof h_start as H.
  go H (Alloc 40).
  go H (Alloc 50).
  go H Reset.
  go H (Realloc (Some 1%nat) 110).
  go H (Free (Some 2%nat)).
  eexists. eexists. split; [exact H|]. repeat split.
Qed.

(** ** C35: vectors *)

Section vectors.
  Context {A : Type} (elem_size : Z) (Hes : 0 < elem_size).

  Inductive vop := Append (x : A) | DropLast.
  Definition vexec (v : vec A) (o : vop) : option (vec A) :=
    match o with Append x => append elem_size v x | DropLast => drop_last v end.

  (** Specification: the vector is the list of elements appended and not dropped. *)
  Definition vspec (l : list A) (o : vop) : option (list A) :=
    match o with
    | Append x => Some (l ++ [x])
    | DropLast => match l with [] => None | _ => Some (removelast l) end
    end.

  Inductive vhistory : vec A -> list A -> Prop :=
  | vh_init : vhistory (init_vector elem_size) []
  | vh_step v l o v' l' : vhistory v l -> vspec l o = Some l' -> 
      (Z.of_nat (length l') + 1) * 2 * elem_size < 2^64 ->
      vexec v o = Some v' -> vhistory v' l'.

  (** [c] is at least the smallest power of two that is at least [n] (and 1). *)
  Definition room (n : Z) (c : nat) : Prop := exists k, 0 <= k /\ n <= 2^k <= Z.of_nat c.

  Definition vinv (v : vec A) (l : list A) : Prop :=
    vsize v = Z.of_nat (length l) /\ cap v = Z.of_nat (length (cells v)) * elem_size /\
    room (vsize v) (length (cells v)) /\ firstn (length l) (cells v) = map Some l.

  Lemma pow2_land k : 0 <= k -> Z.land (2^k) (2^k - 1) = 0.
  Proof.
    intros Hk. replace (2^k - 1) with (Z.ones k) by (rewrite Z.ones_equiv; lia).
    rewrite Z.land_ones by auto. apply Z.mod_same. lia.
  Qed.

  (** If [s] is not a power of two, the next power of two also holds [s + 1]. *)
  Lemma room_next s c : 0 <= s -> room s c -> s = 0 \/ Z.land s (s - 1) <> 0 -> room (s + 1) c.
  Proof.
    intros Hs [k [Hk [H1 H2]]] [->|H].
    - exists k. split; auto. split; auto. pose proof (Z.pow_pos_nonneg 2 k). lia.
    - exists k. split; auto. split; auto. destruct (Z.eq_dec s (2^k)) as [E|]; [|lia].
      exfalso. apply H. rewrite E. apply pow2_land; auto.
  Qed.

  Lemma land_pow2 s : 0 < s -> Z.land s (s - 1) = 0 -> exists k, 0 <= k /\ s = 2^k.
  Proof.
    intros Hs H. exists (Z.log2 s). split; [apply Z.log2_nonneg|].
    pose proof (Z.log2_spec s Hs) as [L1 L2].
    destruct (Z.eq_dec s (2 ^ Z.log2 s)) as [|Hn]; auto. exfalso.
    set (k := Z.log2 s) in *. assert (Hk : 0 <= k) by apply Z.log2_nonneg.
    (* bit k is set in both s and s - 1 *)
    assert (B1 : Z.testbit s k = true) by (apply Z.bit_log2; auto).
    assert (Ek : Z.log2 (s - 1) = k).
    { apply Z.log2_unique; auto. rewrite Z.pow_succ_r in L2 by auto. split; [lia|]. rewrite Z.pow_succ_r by auto. lia. }
    assert (B2 : Z.testbit (s - 1) k = true).
    { rewrite <- Ek. apply Z.bit_log2. pose proof (Z.pow_pos_nonneg 2 k). lia. }
    assert (B : Z.testbit (Z.land s (s - 1)) k = true) by (rewrite Z.land_spec, B1, B2; reflexivity).
    rewrite H in B. rewrite Z.bits_0 in B. discriminate.
  Qed.

  Lemma write_spec (l : list (option A)) (xs : list A) x :
    (length xs < length l)%nat -> firstn (length xs) l = map Some xs ->
    firstn (length (xs ++ [x])) (write l (length xs) x) = map Some (xs ++ [x]) /\ length (write l (length xs) x) = length l.
  Proof.
    revert l. induction xs as [|y xs IH]; intros l H E; destruct l as [|c l]; cbn in *; try lia.
    - auto.
    - injection E as -> E. destruct (IH l) as [I1 I2]; [lia|auto|]. rewrite I1, I2. auto.
  Qed.

  Lemma resize_length n (l : list (option A)) : length (resize n l) = n.
  Proof. unfold resize. rewrite app_length, repeat_length, firstn_length. lia. Qed.

  Lemma resize_prefix n (l : list (option A)) k : (k <= n)%nat -> (k <= length l)%nat -> firstn k (resize n l) = firstn k l.
  Proof.
    intros H1 H2. unfold resize. rewrite firstn_app, firstn_firstn, Nat.min_l by auto.
    rewrite firstn_length. replace (k - Nat.min n (length l))%nat with 0%nat by lia. cbn. apply app_nil_r.
  Qed.

  Lemma append_ok v l x : vinv v l -> (Z.of_nat (length (l ++ [x])) + 1) * 2 * elem_size < 2^64 ->
    exists v', append elem_size v x = Some v' /\ vinv v' (l ++ [x]).
  Proof.
    intros [Vs [Vc [Vr Vf]]] Hb. rewrite app_length in Hb. cbn [length] in Hb.
    set (n := Z.of_nat (length l)) in *.
    assert (Hb2 : (n + 2) * 2 * elem_size < 2^64) by (replace (n + 2) with (Z.of_nat (length l + 1) + 1) by lia; auto).
    assert (Hn1 : (n + 1) < 2^64) by nia.
    assert (Room : exists c', extend_vector elem_size v = mk_vec (n + 1) (Z.of_nat (length c') * elem_size) c' /\
       room (n + 1) (length c') /\ firstn (length l) c' = map Some l).
    { unfold extend_vector. rewrite Vs. cbn [vsize cap cells]. rewrite (size_t_small (n + 1)) by lia.
      destruct ((0 <? n) && (Z.land n (n - 1) =? 0)) eqn:E.
      - apply andb_true_iff in E. destruct E as [E1 E2]. apply Z.ltb_lt in E1. apply Z.eqb_eq in E2.
        rewrite (size_t_small (2 * n)) by nia. rewrite size_t_small by nia.
        rewrite Z.div_mul by lia.
        exists (resize (Z.to_nat (2 * n)) (cells v)). rewrite resize_length. split; [f_equal; lia|].
        destruct (land_pow2 n E1 E2) as [k [Hk Ek]]. split.
        + exists (k + 1). split; [lia|]. rewrite Z.pow_add_r by lia. rewrite <- Ek. lia.
        + rewrite resize_prefix; auto.
          * unfold n in *. lia.
          * destruct Vr as [k' [_ Vr]]. rewrite Vs in Vr. unfold n in Vr. lia.
      - exists (cells v). split; [rewrite Vc; reflexivity|]. split; [|exact Vf].
        apply room_next; [unfold n; lia|rewrite <- Vs; exact Vr|].
        apply andb_false_iff in E. destruct E as [E|E]; [left; apply Z.ltb_ge in E; unfold n in *; lia|right; apply Z.eqb_neq; auto]. }
    destruct Room as [c' [Ev [R F]]]. unfold append. rewrite Ev. cbn [vsize cap cells].
    assert (Hc : n + 1 <= Z.of_nat (length c')) by (destruct R as [k [_ R]]; lia).
    replace (n + 1 - 1) with n by lia.
    destruct (Z.leb_spec 0 n); [|unfold n in *; lia].
    destruct (Z.leb_spec ((n + 1) * elem_size) (Z.of_nat (length c') * elem_size)); [|nia]. cbn [andb].
    eexists. split; [reflexivity|].
    replace (Z.to_nat n) with (length l) by (unfold n; lia).
    destruct (write_spec c' l x) as [W1 W2]; [unfold n in *; lia|exact F|].
    unfold vinv. cbn [vsize cap cells]. rewrite W2. rewrite app_length. cbn [length].
    split; [unfold n; lia|]. split; [reflexivity|]. split; [exact R|].
    rewrite app_length in W1. exact W1.
  Qed.

  Lemma drop_ok v l : vinv v l -> l <> [] -> exists v', drop_last v = Some v' /\ vinv v' (removelast l).
  Proof.
    intros [Vs [Vc [Vr Vf]]] Hl. destruct (exists_last Hl) as [l' [x ->]]. rewrite removelast_last.
    rewrite app_length in *. cbn [length] in *. unfold drop_last. destruct (Z.ltb_spec 0 (vsize v)); [|lia].
    eexists. split; [reflexivity|]. unfold vinv. cbn [vsize cap cells]. split; [lia|]. split; [exact Vc|]. split.
    - destruct Vr as [k [Hk Vr]]. exists k. split; auto. lia.
    - assert (E : firstn (length l') (firstn (length l' + 1) (cells v)) = firstn (length l') (map Some (l' ++ [x]))) by congruence.
      rewrite firstn_firstn, Nat.min_l in E by lia. rewrite E, map_app, firstn_app, map_length.
      replace (length l' - length l')%nat with 0%nat by lia. cbn. rewrite app_nil_r.
      rewrite <- (map_length Some l'). apply firstn_all.
  Qed.

  Lemma vhistory_inv v l : vhistory v l -> vinv v l.
  Proof.
    intros H. induction H as [|v l o v' l' H IH S B E].
    - unfold vinv. split; [reflexivity|]. split; [unfold init_vector; cbn [cap cells length]; lia|]. split; [|reflexivity]. exists 0. cbn; lia.
    - destruct o as [x|]; cbn [vspec vexec] in *.
      + injection S as <-. destruct (append_ok v l x IH B) as [v2 [E2 I2]]. rewrite E2 in E; injection E as <-; exact I2.
      + destruct l as [|y l]; [discriminate|]. injection S as <-.
        destruct (drop_ok v (y :: l) IH) as [v2 [E2 I2]]; [discriminate|]. rewrite E2 in E; injection E as <-; exact I2.
  Qed.

  (** C35: whatever has been appended and dropped so far, the next append succeeds (writes
      inside the allocation), and the vector reads back as the list of its elements. *)
  Theorem vector_append_in_bounds v l x : vhistory v l ->
    (Z.of_nat (length l) + 2) * 2 * elem_size < 2^64 ->
    exists v', append elem_size v x = Some v' /\ vhistory v' (l ++ [x]).
  Proof.
    intros H B.
    assert (B' : (Z.of_nat (length (l ++ [x])) + 1) * 2 * elem_size < 2^64).
    { rewrite app_length. cbn [length]. replace (Z.of_nat (length l + 1) + 1) with (Z.of_nat (length l) + 2) by lia. exact B. }
    destruct (append_ok v l x (vhistory_inv v l H) B') as [v' [E _]]. exists v'. split; [exact E|].
    eapply vh_step with (o := Append x); eauto.
  Qed.

  Theorem vector_contents v l : vhistory v l ->
    vsize v = Z.of_nat (length l) /\
    (forall i, (i < length l)%nat -> nth_error (cells v) i = Some (nth_error l i)) /\
    vsize v * elem_size <= cap v.
  Proof.
    intros H. destruct (vhistory_inv v l H) as [V1 [V2 [[k [Hk V3]] V4]]]. split; [exact V1|]. split.
    - intros i Hi. assert (E : nth_error (firstn (length l) (cells v)) i = nth_error (map Some l) i) by congruence.
      rewrite nth_error_map in E. 
      assert (F : forall (T : Type) n (q : list T) i, (i < n)%nat -> nth_error (firstn n q) i = nth_error q i).
      { intros T n. induction n as [|n IH]; intros q j Hj; [lia|]. destruct q; [destruct j; reflexivity|].
        destruct j; cbn; [reflexivity|]. apply IH. lia. }
      rewrite F in E by auto. rewrite E. destruct (nth_error l i) eqn:El; [reflexivity|].
      apply nth_error_None in El. lia.
    - rewrite V2. nia.
  Qed.
End vectors.

Example vector_example : exists v, vhistory 8 v [1; 2; 4; 5; 6]%nat.
Proof.
  assert (S : forall v l x v', vhistory 8 v l -> append 8 v x = Some v' -> (length l < 100)%nat -> vhistory 8 v' (l ++ [x : nat])).
  { intros v l x v' H E L. apply (vh_step 8 v l (Append x) v' (l ++ [x])); [exact H|reflexivity| |exact E]. rewrite app_length. cbn [length]. lia. }
  assert (D : forall v l v', vhistory 8 v (l : list nat) -> l <> [] -> drop_last v = Some v' -> (length (removelast l) < 100)%nat -> vhistory 8 v' (removelast l)).
  { intros v l v' H Hl E L. apply (vh_step 8 v l DropLast v' (removelast l)); [exact H| |lia|exact E]. cbn. destruct l; congruence. }
  Ltac app S H x := match type of H with vhistory 8 ?v ?l =>
    let r := eval vm_compute in (append 8 v x) in
    match r with Some ?v2 => apply (fun h => S v l x v2 h) in H; [|vm_compute; reflexivity|cbn; lia]; cbn [List.app] in H end end.
  pose proof (vh_init (A := nat) 8) as H.
  app S H 1%nat.
  app S H 2%nat.
  app S H 3%nat.
  apply (fun h n l => D _ _ _ h n (eq_refl : drop_last (mk_vec 3 32 [Some 1; Some 2; Some 3; None]%nat) = Some (mk_vec 2 32 _)) l) in H; [|discriminate|cbn; lia]. cbn in H.
  app S H 4%nat.
  app S H 5%nat.
  app S H 6%nat.
  eexists. exact H.
Qed.

(** ** C37: shared strings *)

Inductive sop := SNew (i : nat) (s : list Z) | SCopy (i : nat) | SFree (i : nat).

Definition sexec (m : strings) (o : sop) : option strings :=
  match o with
  | SNew i s => Some (new_string m i s)
  | SCopy i => copy_string m i
  | SFree i => free_string m i
  end.

(** Specification: the references that have been handed out for string [i] and not
    released yet, and the contents it was created with. *)
Definition refs_after (o : sop) (out : nat -> Z) : nat -> Z :=
  match o with
  | SNew i _ => put out i 1
  | SCopy i => put out i (out i + 1)
  | SFree i => put out i (out i - 1)
  end.
Definition text_after (o : sop) (t : nat -> list Z) : nat -> list Z :=
  match o with SNew i s => put t i s | _ => t end.

(** Numbers are used once; only held references are copied or released. *)
Definition held (o : sop) (made : nat -> bool) (out : nat -> Z) : Prop :=
  match o with
  | SNew i _ => made i = false
  | SCopy i => 0 < out i /\ out i < 2^64 - 1
  | SFree i => 0 < out i
  end.
Definition made_after (o : sop) (made : nat -> bool) : nat -> bool :=
  match o with SNew i _ => put made i true | _ => made end.

Inductive shistory : strings -> (nat -> bool) -> (nat -> Z) -> (nat -> list Z) -> Prop :=
| sh_start : shistory (fun _ => None) (fun _ => false) (fun _ => 0) (fun _ => [])
| sh_step m d u t o m' : shistory m d u t -> held o d u -> sexec m o = Some m' ->
    shistory m' (made_after o d) (refs_after o u) (text_after o t).

Definition string_ok (c : option (Z * list Z)) (made : bool) (out : Z) (txt : list Z) : Prop :=
  0 <= out < 2^64 /\ (made = false -> out = 0) /\
  c = if 0 <? out then Some (out, txt) else None.

Lemma strings_inv m d u t : shistory m d u t -> forall i, string_ok (m i) (d i) (u i) (t i).
Proof.
  intros H. induction H as [|m d u t o m' H IH Hh E]; intros i.
  - cbn. split; [lia|]. auto.
  - destruct o as [j s|j|j]; cbn [sexec made_after refs_after text_after held] in *.
    + injection E as <-. unfold new_string, put. destruct (Nat.eq_dec i j); [|apply IH].
      split; [lia|]. split; [discriminate|]. reflexivity.
    + unfold copy_string in E. destruct (IH j) as [J1 [J2 J3]]. destruct (m j) as [[n s]|] eqn:Ej; [|discriminate].
      injection E as <-. unfold put. destruct (Nat.eq_dec i j) as [->|]; [|apply IH].
      destruct (Z.ltb_spec 0 (u j)); [|discriminate]. injection J3 as -> ->.
      split; [lia|]. split; [intros Q; specialize (J2 Q); lia|].
      rewrite size_t_small by lia. destruct (Z.ltb_spec 0 (u j + 1)); [reflexivity|lia].
    + unfold free_string in E. destruct (IH j) as [J1 [J2 J3]]. destruct (m j) as [[n s]|] eqn:Ej; [|discriminate].
      injection E as <-. unfold put. destruct (Nat.eq_dec i j) as [->|]; [|apply IH].
      destruct (Z.ltb_spec 0 (u j)); [|discriminate]. injection J3 as -> ->.
      split; [lia|]. split; [intros Q; specialize (J2 Q); lia|].
      rewrite size_t_small by lia. destruct (Z.ltb_spec 0 (u j - 1)); destruct (Z.eqb_spec (u j - 1) 0); try lia; reflexivity.
Qed.

(** C37: a string exists, with the text it was created with, exactly while references to
    it are outstanding. *)
Theorem string_alive_iff_referenced m d u t : shistory m d u t -> forall i,
  (0 < u i -> exists n, m i = Some (n, t i)) /\ (u i = 0 -> m i = None) /\ 0 <= u i.
Proof.
  intros H i. destruct (strings_inv m d u t H i) as [S1 [S2 S3]]. rewrite S3.
  split; [intros Hu; destruct (Z.ltb_spec 0 (u i)); [eauto|lia]|].
  split; [intros ->; reflexivity|lia].
Qed.

(** ... and no copy or release of a held reference touches freed memory. *)
Theorem string_ops_defined m d u t o : shistory m d u t -> held o d u -> exists m', sexec m o = Some m'.
Proof.
  intros H Hh. destruct o as [j s|j|j]; cbn [sexec held] in *; [eauto| |];
    destruct (strings_inv m d u t H j) as [S1 [S2 S3]]; unfold copy_string, free_string; rewrite S3;
    (destruct (Z.ltb_spec 0 (u j)); [eauto|lia]).
Qed.

Example string_example : exists m d u t, shistory m d u t /\ u 0%nat = 1 /\ t 0%nat = [65] /\ u 1%nat = 0 /\ m 1%nat = None.
Proof.
  pose proof (sh_step _ _ _ _ (SNew 0 [65]) _ sh_start eq_refl eq_refl) as H1.
  assert (Hh : held (SCopy 0) (made_after (SNew 0 [65]) (fun _ => false)) (refs_after (SNew 0 [65]) (fun _ => 0))) by (cbn; lia).
  pose proof (sh_step _ _ _ _ (SCopy 0) _ H1 Hh eq_refl) as H2.
  pose proof (sh_step _ _ _ _ (SNew 1 [66]) _ H2 eq_refl eq_refl) as H3.
  pose proof (sh_step _ _ _ _ (SFree 0) _ H3 eq_refl eq_refl) as H4.
  pose proof (sh_step _ _ _ _ (SFree 1) _ H4 eq_refl eq_refl) as H5.
  do 4 eexists. split; [exact H5|]. vm_compute. auto.
Qed.
