(** * C16: the pointer code implements the list operations of GcModel.v. *)
From Coq Require Import Arith List Lia Permutation.
From Verif Require Import ListModel.
From Verif Require GcModel.
Import ListNotations.

(** ** Specification *)

(** From [x] one gets through exactly the nodes [l] to [y] by [next], and back by [prev]. *)
Fixpoint seg (m : links) (x : nat) (l : list nat) (y : nat) : Prop :=
  match l with
  | [] => next m x = y /\ prev m y = x
  | z :: l' => next m x = z /\ prev m z = x /\ seg m z l' y
  end.

(** The ring with head [x] and elements [l]. *)
Definition ring (m : links) (r : list nat) : Prop :=
  match r with [] => False | x :: l => seg m x l x end.

(** [Rep m L]: the nodes in [L] form exactly the rings of [L], which share no node. *)
Definition Rep (m : links) (L : list (list nat)) : Prop :=
  NoDup (concat L) /\ Forall (ring m) L.

(** ** Proofs *)

Lemma put_same f i a : put f i a i = a.
Proof. unfold put. destruct (Nat.eq_dec i i); congruence. Qed.
Lemma put_other f i a j : j <> i -> put f i a j = f j.
Proof. unfold put. destruct (Nat.eq_dec j i); congruence. Qed.

Lemma seg_agree m m' l : forall x y, seg m x l y ->
  (forall z, In z (x :: l) -> next m' z = next m z) ->
  (forall z, In z (l ++ [y]) -> prev m' z = prev m z) -> seg m' x l y.
Proof.
  induction l as [|z l IH]; intros x y H Hn Hp; cbn [seg] in *.
  - rewrite Hn, Hp by (cbn; auto). auto.
  - destruct H as [H1 [H2 H3]]. rewrite Hn by (cbn; auto). rewrite Hp by (cbn; auto).
    split; [exact H1|]. split; [exact H2|]. apply IH; auto.
    + intros w Hw. apply Hn. cbn in *. tauto.
    + intros w Hw. apply Hp. cbn. auto.
Qed.

Lemma seg_app m l1 : forall x z l2 y, seg m x (l1 ++ z :: l2) y <-> seg m x l1 z /\ seg m z l2 y.
Proof.
  induction l1 as [|a l1 IH]; intros x z l2 y; cbn [app seg]; [tauto|]. rewrite IH. tauto.
Qed.

Lemma ring_agree m m' r : ring m r ->
  (forall z, In z r -> next m' z = next m z /\ prev m' z = prev m z) -> ring m' r.
Proof.
  destruct r as [|x l]; [intros []|]. cbn [ring]. intros H A. eapply seg_agree; eauto.
  - intros z Hz. apply A; auto.
  - intros z Hz. apply A. apply in_app_or in Hz. cbn in *. tauto.
Qed.

Lemma Rep_perm m L L' : Permutation L L' -> Rep m L -> Rep m L'.
Proof.
  intros P [N F]. split.
  - eapply Permutation_NoDup; [|exact N]. clear -P. induction P; cbn.
    + constructor.
    + apply Permutation_app_head; auto.
    + rewrite !app_assoc. apply Permutation_app_tail. apply Permutation_app_comm.
    + eapply Permutation_trans; eauto.
  - rewrite Forall_forall in *. intros r Hr. apply F. eapply Permutation_in; [apply Permutation_sym|]; eauto.
Qed.

Lemma nodup_app {A} (l l' : list A) : NoDup (l ++ l') <-> NoDup l /\ NoDup l' /\ forall x, In x l -> In x l' -> False.
Proof.
  induction l as [|a l IH]; cbn [app].
  - split; [intros H; split; [constructor|]; split; auto; intros x []|tauto].
  - rewrite !NoDup_cons_iff, IH, in_app_iff. split.
    + intros [H1 [H2 [H3 H4]]]. split; [tauto|]. split; auto. intros x [<-|Hx]; eauto.
    + intros [[H1 H2] [H3 H4]]. split; [intros [H|H]; [tauto|eapply H4; cbn; eauto]|].
      split; auto. split; auto. intros x Hx. apply H4. cbn; auto.
Qed.

(** A local change: rings not touched by it stay. *)
Lemma Rep_local m m' A B L :
  Rep m (A ++ L) -> Permutation (concat A) (concat B) ->
  (forall z, ~ In z (concat A) -> next m' z = next m z /\ prev m' z = prev m z) ->
  Forall (ring m') B -> Rep m' (B ++ L).
Proof.
  intros [N F] P Hloc FB. rewrite concat_app in N. split.
  - rewrite concat_app. eapply Permutation_NoDup; [|exact N]. apply Permutation_app_tail; auto.
  - apply Forall_app in F. destruct F as [_ FL]. apply Forall_app. split; [exact FB|].
    rewrite Forall_forall in *. intros r Hr. eapply ring_agree; [apply FL; auto|].
    intros z Hz. apply Hloc. intros Hz'. apply nodup_app in N. destruct N as [_ [_ N]].
    apply (N z); auto. apply in_concat. eauto.
Qed.

Definition unlink (m : links) (v : nat) : links :=
  let m := set_next m (prev m v) (next m v) in
  set_prev m (next m v) (prev m v).

Definition insert (m : links) (dst v : nat) : links :=
  let m := set_next m v (next m dst) in
  let m := set_prev m v dst in
  let m := set_prev m (next m dst) v in
  set_next m dst v.

Lemma move_to_eq m dst v : move_to m dst v = insert (unlink m v) dst v.
Proof. reflexivity. Qed.

Ltac puts := repeat match goal with
  | |- context [put _ ?i _ ?i] => rewrite put_same
  | |- context [put _ ?i _ ?j] => rewrite (put_other _ i _ j) by (intros ?; subst; cbn in *; intuition congruence)
  end.

(** Unlinking from a ring: in general the neighbours are [p] and [n]. *)
Lemma unlink_pn m p v n : next m p = v -> prev m v = p -> next m v = n -> prev m n = v ->
  p <> v ->
  (forall z, z <> p -> next (unlink m v) z = next m z) /\ next (unlink m v) p = n /\
  (forall z, z <> n -> prev (unlink m v) z = prev m z) /\ prev (unlink m v) n = p.
Proof.
  intros H1 H2 H3 H4 Hp. unfold unlink. cbn. rewrite H2, H3.
  rewrite (put_other _ p n v) by auto. rewrite H3.
  split; [intros z Hz; apply put_other; auto|]. split; [apply put_same|].
  split; [intros z Hz; apply put_other; auto|apply put_same].
Qed.

Lemma seg_last m l : forall x p y, seg m x (l ++ [p]) y <-> seg m x l p /\ next m p = y /\ prev m y = p.
Proof. intros x p y. rewrite (seg_app m l x p [] y). cbn. tauto. Qed.

Lemma snoc_cases {A} (l : list A) : l = [] \/ exists l' p, l = l' ++ [p].
Proof. destruct l as [|a l]; [auto|right]. destruct (exists_last (l := a :: l)) as [l' [p E]]; [discriminate|eauto]. Qed.

Lemma unlink_ring m x l1 v l2 : NoDup (x :: l1 ++ v :: l2) -> ring m (x :: l1 ++ v :: l2) ->
  ring (unlink m v) (x :: l1 ++ l2) /\
  (forall z, ~ In z (x :: l1 ++ v :: l2) -> next (unlink m v) z = next m z /\ prev (unlink m v) z = prev m z).
Proof.
  intros N R. cbn [ring] in *. apply seg_app in R. destruct R as [R1 R2].
  set (p := last (x :: l1) 0). set (n := hd x l2).
  assert (Hp : next m p = v /\ prev m v = p /\ In p (x :: l1)).
  { unfold p. destruct (snoc_cases l1) as [->|[l' [q ->]]].
    - cbn in *. tauto.
    - rewrite app_comm_cons, last_last. apply seg_last in R1. split; [tauto|]. split; [tauto|].
      apply in_or_app; right; cbn; auto. }
  assert (Hn : next m v = n /\ prev m n = v /\ In n (x :: l2)).
  { unfold n. destruct l2; cbn in *; tauto. }
  destruct Hp as [Hp1 [Hp2 Hp3]]. destruct Hn as [Hn1 [Hn2 Hn3]].
  assert (Nx : ~ In x (l1 ++ v :: l2)) by (inversion N; auto).
  assert (N' : NoDup (l1 ++ v :: l2)) by (inversion N; auto).
  apply nodup_app in N'. destruct N' as [N1 [N2 N3]]. pose proof N2 as NN; apply NoDup_cons_iff in NN; destruct NN as [N4 N5].
  assert (Hpv : p <> v).
  { intros Q. rewrite Q in Hp3. destruct Hp3 as [<-|Hp3]; [apply Nx; apply in_or_app; cbn; auto|apply (N3 v); cbn; auto]. }
  destruct (unlink_pn m p v n Hp1 Hp2 Hn1 Hn2 Hpv) as [U1 [U2 [U3 U4]]].
  split.
  - destruct (snoc_cases l1) as [E1|[l1' [q E1]]].
    + subst l1. cbn in p. subst p. cbn [app]. destruct l2 as [|b l2].
      * subst n. cbn in *. auto.
      * subst n. cbn [hd] in *. cbn [seg] in R2 |- *. destruct R2 as [_ [_ R2]].
        split; [exact U2|]. split; [exact U4|].
        eapply seg_agree; [exact R2| |].
        -- intros z Hz. apply U1. intros ->. apply Nx. cbn. cbn in Hz. tauto.
        -- intros z Hz. apply U3. intros ->. apply in_app_or in Hz. destruct Hz as [Hz|[->|[]]].
           ++ inversion N5; auto.
           ++ apply Nx. cbn. auto.
    + assert (p = q) by (unfold p; rewrite E1, app_comm_cons; apply last_last). subst q.
      assert (Pl : In p l1) by (rewrite E1; apply in_or_app; cbn; auto).
      assert (Np : ~ In p (x :: l1')).
      { intros H. rewrite E1 in N1. apply nodup_app in N1. destruct N1 as [_ [_ N1]].
        destruct H as [<-|H]; [apply Nx; apply in_or_app; auto|eapply N1; cbn; eauto]. }
      rewrite E1 in R1. apply seg_last in R1. destruct R1 as [R1 _].
      destruct l2 as [|b l2].
      * subst n. cbn [hd] in *. rewrite app_nil_r, E1. apply seg_last. split; [|auto].
        eapply seg_agree; [exact R1| |].
        -- intros z Hz. apply U1. intros ->. auto.
        -- intros z Hz. apply U3. intros ->. apply Nx. apply in_or_app. left. rewrite E1. exact Hz.
      * subst n. cbn [hd] in *. rewrite E1, <- app_assoc. cbn [app]. apply seg_app. split; [|cbn [seg]].
        -- eapply seg_agree; [exact R1| |].
           ++ intros z Hz. apply U1. intros ->. auto.
           ++ intros z Hz. apply U3. intros ->. apply (N3 b); [rewrite E1; auto|cbn; auto].
        -- split; [exact U2|]. split; [exact U4|]. cbn [seg] in R2. destruct R2 as [_ [_ R2]].
           eapply seg_agree; [exact R2| |].
           ++ intros z Hz. apply U1. intros ->. apply (N3 p); cbn; auto.
           ++ intros z Hz. apply U3. intros ->. apply in_app_or in Hz. destruct Hz as [Hz|[->|[]]].
              ** inversion N5; auto.
              ** apply Nx. apply in_or_app; cbn; auto.
  - intros z Hz. split.
    + apply U1. intros ->. apply Hz. cbn. cbn in Hp3. rewrite in_app_iff. tauto.
    + apply U3. intros ->. apply Hz. cbn. cbn in Hn3. rewrite in_app_iff. cbn. tauto.
Qed.

Lemma insert_ring m dst l v : NoDup (v :: dst :: l) -> ring m (dst :: l) ->
  ring (insert m dst v) (dst :: v :: l) /\
  (forall z, ~ In z (v :: dst :: l) -> next (insert m dst v) z = next m z /\ prev (insert m dst v) z = prev m z).
Proof.
  intros N R. pose proof N as NN; apply NoDup_cons_iff in NN; destruct NN as [N1 N2]. pose proof N2 as NN; apply NoDup_cons_iff in NN; destruct NN as [N3 N4].
  assert (Hvd : v <> dst) by (intros ->; apply N1; left; reflexivity).
  assert (En : next (insert m dst v) = put (put (next m) v (next m dst)) dst v).
  { reflexivity. }
  assert (Ep : prev (insert m dst v) = put (put (prev m) v dst) (next m dst) v).
  { unfold insert. cbn. rewrite (put_other _ v _ dst) by auto. reflexivity. }
  assert (Hn : next m dst = hd dst l /\ In (hd dst l) (dst :: l)).
  { destruct l; cbn in *; tauto. }
  destruct Hn as [Hn Hin]. split.
  - cbn [ring seg]. rewrite En, Ep, Hn. rewrite put_same.
    split; [reflexivity|]. split.
    { rewrite put_other; [apply put_same|]. intros E. rewrite <- E in Hin. apply N1. exact Hin. }
    destruct l as [|b l].
    + cbn [seg hd] in *. rewrite En, Ep, Hn. rewrite put_other by auto. rewrite put_same, put_same. auto.
    + cbn [hd] in *. cbn [ring seg] in R |- *. rewrite En, Ep, Hn.
      assert (b <> v) by (intros ->; apply N1; cbn; auto).
      assert (b <> dst) by (intros ->; apply N3; cbn; auto).
      rewrite (put_other _ dst _ v) by auto. rewrite put_same. split; [reflexivity|]. split; [apply put_same|].
      destruct R as [_ [_ R]]. eapply seg_agree; [exact R| |].
      * intros z Hz. rewrite En, Hn. assert (z <> dst) by (intros ->; auto). assert (z <> v) by (intros ->; cbn in *; tauto).
        rewrite !put_other by auto. reflexivity.
      * intros z Hz. rewrite Ep, Hn. assert (z <> b).
        { intros ->. apply in_app_or in Hz. destruct Hz as [Hz|[->|[]]]; [inversion N4; auto|apply N3; cbn; auto]. }
        assert (z <> v). { intros ->. apply in_app_or in Hz. cbn in *. destruct Hz as [Hz|[->|[]]]; tauto. }
        rewrite !put_other by auto. reflexivity.
  - intros z Hz. rewrite En, Ep, Hn. cbn in Hz. split.
    + rewrite !put_other; auto.
    + rewrite !put_other; auto. intros ->. destruct Hin as [E|Hin]; [rewrite <- E in Hz; tauto|]. tauto.
Qed.

Lemma clear_other m v z : z <> v -> next (clear m v) z = next m z /\ prev (clear m v) z = prev m z.
Proof. intros H. cbn. rewrite !put_other by auto. auto. Qed.

(** Get takes the first element off, and leaves it in a ring of its own. *)
Theorem get_takes_first m x v l L : Rep m ((x :: v :: l) :: L) ->
  exists m', get m x = (Some v, m') /\ Rep m' ((x :: l) :: [v] :: L).
Proof.
  intros H. assert (H0 := H). destruct H as [N F]. inversion F as [|? ? R _]; subst.
  cbn [concat] in N. apply nodup_app in N. destruct N as [N _].
  assert (Hx : next m x = v) by (cbn in R; tauto).
  assert (v <> x) by (intros ->; inversion N; cbn in *; tauto).
  unfold get. rewrite Hx. destruct (Nat.eqb_spec v x); [contradiction|].
  fold (unlink m v).
  change (prev (set_next m (prev m v) (next m v)) v) with (prev m v).
  eexists. split; [reflexivity|].
  change (Rep (clear (unlink m v) v) ([x :: l; [v]] ++ L)).
  eapply Rep_local with (A := [x :: v :: l]); [exact H0| | |].
  - cbn. rewrite !app_nil_r. apply perm_skip. apply Permutation_cons_append.
  - destruct (unlink_ring m x [] v l N R) as [_ U2]. intros z Hz.
    cbn in Hz. rewrite app_nil_r in Hz.
    destruct (clear_other (unlink m v) v z) as [C1 C2]; [intros ->; tauto|].
    rewrite C1, C2. apply U2. cbn. tauto.
  - destruct (unlink_ring m x [] v l N R) as [U1 _].
    constructor; [|constructor; [|constructor]].
    + eapply ring_agree; [exact U1|]. intros z Hz. cbn [app] in Hz.
      assert (z <> v). { intros ->. pose proof N as NN; apply NoDup_cons_iff in NN; destruct NN as [Q1 Q2]. inversion Q2; subst. cbn in *. intuition congruence. } apply (clear_other (unlink m v) v z). auto.
    + cbn. rewrite !put_same. auto.
Qed.

Theorem get_empty m x L : Rep m ([x] :: L) -> get m x = (None, m) /\ is_empty m x = true.
Proof.
  intros [_ F]. inversion F as [|? ? R _]; subst. cbn in R. destruct R as [R _].
  unfold get, is_empty. rewrite R, Nat.eqb_refl. auto.
Qed.

Theorem is_empty_spec m x l L : Rep m ((x :: l) :: L) -> is_empty m x = true <-> l = [].
Proof.
  intros [N F]. inversion F as [|? ? R _]; subst. unfold is_empty. rewrite Nat.eqb_eq.
  cbn [concat] in N. apply nodup_app in N. destruct N as [N _].
  destruct l as [|v l]; [cbn in R; tauto|]. cbn in R. destruct R as [R _]. rewrite R.
  split; [intros ->; inversion N; cbn in *; tauto|discriminate].
Qed.

(** Clear makes a fresh node an empty list. *)
Theorem clear_fresh m x L : Rep m L -> ~ In x (concat L) -> Rep (clear m x) ([x] :: L).
Proof.
  intros [N F] Hx. split; [cbn; constructor; auto|]. constructor; [cbn; rewrite !put_same; auto|].
  rewrite Forall_forall in *. intros r Hr. eapply ring_agree; [apply F; auto|].
  intros z Hz. cbn. assert (z <> x) by (intros ->; apply Hx; apply in_concat; eauto).
  rewrite !put_other by auto. auto.
Qed.

(** MoveTo from one list to another. *)
Theorem move_to_other_list m x l1 v l2 dst l L :
  Rep m ((x :: l1 ++ v :: l2) :: (dst :: l) :: L) ->
  Rep (move_to m dst v) ((x :: l1 ++ l2) :: (dst :: v :: l) :: L).
Proof.
  intros H. assert (H0 := H). destruct H as [N F].
  inversion F as [|? ? R F2]; subst. inversion F2 as [|? ? R2 _]; subst.
  cbn [concat] in N. apply nodup_app in N. destruct N as [N [Nd ND]]. apply nodup_app in Nd. destruct Nd as [Nd [_ _]].
  destruct (unlink_ring m x l1 v l2 N R) as [U1 U2].
  assert (Hv : ~ In v (dst :: l)).
  { intros Q. apply (ND v); [cbn; right; apply in_or_app; cbn; auto|]. apply in_or_app; auto. }
  assert (Rd : ring (unlink m v) (dst :: l)).
  { eapply ring_agree; [exact R2|]. intros z Hz. apply U2. intros Q. apply (ND z); [exact Q|]. apply in_or_app; auto. }
  assert (Nv : NoDup (v :: dst :: l)) by (constructor; auto).
  destruct (insert_ring (unlink m v) dst l v Nv Rd) as [I1 I2].
  rewrite move_to_eq. change (Rep (insert (unlink m v) dst v) ([x :: l1 ++ l2; dst :: v :: l] ++ L)).
  eapply Rep_local with (A := [x :: l1 ++ v :: l2; dst :: l]); [exact H0| | |].
  - cbn. rewrite !app_nil_r. apply perm_skip. rewrite <- !app_assoc. apply Permutation_app_head. cbn.
    eapply Permutation_trans; [apply Permutation_middle|]. apply Permutation_app_head. apply perm_swap.
  - intros z Hz. cbn [concat] in Hz. rewrite app_nil_r in Hz.
    destruct (I2 z) as [A1 A2]. { intros [<-|Q]; apply Hz; apply in_or_app; [left; cbn; right; apply in_or_app; cbn; auto|auto]. }
    destruct (U2 z) as [B1 B2]. { intros Q. apply Hz, in_or_app; auto. } split; congruence.
  - constructor; [|constructor; [exact I1|constructor]].
    eapply ring_agree; [exact U1|]. intros z Hz. apply I2. intros Q.
    assert (z <> v).
    { intros ->. pose proof N as NN; apply NoDup_cons_iff in NN; destruct NN as [Q1 Q2]. apply NoDup_remove_2 in Q2. destruct Hz as [<-|Hz]; [apply Q1; apply in_or_app; cbn; auto|auto]. }
    destruct Q as [Q|Q]; [congruence|]. apply (ND z); [|apply in_or_app; auto].
    cbn in Hz |- *. rewrite in_app_iff in *. cbn. tauto.
Qed.

(** MoveTo within a list: to the front. *)
Theorem move_to_same_list m dst l1 v l2 L :
  Rep m ((dst :: l1 ++ v :: l2) :: L) ->
  Rep (move_to m dst v) ((dst :: v :: l1 ++ l2) :: L).
Proof.
  intros H. assert (H0 := H). destruct H as [N F]. inversion F as [|? ? R _]; subst.
  cbn [concat] in N. apply nodup_app in N. destruct N as [N _].
  destruct (unlink_ring m dst l1 v l2 N R) as [U1 U2].
  assert (P : Permutation (dst :: l1 ++ v :: l2) (v :: dst :: l1 ++ l2)).
  { eapply Permutation_trans; [apply perm_skip, Permutation_sym, Permutation_middle|]. apply perm_swap. }
  assert (Nv : NoDup (v :: dst :: l1 ++ l2)) by (eapply Permutation_NoDup; eauto).
  destruct (insert_ring (unlink m v) dst (l1 ++ l2) v Nv U1) as [I1 I2].
  rewrite move_to_eq. change (Rep (insert (unlink m v) dst v) ([dst :: v :: l1 ++ l2] ++ L)).
  eapply Rep_local with (A := [dst :: l1 ++ v :: l2]); [exact H0| | |].
  - cbn. rewrite !app_nil_r. apply perm_skip. apply Permutation_sym, Permutation_middle.
  - intros z Hz. cbn [concat] in Hz. rewrite app_nil_r in Hz.
    destruct (I2 z) as [A1 A2]. { intros Q. apply Hz. eapply Permutation_in; [apply Permutation_sym; exact P|exact Q]. }
    destruct (U2 z Hz) as [B1 B2]. split; congruence.
  - constructor; [exact I1|constructor].
Qed.

(** MoveTo of a value that is on no list yet (just cleared). *)
Theorem move_to_from_none m v dst l L : Rep m ([v] :: (dst :: l) :: L) ->
  Rep (move_to m dst v) ((dst :: v :: l) :: L).
Proof.
  intros H. assert (H0 := H). destruct H as [N F].
  inversion F as [|? ? R F2]; subst. inversion F2 as [|? ? R2 _]; subst.
  cbn in R. destruct R as [E1 E2].
  assert (U : forall z, next (unlink m v) z = next m z /\ prev (unlink m v) z = prev m z).
  { intros z. unfold unlink. cbn. rewrite E2, E1. rewrite put_same. unfold put.
    destruct (Nat.eq_dec z v); split; congruence. }
  assert (Nv : NoDup (v :: dst :: l)).
  { cbn [concat app] in N. pose proof N as NN; apply NoDup_cons_iff in NN; destruct NN as [Q1 Q2]. cbn [app] in *.
    rewrite app_comm_cons in *. apply nodup_app in Q2. constructor; [|tauto]. intros Q. apply Q1. apply in_or_app; auto. }
  assert (Rd : ring (unlink m v) (dst :: l)) by (eapply ring_agree; [exact R2|auto]).
  destruct (insert_ring (unlink m v) dst l v Nv Rd) as [I1 I2].
  rewrite move_to_eq. change (Rep (insert (unlink m v) dst v) ([dst :: v :: l] ++ L)).
  eapply Rep_local with (A := [[v]; dst :: l]); [exact H0| | |].
  - cbn. rewrite !app_nil_r. apply perm_swap.
  - intros z Hz. cbn [concat] in Hz. rewrite app_nil_r in Hz. cbn [app] in Hz.
    destruct (I2 z Hz) as [A1 A2]. destruct (U z). split; congruence.
  - constructor; [exact I1|constructor].
Qed.

(** MoveAllTo. *)
Theorem move_all_moves_all m dst l1 src l2 L : Rep m ((dst :: l1) :: (src :: l2) :: L) ->
  Rep (move_all m dst src) ((dst :: l2 ++ l1) :: [src] :: L).
Proof.
  intros H. assert (H0 := H). destruct H as [N F].
  inversion F as [|? ? R F2]; subst. inversion F2 as [|? ? R2 _]; subst.
  unfold move_all. destruct l2 as [|a l2].
  { destruct R2 as [R2 _]. unfold is_empty. rewrite R2, Nat.eqb_refl. exact H0. }
  cbn [concat] in N. apply nodup_app in N. destruct N as [Nd [Ns ND]]. apply nodup_app in Ns. destruct Ns as [Ns [_ _]].
  assert (D : forall z, In z (dst :: l1) -> In z (src :: a :: l2) -> False).
  { intros z H1 H2. apply (ND z); auto. apply in_or_app; auto. }
  assert (R2a : next m src = a) by (cbn in R2; tauto).
  assert (Ha : a <> src) by (intros ->; inversion Ns; cbn in *; tauto).
  unfold is_empty. rewrite R2a. destruct (Nat.eqb_spec a src); [contradiction|].
  set (q := last (a :: l2) 0). set (b := hd dst l1).
  assert (Hq : prev m src = q /\ next m q = src /\ In q (a :: l2)).
  { unfold q. destruct (snoc_cases l2) as [E|[l' [q' E]]].
    - rewrite E in *. cbn in *. tauto.
    - rewrite E in *. rewrite app_comm_cons, last_last. cbn [ring seg] in R2. destruct R2 as [_ [_ R2]].
      apply seg_last in R2. split; [tauto|]. split; [tauto|]. apply in_or_app; cbn; auto. }
  assert (Hb : next m dst = b /\ prev m b = dst /\ In b (dst :: l1)).
  { unfold b. destruct l1; cbn in *; tauto. }
  destruct Hq as [Hq1 [Hq2 Hq3]]. destruct Hb as [Hb1 [Hb2 Hb3]].
  assert (Hds : dst <> src) by (intros ->; apply (D src); cbn; auto).
  assert (Hqs : q <> src) by (intros E; rewrite E in Hq3; inversion Ns; auto).
  assert (Hqd : q <> dst) by (intros E; rewrite E in Hq3; apply (D dst); cbn; auto).
  assert (Hbs : b <> src) by (intros E; rewrite E in Hb3; apply (D src); cbn; auto).
  assert (Hab : a <> b) by (intros E; rewrite <- E in Hb3; apply (D a); cbn; auto).
  assert (Had : a <> dst) by (intros E; apply (D dst); cbn; auto).
  match goal with |- Rep ?mm _ => set (m' := mm) end.
  assert (Sn : forall z, next m' z = if Nat.eq_dec z src then src else if Nat.eq_dec z dst then a else if Nat.eq_dec z q then b else next m z).
  { intros z. unfold m', set_next, set_prev. cbn [next prev]. rewrite Hb1, Hq1.
    replace (put (prev m) b q src) with q by (rewrite put_other by auto; auto).
    replace (put (next m) q b src) with a by (rewrite put_other by auto; auto).
    unfold put. destruct (Nat.eq_dec z src); auto. }
  assert (Sp : forall z, prev m' z = if Nat.eq_dec z src then src else if Nat.eq_dec z a then dst else if Nat.eq_dec z b then q else prev m z).
  { intros z. unfold m', set_next, set_prev. cbn [next prev]. rewrite Hb1, Hq1.
    replace (put (prev m) b q src) with q by (rewrite put_other by auto; auto).
    rewrite put_same. replace (put (next m) q b src) with a by (rewrite put_other by auto; auto).
    unfold put. reflexivity. }
  clearbody m'.
  change (Rep m' ([dst :: (a :: l2) ++ l1; [src]] ++ L)).
  eapply Rep_local with (A := [dst :: l1; src :: a :: l2]); [exact H0| | |].
  - cbn. rewrite app_nil_r. apply perm_skip.
    eapply Permutation_trans; [apply Permutation_sym, Permutation_middle|].
    eapply Permutation_trans; [apply perm_skip, Permutation_app_comm|]. cbn.
    apply (Permutation_cons_append (a :: l2 ++ l1) src).
  - intros z Hz. cbn [concat] in Hz. rewrite app_nil_r in Hz. rewrite in_app_iff in Hz. rewrite Sn, Sp.
    destruct (Nat.eq_dec z src); [exfalso; subst z; cbn in Hz; tauto|].
    destruct (Nat.eq_dec z dst); [exfalso; subst z; cbn in Hz; tauto|].
    destruct (Nat.eq_dec z q) as [Eq|]; [exfalso; rewrite Eq in Hz; apply Hz; right; right; exact Hq3|].
    destruct (Nat.eq_dec z a); [exfalso; subst z; cbn in Hz; tauto|].
    destruct (Nat.eq_dec z b) as [Eq|]; [exfalso; rewrite Eq in Hz; tauto|]. auto.
  - constructor; [|constructor; [|constructor]].
    + cbn [ring app seg]. rewrite Sn, Sp.
      destruct (Nat.eq_dec dst src); [contradiction|]. destruct (Nat.eq_dec dst dst); [|contradiction].
      destruct (Nat.eq_dec a src); [contradiction|]. destruct (Nat.eq_dec a a); [|contradiction].
      split; [reflexivity|]. split; [reflexivity|].
      (* from a through l2 (to its last, q) then into l1 *)
      cbn [ring seg] in R2. destruct R2 as [_ [_ R2]].
      assert (K1 : next m' q = b).
      { rewrite Sn. destruct (Nat.eq_dec q src); [contradiction|]. destruct (Nat.eq_dec q dst); [contradiction|].
        destruct (Nat.eq_dec q q); [reflexivity|contradiction]. }
      assert (K2 : prev m' b = q).
      { rewrite Sp. destruct (Nat.eq_dec b src); [contradiction|]. destruct (Nat.eq_dec b a); [congruence|].
        destruct (Nat.eq_dec b b); [reflexivity|contradiction]. }
      assert (S2 : seg m' a l2 b).
      { unfold q in *. destruct (snoc_cases l2) as [E|[l' [q' E]]].
        - rewrite E in *. cbn in *. auto.
        - rewrite E in *. rewrite app_comm_cons, last_last in *. apply seg_last in R2. apply seg_last.
          split; [|auto]. destruct R2 as [R2 _]. eapply seg_agree; [exact R2| |].
          + intros z Hz. assert (Nq : z <> q').
            { intros ->. pose proof Ns as NN; apply NoDup_cons_iff in NN; destruct NN as [Q1 Q2]. apply nodup_app in Q2. destruct Q2 as [_ [_ Q2]].
              eapply Q2; cbn; eauto. }
            assert (Hz' : In z ((a :: l') ++ [q'])) by (apply in_or_app; left; exact Hz).
            rewrite Sn. destruct (Nat.eq_dec z src); [subst z; inversion Ns; contradiction|].
            destruct (Nat.eq_dec z dst); [subst z; exfalso; apply (D dst); cbn in *; tauto|].
            destruct (Nat.eq_dec z q'); [contradiction|reflexivity].
          + intros z Hz. assert (Hz' : In z ((a :: l') ++ [q'])) by (right; exact Hz).
            rewrite Sp. destruct (Nat.eq_dec z src); [subst z; inversion Ns; contradiction|].
            destruct (Nat.eq_dec z a). { subst z. pose proof Ns as NN; apply NoDup_cons_iff in NN; destruct NN as [Q1 Q2]. inversion Q2; contradiction. }
            destruct (Nat.eq_dec z b) as [Eq|]. { rewrite Eq in *. exfalso; apply (D b); [exact Hb3|cbn in *; tauto]. }
            reflexivity. }
      destruct l1 as [|c l1].
      * unfold b in *. cbn [hd] in *. rewrite app_nil_r. exact S2.
      * unfold b in *. cbn [hd] in *. apply seg_app. split; [exact S2|].
        cbn [ring seg] in R. destruct R as [_ [_ R]]. eapply seg_agree; [exact R| |].
        -- intros z Hz. assert (Hz' : In z (dst :: c :: l1)) by (right; exact Hz).
           rewrite Sn. destruct (Nat.eq_dec z src); [subst z; exfalso; apply (D src); [exact Hz'|cbn; auto]|].
           destruct (Nat.eq_dec z dst); [subst z; inversion Nd; contradiction|].
           destruct (Nat.eq_dec z q) as [Eq|]; [rewrite Eq in *; exfalso; apply (D q); [exact Hz'|right; exact Hq3]|reflexivity].
        -- intros z Hz. assert (Hz' : In z (dst :: c :: l1)).
           { apply in_app_or in Hz. cbn in *. tauto. }
           rewrite Sp. destruct (Nat.eq_dec z src); [subst z; exfalso; apply (D src); [exact Hz'|cbn; auto]|].
           destruct (Nat.eq_dec z a); [subst z; exfalso; apply (D a); [exact Hz'|cbn; auto]|].
           destruct (Nat.eq_dec z c); [|reflexivity]. subst z.
           apply in_app_or in Hz. pose proof Nd as NN. apply NoDup_cons_iff in NN. destruct NN as [Q1 Q2].
           apply NoDup_cons_iff in Q2. destruct Q2 as [Q3 Q4].
           destruct Hz as [Hz|[Hz|[]]]; [contradiction|]. exfalso. apply Q1. left. symmetry. exact Hz.
    + cbn. rewrite Sn, Sp. destruct (Nat.eq_dec src src); [auto|contradiction].
Qed.

(** ** Refinement: GcModel.v's lists are what the pointers represent. *)

Section refine.
  Context (head : GcModel.lid -> nat).

  (** The lists named in [ids] hold exactly [f], and the values [free_] are in no list. *)
  Definition Lists (m : links) (ids : list GcModel.lid) (f : GcModel.lid -> list nat) (free_ : list nat) : Prop :=
    NoDup ids /\ Rep m (map (fun i => head i :: f i) ids ++ map (fun o => [o]) free_).

  Lemma split_id (F : GcModel.lid -> list nat) i ids : NoDup ids -> In i ids ->
    exists rest, Permutation (i :: rest) ids /\ ~ In i rest /\ NoDup rest /\
      Permutation (map F ids) (F i :: map F rest).
  Proof.
    intros N H. apply in_split in H. destruct H as [a [b ->]]. exists (a ++ b).
    split; [apply Permutation_middle|]. apply NoDup_remove in N. destruct N as [N1 N2].
    split; [exact N2|]. split; [exact N1|].
    exact (Permutation_map F (Permutation_sym (Permutation_middle a b i))).
  Qed.

  Lemma map_ext_rest (F G : GcModel.lid -> list nat) rest : (forall j, In j rest -> F j = G j) -> map F rest = map G rest.
  Proof. intros H. apply map_ext_in. exact H. Qed.

  Lemma rem_notin o l : ~ In o l -> GcModel.rem o l = l.
  Proof. apply notin_remove. Qed.

  Lemma rem_mid o l1 l2 : ~ In o (l1 ++ l2) -> GcModel.rem o (l1 ++ o :: l2) = l1 ++ l2.
  Proof.
    intros H. unfold GcModel.rem. rewrite remove_app. cbn.
    destruct (Nat.eq_dec o o); [|congruence]. rewrite !notin_remove; auto; intros Q; apply H; apply in_or_app; auto.
  Qed.

  Lemma in_concat_map (F : GcModel.lid -> list nat) rest j x : In j rest -> In x (F j) -> In x (concat (map F rest)).
  Proof. intros Hj Hx. apply in_concat. exists (F j). split; [apply in_map; auto|auto]. Qed.

  (** lib/value.c MoveTo, for a value on one of the lists. *)
  Theorem move_to_refines m ids h free_ dst o : Lists m ids (GcModel.lists h) free_ ->
    In dst ids -> (exists i, In i ids /\ In o (GcModel.lists h i)) ->
    Lists (move_to m (head dst) o) ids (GcModel.lists (GcModel.move_to h dst o)) free_.
  Proof.
    intros [N R] Hd [i [Hi Ho]]. split; [exact N|]. set (f := GcModel.lists h) in *.
    set (F := fun i => head i :: f i) in *.
    set (F' := fun i => head i :: GcModel.lists (GcModel.move_to h dst o) i).
    set (T := map (fun o => [o]) free_) in *.
    destruct (split_id F i ids N Hi) as [rest [P1 [Ni [Nr P2]]]].
    assert (R1 : Rep m (F i :: map F rest ++ T)).
    { eapply Rep_perm; [|exact R]. change (F i :: map F rest ++ T) with ((F i :: map F rest) ++ T). apply Permutation_app_tail; auto. }
    apply in_split in Ho. destruct Ho as [l1 [l2 Ho]].
    destruct R1 as [RN RF]. 
    assert (No : forall j, In j rest -> ~ In o (f j)).
    { intros j Hj Q. cbn [concat] in RN. apply nodup_app in RN. destruct RN as [_ [_ RN]]. apply (RN o).
      - unfold F. right. rewrite Ho. apply in_or_app; cbn; auto.
      - rewrite concat_app. apply in_or_app. left. eapply in_concat_map; eauto. unfold F. right. exact Q. }
    assert (Nm : ~ In o (l1 ++ l2)).
    { cbn [concat] in RN. apply nodup_app in RN. destruct RN as [RN _]. unfold F in RN. rewrite Ho in RN.
      apply NoDup_cons_iff in RN. destruct RN as [_ RN]. apply NoDup_remove_2 in RN. exact RN. }
    assert (Pid : Permutation (map F' ids ++ T) (F' i :: map F' rest ++ T)).
    { change (F' i :: map F' rest ++ T) with (map F' (i :: rest) ++ T). apply Permutation_app_tail.
      apply Permutation_map. apply Permutation_sym; exact P1. }
    eapply Rep_perm; [apply Permutation_sym; exact Pid|].
    assert (R1 : Rep m ((head i :: l1 ++ o :: l2) :: map F rest ++ T)).
    { split; [|]; unfold F in RN, RF; fold F in RN, RF; rewrite Ho in RN, RF; auto. }
    destruct (GcModel.lid_eq_dec i dst) as [->|Hne].
    - assert (E1 : F' dst = head dst :: o :: l1 ++ l2).
      { unfold F'. cbn. destruct (GcModel.lid_eq_dec dst dst); [|congruence]. fold f. rewrite Ho, rem_mid; auto. }
      rewrite E1. replace (map F' rest) with (map F rest).
      + apply move_to_same_list. exact R1.
      + apply map_ext_rest. intros j Hj. unfold F, F'. cbn. destruct (GcModel.lid_eq_dec j dst); [congruence|].
        fold f. rewrite rem_notin; auto.
    - assert (Hdr : In dst rest).
      { eapply Permutation_in in Hd; [|apply Permutation_sym; exact P1]. destruct Hd as [E|Hd]; [congruence|auto]. }
      destruct (split_id F dst rest Nr Hdr) as [rest2 [P3 [Nd [Nr2 P4]]]].
      assert (R2 : Rep m ((head i :: l1 ++ o :: l2) :: (head dst :: f dst) :: map F rest2 ++ T)).
      { eapply Rep_perm; [|exact R1]. apply perm_skip.
        change ((head dst :: f dst) :: map F rest2 ++ T) with ((F dst :: map F rest2) ++ T). apply Permutation_app_tail; auto. }
      apply move_to_other_list in R2.
      assert (E1 : F' i = head i :: l1 ++ l2).
      { unfold F'. cbn. destruct (GcModel.lid_eq_dec i dst); [congruence|]. fold f. rewrite Ho, rem_mid; auto. }
      assert (E2 : F' dst = head dst :: o :: f dst).
      { unfold F'. cbn. destruct (GcModel.lid_eq_dec dst dst); [|congruence]. fold f. rewrite rem_notin; auto. }
      rewrite <- E1, <- E2 in R2.
      eapply Rep_perm; [|exact R2]. apply perm_skip.
      replace (map F rest2) with (map F' rest2).
      + change (F' dst :: map F' rest2 ++ T) with (map F' (dst :: rest2) ++ T).
        apply Permutation_app_tail. apply Permutation_map. exact P3.
      + apply map_ext_rest. intros j Hj. unfold F, F'. cbn. destruct (GcModel.lid_eq_dec j dst); [congruence|].
        fold f. rewrite rem_notin; auto. apply No. eapply Permutation_in; [exact P3|cbn; auto].
  Qed.

  (** MoveTo for a value on no list (new, or taken off with Get). *)
  Theorem move_to_refines_free m ids h free_ dst o : Lists m ids (GcModel.lists h) (o :: free_) ->
    In dst ids ->
    Lists (move_to m (head dst) o) ids (GcModel.lists (GcModel.move_to h dst o)) free_.
  Proof.
    intros [N R] Hd. split; [exact N|]. set (f := GcModel.lists h) in *.
    set (F := fun i => head i :: f i) in *.
    set (F' := fun i => head i :: GcModel.lists (GcModel.move_to h dst o) i).
    cbn [map] in R. set (T := map (fun o => [o]) free_) in *.
    destruct (split_id F dst ids N Hd) as [rest [P1 [Ni [Nr P2]]]].
    assert (R1 : Rep m ([o] :: (head dst :: f dst) :: map F rest ++ T)).
    { eapply Rep_perm; [|exact R]. eapply Permutation_trans; [apply Permutation_sym, Permutation_middle|]. apply perm_skip.
      change ((head dst :: f dst) :: map F rest ++ T) with ((F dst :: map F rest) ++ T). apply Permutation_app_tail; auto. }
    assert (No : forall j, In j ids -> ~ In o (f j)).
    { intros j Hj Q. destruct R as [RN _]. rewrite concat_app in RN. apply nodup_app in RN. destruct RN as [_ [_ RN]]. apply (RN o).
      - eapply in_concat_map; eauto. unfold F. right. exact Q.
      - cbn. auto. }
    apply move_to_from_none in R1.
    assert (E2 : F' dst = head dst :: o :: f dst).
    { unfold F'. cbn. destruct (GcModel.lid_eq_dec dst dst); [|congruence]. fold f. rewrite rem_notin; auto. }
    rewrite <- E2 in R1. replace (map F rest) with (map F' rest) in R1.
    - eapply Rep_perm; [|exact R1]. change (F' dst :: map F' rest ++ T) with (map F' (dst :: rest) ++ T).
      apply Permutation_app_tail. apply Permutation_map. exact P1.
    - apply map_ext_rest. intros j Hj. unfold F, F'. cbn. destruct (GcModel.lid_eq_dec j dst); [congruence|].
      fold f. rewrite rem_notin; auto. apply No. eapply Permutation_in; [exact P1|cbn; auto].
  Qed.

  (** Get. *)
  Theorem get_refines m ids h free_ l r h' : Lists m ids (GcModel.lists h) free_ -> In l ids ->
    GcModel.get h l = (r, h') ->
    exists m', get m (head l) = (r, m') /\
      Lists m' ids (GcModel.lists h') (match r with Some o => o :: free_ | None => free_ end).
  Proof.
    intros [N R] Hl E. set (f := GcModel.lists h) in *. unfold GcModel.get in E. fold f in E.
    set (F := fun i => head i :: f i) in *. set (T := map (fun o => [o]) free_) in *.
    destruct (split_id F l ids N Hl) as [rest [P1 [Ni [Nr P2]]]].
    assert (R1 : Rep m ((head l :: f l) :: map F rest ++ T)).
    { eapply Rep_perm; [|exact R]. change ((head l :: f l) :: map F rest ++ T) with ((F l :: map F rest) ++ T). apply Permutation_app_tail; auto. }
    destruct (f l) as [|o q] eqn:El.
    - injection E as <- <-. exists m. split; [apply (get_empty _ _ _ R1)|]. split; [exact N|exact R].
    - injection E as <- <-. destruct (get_takes_first _ _ _ _ _ R1) as [m' [G R2]].
      exists m'. split; [exact G|]. split; [exact N|]. cbn [map GcModel.lists GcModel.set_lists].
      set (F' := fun i => head i :: GcModel.updl f l q i).
      assert (E2 : F' l = head l :: q) by (unfold F', GcModel.updl; destruct (GcModel.lid_eq_dec l l); congruence).
      rewrite <- E2 in R2. replace (map F rest) with (map F' rest) in R2.
      + eapply Rep_perm; [|exact R2].
        eapply Permutation_trans; [|apply Permutation_middle].
        eapply Permutation_trans; [apply perm_swap|]. apply perm_skip.
        change (F' l :: map F' rest ++ T) with (map F' (l :: rest) ++ T).
        apply Permutation_app_tail. apply Permutation_map. exact P1.
      + apply map_ext_rest. intros j Hj. unfold F, F', GcModel.updl. destruct (GcModel.lid_eq_dec j l); [congruence|]. reflexivity.
  Qed.

  (** MoveAllTo. *)
  Theorem move_all_refines m ids h free_ dst src : Lists m ids (GcModel.lists h) free_ ->
    In dst ids -> In src ids -> dst <> src ->
    Lists (move_all m (head dst) (head src)) ids (GcModel.lists (GcModel.move_all h dst src)) free_.
  Proof.
    intros [N R] Hd Hs Hne. split; [exact N|]. set (f := GcModel.lists h) in *.
    set (F := fun i => head i :: f i) in *.
    set (F' := fun i => head i :: GcModel.lists (GcModel.move_all h dst src) i).
    set (T := map (fun o => [o]) free_) in *.
    destruct (split_id F dst ids N Hd) as [rest [P1 [Ni [Nr P2]]]].
    assert (Hsr : In src rest).
    { eapply Permutation_in in Hs; [|apply Permutation_sym; exact P1]. destruct Hs as [E|Hs]; [congruence|auto]. }
    destruct (split_id F src rest Nr Hsr) as [rest2 [P3 [Nd [Nr2 P4]]]].
    assert (R1 : Rep m ((head dst :: f dst) :: (head src :: f src) :: map F rest2 ++ T)).
    { eapply Rep_perm; [|exact R]. eapply Permutation_trans; [apply Permutation_app_tail; exact P2|].
      cbn [app]. apply perm_skip.
      change ((head src :: f src) :: map F rest2 ++ T) with ((F src :: map F rest2) ++ T). apply Permutation_app_tail; auto. }
    apply move_all_moves_all in R1.
    assert (E1 : F' dst = head dst :: f src ++ f dst).
    { unfold F'. cbn. unfold GcModel.updl. destruct (GcModel.lid_eq_dec dst src); [congruence|].
      destruct (GcModel.lid_eq_dec dst dst); [reflexivity|congruence]. }
    assert (E2 : F' src = [head src]).
    { unfold F'. cbn. unfold GcModel.updl. destruct (GcModel.lid_eq_dec src src); [reflexivity|congruence]. }
    rewrite <- E1, <- E2 in R1. replace (map F rest2) with (map F' rest2) in R1.
    - eapply Rep_perm; [|exact R1]. change (F' dst :: F' src :: map F' rest2 ++ T) with (map F' (dst :: src :: rest2) ++ T).
      apply Permutation_app_tail. apply Permutation_map.
      eapply Permutation_trans; [apply perm_skip; exact P3|exact P1].
    - apply map_ext_rest. intros j Hj. unfold F, F'. cbn. unfold GcModel.updl.
      destruct (GcModel.lid_eq_dec j src); [congruence|].
      destruct (GcModel.lid_eq_dec j dst); [|reflexivity].
      exfalso. apply Ni. subst j. eapply Permutation_in; [exact P3|cbn; auto].
  Qed.

  (** Clear of a new value, and of a new list head. *)
  Theorem clear_value_refines m ids f free_ o : Lists m ids f free_ ->
    ~ In o (concat (map (fun i => head i :: f i) ids)) -> ~ In o free_ ->
    Lists (clear m o) ids f (o :: free_).
  Proof.
    intros [N R] H1 H2. split; [exact N|]. cbn [map]. eapply Rep_perm; [apply Permutation_middle|].
    apply clear_fresh; auto. rewrite concat_app, in_app_iff. intros [Q|Q]; auto.
    apply in_concat in Q. destruct Q as [q [Q1 Q2]]. apply in_map_iff in Q1. destruct Q1 as [y [<- Q1]].
    destruct Q2 as [->|[]]. auto.
  Qed.

  Theorem clear_head_refines m ids f free_ i : Lists m ids f free_ -> ~ In i ids ->
    ~ In (head i) (concat (map (fun i => head i :: f i) ids)) -> ~ In (head i) free_ ->
    Lists (clear m (head i)) (i :: ids) (GcModel.updl f i []) free_.
  Proof.
    intros [N R] Hi H1 H2. split; [constructor; auto|]. cbn [map app].
    replace (GcModel.updl f i [] i) with (@nil nat) by (unfold GcModel.updl; destruct (GcModel.lid_eq_dec i i); congruence).
    replace (map (fun i0 => head i0 :: GcModel.updl f i [] i0) ids) with (map (fun i => head i :: f i) ids).
    - apply clear_fresh; auto. rewrite concat_app, in_app_iff. intros [Q|Q]; auto.
      apply in_concat in Q. destruct Q as [q [Q1 Q2]]. apply in_map_iff in Q1. destruct Q1 as [y [<- Q1]].
      destruct Q2 as [->|[]]. auto.
    - apply map_ext_in. intros j Hj. unfold GcModel.updl. destruct (GcModel.lid_eq_dec j i); [congruence|reflexivity].
  Qed.
End refine.

(** Non-vacuity: pointers built by the code itself that represent two non-empty lists. *)
Example lists_exist : exists m,
  Rep m [[0; 7; 5]; [1; 6]] /\
  Rep (move_all m 0 1) [[0; 6; 7; 5]; [1]] /\
  Rep (move_to m 1 5) [[0; 7]; [1; 5; 6]].
Proof.
  set (m0 := mk_links (fun x => x) (fun x => x)).
  assert (B : Rep m0 [[0]; [1]; [5]; [6]; [7]]).
  { split; [cbn; repeat (constructor; [cbn; intuition congruence|]); constructor|].
    repeat (constructor; [cbn; auto|]). constructor. }
  assert (B1 : Rep (move_to m0 0 5) [[0; 5]; [1]; [6]; [7]]).
  { apply move_to_from_none. eapply Rep_perm; [|exact B].
    apply (Permutation_middle [[0]; [1]] [[6]; [7]] [5]) || idtac.
    eapply Permutation_trans; [apply Permutation_sym, (Permutation_middle [[0]; [1]] [[6]; [7]] [5])|]. apply Permutation_refl. }
  assert (B2 : Rep (move_to (move_to m0 0 5) 1 6) [[1; 6]; [0; 5]; [7]]).
  { apply move_to_from_none. eapply Rep_perm; [|exact B1].
    eapply Permutation_trans; [apply Permutation_sym, (Permutation_middle [[0; 5]; [1]] [[7]] [6])|].
    apply perm_skip. apply perm_swap. }
  assert (B3 : Rep (move_to (move_to (move_to m0 0 5) 1 6) 0 7) [[0; 7; 5]; [1; 6]]).
  { apply move_to_from_none. eapply Rep_perm; [|exact B2].
    eapply Permutation_trans; [apply Permutation_sym, (Permutation_middle [[1; 6]; [0; 5]] [] [7])|].
    apply perm_skip. apply perm_swap. }
  eexists. split; [exact B3|]. split.
  - apply (move_all_moves_all _ 0 [7; 5] 1 [6] []). exact B3.
  - apply (move_to_other_list _ 0 [7] 5 [] 1 [6] []). exact B3.
Qed.
