(** * The binary search of lib/aarch64.c for the target of a union select. *)
From Coq Require Import ZArith List Arith Lia Bool.
From Verif Require Import PathModel LoadModel FuncModel CodeModel CodeProps LinkModel GenModel AsmModel.
Import ListNotations.

(** ** Labels *)

Lemma label_eqb_eq : forall a b, label_eqb a b = true -> a = b.
Proof.
  intros a b H. destruct a, b; cbn [label_eqb] in H; try discriminate;
    repeat match goal with
           | H : _ && _ = true |- _ => apply andb_true_iff in H; destruct H
           | H : (_ =? _) = true |- _ => apply Nat.eqb_eq in H; subst
           end; auto.
  - destruct (list_eq_dec Z.eq_dec s s0); [subst; auto|discriminate].
  - destruct k, k0; cbn in *; try discriminate; auto.
Qed.

(** The labels of code and of the data of functions. *)
Definition code_label (l : label) : Prop :=
  match l with GStderr | GTypeValue | GFormat | GLoc | GMsg _ => False | _ => True end.
Lemma label_eqb_refl : forall l, code_label l -> label_eqb l l = true.
Proof.
  intros l H. destruct l; cbn in *; try contradiction; rewrite ?Nat.eqb_refl; auto.
  - destruct (list_eq_dec Z.eq_dec s s); congruence.
  - destruct k; auto.
Qed.

Lemma find_pos_skip : forall l pre x, ~ In (Lab l) pre -> find_pos l (pre ++ x) = find_pos l x.
Proof.
  intros l pre x. induction pre as [|y pre IH]; intros N; [reflexivity|]. cbn [app find_pos].
  assert (IH' : find_pos l (pre ++ x) = find_pos l x) by (apply IH; intros I; apply N; right; auto).
  destruct y; auto. destruct (label_eqb l l0) eqn:E; auto. apply label_eqb_eq in E. subst. exfalso. apply N. left. auto.
Qed.
Lemma find_pos_here : forall l pre x, code_label l -> ~ In (Lab l) pre -> find_pos l (pre ++ Lab l :: x) = Some (Lab l :: x).
Proof. intros l pre x C N. rewrite find_pos_skip by auto. cbn [find_pos]. rewrite label_eqb_refl; auto. Qed.
Lemma find_data_skip : forall l pre x, (forall d, ~ In (Data l d) pre) -> find_data l (pre ++ x) = find_data l x.
Proof.
  intros l pre x. induction pre as [|y pre IH]; intros N; [reflexivity|]. cbn [app find_data].
  assert (IH' : find_data l (pre ++ x) = find_data l x) by (apply IH; intros d I; apply (N d); right; auto).
  destruct y; auto. destruct (label_eqb l l0) eqn:E; auto. apply label_eqb_eq in E. subst. exfalso. apply (N d). left. auto.
Qed.
Lemma find_data_here : forall l d pre x, code_label l -> (forall d, ~ In (Data l d) pre) -> find_data l (pre ++ Data l d :: x) = Some d.
Proof. intros l d pre x C N. rewrite find_data_skip by auto. cbn [find_data]. rewrite label_eqb_refl; auto. Qed.

(** The labels lines define. *)
Definition label_of (x : line) : list label := match x with Lab l => [l] | Data l _ => [l] | Ins _ => [] end.
Definition labels_of (x : list line) : list label := flat_map label_of x.
Lemma labels_app : forall x y, labels_of (x ++ y) = labels_of x ++ labels_of y.
Proof. intros x y. apply flat_map_app. Qed.
Lemma labels_lab : forall l x, In (Lab l) x -> In l (labels_of x).
Proof. intros l x I. apply in_flat_map. exists (Lab l). cbn. auto. Qed.
Lemma labels_data : forall l d x, In (Data l d) x -> In l (labels_of x).
Proof. intros l d x I. apply in_flat_map. exists (Data l d). cbn. auto. Qed.

Lemma nodup_mid : forall {A} (a : list A) x b, NoDup (a ++ x :: b) -> ~ In x a.
Proof. intros A a x b H. apply NoDup_remove_2 in H. intros I. apply H. apply in_or_app. auto. Qed.

(** A label that is defined once is found where it is. *)
Lemma find_unique : forall file p l r, NoDup (labels_of file) -> file = p ++ Lab l :: r -> code_label l -> find_pos l file = Some (Lab l :: r).
Proof.
  intros file p l r Nd -> C. apply find_pos_here; auto. intros I. rewrite labels_app in Nd. apply (nodup_mid _ _ _ Nd). apply labels_lab. auto.
Qed.
Lemma find_unique_data : forall file p l d r, NoDup (labels_of file) -> file = p ++ Data l d :: r -> code_label l -> find_data l file = Some d.
Proof.
  intros file p l d r Nd -> C. apply find_data_here; auto. intros d' I. rewrite labels_app in Nd. apply (nodup_mid _ _ _ Nd). eapply labels_data; eauto.
Qed.

(** ** The target of a tag *)

Definition target_of (ts : list (nat * nat)) (default tag : nat) : nat := match assoc tag ts with Some q => q | None => default end.

Lemma assoc_none : forall {A} tag (ts : list (nat * A)), (forall t, In t ts -> fst t <> tag) -> assoc tag ts = None.
Proof.
  intros A tag ts. induction ts as [|[j q] ts IH]; intros H; cbn; auto. destruct (Nat.eqb_spec tag j) as [->|]; [exfalso; apply (H (j, q)); cbn; auto|].
  apply IH. intros t I. apply H. right. auto.
Qed.
Lemma assoc_app : forall {A} tag (a b : list (nat * A)), assoc tag (a ++ b) = match assoc tag a with Some q => Some q | None => assoc tag b end.
Proof. intros A tag a b. induction a as [|[j q] a IH]; cbn; auto. destruct (tag =? j); auto. Qed.

Lemma split_mid : forall (ts : list (nat * nat)) mid t, nth_error ts mid = Some t -> ts = firstn mid ts ++ t :: skipn (mid + 1) ts.
Proof.
  intros ts mid. revert ts. induction mid as [|mid IH]; intros [|x ts] t E; cbn in *; try discriminate; [congruence|]. f_equal. apply IH. auto.
Qed.

Lemma sorted_mid : forall a (t : nat * nat) b, sorted_targets (a ++ t :: b) ->
  (forall x, In x a -> fst x < fst t) /\ (forall x, In x b -> fst t < fst x) /\ sorted_targets a /\ sorted_targets b.
Proof.
  intros a t b H.
  assert (Nt : nth_error (a ++ t :: b) (length a) = Some t) by (rewrite nth_error_app2, Nat.sub_diag by lia; reflexivity).
  assert (Nb : forall j x, nth_error b j = Some x -> nth_error (a ++ t :: b) (S (length a + j)) = Some x).
  { intros j x E. rewrite nth_error_app2 by lia. replace (S (length a + j) - length a) with (S j) by lia. exact E. }
  assert (Na : forall j x, nth_error a j = Some x -> nth_error (a ++ t :: b) j = Some x /\ j < length a).
  { intros j x E. assert (j < length a) by (apply nth_error_Some; congruence). rewrite nth_error_app1 by auto. auto. }
  split; [|split; [|split]].
  - intros x I. apply In_nth_error in I. destruct I as [j E]. destruct (Na _ _ E) as [E' L]. eapply (H j (length a)); eauto.
  - intros x I. apply In_nth_error in I. destruct I as [j E]. eapply (H (length a)); [|exact Nt|exact (Nb _ _ E)]. lia.
  - intros i j ti tj L Ei Ej. eapply H; [exact L| |]; apply Na; auto.
  - intros i j ti tj L Ei Ej. eapply (H (S (length a + i)) (S (length a + j))); [lia| |]; apply Nb; auto.
Qed.

Section search.
  Variable callf : gst -> gval -> list gval -> gres.
  Variables (tu : nat) (file : list line) (block : nat) (statics args : list gval) (entry : Z).
  Notation run := (run callf tu file block statics args entry).
  Notation step := (step callf tu file block statics args entry).

  (** [n] lines lead from one place and state to another. *)
  Definition goes (n : nat) (x : list line) (m : mach) (s : gst) (x' : list line) (m' : mach) (s' : gst) : Prop :=
    forall k, run (n + k) x m s = run k x' m' s'.
  Lemma goes_refl : forall x m s, goes 0 x m s x m s.
  Proof. intros x m s k. reflexivity. Qed.
  Lemma goes_trans : forall n n' x m s x1 m1 s1 x2 m2 s2, goes n x m s x1 m1 s1 -> goes n' x1 m1 s1 x2 m2 s2 -> goes (n + n') x m s x2 m2 s2.
  Proof. intros n n' x m s x1 m1 s1 x2 m2 s2 A B k. rewrite <- Nat.add_assoc, A. apply B. Qed.
  Lemma goes_lab : forall l r m s, goes 1 (Lab l :: r) m s r m s.
  Proof. intros l r m s k. reflexivity. Qed.
  Lemma goes_data : forall l d r m s, goes 1 (Data l d :: r) m s r m s.
  Proof. intros l d r m s k. reflexivity. Qed.
  Lemma goes_ins : forall i r m s m' s', step i m s = SNext m' s' -> goes 1 (Ins i :: r) m s r m' s'.
  Proof. intros i r m s m' s' E k. cbn [Nat.add AsmModel.run]. rewrite E. reflexivity. Qed.
  Lemma goes_jump : forall i r m s l m' s' r', step i m s = SJump l m' s' -> find_pos l file = Some r' -> goes 1 (Ins i :: r) m s r' m' s'.
  Proof. intros i r m s l m' s' r' E F k. cbn [Nat.add AsmModel.run]. rewrite E, F. reflexivity. Qed.
  Lemma goes_step : forall n i r m s m1 s1 x' m' s', step i m s = SNext m1 s1 -> goes n r m1 s1 x' m' s' -> goes (S n) (Ins i :: r) m s x' m' s'.
  Proof. intros n i r m s m1 s1 x' m' s' E G. apply (goes_trans 1 n _ _ _ r m1 s1); auto. apply goes_ins. auto. Qed.

  (** ** The search *)

  (** The labels of the lines are those from [label] to before the next free one. *)
  Lemma search_labels : forall k f pc lo hi1 ts d label x label', emit_search k f pc lo hi1 ts d label = Some (x, label') ->
    label <= label' /\ NoDup (labels_of x) /\ forall l, In l (labels_of x) -> exists n, l = LSearch f pc n /\ label <= n < label'.
  Proof.
    induction k as [|k IH]; intros f pc lo hi1 ts d label x label' E; cbn [emit_search] in E;
      destruct (single_target lo hi1 ts d) as [[t|]|]; try discriminate;
      try (injection E as <- <-; split; [lia|]; split; [constructor|intros l []]).
    destruct (nth_error ts (length ts / 2)) as [[mt mq]|]; [|discriminate].
    destruct (lo =? mt).
    { destruct (emit_search k f pc (S mt) hi1 _ d label) as [[y lb]|] eqn:E1; [|discriminate]. injection E as <- <-. exact (IH _ _ _ _ _ _ _ _ _ E1). }
    destruct (S mt =? hi1).
    { destruct (emit_search k f pc lo mt _ d label) as [[y lb]|] eqn:E1; [|discriminate]. injection E as <- <-. exact (IH _ _ _ _ _ _ _ _ _ E1). }
    destruct (single_target lo mt _ d) as [[q|]|]; [| |discriminate].
    { destruct (emit_search k f pc (S mt) hi1 _ d label) as [[y lb]|] eqn:E1; [|discriminate]. injection E as <- <-. exact (IH _ _ _ _ _ _ _ _ _ E1). }
    destruct (emit_search k f pc (S mt) hi1 _ d (S label)) as [[y lb]|] eqn:E1; [|discriminate].
    destruct (emit_search k f pc lo mt _ d lb) as [[z lb2]|] eqn:E2; [|discriminate]. injection E as <- <-.
    destruct (IH _ _ _ _ _ _ _ _ _ E1) as [L1 [N1 A1]]. destruct (IH _ _ _ _ _ _ _ _ _ E2) as [L2 [N2 A2]].
    assert (El : labels_of (Ins (CmpI X0 (Z.of_nat mt)) :: Ins (Beq (LPc f mq)) :: Ins (Bcc (LSearch f pc label)) :: y ++ Lab (LSearch f pc label) :: z) =
      labels_of y ++ LSearch f pc label :: labels_of z) by (cbn; rewrite labels_app; reflexivity).
    rewrite El. split; [lia|]. split.
    - apply NoDup_Add with (a := LSearch f pc label) (l := labels_of y ++ labels_of z); [apply Add_app|]. split.
      + clear -N1 N2 A1 A2. revert N1 A1. generalize (labels_of y) as a. induction a as [|u a IH]; intros N1 A1; [exact N2|]. cbn. inversion N1; subst. constructor.
        * intros I. apply in_app_or in I. destruct I as [I|I]; [auto|]. destruct (A1 u (or_introl eq_refl)) as [n [-> Ln]]. destruct (A2 _ I) as [n' [Q Ln']]. injection Q as <-. lia.
        * apply IH; auto. intros l I. apply A1. right. auto.
      + intros I. apply in_app_or in I. destruct I as [I|I]; [destruct (A1 _ I) as [n [Q ?]]|destruct (A2 _ I) as [n [Q ?]]]; injection Q as <-; lia.
    - intros l I. apply in_app_or in I. destruct I as [I|[I|I]].
      + destruct (A1 _ I) as [n [-> Ln]]. exists n. split; auto. lia.
      + subst l. exists label. split; auto. lia.
      + destruct (A2 _ I) as [n [-> Ln]]. exists n. split; auto. lia.
  Qed.

  Lemma cmp_int : forall t mt, compare (WInt (Z.of_nat t)) (Z.of_nat mt) = if t =? mt then FEq else if t <? mt then FLess else FMore.
  Proof.
    intros t mt. cbn [compare]. destruct (Nat.eqb_spec t mt) as [->|Ne]; [rewrite Z.eqb_refl; auto|].
    replace (Z.of_nat t =? Z.of_nat mt)%Z with false by (symmetry; apply Z.eqb_neq; lia).
    replace (Z.of_nat mt =? -1)%Z with false by (symmetry; apply Z.eqb_neq; lia).
    replace (Z.of_nat t =? -1)%Z with false by (symmetry; apply Z.eqb_neq; lia).
    destruct (Nat.ltb_spec t mt), (Z.ltb_spec (Z.of_nat t) (Z.of_nat mt)); auto; lia.
  Qed.

  (** The search in the interval from [lo] to before [hi1] for a tag in it ends at the label of
      its target, whatever the other registers and the memory are, and changes the flags
      only. *)
  Theorem search_correct : forall k f pc tag d r' s lo hi1 ts label x label' pre rest m,
    emit_search k f pc lo hi1 ts d label = Some (x, label') -> sorted_targets ts -> lo <= tag < hi1 ->
    file = pre ++ x ++ rest -> NoDup (labels_of file) ->
    find_pos (LPc f (target_of ts d tag)) file = Some r' -> rf m X0 = WInt (Z.of_nat tag) ->
    exists n c, n <= length x /\ goes n (x ++ rest) m s r' (set_flags c m) s.
  Proof.
    intros k f pc tag d r' s. induction k as [|k IH]; intros lo hi1 ts label x label' pre rest m E So Rg Fi Nd Ft Rx.
    - assert (Sg : exists t, single_target lo hi1 ts d = Some (Some t) /\ x = [Ins (B (LPc f t))]).
      { cbn [emit_search] in E. destruct (single_target lo hi1 ts d) as [[t|]|]; try discriminate. injection E as <- <-. eauto. }
      destruct Sg as [t [Sg ->]].
      assert (target_of ts d tag = t).
      { unfold target_of, single_target in *. destruct ts as [|[a q] [|? ?]]; cbn; [congruence| |discriminate].
        destruct (S lo =? hi1) eqn:H1; [|discriminate]. destruct (lo =? a) eqn:H2; [|discriminate]. apply Nat.eqb_eq in H1, H2. subst.
        replace tag with a by lia. rewrite Nat.eqb_refl. congruence. }
      subst t. exists 1, (fl m). split; [cbn; lia|]. destruct m as [a b c]. cbn [set_flags rf mem fl]. eapply goes_jump; [reflexivity|exact Ft].
    - cbn [emit_search] in E. destruct (single_target lo hi1 ts d) as [[t|]|] eqn:Sg; [| |discriminate].
      { injection E as <- <-.
        assert (target_of ts d tag = t).
        { unfold target_of, single_target in *. destruct ts as [|[a q] [|? ?]]; cbn; [congruence| |discriminate].
          destruct (S lo =? hi1) eqn:H1; [|discriminate]. destruct (lo =? a) eqn:H2; [|discriminate]. apply Nat.eqb_eq in H1, H2. subst.
          replace tag with a by lia. rewrite Nat.eqb_refl. congruence. }
        subst t. exists 1, (fl m). split; [cbn; lia|]. destruct m as [a b c]. cbn [set_flags rf mem fl]. eapply goes_jump; [reflexivity|exact Ft]. }
      destruct (nth_error ts (length ts / 2)) as [[mt mq]|] eqn:Nm; [|discriminate].
      pose proof (split_mid _ _ _ Nm) as Sp. revert E Sp. generalize (firstn (length ts / 2) ts) as low, (skipn (length ts / 2 + 1) ts) as high.
      intros low high E Sp. clear Nm Sg. rewrite Sp in So, Ft. destruct (sorted_mid _ _ _ So) as [Lo [Hi [Sl Sh]]]. cbn [fst] in Lo, Hi.
      assert (Tm : tag = mt -> target_of (low ++ (mt, mq) :: high) d tag = mq).
      { intros ->. unfold target_of. rewrite assoc_app, (assoc_none mt low) by (intros t I; specialize (Lo t I); lia). cbn. rewrite Nat.eqb_refl. auto. }
      assert (Tl : tag < mt -> target_of (low ++ (mt, mq) :: high) d tag = target_of low d tag).
      { intros L. unfold target_of. rewrite assoc_app. destruct (assoc tag low); auto. cbn. destruct (Nat.eqb_spec tag mt); [lia|].
        rewrite assoc_none; auto. intros t I. specialize (Hi t I). lia. }
      assert (Th : mt < tag -> target_of (low ++ (mt, mq) :: high) d tag = target_of high d tag).
      { intros L. unfold target_of. rewrite assoc_app, (assoc_none tag low) by (intros t I; specialize (Lo t I); lia). cbn. destruct (Nat.eqb_spec tag mt); [lia|]. auto. }
      clear Sp So Lo Hi.
      set (c1 := if tag =? mt then FEq else if tag <? mt then FLess else FMore).
      assert (H1 : forall y, goes 1 (Ins (CmpI X0 (Z.of_nat mt)) :: y) m s y (set_flags c1 m) s).
      { intros y. apply goes_ins. cbn [AsmModel.step]. rewrite Rx, cmp_int. reflexivity. }
      destruct (Nat.eq_dec tag mt) as [Em|Nm].
      { (* found *)
        assert (Hd : exists y, x = Ins (CmpI X0 (Z.of_nat mt)) :: Ins (Beq (LPc f mq)) :: y).
        { destruct (lo =? mt); [|destruct (S mt =? hi1); [|destruct (single_target lo mt low d) as [[q|]|]; [| |discriminate]]];
            repeat match type of E with
                   | match ?t with _ => _ end = _ => destruct t as [[? ?]|]; [|discriminate]
                   end; injection E as <- <-; cbn [app]; eauto. }
        destruct Hd as [y ->]. exists 2, c1. split; [cbn; lia|]. cbn [app].
        eapply (goes_trans 1 1); [apply H1|]. eapply goes_jump; [|rewrite Tm in Ft by auto; exact Ft].
        cbn [AsmModel.step set_flags fl]. unfold c1. rewrite Em, Nat.eqb_refl. reflexivity. }
      assert (H2 : forall l y, goes 2 (Ins (CmpI X0 (Z.of_nat mt)) :: Ins (Beq l) :: y) m s y (set_flags c1 m) s).
      { intros l y. eapply (goes_trans 1 1); [apply H1|]. apply goes_ins. cbn [AsmModel.step set_flags fl]. unfold c1. apply Nat.eqb_neq in Nm. rewrite Nm. destruct (tag <? mt); auto. }
      assert (Sf : forall c m, set_flags c (set_flags c1 m) = set_flags c m) by reflexivity.
      destruct (Nat.eqb_spec lo mt) as [El|Nl].
      { (* no tags below *)
        destruct (emit_search k f pc (S mt) hi1 high d label) as [[y lb]|] eqn:E1; [|discriminate]. injection E as <- <-.
        edestruct (IH (S mt) hi1 high label y lb (pre ++ [Ins (CmpI X0 (Z.of_nat mt)); Ins (Beq (LPc f mq))]) rest (set_flags c1 m)) as [n [c [Ln G]]];
          [exact E1|exact Sh|lia|rewrite <- app_assoc; exact Fi|exact Nd|rewrite <- Th by lia; exact Ft|exact Rx|].
        exists (2 + n), c. split; [cbn; lia|]. eapply goes_trans; [apply H2|exact G]. }
      destruct (Nat.eqb_spec (S mt) hi1) as [Eh|Nh].
      { (* no tags above *)
        destruct (emit_search k f pc lo mt low d label) as [[y lb]|] eqn:E1; [|discriminate]. injection E as <- <-.
        edestruct (IH lo mt low label y lb (pre ++ [Ins (CmpI X0 (Z.of_nat mt)); Ins (Beq (LPc f mq))]) rest (set_flags c1 m)) as [n [c [Ln G]]];
          [exact E1|exact Sl|lia|rewrite <- app_assoc; exact Fi|exact Nd|rewrite <- Tl by lia; exact Ft|exact Rx|].
        exists (2 + n), c. split; [cbn; lia|]. eapply goes_trans; [apply H2|exact G]. }
      destruct (single_target lo mt low d) as [[q|]|] eqn:Sg; [| |discriminate].
      + destruct (emit_search k f pc (S mt) hi1 high d label) as [[y lb]|] eqn:E1; [|discriminate]. injection E as <- <-.
        destruct (Nat.lt_ge_cases tag mt) as [Lt|Ge].
        * assert (target_of low d tag = q).
          { unfold target_of, single_target in *. destruct low as [|[a q'] [|? ?]]; cbn; [congruence| |discriminate].
            destruct (S lo =? mt) eqn:Q1; [|discriminate]. destruct (lo =? a) eqn:Q2; [|discriminate]. apply Nat.eqb_eq in Q1, Q2. subst.
            replace tag with a by lia. rewrite Nat.eqb_refl. congruence. }
          exists 3, c1. split; [cbn; lia|]. cbn [app]. eapply (goes_trans 2 1); [apply H2|]. eapply goes_jump; [|rewrite Tl, H in Ft by auto; exact Ft].
          cbn [AsmModel.step set_flags fl]. unfold c1. apply Nat.eqb_neq in Nm. rewrite Nm. apply Nat.ltb_lt in Lt. rewrite Lt. reflexivity.
        * edestruct (IH (S mt) hi1 high label y lb (pre ++ [Ins (CmpI X0 (Z.of_nat mt)); Ins (Beq (LPc f mq)); Ins (Bcc (LPc f q))]) rest (set_flags c1 m)) as [n [c [Ln G]]];
            [exact E1|exact Sh|lia|rewrite <- app_assoc; exact Fi|exact Nd|rewrite <- Th by lia; exact Ft|exact Rx|].
          exists (2 + (1 + n)), c. split; [cbn; lia|]. cbn [app]. eapply goes_trans; [apply H2|]. eapply goes_trans; [|exact G]. apply goes_ins.
          cbn [AsmModel.step set_flags fl]. unfold c1. apply Nat.eqb_neq in Nm. rewrite Nm. apply Nat.ltb_ge in Ge. rewrite Ge. reflexivity.
      + destruct (emit_search k f pc (S mt) hi1 high d (S label)) as [[y lb]|] eqn:E1; [|discriminate].
        destruct (emit_search k f pc lo mt low d lb) as [[z lb2]|] eqn:E2; [|discriminate]. injection E as <- <-.
        assert (Fi2 : file = (pre ++ [Ins (CmpI X0 (Z.of_nat mt)); Ins (Beq (LPc f mq)); Ins (Bcc (LSearch f pc label))] ++ y) ++ Lab (LSearch f pc label) :: z ++ rest).
        { rewrite Fi. rewrite <- !app_assoc. cbn [app]. rewrite <- !app_assoc. reflexivity. }
        destruct (Nat.lt_ge_cases tag mt) as [Lt|Ge].
        * edestruct (IH lo mt low lb z lb2 ((pre ++ [Ins (CmpI X0 (Z.of_nat mt)); Ins (Beq (LPc f mq)); Ins (Bcc (LSearch f pc label))] ++ y) ++ [Lab (LSearch f pc label)]) rest (set_flags c1 m)) as [n [c [Ln G]]];
            [exact E2|exact Sl|lia|rewrite Fi2, <- (app_assoc _ [_]); reflexivity|exact Nd|rewrite <- Tl by lia; exact Ft|exact Rx|].
          exists (2 + (1 + (1 + n))), c. split; [cbn [app length]; rewrite app_length; cbn; lia|]. cbn [app]. eapply goes_trans; [apply H2|].
          eapply goes_trans; [|eapply goes_trans; [apply goes_lab|exact G]]. eapply goes_jump.
          -- cbn [AsmModel.step set_flags fl]. unfold c1. apply Nat.eqb_neq in Nm. rewrite Nm. apply Nat.ltb_lt in Lt. rewrite Lt. reflexivity.
          -- eapply find_unique; [exact Nd|exact Fi2|exact I].
        * edestruct (IH (S mt) hi1 high (S label) y lb (pre ++ [Ins (CmpI X0 (Z.of_nat mt)); Ins (Beq (LPc f mq)); Ins (Bcc (LSearch f pc label))]) (Lab (LSearch f pc label) :: z ++ rest) (set_flags c1 m)) as [n [c [Ln G]]];
            [exact E1|exact Sh|lia| |exact Nd|rewrite <- Th by lia; exact Ft|exact Rx|].
          { rewrite Fi2, <- !app_assoc. reflexivity. }
          exists (2 + (1 + n)), c. split; [cbn [app length]; rewrite app_length; cbn; lia|]. cbn [app]. rewrite <- app_assoc. eapply goes_trans; [apply H2|]. eapply goes_trans; [|exact G]. apply goes_ins.
          cbn [AsmModel.step set_flags fl]. unfold c1. apply Nat.eqb_neq in Nm. rewrite Nm. apply Nat.ltb_ge in Ge. rewrite Ge. reflexivity.
  Qed.
End search.

(** ** The search can always be generated *)

Lemma half_lt : forall n, 0 < n -> n / 2 < n.
Proof. intros n H. apply Nat.div_lt; lia. Qed.

(** For targets in order and in range the assertion of GetSingleTarget never fails. *)
Theorem search_emitted : forall k f pc d lo hi1 ts label, length ts <= k -> sorted_targets ts ->
  (forall t, In t ts -> lo <= fst t < hi1) -> exists x label', emit_search k f pc lo hi1 ts d label = Some (x, label').
Proof.
  intros k f pc d. induction k as [|k IH]; intros lo hi1 ts label L So Rg.
  - destruct ts; [|cbn in L; lia]. cbn. eauto.
  - assert (Sg : forall lo hi1 ts, (forall t, In t ts -> lo <= fst t < hi1) ->
      single_target lo hi1 ts d = Some None \/ exists q, single_target lo hi1 ts d = Some (Some q)).
    { intros lo0 hi0 [|[a q] [|? ?]] R; cbn [single_target]; eauto. destruct (Nat.eqb_spec (S lo0) hi0); eauto. specialize (R _ (or_introl eq_refl)). cbn in R.
      destruct (Nat.eqb_spec lo0 a); eauto.
      lia. }
    cbn [emit_search]. destruct (Sg lo hi1 ts Rg) as [Q|[q Q]]; rewrite Q; eauto.
    assert (Lp : 0 < length ts) by (destruct ts; [discriminate|cbn; lia]). pose proof (half_lt _ Lp) as Hm.
    destruct (nth_error ts (length ts / 2)) as [[mt mq]|] eqn:Nm; [|apply nth_error_None in Nm; lia].
    pose proof (split_mid _ _ _ Nm) as Sp.
    assert (Ll : length (firstn (length ts / 2) ts) <= k) by (rewrite firstn_length; lia).
    assert (Lh : length (skipn (length ts / 2 + 1) ts) <= k) by (rewrite skipn_length; lia).
    revert Sp Ll Lh. generalize (firstn (length ts / 2) ts) as low, (skipn (length ts / 2 + 1) ts) as high. intros low high Sp Ll Lh.
    rewrite Sp in So. destruct (sorted_mid _ _ _ So) as [Lo [Hi [Sl Sh]]]. cbn [fst] in *.
    assert (Rl : forall t, In t low -> lo <= fst t < mt) by (intros t I; split; [apply Rg; rewrite Sp; apply in_or_app; auto|auto]).
    assert (Rh : forall t, In t high -> S mt <= fst t < hi1).
    { intros t I. split; [specialize (Hi t I); lia|]. apply Rg. rewrite Sp. apply in_or_app. right. right. auto. }
    assert (Hh : forall lb, exists x label', emit_search k f pc (S mt) hi1 high d lb = Some (x, label')) by (intros; apply IH; auto).
    assert (Hl : forall lb, exists x label', emit_search k f pc lo mt low d lb = Some (x, label')) by (intros; apply IH; auto).
    destruct (lo =? mt); [destruct (Hh label) as [x [lb ->]]; eauto|].
    destruct (S mt =? hi1); [destruct (Hl label) as [x [lb ->]]; eauto|].
    destruct (Sg lo mt low Rl) as [Q2|[q Q2]]; rewrite Q2.
    + destruct (Hh (S label)) as [x [lb ->]]. destruct (Hl lb) as [y [lb2 ->]]. eauto.
    + destruct (Hh label) as [x [lb ->]]. eauto.
Qed.

(** Both together: for the targets of a select instruction the code found is that of the
    interpreter. *)
Theorem search_like_interpreter : forall callf tu file block statics args entry f pc num_tags ts d tag pre rest m s r' q,
  sorted_targets ts -> (forall t, In t ts -> fst t < num_tags) -> select_target num_tags ts d tag = Some q ->
  exists x label, emit_search (length ts) f pc 0 num_tags ts d 0 = Some (x, label) /\
    (file = pre ++ x ++ rest -> NoDup (labels_of file) -> find_pos (LPc f q) file = Some r' -> rf m X0 = WInt (Z.of_nat tag) ->
     exists n c, n <= length x /\ goes callf tu file block statics args entry n (x ++ rest) m s r' (set_flags c m) s).
Proof.
  intros callf tu file block statics args entry f pc num_tags ts d tag pre rest m s r' q So Rg Se.
  destruct (search_emitted (length ts) f pc d 0 num_tags ts 0) as [x [lb E]]; auto; [intros t I; specialize (Rg t I); lia|].
  exists x, lb. split; auto. intros Fi Nd Ft Rx.
  assert (Lt : tag < num_tags).
  { unfold select_target in Se. destruct ts; [discriminate|]. destruct (tag <? num_tags) eqn:Lt; [|discriminate]. apply Nat.ltb_lt. exact Lt. }
  assert (Q : target_of ts d tag = q).
  { assert (Ne : ts <> []) by (intros ->; discriminate).
    destruct (select_target_correct num_tags ts d tag So Ne Lt) as [q' [E' [A Bd]]]. rewrite Se in E'. injection E' as <-. unfold target_of.
    destruct (assoc tag ts) as [q0|] eqn:Q.
    - symmetry. apply A. clear -Q. induction ts as [|[j z] ts IH]; cbn in Q; [discriminate|]. destruct (tag =? j) eqn:J; [|right; auto].
      injection Q as ->. apply Nat.eqb_eq in J. subst. left. reflexivity.
    - symmetry. apply Bd. clear -Q. induction ts as [|[j z] ts IH]; cbn in *; [tauto|]. destruct (tag =? j) eqn:J; [discriminate|]. apply Nat.eqb_neq in J.
      intros [->|I]; [congruence|]. apply IH; auto. }
  eapply (search_correct callf tu file block statics args entry (length ts) f pc tag d r' s 0 num_tags ts 0 x lb pre rest m); auto; [lia|]. rewrite Q. auto.
Qed.
