(** * lib/tc.c, and of lib/compile.c what is done with the memory of type checked expressions. *)
From Coq Require Import List Arith Lia Bool.
From Verif Require Import CodeModel CompileModel.
From Verif Require CompileStatic.
Import ListNotations.
Notation length := List.length.

(** ** The model *)

(** lib/tc.h:86-320: a node without its children (and without locations and names). *)
Inductive label :=
| LType | LVar (v : var) | LLet (recursive : bool) | LStruct | LCopy | LUnion (tag : nat) | LSelect (num_tags : nat) (tags : list nat)
| LAccess (is_struct : bool) (tag : nat) | LFunc (scope : list var) | LApply | LList | LLiteral (letters : list nat).
(** The children are in the order in which lib/tc.c frees them; [None] is NULL. *)
Record node := mk { n_lab : label; n_kids : list (option nat); n_rc : nat }.
(** Nodes are numbered as they are made, numbers are not used again; [None] is not allocated. *)
Record mem := mk_mem { cell : nat -> option node; next : nat }.
Definition empty : mem := mk_mem (fun _ => None) 0.
Definition set (m : mem) (a : nat) (x : option node) : mem := mk_mem (fun b => if b =? a then x else cell m b) (next m).

(** The use of memory that is not allocated (any more), or not ended before the given number of steps. *)
Inductive stop := Dangling | Timeout.
Inductive out (A : Type) := Ok (a : A) | Stop (w : stop).
Arguments Ok {A}. Arguments Stop {A}.
Definition bind {A B} (x : out A) (k : A -> out B) : out B := match x with Ok a => k a | Stop w => Stop w end.
Notation "'do' p <- x ; k" := (bind x (fun p => k)) (at level 200, p pattern, x at level 100, k at level 200).
Definition node_at (m : mem) (a : nat) : out node := match cell m a with Some n => Ok n | None => Stop Dangling end.

(** lib/tc.c:33-41 FbleNewTcRaw.  The children are given here; lib/compile.c fills them in one by one
    later, when nothing else refers to the node. *)
Definition new (m : mem) (l : label) (ks : list (option nat)) : mem * nat :=
  (mk_mem (fun b => if b =? next m then Some (mk l ks 1) else cell m b) (S (next m)), next m).
(** lib/tc.c:44-48 FbleCopyTc. *)
Definition copy (m : mem) (a : nat) : out mem :=
  do n <- node_at m a; Ok (set m a (Some (mk (n_lab n) (n_kids n) (S (n_rc n))))).
(** lib/tc.c:51-183 FbleFreeTc and 25-30 FreeTcBinding, of the nodes [ws] one after the other; the
    children of a node whose count becomes 0 are next.  (The code frees the node after them.) *)
Fixpoint free_list (f : nat) (m : mem) (ws : list (option nat)) : out mem :=
  match f with
  | O => Stop Timeout
  | S f' =>
    match ws with
    | [] => Ok m
    | None :: r => free_list f' m r
    | Some a :: r =>
      do n <- node_at m a;
      match n_rc n with
      | O => Stop Dangling
      | S O => free_list f' (set m a None) (n_kids n ++ r)
      | S k => free_list f' (set m a (Some (mk (n_lab n) (n_kids n) k))) r
      end
    end
  end.
Definition free (f : nat) (m : mem) (a : nat) : out mem := free_list f m [Some a].

(** lib/compile.c:352-493 RewriteVars: the children one after the other; NULL stays NULL (lines 398-401:
    only a struct copy has such children). *)
Definition rewrite_each (go : mem -> nat -> out (mem * nat)) : mem -> list (option nat) -> out (mem * list (option nat)) :=
  fix each (m : mem) (ks : list (option nat)) : out (mem * list (option nat)) :=
    match ks with
    | [] => Ok (m, [])
    | None :: r => do (m1, rs) <- each m r; Ok (m1, None :: rs)
    | Some k :: r => do (m1, b) <- go m k; do (m2, rs) <- each m1 r; Ok (m2, Some b :: rs)
    end.
Fixpoint copy_each (m : mem) (ks : list (option nat)) : out mem :=
  match ks with [] => Ok m | None :: r => copy_each m r | Some k :: r => do m1 <- copy m k; copy_each m1 r end.
(** lib/compile.c:352-493 RewriteVars. *)
Fixpoint rewrite (f : nat) (statics : list var) (off : nat) (m : mem) (a : nat) : out (mem * nat) :=
  match f with
  | O => Stop Timeout
  | S f' =>
    do n <- node_at m a;
    match n_lab n with
    | LType | LLiteral _ => do m1 <- copy m a; Ok (m1, a)
    | LFunc scope => do m1 <- copy_each m (n_kids n); Ok (new m1 (LFunc (map (rewrite_var statics off) scope)) (n_kids n))
    | LVar v => Ok (new m (LVar (rewrite_var statics off v)) [])
    | l => do (m1, ks) <- rewrite_each (rewrite f' statics off) m (n_kids n); Ok (new m1 l ks)
    end
  end.
(** lib/compile.c:1172-1191: the loop that merges nested function values (CompileModel.merge_loop). *)
Fixpoint merge (f : nat) (m : mem) (statics : list var) (off nargs a : nat) : out (list var * nat * nat * nat) :=
  match f with
  | O => Stop Timeout
  | S f' =>
    do n <- node_at m a;
    match n_lab n, n_kids n with
    | LFunc scope, [Some b] => merge f' m (map (rewrite_var statics off) scope) nargs (nargs + 1) b
    | _, _ => Ok (statics, off, nargs, a)
    end
  end.
(** lib/compile.c:1149-1193 and 1215: for a function value: merge, rewrite; then the code of the result
    is made, which reads it only ([k]), and it is freed.  Here: the number of arguments, the new
    body, the memory while its code is made, and the memory at the end. *)
Definition func_value (f : nat) (m : mem) (a : nat) : out (nat * nat * mem * mem) :=
  do n <- node_at m a;
  match n_lab n, n_kids n with
  | LFunc scope, [Some body] =>
    do (p, b) <- merge f m (map Static (seq 0 (length scope))) 0 1 body;
    let '(statics, off, nargs) := p in
    do (m1, c) <- rewrite f statics off m b;
    do m2 <- free f m1 c;
    Ok (nargs, c, m1, m2)
  | _, _ => Stop Dangling
  end.

(** The compilation of the parts of an expression, one after the other. *)
Definition compile_each (go : mem -> nat -> out mem) : mem -> list (option nat) -> out mem :=
  fix each (m : mem) (ks : list (option nat)) : out mem :=
    match ks with [] => Ok m | None :: r => each m r | Some k :: r => do m1 <- go m k; each m1 r end.
(** lib/compile.c:887-1329 CompileExpr, as far as it uses the memory of expressions: only function values
    (1149-1221) make, copy and free nodes; everything else reads the node and compiles its parts.
    Simplification: the parts are compiled in the order in which they are stored. *)
Fixpoint compile_expr (f : nat) (m : mem) (a : nat) : out mem :=
  match f with
  | O => Stop Timeout
  | S f' =>
    do n <- node_at m a;
    match n_lab n, n_kids n with
    | LFunc scope, [Some body] =>
      do (p, b) <- merge f' m (map Static (seq 0 (length scope))) 0 1 body;
      let '(statics, off, _) := p in
      do (m1, c) <- rewrite f' statics off m b;
      do m2 <- compile_expr f' m1 c;
      free f' m2 c
    | LFunc _, _ => Stop Dangling
    | _, ks => compile_each (compile_expr f') m ks
    end
  end.
(** lib/compile.c:1438-1451 FbleCompileModule and 1454-1471 FbleCompileProgram: from the type checked
    modules on.  Each is compiled and freed. *)
Fixpoint compile_modules (f : nat) (m : mem) (ms : list nat) : out mem :=
  match ms with [] => Ok m | a :: r => do m1 <- compile_expr f m a; do m2 <- free f m1 a; compile_modules f m2 r end.

(** ** What the memory holds *)
Definition label_of (e : tc) : label :=
  match e with
  | TType => LType | TVar v => LVar v | TLet r _ _ => LLet r | TStruct _ => LStruct | TCopy _ _ => LCopy | TUnion t _ => LUnion t
  | TSelect _ n ts _ => LSelect n (map fst ts) | TAccess k _ t => LAccess k t | TFunc s _ => LFunc s | TApply _ _ => LApply | TList _ => LList | TLiteral l => LLiteral l
  end.
Definition kids_of (e : tc) : list (option tc) :=
  match e with
  | TType | TVar _ | TLiteral _ => []
  | TLet _ bs b => map Some bs ++ [Some b]
  | TStruct fs | TList fs => map Some fs
  | TCopy s fs => Some s :: fs
  | TUnion _ a => [Some a]
  | TSelect c _ ts d => Some c :: map (fun p => Some (snd p)) ts ++ [Some d]
  | TAccess _ o _ => [Some o]
  | TFunc _ b => [Some b]
  | TApply f a => [Some f; Some a]
  end.
Inductive orel (R : nat -> tc -> Prop) : option nat -> option tc -> Prop :=
| o_none : orel R None None
| o_some a e : R a e -> orel R (Some a) (Some e).
(** At [a] is the expression [e]; its parts may be shared. *)
Inductive is (m : mem) : nat -> tc -> Prop :=
| is_node a e ks rc : cell m a = Some (mk (label_of e) ks rc) -> Forall2 (orel (is m)) ks (kids_of e) -> is m a e.

(** All the nodes that others refer to. *)
Definition uses (m : mem) : list (option nat) := flat_map (fun b => match cell m b with Some n => n_kids n | None => [] end) (seq 0 (next m)).
Definition opt_dec : forall p q : option nat, {p = q} + {p <> q}.
Proof. decide equality. apply Nat.eq_dec. Defined.
Definition times (l : list (option nat)) (a : nat) : nat := count_occ opt_dec l (Some a).
(** [refs] are the references held by callers: the count of every node is the number of times it is
    referred to, and it is not 0; what is not allocated is not referred to. *)
Record exact (m : mem) (refs : list nat) : Prop := {
  x_bound : forall a, next m <= a -> cell m a = None;
  x_live : forall a n, cell m a = Some n -> 0 < n_rc n /\ n_rc n = times (map Some refs) a + times (uses m) a;
  x_dead : forall a, cell m a = None -> times (map Some refs) a + times (uses m) a = 0;
  x_down : forall a n b, cell m a = Some n -> In (Some b) (n_kids n) -> b < a }.
(** [b] is a part of what is at [a]. *)
Inductive reaches (m : mem) : nat -> nat -> Prop :=
| r_here a : reaches m a a
| r_kid a n b c : cell m a = Some n -> In (Some b) (n_kids n) -> reaches m b c -> reaches m a c.

(** ** Counting *)
Definition one (a : nat) (p : option nat) : nat := match p with Some b => if b =? a then 1 else 0 | None => 0 end.
Fixpoint cnt (a : nat) (l : list (option nat)) : nat := match l with [] => 0 | p :: r => one a p + cnt a r end.
Lemma cnt_app : forall a l k, cnt a (l ++ k) = cnt a l + cnt a k.
Proof. intros a l k. induction l; cbn; lia. Qed.
Lemma one_same : forall a, one a (Some a) = 1.
Proof. intros a. cbn. rewrite Nat.eqb_refl. auto. Qed.
Lemma cnt_in : forall a l, In (Some a) l -> 0 < cnt a l.
Proof. intros a l. induction l as [|p l IH]; intros I; [destruct I|]. cbn. destruct I as [->|I]; [rewrite one_same; lia|apply IH in I; lia]. Qed.
Lemma one_pos : forall a p, 0 < one a p -> p = Some a.
Proof. intros a [b|] H; cbn in H; [|lia]. destruct (b =? a) eqn:E; [apply Nat.eqb_eq in E; congruence|lia]. Qed.
Lemma in_cnt : forall a l, 0 < cnt a l -> In (Some a) l.
Proof. intros a l. induction l as [|p l IH]; cbn; intros H; [lia|]. destruct (Nat.eq_dec (one a p) 0) as [E|E]; [right; apply IH; lia|left; apply one_pos; lia]. Qed.
Lemma times_cnt : forall l a, times l a = cnt a l.
Proof.
  intros l a. unfold times. induction l as [|p l IH]; cbn; auto. rewrite IH. destruct (opt_dec p (Some a)) as [->|N]; [rewrite one_same; lia|].
  destruct p as [b|]; auto. cbn. destruct (Nat.eqb_spec b a) as [Eb|Nb]; [subst; congruence|lia].
Qed.
Fixpoint sum (n : nat) (F : nat -> nat) : nat := match n with O => 0 | S k => F k + sum k F end.
Lemma sum_ext : forall n F G, (forall k, k < n -> F k = G k) -> sum n F = sum n G.
Proof. induction n as [|n IH]; intros F G H; cbn; auto. rewrite H, (IH F G); auto. Qed.
Lemma sum_change : forall n F G b, b < n -> (forall c, c <> b -> F c = G c) -> sum n G + F b = sum n F + G b.
Proof.
  induction n as [|n IH]; intros F G b L H; [lia|]. cbn. destruct (Nat.eq_dec b n) as [->|N].
  - rewrite (sum_ext n G F); [lia|]. intros k K. symmetry. apply H. lia.
  - specialize (IH F G b ltac:(lia) H). rewrite (H n) by auto. lia.
Qed.
Lemma sum_le : forall n F k, k < n -> F k <= sum n F.
Proof. induction n as [|n IH]; intros F k L; [lia|]. cbn. destruct (Nat.eq_dec k n) as [->|N]; [lia|]. specialize (IH F k ltac:(lia)). lia. Qed.
Lemma sum_pos : forall n F, 0 < sum n F -> exists k, k < n /\ 0 < F k.
Proof.
  induction n as [|n IH]; intros F H; cbn in H; [lia|]. destruct (Nat.eq_dec (F n) 0) as [E|E]; [|exists n; lia].
  destruct (IH F ltac:(lia)) as [k [L K]]. exists k. lia.
Qed.
Definition kids_at (m : mem) (b : nat) : list (option nat) := match cell m b with Some n => n_kids n | None => [] end.
Definition mref (m : mem) (a : nat) : nat := sum (next m) (fun b => cnt a (kids_at m b)).
Lemma uses_mref : forall m a, times (uses m) a = mref m a.
Proof.
  intros m a. rewrite times_cnt. unfold uses, mref. induction (next m) as [|n IH]; auto. rewrite seq_S, flat_map_app, cnt_app, IH. cbn. rewrite app_nil_r. unfold kids_at. lia.
Qed.
Record inv (m : mem) (c : nat -> nat) : Prop := {
  i_live : forall a n, cell m a = Some n -> a < next m /\ 0 < n_rc n /\ n_rc n = c a + mref m a;
  i_none : forall a, cell m a = None -> c a + mref m a = 0;
  i_down : forall a n b, cell m a = Some n -> In (Some b) (n_kids n) -> b < a }.
Lemma exact_inv : forall m refs, exact m refs <-> inv m (fun a => cnt a (map Some refs)).
Proof.
  intros m refs. split; intros H.
  - destruct H as [A B C D]. constructor; auto.
    + intros a n E. destruct (B a n E) as [P Q]. rewrite times_cnt, uses_mref in Q. split; auto. destruct (le_lt_dec (next m) a) as [L|L]; auto. rewrite A in E by auto. discriminate.
    + intros a E. specialize (C a E). rewrite times_cnt, uses_mref in C. lia.
  - destruct H as [A B C]. constructor; auto.
    + intros a L. destruct (cell m a) as [n|] eqn:E; auto. destruct (A a n E). lia.
    + intros a n E. destruct (A a n E) as [L [P Q]]. rewrite times_cnt, uses_mref. lia.
    + intros a E. rewrite times_cnt, uses_mref. apply B. exact E.
Qed.
Lemma inv_ext : forall m c c', inv m c -> (forall a, c a = c' a) -> inv m c'.
Proof. intros m c c' [A B C] E. constructor; auto; intros; rewrite <- E; auto. Qed.
Lemma mref_set : forall m b x a, b < next m -> mref (set m b x) a + cnt a (kids_at m b) = mref m a + cnt a (match x with Some n => n_kids n | None => [] end).
Proof.
  intros m b x a L. unfold mref. cbn [next set].
  pose proof (sum_change (next m) (fun c => cnt a (kids_at m c)) (fun c => cnt a (kids_at (set m b x) c)) b L) as E. cbn beta in E.
  rewrite E. { f_equal. unfold kids_at, set. cbn. rewrite Nat.eqb_refl. auto. }
  intros c N. unfold kids_at, set. cbn. destruct (Nat.eqb_spec c b); [contradiction|auto].
Qed.
Lemma mref_kid : forall m b n a, b < next m -> cell m b = Some n -> In (Some a) (n_kids n) -> 0 < mref m a.
Proof.
  intros m b n a L E I. unfold mref. pose proof (sum_le (next m) (fun c => cnt a (kids_at m c)) b L) as S. cbn beta in S. unfold kids_at in S at 1. rewrite E in S. apply cnt_in in I. lia.
Qed.
Lemma live_kid : forall m c b n a, inv m c -> cell m b = Some n -> In (Some a) (n_kids n) -> exists k, cell m a = Some k.
Proof.
  intros m c b n a I E K. destruct (cell m a) eqn:H; eauto. pose proof (i_none _ _ I a H). destruct (i_live _ _ I b n E) as [L _]. pose proof (mref_kid m b n a L E K). lia.
Qed.
Lemma live_c : forall m c a, inv m c -> 0 < c a -> exists k, cell m a = Some k.
Proof. intros m c a I L. destruct (cell m a) eqn:H; eauto. pose proof (i_none _ _ I a H). lia. Qed.

(** ** Operations *)
Definition ext (m m' : mem) : Prop := forall a n, cell m a = Some n -> exists k, cell m' a = Some (mk (n_lab n) (n_kids n) k).
Definition sub (m m' : mem) : Prop := forall a n, cell m' a = Some n -> exists k, cell m a = Some (mk (n_lab n) (n_kids n) k).
Lemma ext_refl : forall m, ext m m. Proof. intros m a [l ks k] E. exists k. exact E. Qed.
Lemma ext_trans : forall a b c, ext a b -> ext b c -> ext a c.
Proof. intros a b c A B x n E. destruct (A x n E) as [k K]. destruct (B x _ K) as [j J]. exists j. exact J. Qed.
Lemma sub_refl : forall m, sub m m. Proof. intros m a [l ks k] E. exists k. exact E. Qed.
Lemma sub_trans : forall a b c, sub a b -> sub b c -> sub a c.
Proof. intros a b c A B x n E. destruct (B x n E) as [k K]. destruct (A x _ K) as [j J]. exists j. exact J. Qed.
Lemma fold_bigger : forall {A} (g : A -> nat) (l : list A) x, In x l -> g x <= fold_right (fun e n => g e + n) 0 l.
Proof. intros A g l x I. induction l as [|y l IH]; [destruct I|]. cbn. destruct I as [->|I]; [lia|]. specialize (IH I). lia. Qed.
Lemma kid_smaller : forall e d, In (Some d) (kids_of e) -> size d < size e.
Proof.
  intros e d I. destruct e; cbn [kids_of size] in *; try (destruct I; fail).
  - apply in_app_or in I. destruct I as [I|[I|[]]]; [|injection I as ->; lia]. apply in_map_iff in I. destruct I as [x [E I]]. injection E as ->. apply (fold_bigger size) in I. lia.
  - apply in_map_iff in I. destruct I as [x [E I]]. injection E as ->. apply (fold_bigger size) in I. lia.
  - destruct I as [I|I]; [injection I as ->; lia|]. apply (fold_bigger (fun e => match e with Some e => size e | None => 0 end)) in I. lia.
  - destruct I as [I|[]]. injection I as ->. lia.
  - destruct I as [I|I]; [injection I as ->; lia|]. apply in_app_or in I. destruct I as [I|[I|[]]]; [|injection I as ->; lia].
    apply in_map_iff in I. destruct I as [x [E I]]. injection E as <-. apply (fold_bigger (fun p => size (snd p))) in I. lia.
  - destruct I as [I|[]]. injection I as ->. lia.
  - destruct I as [I|[]]. injection I as ->. lia.
  - destruct I as [I|[I|[]]]; injection I as ->; lia.
  - apply in_map_iff in I. destruct I as [x [E I]]. injection E as ->. apply (fold_bigger size) in I. lia.
Qed.
Lemma forall2_mono : forall (R S : nat -> tc -> Prop) ks xs, (forall a x, In (Some a) ks -> In (Some x) xs -> R a x -> S a x) -> Forall2 (orel R) ks xs -> Forall2 (orel S) ks xs.
Proof.
  intros R S ks xs H F. induction F as [|k x ks xs K F IH]; constructor; [|apply IH; intros; apply H; auto; right; auto].
  destruct K; constructor. apply H; auto; left; auto.
Qed.
Lemma is_ext : forall e m m' a, ext m m' -> is m a e -> is m' a e.
Proof.
  intros e. remember (size e) as k. revert e Heqk. induction k as [k IH] using lt_wf_ind. intros e -> m m' a E H. inversion H as [? ? ks rc C F]; subst.
  destruct (E a _ C) as [j J]. apply is_node with ks j; [exact J|]. eapply forall2_mono; [|exact F]. intros b x _ Ix Hx. eapply (IH (size x)); eauto. apply kid_smaller. exact Ix.
Qed.
Lemma is_sub : forall e m m' a c, sub m m' -> inv m' c -> (exists n, cell m' a = Some n) -> is m a e -> is m' a e.
Proof.
  intros e. remember (size e) as k. revert e Heqk. induction k as [k IH] using lt_wf_ind. intros e -> m m' a c B I [n N] H. inversion H as [? ? ks rc C F]; subst.
  destruct (B a _ N) as [j J]. rewrite C in J. injection J as J1 J2 _. apply is_node with ks (n_rc n); [rewrite J1, J2, N; destruct n; auto|].
  eapply forall2_mono; [|exact F]. intros b x Ib Ix Hx. apply (IH (size x)) with (m := m) (c := c); auto; [apply kid_smaller; exact Ix|]. eapply live_kid; [exact I|exact N|]. rewrite <- J2. exact Ib.
Qed.
Lemma set_rc_inv : forall m c c' a n k, inv m c -> cell m a = Some n -> 0 < k -> c' a + n_rc n = c a + k -> (forall b, b <> a -> c' b = c b) ->
  inv (set m a (Some (mk (n_lab n) (n_kids n) k))) c' /\ ext m (set m a (Some (mk (n_lab n) (n_kids n) k))) /\ sub m (set m a (Some (mk (n_lab n) (n_kids n) k))).
Proof.
  intros m c c' a n k I E P Q N. destruct (i_live _ _ I a n E) as [L [P0 Q0]].
  assert (M : forall b, mref (set m a (Some (mk (n_lab n) (n_kids n) k))) b = mref m b).
  { intros b. pose proof (mref_set m a (Some (mk (n_lab n) (n_kids n) k)) b L) as R. unfold kids_at in R. rewrite E in R. cbn [n_kids] in R. lia. }
  split; [constructor|split].
  - intros b x H. rewrite M. cbn in H. destruct (Nat.eqb_spec b a) as [->|Nb]; [injection H as <-; cbn; split; [exact L|split; [exact P|lia]]|]. rewrite N by auto. apply (i_live _ _ I b x H).
  - intros b H. rewrite M. cbn in H. destruct (Nat.eqb_spec b a) as [Eb|Nb]; [discriminate|]. rewrite N by auto. apply (i_none _ _ I b H).
  - intros b x d H K. cbn in H. destruct (Nat.eqb_spec b a) as [->|Nb]; [injection H as <-; apply (i_down _ _ I a n d E K)|apply (i_down _ _ I b x d H K)].
  - intros b x H. cbn. destruct (Nat.eqb_spec b a) as [->|Nb]; [rewrite E in H; injection H as <-; eauto|]. destruct x as [l ks j]. exists j. exact H.
  - intros b x H. cbn in H. destruct (Nat.eqb_spec b a) as [->|Nb]; [injection H as <-; exists (n_rc n); cbn; rewrite E; destruct n; auto|]. destruct x as [l ks j]. exists j. exact H.
Qed.
Lemma copy_ok : forall m c a, inv m c -> (exists n, cell m a = Some n) -> exists m', copy m a = Ok m' /\ inv m' (fun b => one b (Some a) + c b) /\ ext m m'.
Proof.
  intros m c a I [n E]. unfold copy, node_at. rewrite E. cbn [bind].
  destruct (set_rc_inv m c (fun b => one b (Some a) + c b) a n (S (n_rc n)) I E) as [J [X _]]; [lia|rewrite one_same; lia|intros b N; cbn; destruct (Nat.eqb_spec a b); [congruence|lia]|]. eauto.
Qed.
Lemma new_ok : forall m c l ks, inv m (fun a => cnt a ks + c a) -> inv (fst (new m l ks)) (fun b => one b (Some (next m)) + c b) /\ ext m (fst (new m l ks)).
Proof.
  intros m c l ks I. set (m' := fst (new m l ks)).
  assert (F : cell m (next m) = None) by (destruct (cell m (next m)) as [n|] eqn:E; auto; destruct (i_live _ _ I _ _ E); lia).
  assert (M : forall a, mref m' a = mref m a + cnt a ks).
  { intros a. unfold mref. change (next m') with (S (next m)). cbn [sum]. rewrite (sum_ext (next m) (fun b => cnt a (kids_at m' b)) (fun b => cnt a (kids_at m b))).
    - replace (kids_at m' (next m)) with ks; [lia|]. unfold kids_at, m'. cbn. rewrite Nat.eqb_refl. auto.
    - intros k K. unfold kids_at, m'. cbn. destruct (Nat.eqb_spec k (next m)); [lia|auto]. }
  pose proof (i_none _ _ I _ F) as Z. cbn beta in Z. split; [constructor|].
  - intros a n E. rewrite M. cbn in E. destruct (Nat.eqb_spec a (next m)) as [->|N].
    + injection E as <-. cbn [n_rc]. rewrite one_same. cbn. split; lia.
    + destruct (i_live _ _ I a n E) as [L [P Q]]. cbn beta in Q. cbn. destruct (Nat.eqb_spec (next m) a); [congruence|]. split; lia.
  - intros a E. rewrite M. cbn in E. destruct (Nat.eqb_spec a (next m)) as [Eb|N]; [discriminate|]. pose proof (i_none _ _ I a E) as Y. cbn beta in Y. cbn. destruct (Nat.eqb_spec (next m) a); [congruence|]. lia.
  - intros a n b E K. cbn in E. destruct (Nat.eqb_spec a (next m)) as [->|N]; [|apply (i_down _ _ I a n b E K)]. injection E as <-. cbn in K.
    destruct (live_c m _ b I) as [x X]; [apply cnt_in in K; cbn beta; lia|]. apply (i_live _ _ I b x X).
  - intros a n E. cbn. destruct (Nat.eqb_spec a (next m)) as [->|N]; [congruence|]. destruct n as [l0 k0 j]. exists j. exact E.
Qed.

(** ** FbleFreeTc *)
Definition rcs (m : mem) : nat := sum (next m) (fun a => match cell m a with Some n => n_rc n | None => 0 end).
Lemma rcs_set : forall m a n x, cell m a = Some n -> a < next m -> rcs (set m a x) + n_rc n = rcs m + match x with Some k => n_rc k | None => 0 end.
Proof.
  intros m a n x E L. unfold rcs. cbn [next set].
  pose proof (sum_change (next m) (fun c => match cell m c with Some n => n_rc n | None => 0 end) (fun c => match cell (set m a x) c with Some n => n_rc n | None => 0 end) a L) as S.
  cbn beta in S. rewrite E in S. rewrite S; [cbn; rewrite Nat.eqb_refl; auto|]. intros c N. cbn. destruct (Nat.eqb_spec c a); [contradiction|auto].
Qed.
Lemma free_list_ok : forall k ws m c, rcs m <= k -> inv m (fun a => cnt a ws + c a) -> exists f0 m', (forall f, f0 <= f -> free_list f m ws = Ok m') /\ inv m' c /\ sub m m'.
Proof.
  induction k as [k IHk] using lt_wf_ind. induction ws as [|[a|] ws IH]; intros m c L I.
  - exists 1, m. split; [intros [|f] Lf; [lia|auto]|split; [exact I|apply sub_refl]].
  - destruct (live_c m _ a I) as [n E]; [cbn; rewrite Nat.eqb_refl; lia|]. destruct (i_live _ _ I a n E) as [La [P Q]]. cbn [cnt] in Q. rewrite one_same in Q.
    destruct (n_rc n) as [|[|j]] eqn:RC; [lia| |].
    + pose proof (rcs_set m a n None E La) as R. rewrite RC in R.
      assert (M : forall b, mref (set m a None) b + cnt b (n_kids n) = mref m b).
      { intros b. pose proof (mref_set m a None b La) as X. unfold kids_at in X. rewrite E in X. cbn [cnt] in X. lia. }
      assert (I' : inv (set m a None) (fun b => cnt b (n_kids n ++ ws) + c b)).
      { constructor.
        - intros b x H. cbn in H. destruct (Nat.eqb_spec b a) as [Eb|N]; [discriminate|]. destruct (i_live _ _ I b x H) as [L' [P' Q']]. cbn [cnt one] in Q'. destruct (Nat.eqb_spec a b); [congruence|].
          rewrite cnt_app. specialize (M b). cbn [next set]. split; lia.
        - intros b H. rewrite cnt_app. specialize (M b). cbn in H. destruct (Nat.eqb_spec b a) as [->|N]; [lia|]. pose proof (i_none _ _ I b H) as Z. cbn [cnt one] in Z. lia.
        - intros b x d H K. cbn in H. destruct (Nat.eqb_spec b a) as [Eb|N]; [discriminate|]. apply (i_down _ _ I b x d H K). }
      destruct (IHk (rcs (set m a None)) ltac:(lia) (n_kids n ++ ws) _ c (le_n _) I') as [f0 [m' [F [J B]]]].
      exists (S f0), m'. split; [|split; [exact J|]].
      * intros [|f] Lf; [lia|]. cbn [free_list]. unfold node_at. rewrite E. cbn [bind]. rewrite RC. apply F. lia.
      * eapply sub_trans; [|exact B]. intros b x H. cbn in H. destruct (Nat.eqb_spec b a) as [Eb|N]; [discriminate|]. destruct x as [l ks i]. exists i. exact H.
    + pose proof (rcs_set m a n (Some (mk (n_lab n) (n_kids n) (S j))) E La) as R. rewrite RC in R. cbn [n_rc] in R.
      destruct (set_rc_inv m _ (fun b => cnt b ws + c b) a n (S j) I E) as [I' [_ B']]; [lia|cbn [cnt]; rewrite one_same; lia|intros b N; cbn [cnt one]; destruct (Nat.eqb_spec a b); [congruence|lia]|].
      destruct (IHk (rcs (set m a (Some (mk (n_lab n) (n_kids n) (S j))))) ltac:(lia) ws _ c (le_n _) I') as [f0 [m' [F [J B]]]].
      exists (S f0), m'. split; [|split; [exact J|eapply sub_trans; eauto]].
      intros [|f] Lf; [lia|]. cbn [free_list]. unfold node_at. rewrite E. cbn [bind]. rewrite RC. apply F. lia.
  - destruct (IH m c L I) as [f0 [m' [F J]]]. exists (S f0), m'. split; auto. intros [|f] Lf; [lia|]. cbn [free_list]. apply F. lia.
Qed.

(** ** RewriteVars *)
Lemma each_ok : forall (go : nat -> mem -> nat -> out (mem * nat)) (F : tc -> tc) xs,
  (forall x, In (Some x) xs -> forall m c a, inv m c -> is m a x -> exists f0 m' b, (forall f, f0 <= f -> go f m a = Ok (m', b)) /\ inv m' (fun d => one d (Some b) + c d) /\ ext m m' /\ is m' b (F x)) ->
  forall m c ks, inv m c -> Forall2 (orel (is m)) ks xs ->
  exists f0 m' ks', (forall f, f0 <= f -> rewrite_each (go f) m ks = Ok (m', ks')) /\ inv m' (fun d => cnt d ks' + c d) /\ ext m m' /\ Forall2 (orel (is m')) ks' (map (option_map F) xs).
Proof.
  intros go F. induction xs as [|x xs IH]; intros G m c ks I Fs; inversion Fs as [|k ? ks0 ? K Fs']; subst.
  - exists 0, m, []. split; [auto|]. split; [exact I|]. split; [apply ext_refl|constructor].
  - inversion K as [|a e Ka]; subst.
    + destruct (IH ltac:(intros; apply G; auto; right; auto) m c ks0 I Fs') as [f0 [m' [ks' [R [J [X Y]]]]]].
      exists f0, m', (None :: ks'). split; [intros f L; cbn [rewrite_each]; rewrite R by auto; auto|]. split; [exact J|]. split; [exact X|]. constructor; [constructor|exact Y].
    + destruct (G e ltac:(left; auto) m c a I Ka) as [f1 [m1 [b [R1 [J1 [X1 Y1]]]]]].
      assert (Fs1 : Forall2 (orel (is m1)) ks0 xs) by (eapply forall2_mono; [|exact Fs']; intros; eapply is_ext; eauto).
      destruct (IH ltac:(intros; apply G; auto; right; auto) m1 _ ks0 J1 Fs1) as [f0 [m' [ks' [R [J [X Y]]]]]].
      exists (f0 + f1), m', (Some b :: ks'). split; [intros f L; cbn [rewrite_each]; rewrite R1 by lia; cbn [bind]; rewrite R by lia; auto|].
      split; [eapply inv_ext; [exact J|]; intros d; cbn [cnt]; lia|]. split; [eapply ext_trans; eauto|]. constructor; [|exact Y]. constructor. eapply is_ext; eauto.
Qed.
Lemma copy_each_ok : forall ks m c, inv m c -> (forall a, In (Some a) ks -> exists n, cell m a = Some n) ->
  exists m', copy_each m ks = Ok m' /\ inv m' (fun d => cnt d ks + c d) /\ ext m m'.
Proof.
  induction ks as [|[a|] ks IH]; intros m c I L; cbn [copy_each].
  - exists m. split; auto. split; [exact I|apply ext_refl].
  - destruct (copy_ok m c a I (L a ltac:(left; auto))) as [m1 [E [I1 X1]]]. rewrite E. cbn [bind].
    destruct (IH m1 _ I1) as [m' [E' [I' X']]]; [intros b Ib; destruct (L b ltac:(right; auto)) as [n N]; destruct (X1 b n N) as [k K]; eauto|].
    exists m'. split; auto. split; [eapply inv_ext; [exact I'|]; intros d; cbn [cnt]; lia|eapply ext_trans; eauto].
  - apply IH; auto. intros a Ia. apply L. right. auto.
Qed.
Lemma rewrite_ok : forall statics off e m c a, inv m c -> is m a e ->
  exists f0 m' b, (forall f, f0 <= f -> rewrite f statics off m a = Ok (m', b)) /\ inv m' (fun d => one d (Some b) + c d) /\ ext m m' /\ is m' b (rewrite_vars statics off e).
Proof.
  intros statics off e. remember (size e) as k. revert e Heqk. induction k as [k IH] using lt_wf_ind. intros e -> m c a I H. inversion H as [? ? ks rc C F]; subst.
  assert (EACH : forall l, (forall f, rewrite (S f) statics off m a = do (m1, ks) <- rewrite_each (rewrite f statics off) m ks; Ok (new m1 l ks)) ->
    label_of (rewrite_vars statics off e) = l -> kids_of (rewrite_vars statics off e) = map (option_map (rewrite_vars statics off)) (kids_of e) ->
    exists f0 m' b, (forall f, f0 <= f -> rewrite f statics off m a = Ok (m', b)) /\ inv m' (fun d => one d (Some b) + c d) /\ ext m m' /\ is m' b (rewrite_vars statics off e)).
  { intros l R El Ek.
    destruct (each_ok (fun f => rewrite f statics off) (rewrite_vars statics off) (kids_of e)) with (m := m) (c := c) (ks := ks) as [f0 [m1 [ks' [R1 [I1 [X1 Y1]]]]]]; auto.
    { intros x Ix m0 c0 a0 I0 H0. eapply (IH (size x)); eauto. apply kid_smaller. exact Ix. }
    destruct (new_ok m1 c l ks' I1) as [I2 X2]. exists (S f0), (fst (new m1 l ks')), (next m1). split; [|split; [exact I2|split; [eapply ext_trans; eauto|]]].
    - intros [|f] L; [lia|]. rewrite R, R1 by lia. reflexivity.
    - apply is_node with ks' 1; [cbn; rewrite Nat.eqb_refl, El; auto|]. rewrite Ek. eapply forall2_mono; [|exact Y1]. intros b x _ _ Hx. eapply is_ext; eauto. }
  assert (MAP : forall l : list tc, map Some (map (rewrite_vars statics off) l) = map (option_map (rewrite_vars statics off)) (map Some l)) by (intros; rewrite !map_map; auto).
  assert (COPY : forall l, (forall f, rewrite (S f) statics off m a = do m1 <- copy m a; Ok (m1, a)) -> rewrite_vars statics off e = e -> label_of e = l ->
    exists f0 m' b, (forall f, f0 <= f -> rewrite f statics off m a = Ok (m', b)) /\ inv m' (fun d => one d (Some b) + c d) /\ ext m m' /\ is m' b (rewrite_vars statics off e)).
  { intros l R E _. destruct (copy_ok m c a I ltac:(eauto)) as [m1 [E1 [I1 X1]]]. exists 1, m1, a. split; [intros [|f] L; [lia|]; rewrite R, E1; auto|]. split; [exact I1|]. split; [exact X1|]. rewrite E. eapply is_ext; eauto. }
  destruct e; cbn [label_of kids_of] in C, F.
  - eapply COPY; auto. intros f. cbn [rewrite]. unfold node_at. rewrite C. auto.
  - destruct (new_ok m c (LVar (rewrite_var statics off v)) []) as [I2 X2]; [eapply inv_ext; [exact I|]; auto|].
    exists 1, (fst (new m (LVar (rewrite_var statics off v)) [])), (next m). split; [intros [|f] L; [lia|]; cbn [rewrite]; unfold node_at; rewrite C; auto|]. split; [exact I2|]. split; [exact X2|].
    apply is_node with [] 1; [cbn; rewrite Nat.eqb_refl; auto|constructor].
  - eapply EACH; [intros f; cbn [rewrite]; unfold node_at; rewrite C; reflexivity|reflexivity|]. cbn. rewrite map_app, MAP. reflexivity.
  - eapply EACH; [intros f; cbn [rewrite]; unfold node_at; rewrite C; reflexivity|reflexivity|]. cbn. apply MAP.
  - eapply EACH; [intros f; cbn [rewrite]; unfold node_at; rewrite C; reflexivity|reflexivity|]. reflexivity.
  - eapply EACH; [intros f; cbn [rewrite]; unfold node_at; rewrite C; reflexivity|reflexivity|]. reflexivity.
  - eapply EACH; [intros f; cbn [rewrite]; unfold node_at; rewrite C; reflexivity| |]; cbn.
    + rewrite map_map. reflexivity.
    + rewrite map_app, !map_map. reflexivity.
  - eapply EACH; [intros f; cbn [rewrite]; unfold node_at; rewrite C; reflexivity|reflexivity|]. reflexivity.
  - destruct (copy_each_ok ks m c I) as [m1 [E1 [I1 X1]]]; [intros b Ib; eapply live_kid; [exact I|exact C|exact Ib]|].
    destruct (new_ok m1 c (LFunc (map (rewrite_var statics off) scope)) ks I1) as [I2 X2].
    exists 1, (fst (new m1 (LFunc (map (rewrite_var statics off) scope)) ks)), (next m1). split; [intros [|f] L; [lia|]; cbn [rewrite]; unfold node_at; rewrite C; cbn [bind n_lab n_kids]; rewrite E1; auto|].
    split; [exact I2|]. split; [eapply ext_trans; [exact X1|exact X2]|]. apply is_node with ks 1; [cbn; rewrite Nat.eqb_refl; auto|]. eapply forall2_mono; [|exact F]. intros b x _ _ Hx. eapply is_ext; [eapply ext_trans; [exact X1|exact X2]|exact Hx].
  - eapply EACH; [intros f; cbn [rewrite]; unfold node_at; rewrite C; reflexivity|reflexivity|]. reflexivity.
  - eapply EACH; [intros f; cbn [rewrite]; unfold node_at; rewrite C; reflexivity|reflexivity|]. cbn. apply MAP.
  - eapply COPY; auto. intros f. cbn [rewrite]. unfold node_at. rewrite C. auto.
Qed.

(** ** What holds of them *)

(** FbleFreeTc of a reference a caller holds: it ends, uses no memory that has been freed, the
    counts are exact without this reference, and every expression another reference is to stays. *)
Theorem free_exact : forall m a refs, exact m (a :: refs) ->
  exists f0 m', (forall f, f0 <= f -> free f m a = Ok m') /\ exact m' refs /\ forall b e, In b refs -> is m b e -> is m' b e.
Proof.
  intros m a refs X. apply exact_inv in X. destruct (free_list_ok (rcs m) [Some a] m (fun b => cnt b (map Some refs)) (le_n _)) as [f0 [m' [F [I B]]]].
  { eapply inv_ext; [exact X|]. intros b. cbn. lia. }
  exists f0, m'. split; [exact F|]. split; [apply exact_inv; exact I|]. intros b e Ib H. eapply is_sub; [exact B|exact I| |exact H].
  eapply live_c; [exact I|]. cbn beta. apply cnt_in, in_map. exact Ib.
Qed.
Theorem copy_exact : forall m a refs, exact m refs -> (exists e, is m a e) -> exists m', copy m a = Ok m' /\ exact m' (a :: refs) /\ forall b e, is m b e -> is m' b e.
Proof.
  intros m a refs X [e H]. apply exact_inv in X. inversion H; subst. destruct (copy_ok m _ a X ltac:(eauto)) as [m' [E [I Y]]]. exists m'. split; auto. split; [apply exact_inv; eapply inv_ext; [exact I|]; auto|]. intros. eapply is_ext; eauto.
Qed.
(** What is allocated is exactly what the references reach, so that nothing is left when there are none. *)
Theorem no_leak : forall m refs a, exact m refs -> (exists n, cell m a = Some n) -> exists b, In b refs /\ reaches m b a.
Proof.
  intros m refs a X. apply exact_inv in X. remember (next m - a) as k. revert a Heqk. induction k as [k IH] using lt_wf_ind. intros a -> [n E]. destruct (i_live _ _ X a n E) as [L [P Q]].
  destruct (Nat.eq_dec (cnt a (map Some refs)) 0) as [Z|Z].
  - destruct (sum_pos (next m) (fun b => cnt a (kids_at m b))) as [b [Lb Kb]]; [unfold mref in Q; lia|]. unfold kids_at in Kb. destruct (cell m b) as [nb|] eqn:Eb; [|cbn in Kb; lia]. apply in_cnt in Kb.
    pose proof (i_down _ _ X b nb a Eb Kb) as D. destruct (IH (next m - b) ltac:(lia) b eq_refl ltac:(eauto)) as [r [Ir R]]. exists r. split; auto.
    clear - R Eb Kb. induction R; [eapply r_kid; [exact Eb|exact Kb|constructor]|eapply r_kid; eauto].
  - exists a. split; [|constructor]. assert (In (Some a) (map Some refs)) as J by (apply in_cnt; lia). apply in_map_iff in J. destruct J as [x [Ex J]]. injection Ex as ->. exact J.
Qed.
Theorem all_freed : forall m, exact m [] -> forall a, cell m a = None.
Proof. intros m X a. destruct (cell m a) as [n|] eqn:E; auto. destruct (no_leak m [] a X ltac:(eauto)) as [b [[] _]]. Qed.
(** RewriteVars makes the rewritten expression, with one reference for the caller, and leaves all
    expressions as they are. *)
Theorem rewrite_exact : forall statics off m a e refs, exact m refs -> is m a e ->
  exists f0 m' b, (forall f, f0 <= f -> rewrite f statics off m a = Ok (m', b)) /\ is m' b (rewrite_vars statics off e) /\ exact m' (b :: refs) /\ forall d x, is m d x -> is m' d x.
Proof.
  intros statics off m a e refs X H. apply exact_inv in X. destruct (rewrite_ok statics off e m _ a X H) as [f0 [m' [b [R [I [Y Z]]]]]].
  exists f0, m', b. split; auto. split; auto. split; [apply exact_inv; eapply inv_ext; [exact I|]; auto|]. intros. eapply is_ext; eauto.
Qed.
Lemma merge_ok : forall e m a statics off nargs, is m a e -> exists f0 b,
  let '(st, o, n, body) := merge_loop statics off nargs e in (forall f, f0 <= f -> merge f m statics off nargs a = Ok (st, o, n, b)) /\ is m b body.
Proof.
  intros e. remember (size e) as k. revert e Heqk. induction k as [k IH] using lt_wf_ind. intros e -> m a statics off nargs H. inversion H as [? ? ks rc C F]; subst.
  destruct e; try (exists 1, a; cbn [merge_loop]; split; [intros [|f] L; [lia|]; cbn [merge]; unfold node_at; rewrite C; auto|exact H]).
  cbn [label_of kids_of] in C, F. inversion F as [|? ? ks' ? K F']; subst. inversion F'; subst. inversion K as [|b z Kb]; subst.
  destruct (IH (size e) ltac:(cbn; lia) e eq_refl m b (map (rewrite_var statics off) scope) nargs (nargs + 1) Kb) as [f0 [d M]]. exists (S f0), d. cbn [merge_loop].
  destruct (merge_loop (map (rewrite_var statics off) scope) nargs (nargs + 1) e) as [[[st o] n] body]. destruct M as [M V]. split; [|exact V].
  intros [|f] L; [lia|]. cbn [merge]. unfold node_at. rewrite C. cbn [bind n_lab n_kids]. apply M. lia.
Qed.
(** The compilation of a function value: the code is made from the merged function of C19's model,
    and afterwards the callers have the references they had, to the expressions they had. *)
Theorem func_value_exact : forall m a scope body refs, exact m refs -> is m a (TFunc scope body) ->
  exists f0 c m1 m2, (forall f, f0 <= f -> func_value f m a = Ok (fst (merge_func scope body), c, m1, m2)) /\ is m1 c (snd (merge_func scope body)) /\
    exact m1 (c :: refs) /\ (forall d x, is m d x -> is m1 d x) /\ exact m2 refs /\ forall d x, In d refs -> is m d x -> is m2 d x.
Proof.
  intros m a scope body refs X H. inversion H as [? ? ks rc C F]; subst. cbn [label_of kids_of] in C, F. inversion F as [|? ? ks' ? K F']; subst. inversion F'; subst. inversion K as [|b z Kb]; subst.
  destruct (merge_ok body m b (map Static (seq 0 (length scope))) 0 1 Kb) as [f1 [d M]]. unfold merge_func.
  destruct (merge_loop (map Static (seq 0 (length scope))) 0 1 body) as [[[st o] n] e]. destruct M as [M V]. cbn [fst snd].
  destruct (rewrite_exact st o m d e refs X V) as [f2 [m1 [c [R [Vc [X1 Y1]]]]]]. destruct (free_exact m1 c refs X1) as [f3 [m2 [Fr [X2 Y2]]]].
  exists (f1 + f2 + f3), c, m1, m2. split; [|split; [exact Vc|split; [exact X1|split; [exact Y1|split; [exact X2|intros; apply Y2; auto]]]]].
  intros f L. unfold func_value, node_at. rewrite C. cbn [bind n_lab n_kids]. rewrite M by lia. cbn [bind]. rewrite R by lia. cbn [bind]. rewrite Fr by lia. reflexivity.
Qed.

(** ** Whole modules *)
Lemma reaches_kept : forall m m1 m2 c r a n, ext m m1 -> sub m1 m2 -> inv m2 c -> reaches m r a -> cell m a = Some n -> (exists k, cell m2 r = Some k) -> exists k, cell m2 a = Some (mk (n_lab n) (n_kids n) k).
Proof.
  intros m m1 m2 c r a n X B I R. revert n. induction R as [r|r x b d E K R IH]; intros n N [k L].
  - destruct (X r n N) as [i Hi]. destruct (B r k L) as [j Hj]. rewrite Hi in Hj. injection Hj as J1 J2 _. exists (n_rc k). rewrite L, J1, J2. destruct k; auto.
  - apply (IH n N). destruct (X r x E) as [i Hi]. destruct (B r k L) as [j Hj]. rewrite Hi in Hj. injection Hj as J1 J2 _. apply (live_kid m2 c r k b I L). rewrite <- J2. exact K.
Qed.
Lemma reaches_ext : forall m m' a b, ext m m' -> reaches m a b -> reaches m' a b.
Proof. intros m m' a b X R. induction R as [a|a n b d E K R IH]; [constructor|]. destruct (X a n E) as [k J]. eapply r_kid; [exact J|exact K|exact IH]. Qed.
Lemma merge_size : forall body st off n, let '(_, _, _, b) := merge_loop st off n body in size b <= size body.
Proof.
  intros body. remember (size body) as k. revert body Heqk. induction k as [k IH] using lt_wf_ind. intros body -> st off n. destruct body; try (cbn [merge_loop]; lia).
  cbn [merge_loop]. specialize (IH (size body) ltac:(cbn; lia) body eq_refl (map (rewrite_var st off) scope) n (n + 1)).
  destruct (merge_loop (map (rewrite_var st off) scope) n (n + 1) body) as [[[s o] na] b]. cbn [size]. lia.
Qed.
Lemma compile_ok : forall e m a refs, exact m refs -> is m a e -> exists f0 m', (forall f, f0 <= f -> compile_expr f m a = Ok m') /\ exact m' refs /\ ext m m'.
Proof.
  intros e. remember (size e) as k. revert e Heqk. induction k as [k IH] using lt_wf_ind. intros e -> m a refs X H. inversion H as [? ? ks rc C F]; subst.
  assert (EACH : forall xs, (forall x, In (Some x) xs -> size x < size e) -> forall m0 ks0, exact m0 refs -> Forall2 (orel (is m0)) ks0 xs ->
    exists f0 m', (forall f, f0 <= f -> compile_each (compile_expr f) m0 ks0 = Ok m') /\ exact m' refs /\ ext m0 m').
  { induction xs as [|x xs IHx]; intros S m0 ks0 X0 Fs; inversion Fs as [|k ? ks1 ? K Fs']; subst.
    - exists 0, m0. split; [auto|]. split; [exact X0|apply ext_refl].
    - inversion K as [|b y Kb]; subst.
      + destruct (IHx ltac:(intros; apply S; right; auto) m0 ks1 X0 Fs') as [f0 [m' [R Y]]]. exists f0, m'. split; auto.
      + destruct (IH (size y) ltac:(apply S; left; auto) y eq_refl m0 b refs X0 Kb) as [f1 [m1 [R1 [X1 Y1]]]].
        destruct (IHx ltac:(intros; apply S; right; auto) m1 ks1 X1) as [f0 [m' [R [X' Y']]]]; [eapply forall2_mono; [|exact Fs']; intros; eapply is_ext; eauto|].
        exists (f0 + f1), m'. split; [|split; [exact X'|eapply ext_trans; eauto]]. intros f L. cbn [compile_each]. rewrite R1 by lia. cbn [bind]. apply R. lia. }
  assert (GEN : (forall f, compile_expr (S f) m a = compile_each (compile_expr f) m ks) -> exists f0 m', (forall f, f0 <= f -> compile_expr f m a = Ok m') /\ exact m' refs /\ ext m m').
  { intros G. destruct (EACH (kids_of e) ltac:(intros; apply kid_smaller; auto) m ks X F) as [f0 [m' [R Y]]]. exists (S f0), m'. split; [|exact Y]. intros [|f] L; [lia|]. rewrite G. apply R. lia. }
  destruct e; cbn [label_of] in C; try (apply GEN; intros f; cbn [compile_expr]; unfold node_at; rewrite C; reflexivity).
  clear GEN EACH. cbn [kids_of] in F. inversion F as [|? ? ks' ? K F']; subst. inversion F'; subst. inversion K as [|b z Kb]; subst.
  destruct (merge_ok e m b (map Static (seq 0 (length scope))) 0 1 Kb) as [f1 [d M]]. pose proof (merge_size e (map Static (seq 0 (length scope))) 0 1) as Z.
  destruct (merge_loop (map Static (seq 0 (length scope))) 0 1 e) as [[[st o] n] x]. destruct M as [M V].
  pose proof (proj1 (exact_inv m refs) X) as I. destruct (rewrite_ok st o x m _ d I V) as [f2 [m1 [c [R [I1 [X1 V1]]]]]].
  assert (E1 : exact m1 (c :: refs)) by (apply exact_inv; eapply inv_ext; [exact I1|]; auto).
  destruct (IH (size (rewrite_vars st o x)) ltac:(rewrite CompileStatic.rewrite_size; cbn [size]; lia) _ eq_refl m1 c (c :: refs) E1 V1) as [f3 [m2 [R2 [E2 X2]]]].
  pose proof (proj1 (exact_inv m2 (c :: refs)) E2) as I2.
  destruct (free_list_ok (rcs m2) [Some c] m2 (fun b => cnt b (map Some refs)) (le_n _)) as [f4 [m3 [R3 [I3 B3]]]]; [eapply inv_ext; [exact I2|]; intros y; cbn; lia|].
  exists (S (f1 + f2 + f3 + f4)), m3. split; [|split; [apply exact_inv; exact I3|]].
  - intros [|f] L; [lia|]. cbn [compile_expr]. unfold node_at. rewrite C. cbn [bind n_lab n_kids]. rewrite M by lia. cbn [bind]. rewrite R by lia. cbn [bind]. rewrite R2 by lia. cbn [bind]. apply R3. lia.
  - intros y ny Ny. destruct (no_leak m refs y X ltac:(eauto)) as [r [Ir Ry]].
    apply (reaches_kept m m2 m3 _ r y ny (ext_trans _ _ _ X1 X2) B3 I3 Ry Ny). apply (live_c m3 _ r I3). cbn beta. apply cnt_in, in_map. exact Ir.
Qed.
(** The compilation of an expression, with all the function values inside it: it ends, uses no memory that has
    been freed, and afterwards the callers have the references they had, to the expressions they
    had, and nothing more is allocated than these. *)
Theorem compile_exact : forall m a e refs, exact m refs -> is m a e ->
  exists f0 m', (forall f, f0 <= f -> compile_expr f m a = Ok m') /\ exact m' refs /\ (forall b x, is m b x -> is m' b x) /\ forall b, (exists n, cell m' b = Some n) <-> exists n, cell m b = Some n.
Proof.
  intros m a e refs X H. destruct (compile_ok e m a refs X H) as [f0 [m' [R [X' Y]]]]. exists f0, m'. split; auto. split; auto. split; [intros; eapply is_ext; eauto|]. intros b. split; [|intros [n N]; destruct (Y b n N); eauto].
  intros E. destruct (no_leak m' refs b X' E) as [r [Ir Rr]].
  assert (L : exists n, cell m r = Some n) by (apply exact_inv in X; apply (live_c m _ r X); apply cnt_in, in_map; exact Ir).
  clear - Rr L Y X. apply exact_inv in X. induction Rr as [r|r x b d Er K Rr IH]; [exact L|]. apply IH. destruct L as [n N]. destruct (Y r n N) as [k Hk]. rewrite Er in Hk. injection Hk as ->. apply (live_kid m _ r n b X N). exact K.
Qed.
(** The modules of a program, which may share parts: after they have been compiled nothing of them is left. *)
Theorem modules_freed : forall ms m es, exact m ms -> Forall2 (is m) ms es ->
  exists f0 m', (forall f, f0 <= f -> compile_modules f m ms = Ok m') /\ forall a, cell m' a = None.
Proof.
  induction ms as [|a ms IH]; intros m es X F; inversion F as [|? e ? es' H F']; subst.
  - exists 0, m. split; [auto|apply all_freed; exact X].
  - destruct (compile_exact m a e (a :: ms) X H) as [f1 [m1 [R1 [X1 [Y1 _]]]]]. destruct (free_exact m1 a ms X1) as [f2 [m2 [R2 [X2 Y2]]]].
    destruct (IH m2 es' X2) as [f3 [m' [R3 D]]].
    { assert (S : forall l xs, incl l ms -> Forall2 (is m) l xs -> Forall2 (is m2) l xs).
      { intros l xs S G. induction G as [|b x l xs B G IHG]; constructor; [apply Y2; [apply S; left; auto|apply Y1; exact B]|apply IHG; intros y I; apply S; right; exact I]. }
      apply S; [intros y I; exact I|exact F']. }
    exists (f1 + f2 + f3), m'. split; [|exact D]. intros f L. cbn [compile_modules]. rewrite R1 by lia. cbn [bind]. rewrite R2 by lia. cbn [bind]. apply R3. lia.
Qed.

(** ** Examples *)

(** A function value whose body is shared with a list: [\x -> \y -> [x y s]], where s is static. *)
Definition ex_body : tc := TList [TVar (Static 0); TVar (Arg 0); TVar (Static 1); TLiteral [1; 2]].
Definition ex_func : tc := TFunc [Arg 3] (TFunc [Arg 0; Static 0] ex_body).
Definition ex_mem : mem := mk_mem (fun a => nth a
  [Some (mk (LVar (Static 0)) [] 1); Some (mk (LVar (Arg 0)) [] 1); Some (mk (LVar (Static 1)) [] 1); Some (mk (LLiteral [1; 2]) [] 2);
   Some (mk LList [Some 0; Some 1; Some 2; Some 3] 1); Some (mk (LFunc [Arg 0; Static 0]) [Some 4] 1); Some (mk (LFunc [Arg 3]) [Some 5] 2)] None) 7.
Example ex_exact : exact ex_mem [6; 3; 6] /\ is ex_mem 6 ex_func.
Proof.
  split.
  - constructor.
    + intros a L. cbn in L. unfold ex_mem, cell. apply nth_overflow. cbn. lia.
    + intros a n E. do 7 (destruct a as [|a]; [injection E as <-; vm_compute; lia|]). cbn in E. destruct a; discriminate.
    + intros a E. do 7 (destruct a as [|a]; [discriminate|]). reflexivity.
    + intros a n b E I. do 7 (destruct a as [|a]; [injection E as <-; cbn in I; intuition (congruence || (match goal with H : Some _ = Some _ |- _ => injection H as <- end; lia))|]). cbn in E. destruct a; discriminate.
  - repeat (eapply is_node; [reflexivity|]; cbn [kids_of map app ex_func ex_body]; repeat (constructor; try (apply o_some))).
Qed.
Definition live_at (m : mem) : list nat := filter (fun a => match cell m a with Some _ => true | None => false end) (seq 0 (next m)).
Example ex_run : match func_value 30 ex_mem 6 with
  | Ok (n, c, m1, m2) => (n, c, live_at m1, live_at m2, match free 30 m2 6 with Ok m3 => match free 30 m3 6 with Ok m4 => Some (live_at m3, live_at m4) | _ => None end | _ => None end)
  | Stop _ => (0, 0, [], [], None)
  end = (2, 10, [0; 1; 2; 3; 4; 5; 6; 7; 8; 9; 10], [0; 1; 2; 3; 4; 5; 6], Some ([0; 1; 2; 3; 4; 5; 6], [3])).
Proof. vm_compute. reflexivity. Qed.

(** The function value, once held by a list of modules and once as a part of another module. *)
Example ex_modules : match compile_expr 40 ex_mem 6 with Ok m1 => Some (live_at m1, map (fun a => match cell m1 a with Some n => n_rc n | None => 0 end) (live_at m1)) | Stop _ => None end =
    Some ([0; 1; 2; 3; 4; 5; 6], [1; 1; 1; 2; 1; 1; 2]) /\
  match compile_modules 40 ex_mem [6; 3; 6] with Ok m1 => Some (live_at m1) | Stop _ => None end = Some [].
Proof. vm_compute. auto. Qed.

Print Assumptions free_exact.
Print Assumptions copy_exact.
Print Assumptions no_leak.
Print Assumptions all_freed.
Print Assumptions rewrite_exact.
Print Assumptions func_value_exact.
Print Assumptions compile_exact.
Print Assumptions modules_freed.
