(** * Type equality terminates, is exact, and is an equivalence (C40). *)
From Coq Require Import String List Arith Bool Lia ZArith.
Import ListNotations.
From Verif Require Import KindModel UnusedModel TypeModel TypeSpec.

(** ** Outermost constructors *)
Lemma whnf_det : forall st n m, whnf st n m -> forall m', whnf st n m' -> m = m'.
Proof.
  intros st n m H; induction H; intros m' H';
    inversion H'; subst; try congruence;
    repeat match goal with
    | A : get ?s ?n = _, B : get ?s ?n = _ |- _ => rewrite A in B; injection B as; subst; clear A
    end; try congruence; auto;
    match goal with
    | IH : forall m', whnf ?st ?b m' -> ?m = m', X : whnf ?st ?b _ |- _ => specialize (IH _ X); subst
    end; congruence.
Qed.

Lemma is_in_true n l : is_in n l = true <-> In n l.
Proof.
  unfold is_in. rewrite existsb_exists. split.
  - intros (x & H & E). apply Nat.eqb_eq in E. subst. auto.
  - intros H. exists n. split; [auto|apply Nat.eqb_refl].
Qed.

(** The depth of the derivation. *)
Definition plain (st : store) (n : nat) : Prop :=
  match get st n with
  | Some (TData _ _) | Some (TFunc _ _) | Some (TPackage _ _) | Some (TAbstract _ _)
  | Some (TType _) | Some (TVar _ _ None) => True
  | _ => False
  end.

Inductive wd (st : store) : nat -> nat -> nat -> Prop :=
| wd_here n : plain st n -> wd st 1 n n
| wd_var d n k x v m : get st n = Some (TVar k x (Some v)) -> wd st d v m -> wd st (S d) n m
| wd_poly d n x b m : get st n = Some (TPoly x b) -> wd st d b m ->
    (forall f, get st m <> Some (TApply f x)) -> wd st (S d) n n
| wd_eta d n x b m f : get st n = Some (TPoly x b) -> wd st d b m ->
    get st m = Some (TApply f x) -> wd st (S d) n f
| wd_apply d n f x : get st n = Some (TApply f x) -> wd st d f f ->
    (forall y b, get st f <> Some (TPoly y b)) -> wd st (S d) n n.

Lemma whnf_wd st n m : whnf st n m -> exists d, wd st d n m.
Proof.
  intros H; induction H.
  all: try (exists 1; apply wd_here; unfold plain; rewrite H; exact I).
  - destruct IHwhnf as [d Hd]. exists (S d). eapply wd_var; eauto.
  - destruct IHwhnf as [d Hd]. exists (S d). eapply wd_poly; eauto.
  - destruct IHwhnf as [d Hd]. exists (S d). eapply wd_eta; eauto.
  - destruct IHwhnf as [d Hd]. exists (S d). eapply wd_apply; eauto.
Qed.

Lemma wd_whnf st d n m : wd st d n m -> whnf st n m.
Proof.
  intros H; induction H; auto.
  - unfold plain in H. destruct (get st n) as [t|] eqn:E; [|contradiction]; destruct t as [| | | | | |k x [v|]|]; try contradiction.
    + eapply whnf_data; eauto.
    + eapply whnf_func; eauto.
    + eapply whnf_package; eauto.
    + eapply whnf_abstract; eauto.
    + eapply whnf_free; eauto.
    + eapply whnf_type; eauto.
  - eapply whnf_var; eauto.
  - eapply whnf_poly; eauto.
  - eapply whnf_eta; eauto.
  - eapply whnf_apply; eauto.
Qed.

Lemma wd_det st d n m : wd st d n m -> forall d' m', wd st d' n m' -> d = d'.
Proof.
  intros H; induction H; intros d' m' H'; inversion H'; subst; auto;
  try (unfold plain in *; repeat match goal with
  | A : get ?s ?n = _, B : context [get ?s ?n] |- _ => rewrite A in B
  end; contradiction);
  repeat match goal with
  | A : get ?s ?n = _, B : get ?s ?n = _ |- _ => rewrite A in B; injection B as; subst; clear A
  end; try congruence;
  try (f_equal; eauto; fail).
Qed.

Lemma wd_pos st d n m : wd st d n m -> 0 < d.
Proof. destruct 1; lia. Qed.

Lemma get_lt st n t : get st n = Some t -> n < List.length st.
Proof. unfold get. intros H. apply nth_error_Some. congruence. Qed.

Lemma lt_get st n : n < List.length st -> exists t, get st n = Some t.
Proof. unfold get. intros H. apply nth_error_Some in H. destruct (nth_error st n); [eauto|congruence]. Qed.

Lemma wd_lt st d n m : wd st d n m -> n < List.length st.
Proof.
  destruct 1; try (eapply get_lt; eauto; fail).
  unfold plain in H. destruct (get st n) eqn:E; [eapply get_lt; eauto|contradiction].
Qed.

(** A derivation passes through different nodes, so it is no deeper than the
    graph is large. *)
Lemma wd_bound st d n m : wd st d n m -> d <= List.length st.
Proof.
  intros H.
  assert (exists l, List.length l = d /\ NoDup l /\ (forall x, In x l -> exists d' m', d' <= d /\ wd st d' x m')) as (l & Ll & Nd & Hl).
  { assert (Gen : forall d n m, wd st d n m -> forall d' b m', wd st d' b m' -> S d' = d ->
        (exists l, List.length l = d' /\ NoDup l /\ (forall x, In x l -> exists d0 m0, d0 <= d' /\ wd st d0 x m0)) ->
        (exists l, List.length l = d /\ NoDup l /\ (forall x, In x l -> exists d0 m0, d0 <= d /\ wd st d0 x m0))).
    { intros d0 n0 m0 H0 d' b m' Hb <- (l & Ll & Nd & Hl). exists (n0 :: l). repeat split.
      - cbn. congruence.
      - apply NoDup_cons_iff. split; [|auto]. intros Hin. destruct (Hl _ Hin) as (d1 & m1 & Le & W).
        pose proof (wd_det _ _ _ _ H0 _ _ W). lia.
      - intros x [<-|Hx]; [exists (S d'), m0; auto|].
        destruct (Hl _ Hx) as (d1 & m1 & Le & W). exists d1, m1. split; [lia|auto]. }
    induction H.
    - exists [n]. repeat split; [repeat constructor; auto|].
      intros x [<-|[]]. exists 1, n. split; [lia|apply wd_here; auto].
    - eapply Gen; [eapply wd_var; eauto|eauto|reflexivity|auto].
    - eapply Gen; [eapply wd_poly; eauto|eauto|reflexivity|auto].
    - eapply Gen; [eapply wd_eta; eauto|eauto|reflexivity|auto].
    - eapply Gen; [eapply wd_apply; eauto|eauto|reflexivity|auto]. }
  subst d.
  assert (incl l (seq 0 (List.length st))).
  { intros x Hx. destruct (Hl _ Hx) as (d' & m' & _ & W). apply wd_lt in W. apply in_seq. lia. }
  pose proof (NoDup_incl_length Nd H0) as L. rewrite seq_length in L. exact L.
Qed.

Lemma wd_self st d n m : wd st d n m -> exists d', d' <= d /\ wd st d' m m.
Proof.
  intros H; induction H.
  - exists 1. split; [lia|apply wd_here; auto].
  - destruct IHwd as (d' & L & W). exists d'; split; [lia|auto].
  - exists (S d). split; [lia|eapply wd_poly; eauto].
  - destruct IHwd as (d' & L & W). inversion W; subst.
    + unfold plain in H2. rewrite H1 in H2. contradiction.
    + congruence.
    + congruence.
    + congruence.
    + rewrite H1 in H2. injection H2 as <- <-. exists d0. split; [lia|auto].
  - exists (S d). split; [lia|eapply wd_apply; eauto].
Qed.

Lemma whnf_self st n m : whnf st n m -> whnf st m m.
Proof.
  intros H. apply whnf_wd in H. destruct H as [d H]. apply wd_self in H. destruct H as (d' & _ & H).
  eapply wd_whnf; eauto.
Qed.

Lemma whnf_node st n m : whnf st n m -> exists t, get st m = Some t /\ (forall k x v, t <> TVar k x (Some v)).
Proof.
  intros H. apply whnf_wd in H. destruct H as [d H]. apply wd_self in H. destruct H as (d' & _ & W).
  destruct (lt_get _ _ (wd_lt _ _ _ _ W)) as [t E]. exists t. split; [auto|].
  intros k x v ->. inversion W; subst; try congruence.
  - unfold plain in H. rewrite E in H. contradiction.
  - destruct (wd_self _ _ _ _ H0) as (d' & L & W').
    pose proof (wd_det _ _ _ _ W _ _ W'). lia.
Qed.

(** ** Normal finds the outermost constructor *)
Lemma normal_wd st : forall d n m, wd st d n m -> forall f l,
  (forall x, In x l -> exists d' m', d < d' /\ wd st d' x m') ->
  normal f st n l = if d <=? f then Some (st, Some m) else None.
Proof.
  intros d n m H.
  assert (Step : forall d n m d0, wd st d n m -> d0 < d -> forall l,
            (forall x, In x l -> exists d' m', d < d' /\ wd st d' x m') ->
            forall x, In x (n :: l) -> exists d' m', d0 < d' /\ wd st d' x m').
  { intros d1 n1 m1 d0 W L l Hl x [<-|Hx]; [exists d1, m1; auto|].
    destruct (Hl _ Hx) as (d2 & m2 & L2 & W2). exists d2, m2. split; [lia|auto]. }
  assert (Notin : forall d n m, wd st d n m -> forall l,
            (forall x, In x l -> exists d' m', d < d' /\ wd st d' x m') -> is_in n l = false).
  { intros d1 n1 m1 W l Hl. destruct (is_in n1 l) eqn:E; [|reflexivity].
    apply is_in_true in E. destruct (Hl _ E) as (d2 & m2 & Lt & W2).
    pose proof (wd_det _ _ _ _ W _ _ W2). lia. }
  induction H; intros f0 l Hl; (destruct f0 as [|f0]; [reflexivity|]); cbn [normal Nat.leb].
  - rewrite (Notin _ _ _ (wd_here _ _ H) l Hl). unfold plain in H.
    destruct (get st n) as [[]|]; try contradiction; try reflexivity. destruct value; [contradiction|reflexivity].
  - pose proof (wd_var _ _ _ _ _ _ _ H H0) as W.
    rewrite (Notin _ _ _ W l Hl), H. apply IHwd. apply (Step _ _ _ d W); [lia|auto].
  - pose proof (wd_poly _ _ _ _ _ _ H H0 H1) as W.
    rewrite (Notin _ _ _ W l Hl), H. rewrite IHwd; [|apply (Step _ _ _ d W); [lia|auto]].
    destruct (d <=? f0); [|reflexivity].
    destruct (whnf_node _ _ _ (wd_whnf _ _ _ _ H0)) as (t & Et & _). rewrite Et.
    destruct t; try reflexivity. destruct (Nat.eqb_spec arg x); [subst; exfalso; eapply H1; eauto|reflexivity].
  - pose proof (wd_eta _ _ _ _ _ _ _ H H0 H1) as W.
    rewrite (Notin _ _ _ W l Hl), H. rewrite IHwd; [|apply (Step _ _ _ d W); [lia|auto]].
    destruct (d <=? f0); [|reflexivity].
    rewrite H1, Nat.eqb_refl. reflexivity.
  - pose proof (wd_apply _ _ _ _ _ H H0 H1) as W.
    rewrite (Notin _ _ _ W l Hl), H. rewrite IHwd; [|apply (Step _ _ _ d W); [lia|auto]].
    destruct (d <=? f0); [|reflexivity].
    destruct (whnf_node _ _ _ (wd_whnf _ _ _ _ H0)) as (t & Et & _). rewrite Et.
    destruct t; try reflexivity. exfalso; eapply H1; eauto.
Qed.

(** FbleNormalType returns the outermost constructor, changing nothing. *)
Theorem normal_type_exact st n m f : whnf st n m -> List.length st <= f -> normal_type f st n = Some (st, m).
Proof.
  intros H L. destruct (whnf_wd _ _ _ H) as [d W]. unfold normal_type.
  pose proof (wd_bound _ _ _ _ W).
  rewrite (normal_wd _ _ _ _ W); [|intros x []]. destruct (Nat.leb_spec d f); [reflexivity|lia].
Qed.

Lemma normal_type_cases st n m f : whnf st n m -> normal_type f st n = Some (st, m) \/ normal_type f st n = None.
Proof.
  intros H. destruct (whnf_wd _ _ _ H) as [d W]. unfold normal_type.
  rewrite (normal_wd _ _ _ _ W); [|intros x []]. destruct (d <=? f); auto.
Qed.

(** ** The comparison, one level of it *)
Definition through (st : store) (ta : ty) : option (option nat) :=
  match ta with
  | TAbstract p t => match get st p with
                     | Some (TPackage _ o) => Some (if o : bool then None else Some t)
                     | _ => None
                     end
  | _ => Some None
  end.

Section Compare.
  Variable eqf : list (nat * nat) -> nat -> nat -> option bool.
  Definition and2 (x y : option bool) : option bool :=
    match x with Some true => y | _ => x end.
  Fixpoint cmp_fields (neq : list (nat * nat)) (la lb : list (vname * nat)) : option bool :=
    match la, lb with
    | (x, s) :: ra, (y, t) :: rb =>
        if vname_equal x y then and2 (eqf neq s t) (cmp_fields neq ra rb) else Some false
    | _, _ => Some true
    end.
  Definition cmp (st : store) (kindf : nat -> option kind) (neq : list (nat * nat)) (a b : nat) (ta tb : ty) : option bool :=
    match through st ta with
    | None => None
    | Some (Some t) => eqf neq t b
    | Some None =>
        match through st tb with
        | None => None
        | Some (Some t) => eqf neq a t
        | Some None =>
            match ta, tb with
            | TData ua fa, TData ub fb =>
                if (Bool.eqb ua ub && (List.length fa =? List.length fb))%bool then cmp_fields neq fa fb else Some false
            | TFunc xa ra, TFunc xb rb => and2 (eqf neq xa xb) (eqf neq ra rb)
            | TPoly xa ba, TPoly xb bb =>
                match kindf xa, kindf xb with
                | Some ka, Some kb => if kinds_equal ka kb then eqf ((xa, xb) :: neq) ba bb else Some false
                | _, _ => None
                end
            | TApply pa xa, TApply pb xb => and2 (eqf neq pa pb) (eqf neq xa xb)
            | TPackage pa _, TPackage pb _ => Some (path_equal pa pb)
            | TAbstract pa xa, TAbstract pb xb => and2 (eqf neq pa pb) (eqf neq xa xb)
            | TVar _ _ va, TVar _ _ vb =>
                match va, vb with None, None => Some (a =? b) | _, _ => None end
            | TType xa, TType xb => eqf neq xa xb
            | _, _ => Some false
            end
        end
    end.
End Compare.

(** With no variables to infer and nothing to substitute the store stays as
    it is, and the comparison is a plain function. *)
Fixpoint te (fuel : nat) (st : store) (eq : list (nat * nat)) (a b : nat) : option bool :=
  match fuel with
  | 0 => None
  | S f =>
      match normal_type f st a, normal_type f st b with
      | Some (_, a0), Some (_, b0) =>
          if pair_in a0 b0 eq then Some true
          else match get st a0, get st b0 with
               | Some ta, Some tb => cmp (te f st) st (kind_of f st) ((a0, b0) :: eq) a0 b0 ta tb
               | _, _ => None
               end
      | _, _ => None
      end
  end.

Definition lift (st : store) (r : option bool) : option (store * asgn * bool) :=
  match r with Some b => Some (st, [], b) | None => None end.

Lemma get_wf st n t : well_formed st -> get st n = Some t -> wf_node st t.
Proof. intros W E. apply (W _ _ E). Qed.

Lemma lift_and2 st (x : option bool) (y : option bool) (X : option (store * asgn * bool)) Y :
  X = lift st x -> Y st ([] : asgn) = lift st y ->
  match X with
  | None => None
  | Some (st3, vars3, false) => Some (st3, vars3, false)
  | Some (st3, vars3, true) => Y st3 vars3
  end = lift st (and2 x y).
Proof. intros -> HY. destruct x as [[]|]; cbn; auto. Qed.

Lemma types_equal_te st : well_formed st -> forall f eq a b,
  a < List.length st -> b < List.length st ->
  types_equal f st [] a b eq = lift st (te f st eq a b).
Proof.
  intros Wf f. induction f as [|f IH]; intros eq a b La Lb; [reflexivity|].
  cbn [types_equal te].
  destruct (lt_get _ _ La) as [ta Ea]. destruct (lt_get _ _ Lb) as [tb Eb].
  destruct (Wf _ _ Ea) as [_ [ma Wa]]. destruct (Wf _ _ Eb) as [_ [mb Wb]].
  destruct (normal_type_cases _ _ _ f Wa) as [-> | ->]; [|reflexivity]. cbn [find].
  destruct (normal_type_cases _ _ _ f Wb) as [-> | ->]; [|reflexivity].
  destruct (pair_in ma mb eq); [reflexivity|].
  destruct (whnf_node _ _ _ Wa) as (na & Ena & Va). destruct (whnf_node _ _ _ Wb) as (nb & Enb & Vb).
  rewrite Ena, Enb. pose proof (get_wf _ _ _ Wf Ena) as Fa. pose proof (get_wf _ _ _ Wf Enb) as Fb.
  unfold cmp. fold (through st na). fold (through st nb).
  set (neq := (ma, mb) :: eq).
  pose proof (get_lt _ _ _ Ena) as Lma. pose proof (get_lt _ _ _ Enb) as Lmb.
  assert (Ta : forall t, through st na = Some (Some t) -> t < List.length st).
  { intros t E. destruct na; cbn in E; try discriminate. destruct Fa as [(pa & o & Ep) L]. rewrite Ep in E.
    destruct o; congruence. }
  assert (Tb : forall t, through st nb = Some (Some t) -> t < List.length st).
  { intros t E. destruct nb; cbn in E; try discriminate. destruct Fb as [(pa & o & Ep) L]. rewrite Ep in E.
    destruct o; congruence. }
  destruct (through st na) as [[t|]|]; [apply IH; auto| |reflexivity].
  destruct (through st nb) as [[t|]|]; [apply IH; auto| |reflexivity].
  clear Ta Tb. destruct na, nb; try reflexivity; cbn in Fa, Fb.
  - destruct (Bool.eqb union union0 && (List.length fields =? List.length fields0))%bool; [|reflexivity].
    clear Ena Enb Va Vb. revert fields0 Fb. induction Fa as [|[x s] ra Hs Fa IHl]; intros fb Fb; [reflexivity|].
    destruct fb as [|[y t] rb]; [reflexivity|]. apply Forall_cons_iff in Fb. destruct Fb as [Ht Fb].
    cbn [cmp_fields]. destruct (vname_equal x y); [|reflexivity].
    apply (lift_and2 st (te f st neq s t) _ _
      (fun st' vars' => (fix go (la lb : list (vname * nat)) (st0 : store) (vars : asgn) {struct la} := _) ra rb st' vars')).
    + apply IH; auto.
    + apply IHl; auto.
  - destruct Fa, Fb. apply (lift_and2 st _ _ _ (fun st3 vars3 => types_equal f st3 vars3 rtype rtype0 neq)); apply IH; auto.
  - destruct Fa as [_ La']. destruct Fb as [_ Lb'].
    destruct (kind_of f st arg) as [ka|]; [|reflexivity]. destruct (kind_of f st arg0) as [kb|]; [|reflexivity].
    destruct (kinds_equal ka kb); [apply IH; auto|reflexivity].
  - destruct Fa as (Lx & Wf1 & _), Fb as (Ly & Wf2 & _).
    apply (lift_and2 st _ _ _ (fun st3 vars3 => types_equal f st3 vars3 arg arg0 neq)); apply IH; auto;
      match goal with W : whnf _ ?f ?f |- ?f < _ => destruct (whnf_node _ _ _ W) as (? & G & _); eapply get_lt; eauto end.
  - destruct Fa as [(? & ? & E1) L1], Fb as [(? & ? & E2) L2].
    apply (lift_and2 st _ _ _ (fun st3 vars3 => types_equal f st3 vars3 type type0 neq)); apply IH; auto;
      eapply get_lt; eauto.
  - destruct value, value0; reflexivity.
  - apply IH; auto.
Qed.

(** ** Termination *)
Lemma pair_in_true a b eq : pair_in a b eq = true <-> In (a, b) eq.
Proof.
  unfold pair_in. rewrite existsb_exists. split.
  - intros ((x, y) & H & E). cbn in E. apply andb_prop in E. destruct E as [E1 E2].
    apply Nat.eqb_eq in E1, E2. subst. auto.
  - intros H. exists (a, b). split; [auto|]. cbn. rewrite !Nat.eqb_refl. reflexivity.
Qed.

Definition all_pairs (n : nat) := list_prod (seq 0 n) (seq 0 n).
Definition left_over (n : nat) (eq : list (nat * nat)) : nat :=
  List.length (filter (fun p => negb (pair_in (fst p) (snd p) eq)) (all_pairs n)).

Lemma filter_le (A : Type) (p q : A -> bool) l : (forall x, In x l -> p x = true -> q x = true) ->
  List.length (filter p l) <= List.length (filter q l).
Proof.
  induction l as [|x l IH]; intros H; [auto|]. cbn.
  assert (IHl : List.length (filter p l) <= List.length (filter q l)) by (apply IH; intros; apply H; cbn; auto).
  specialize (H x (or_introl eq_refl)). destruct (p x); [rewrite (H eq_refl); cbn; lia|]. destruct (q x); cbn; lia.
Qed.

Lemma filter_lt (A : Type) (p q : A -> bool) l x : (forall x, In x l -> p x = true -> q x = true) ->
  In x l -> p x = false -> q x = true ->
  List.length (filter p l) < List.length (filter q l).
Proof.
  induction l as [|y l IH]; intros H Hx Px Qx; [contradiction|]. cbn.
  assert (Le : List.length (filter p l) <= List.length (filter q l)) by (apply filter_le; intros; apply H; cbn; auto).
  destruct Hx as [->|Hx].
  - rewrite Px, Qx. cbn. lia.
  - assert (List.length (filter p l) < List.length (filter q l)) by (apply IH; auto; intros; apply H; cbn; auto).
    specialize (H y (or_introl eq_refl)). destruct (p y); [rewrite (H eq_refl); cbn; lia|]. destruct (q y); cbn; lia.
Qed.

Lemma pair_in_cons x y p eq : pair_in x y (p :: eq) = (((fst p =? x) && (snd p =? y)) || pair_in x y eq)%bool.
Proof. reflexivity. Qed.

Lemma left_over_mono n eq p : left_over n (p :: eq) <= left_over n eq.
Proof.
  apply filter_le. intros [x y] _ H. cbn [fst snd] in *. rewrite pair_in_cons in H. destruct (pair_in x y eq); [|reflexivity].
  rewrite orb_true_r in H. discriminate.
Qed.

Lemma left_over_lt n eq a b : a < n -> b < n -> pair_in a b eq = false -> left_over n ((a, b) :: eq) < left_over n eq.
Proof.
  intros La Lb H. apply filter_lt with (x := (a, b)).
  - intros [x y] _ E. cbn [fst snd] in *. rewrite pair_in_cons in E. destruct (pair_in x y eq); [|reflexivity].
    rewrite orb_true_r in E. discriminate.
  - apply in_prod; apply in_seq; lia.
  - cbn [fst snd]. rewrite pair_in_cons. cbn [fst snd]. rewrite !Nat.eqb_refl. reflexivity.
  - cbn [fst snd]. rewrite H. reflexivity.
Qed.

Lemma left_over_bound n eq : left_over n eq <= n * n.
Proof.
  unfold left_over. rewrite <- (seq_length n 0) at 2 3. rewrite <- prod_length.
  fold (all_pairs n). induction (all_pairs n) as [|x l IH]; cbn; [lia|]. destruct (negb _); cbn; lia.
Qed.

Lemma and2_total x y : (exists r, x = Some r) -> (exists r, y = Some r) -> exists r, and2 x y = Some r.
Proof. intros [[] ->] [s ->]; cbn; eauto. Qed.

Lemma kind_of_var st f a k x v : 0 < f -> get st a = Some (TVar k x v) -> kind_of f st a = Some k.
Proof. intros L E. destruct f; [lia|]. cbn. rewrite E. reflexivity. Qed.

Lemma app_lt st f x : well_formed st -> wf_node st (TApply f x) -> f < List.length st.
Proof. intros Wf (_ & W & _). destruct (whnf_node _ _ _ W) as (? & G & _). eapply get_lt; eauto. Qed.

Lemma te_total st : well_formed st -> forall f eq a b,
  a < List.length st -> b < List.length st -> left_over (List.length st) eq + List.length st < f ->
  exists r, te f st eq a b = Some r.
Proof.
  intros Wf f. induction f as [|f IH]; intros eq a b La Lb Lf; [lia|]. cbn [te].
  destruct (lt_get _ _ La) as [ta Ea]. destruct (lt_get _ _ Lb) as [tb Eb].
  destruct (Wf _ _ Ea) as [_ [ma Wa]]. destruct (Wf _ _ Eb) as [_ [mb Wb]].
  rewrite (normal_type_exact _ _ _ f Wa), (normal_type_exact _ _ _ f Wb) by lia.
  destruct (pair_in ma mb eq) eqn:Pi; [eauto|].
  destruct (whnf_node _ _ _ Wa) as (na & Ena & Va). destruct (whnf_node _ _ _ Wb) as (nb & Enb & Vb).
  rewrite Ena, Enb. pose proof (get_wf _ _ _ Wf Ena) as Fa. pose proof (get_wf _ _ _ Wf Enb) as Fb.
  pose proof (get_lt _ _ _ Ena) as Lma. pose proof (get_lt _ _ _ Enb) as Lmb.
  pose proof (left_over_lt _ _ _ _ Lma Lmb Pi) as Lt.
  assert (IH' : forall x y, x < List.length st -> y < List.length st -> exists r, te f st ((ma, mb) :: eq) x y = Some r)
    by (intros; apply IH; auto; lia).
  unfold cmp. 
  destruct (through st na) as [[t|]|] eqn:Ta.
  { apply IH'; auto. destruct na; cbn in Ta; try discriminate. destruct Fa as [(pa & o & Ep) L]. rewrite Ep in Ta.
    destruct o; congruence. }
  2:{ exfalso. destruct na; cbn in Ta; try discriminate. destruct Fa as [(pa & o & Ep) L]. rewrite Ep in Ta. discriminate. }
  destruct (through st nb) as [[t|]|] eqn:Tb.
  { apply IH'; auto. destruct nb; cbn in Tb; try discriminate. destruct Fb as [(pa & o & Ep) L]. rewrite Ep in Tb.
    destruct o; congruence. }
  2:{ exfalso. destruct nb; cbn in Tb; try discriminate. destruct Fb as [(pa & o & Ep) L]. rewrite Ep in Tb. discriminate. }
  clear Ta Tb. destruct na, nb; eauto; cbn in Fa, Fb.
  - destruct (Bool.eqb union union0 && (List.length fields =? List.length fields0))%bool; [|eauto].
    clear Ena Enb Va Vb. revert fields0 Fb. induction Fa as [|[x s] ra Hs Fa IHl]; intros fb Fb; [cbn; eauto|].
    destruct fb as [|[y t] rb]; [cbn; eauto|]. apply Forall_cons_iff in Fb. destruct Fb as [Ht Fb].
    cbn [cmp_fields]. destruct (vname_equal x y); [|eauto]. apply and2_total; auto.
  - destruct Fa, Fb. apply and2_total; auto.
  - destruct Fa as [(k1 & x1 & E1) La']. destruct Fb as [(k2 & x2 & E2) Lb'].
    assert (P : 0 < f) by lia. rewrite (kind_of_var _ _ _ _ _ _ P E1), (kind_of_var _ _ _ _ _ _ P E2).
    destruct (kinds_equal k1 k2); [|eauto]. apply IH; auto.
    pose proof (left_over_mono (List.length st) ((ma, mb) :: eq) (arg, arg0)). lia.
  - pose proof (app_lt _ _ _ Wf Fa). pose proof (app_lt _ _ _ Wf Fb). destruct Fa as (? & _), Fb as (? & _).
    apply and2_total; auto.
  - destruct Fa as [(? & ? & E1) L1], Fb as [(? & ? & E2) L2].
    apply get_lt in E1, E2. apply and2_total; auto.
  - destruct value; [exfalso; eapply Va; eauto|]. destruct value0; [exfalso; eapply Vb; eauto|]. eauto.
Qed.

(** ** Soundness: a pair found equal cannot be told apart *)
Definition step_rel (st : store) (R : rel) : rel := fun G a b =>
  forall ma mb, whnf st a ma -> whnf st b mb ->
    (forall t, transparent st ma t -> R G t mb) /\
    ((forall t, ~ transparent st ma t) -> forall t, transparent st mb t -> R G ma t) /\
    ((forall t, ~ transparent st ma t) -> (forall t, ~ transparent st mb t) -> same st R G ma mb).

Fixpoint E (st : store) (n : nat) : rel :=
  match n with 0 => fun _ _ _ => True | S m => step_rel st (E st m) end.

Lemma Forall2_impl (A B : Type) (P Q : A -> B -> Prop) l m :
  (forall x y, P x y -> Q x y) -> Forall2 P l m -> Forall2 Q l m.
Proof. intros H F; induction F; constructor; auto. Qed.

Lemma Forall2_len (A B : Type) (P : A -> B -> Prop) l m : Forall2 P l m -> List.length l = List.length m.
Proof. intros F; induction F; cbn; congruence. Qed.

Lemma same_mono st (R R' : rel) a b G G' : incl G G' ->
  (forall D x y, R (D ++ G) x y -> R' (D ++ G') x y) ->
  same st R G a b -> same st R' G' a b.
Proof.
  intros I H. unfold same. pose proof (H []) as H0; cbn in H0.
  destruct (get st a) as [ta|]; [|auto]. destruct (get st b) as [tb|]; [|destruct ta; auto].
  destruct ta, tb; auto.
  - intros [-> F]. split; [auto|]. eapply Forall2_impl; [|exact F]. intros x y [? ?]; split; auto.
  - intros [? ?]; auto.
  - intros [? ?]; split; auto. apply (H [(arg, arg0)]); auto.
  - intros [? ?]; auto.
  - intros [? ?]; auto.
  - intros [?|?]; auto.
Qed.

Lemma E_weaken st n : forall G G' a b, incl G G' -> E st n G a b -> E st n G' a b.
Proof.
  induction n as [|n IH]; intros G G' a b I H; [exact Logic.I|]. cbn in *.
  intros ma mb Wa Wb. destruct (H _ _ Wa Wb) as (H1 & H2 & H3). repeat split.
  - intros t T. eapply IH; eauto.
  - intros N t T. eapply IH; eauto.
  - intros N1 N2. eapply same_mono; [exact I| |apply H3; auto].
    intros D x y. apply IH. apply incl_app_app; [apply incl_refl|auto].
Qed.

Lemma E_down st n : forall G a b, E st (S n) G a b -> E st n G a b.
Proof.
  induction n as [|n IH]; intros G a b H; [exact Logic.I|].
  intros ma mb Wa Wb. destruct (H _ _ Wa Wb) as (H1 & H2 & H3). repeat split.
  - intros t T. apply IH. exact (H1 t T).
  - intros N t T. apply IH. exact (H2 N t T).
  - intros N1 N2. eapply same_mono; [apply incl_refl| |exact (H3 N1 N2)]. intros D x y Hxy; apply IH; exact Hxy.
Qed.

Lemma E_whnf st n G a b ma mb : whnf st a ma -> whnf st b mb -> E st n G ma mb -> E st n G a b.
Proof.
  intros Wa Wb H. destruct n as [|n]; [exact Logic.I|]. intros ma' mb' Wa' Wb'.
  rewrite (whnf_det _ _ _ Wa' _ Wa), (whnf_det _ _ _ Wb' _ Wb).
  apply H; eapply whnf_self; eauto.
Qed.

Lemma through_transparent st n ta t : get st n = Some ta -> through st ta = Some (Some t) -> transparent st n t.
Proof.
  intros En H. destruct ta; cbn in H; try discriminate.
  destruct (get st package) as [tp|] eqn:Ep; [|discriminate]. destruct tp; try discriminate.
  destruct opaque; [discriminate|]. injection H as ->. exists package, path. auto.
Qed.

Lemma through_not st n ta t : get st n = Some ta -> through st ta = Some None -> ~ transparent st n t.
Proof.
  intros En H (p & path & E1 & E2). rewrite E1 in En. injection En as <-. cbn in H. rewrite E2 in H. discriminate.
Qed.

Lemma transparent_det st n t t' : transparent st n t -> transparent st n t' -> t = t'.
Proof. intros (p & path & E1 & _) (p' & path' & E2 & _). congruence. Qed.

Lemma and2_true x y : and2 x y = Some true <-> x = Some true /\ y = Some true.
Proof. destruct x as [[]|]; cbn; split; intros H; try tauto; try (destruct H; congruence); try congruence. Qed.

Lemma path_equal_eq a b : path_equal a b = true <-> a = b.
Proof.
  revert b; induction a as [|x a IH]; intros [|y b]; cbn; split; intros H; try congruence.
  - apply andb_prop in H. destruct H as [H1 H2]. apply String.eqb_eq in H1. apply IH in H2. congruence.
  - injection H as -> ->. rewrite String.eqb_refl. apply IH. reflexivity.
Qed.

Lemma cmp_fields_true eqf neq la lb : List.length la = List.length lb ->
  (cmp_fields eqf neq la lb = Some true <-> Forall2 (same_field (fun x y => eqf neq x y = Some true)) la lb).
Proof.
  revert lb; induction la as [|[x s] la IH]; intros [|[y t] lb] L; cbn in L; try discriminate; cbn.
  - split; auto.
  - destruct (vname_equal x y) eqn:Ev.
    + rewrite and2_true, IH by lia. split.
      * intros [H1 H2]. constructor; [split; auto|auto].
      * intros H. inversion H; subst. destruct H3; auto.
    + split; [discriminate|]. intros H. inversion H; subst. destruct H3. cbn in *. congruence.
Qed.

Lemma te_sound st : well_formed st -> forall f eq a b, te f st eq a b = Some true ->
  forall G A, (forall x y, In (x, y) eq -> In (x, y) G \/ In (x, y) A) ->
  (forall x y, In (x, y) G -> (exists k u l v, get st x = Some (TVar k u None) /\ get st y = Some (TVar l v None))) ->
  forall n, (forall x y, In (x, y) A -> E st n G x y) -> E st n G a b.
Proof.
  intros Wf f. induction f as [|f IH]; intros eq a b H G A Heq HG n; [discriminate|]. cbn [te] in H.
  destruct (normal_type f st a) as [[sa a0]|] eqn:Na; [|discriminate].
  destruct (normal_type f st b) as [[sb b0]|] eqn:Nb; [|discriminate].
  assert (Hw : forall x s m, normal_type f st x = Some (s, m) -> x < List.length st -> whnf st x m).
  { intros x s m Nx Lx. destruct (lt_get _ _ Lx) as [t Et]. destruct (Wf _ _ Et) as [_ [m' W]].
    destruct (normal_type_cases _ _ _ f W) as [R | R]; rewrite R in Nx; congruence. }
  assert (Hn : forall x s m, normal_type f st x = Some (s, m) -> x < List.length st).
  { intros x s m Nx. destruct (le_lt_dec (List.length st) x) as [Le|]; [|auto]. exfalso.
    unfold normal_type in Nx. destruct f; [discriminate|]. cbn in Nx. unfold get in Nx.
    rewrite (proj2 (nth_error_None st x) Le) in Nx. discriminate. }
  pose proof (Hw _ _ _ Na (Hn _ _ _ Na)) as Wa. pose proof (Hw _ _ _ Nb (Hn _ _ _ Nb)) as Wb. clear Hw Hn Na Nb.
  destruct (pair_in a0 b0 eq) eqn:Pi.
  { intros HA. apply (E_whnf _ _ _ _ _ _ _ Wa Wb). apply pair_in_true in Pi. destruct (Heq _ _ Pi) as [HG0|HA0]; [|auto].
    destruct (HG _ _ HG0) as (k & u & l & v & E1 & E2).
    destruct n as [|n]; [exact Logic.I|]. intros ma mb Wma Wmb.
    rewrite (whnf_det _ _ _ Wma _ (whnf_free _ _ _ _ E1)), (whnf_det _ _ _ Wmb _ (whnf_free _ _ _ _ E2)).
    repeat split.
    - intros t (? & ? & T & _). congruence.
    - intros _ t (? & ? & T & _). congruence.
    - intros _ _. unfold same. rewrite E1, E2. auto. }
  destruct (get st a0) as [ta|] eqn:Ea; [|discriminate]. destruct (get st b0) as [tb|] eqn:Eb; [|discriminate].
  induction n as [|n IHn]; intros HA; [exact Logic.I|].
  assert (En : E st n G a b) by (apply IHn; intros; apply E_down; auto). clear IHn.
  assert (En0 : E st n G a0 b0).
  { clear - En Wa Wb. destruct n as [|n]; [exact Logic.I|]. intros ma mb Wma Wmb.
    rewrite (whnf_det _ _ _ Wma _ (whnf_self _ _ _ Wa)), (whnf_det _ _ _ Wmb _ (whnf_self _ _ _ Wb)).
    apply En; auto. }
  pose (A' := (a0, b0) :: A).
  assert (HA' : forall x y, In (x, y) A' -> E st n G x y).
  { intros x y [Hxy|Hxy]; [injection Hxy as <- <-; auto|apply E_down; auto]. }
  assert (Heq' : forall x y, In (x, y) ((a0, b0) :: eq) -> In (x, y) G \/ In (x, y) A').
  { intros x y [Hxy|Hxy]; [right; left; auto|]. destruct (Heq _ _ Hxy); [auto|right; right; auto]. }
  assert (Sub : forall x y, te f st ((a0, b0) :: eq) x y = Some true -> E st n G x y)
    by (intros x y Hxy; exact (IH _ _ _ Hxy G A' Heq' HG n HA')).
  intros ma mb Wma Wmb. rewrite (whnf_det _ _ _ Wma _ Wa), (whnf_det _ _ _ Wmb _ Wb). clear ma mb Wma Wmb.
  unfold cmp in H.
  destruct (through st ta) as [[t|]|] eqn:Ta; [| |discriminate].
  { pose proof (through_transparent _ _ _ _ Ea Ta) as T. repeat split.
    - intros t' T'. rewrite (transparent_det _ _ _ _ T' T). auto.
    - intros N. destruct (N _ T).
    - intros N. destruct (N _ T). }
  assert (Nt : forall t, ~ transparent st a0 t) by (intros t; eapply through_not; eauto).
  split; [intros t T; destruct (Nt _ T)|].
  destruct (through st tb) as [[t|]|] eqn:Tb; [| |discriminate].
  { pose proof (through_transparent _ _ _ _ Eb Tb) as T. repeat split.
    - intros _ t' T'. rewrite (transparent_det _ _ _ _ T' T). auto.
    - intros _ N. destruct (N _ T). }
  assert (Nt' : forall t, ~ transparent st b0 t) by (intros t; eapply through_not; eauto).
  split; [intros _ t T; destruct (Nt' _ T)|]. intros _ _.
  unfold same. rewrite Ea, Eb. destruct ta, tb; try discriminate.
  - destruct (Bool.eqb union union0 && (List.length fields =? List.length fields0))%bool eqn:Eu; [|discriminate].
    apply andb_prop in Eu. destruct Eu as [Eu El]. apply Bool.eqb_prop in Eu. apply Nat.eqb_eq in El. split; [auto|].
    apply cmp_fields_true in H; [|auto]. eapply Forall2_impl; [|exact H]. intros x y [? ?]; split; auto.
  - apply and2_true in H. destruct H. split; auto.
  - destruct (kind_of f st arg) as [ka|] eqn:Ka; [|discriminate]. destruct (kind_of f st arg0) as [kb|] eqn:Kb; [|discriminate].
    destruct (kinds_equal ka kb) eqn:Ke; [|discriminate].
    destruct (get_wf _ _ _ Wf Ea) as [(k1 & x1 & E1) _]. destruct (get_wf _ _ _ Wf Eb) as [(k2 & x2 & E2) _].
    destruct f as [|f]; [discriminate|]. cbn in Ka, Kb. rewrite E1 in Ka. rewrite E2 in Kb.
    injection Ka as ->. injection Kb as ->. split.
    + exists ka, x1, None, kb, x2, None. auto.
    + refine (IH _ _ _ H ((arg, arg0) :: G) A' _ _ n _).
      * intros x y [Hxy|Hxy]; [left; left; auto|]. destruct (Heq' _ _ Hxy); [left; right; auto|auto].
      * intros x y [Hxy|Hxy]; [injection Hxy as <- <-; eauto 8|auto].
      * intros x y Hxy. apply (E_weaken _ _ G); [apply incl_tl, incl_refl|auto].
  - apply and2_true in H. destruct H. split; auto.
  - injection H as H. apply path_equal_eq in H. auto.
  - apply and2_true in H. destruct H. split; auto.
  - destruct value, value0; try discriminate. injection H as H. apply Nat.eqb_eq in H. auto.
  - auto.
Qed.

(** What survives every level is a bisimulation. *)
Definition L (st : store) : rel := fun G a b => forall n, E st n G a b.

Lemma fields_limit st G fs : forall gs, (forall n, Forall2 (same_field (E st n G)) fs gs) -> Forall2 (same_field (L st G)) fs gs.
Proof.
  induction fs as [|x fs IH]; intros gs H.
  - specialize (H 0). inversion H. constructor.
  - destruct gs as [|y gs]; [specialize (H 0); inversion H|]. constructor.
    + split; [specialize (H 0); inversion H; subst; destruct H3; auto|].
      intros n. specialize (H n). inversion H; subst. destruct H3; auto.
    + apply IH. intros n. specialize (H n). inversion H; auto.
Qed.

Lemma same_limit st G a b : (forall n, same st (E st n) G a b) -> same st (L st) G a b.
Proof.
  unfold same. intros H. destruct (get st a) as [ta|]; [|exact (H 0)].
  destruct ta; destruct (get st b) as [tb|]; try exact (H 0); destruct tb; try exact (H 0).
  - split; [exact (proj1 (H 0))|apply fields_limit; intros n; exact (proj2 (H n))].
  - split; intros n; apply (H n).
  - split; [exact (proj1 (H 0))|intros n; exact (proj2 (H n))].
  - split; intros n; apply (H n).
  - split; intros n; apply (H n).
  - exact H.
Qed.

Lemma L_step st G a b : L st G a b -> step_rel st (L st) G a b.
Proof.
  intros H ma mb Wa Wb.
  split; [intros t T n; apply (H (S n) ma mb Wa Wb); auto|].
  split; [intros N t T n; apply (H (S n) ma mb Wa Wb); auto|].
  intros N1 N2. apply same_limit. intros n. apply (H (S n) ma mb Wa Wb); auto.
Qed.

Lemma head_whnf st b mb hb : whnf st b mb -> head st b hb -> head st mb hb.
Proof.
  intros W H. inversion H; subst.
  - rewrite (whnf_det _ _ _ W _ H0). apply head_here; [eapply whnf_self; eauto|auto].
  - rewrite (whnf_det _ _ _ W _ H0). eapply head_under; [eapply whnf_self; eauto|eauto|auto].
Qed.

Lemma head_of_whnf st b mb hb : whnf st b mb -> head st mb hb -> head st b hb.
Proof.
  intros W H. inversion H; subst.
  - rewrite <- (whnf_det _ _ _ (whnf_self _ _ _ W) _ H0) in *. apply head_here; auto.
  - rewrite <- (whnf_det _ _ _ (whnf_self _ _ _ W) _ H0) in *. eapply head_under; eauto.
Qed.

Lemma head_det st n h : head st n h -> forall h', head st n h' -> h = h'.
Proof.
  intros H; induction H; intros h' H'; inversion H'; subst.
  - eapply whnf_det; eauto.
  - rewrite (whnf_det _ _ _ H1 _ H) in H2. destruct (H0 _ H2).
  - rewrite (whnf_det _ _ _ H _ H2) in H0. destruct (H3 _ H0).
  - rewrite (whnf_det _ _ _ H _ H2) in H0. rewrite (transparent_det _ _ _ _ H0 H3) in *. auto.
Qed.

Lemma step_bisimulation st (R : rel) :
  well_formed st -> (forall G a b, R G a b -> step_rel st R G a b) -> bisimulation st R.
Proof.
  intros Wf St G a b Hab ha hb Ha. revert b Hab. induction Ha as [a ha Wa Na|a m t ha Wa Ta Ha IH]; intros b Hab Hb.
  - revert a Wa Hab. induction Hb as [b hb Wb Nb|b m t hb Wb Tb Hb IH]; intros a Wa Hab.
    + apply (St _ _ _ Hab _ _ Wa Wb); auto.
    + destruct (St _ _ _ Hab _ _ Wa Wb) as (_ & H2 & _). apply (IH ha); [eapply whnf_self; eauto|]. apply H2; auto.
  - assert (exists mb, whnf st b mb) as [mb Wb] by (inversion Hb; eauto).
    destruct (St _ _ _ Hab _ _ Wa Wb) as (H1 & _). apply (IH mb); [auto|eapply head_whnf; eauto].
Qed.

(** ** Completeness: types that cannot be told apart are found equal *)
Lemma eqv_heads st G a b a' b' : (forall h, head st a' h -> head st a h) -> (forall h, head st b' h -> head st b h) ->
  eqv st G a b -> eqv st G a' b'.
Proof.
  intros Ia Ib (R & Bi & H). exists (fun G' x y => R G' x y \/ (G' = G /\ x = a' /\ y = b')). split; [|auto].
  intros G' x y [Hxy|(-> & -> & ->)] hx hy Hx Hy.
  - apply (same_mono st R _ _ _ G'); [apply incl_refl|auto|]. eapply Bi; eauto.
  - apply (same_mono st R _ _ _ G); [apply incl_refl|auto|]. eapply Bi; eauto.
Qed.

Lemma eqv_same st G a b ha hb : eqv st G a b -> head st a ha -> head st b hb -> same st (eqv st) G ha hb.
Proof.
  intros (R & Bi & H) Ha Hb. apply (same_mono st R _ _ _ G); [apply incl_refl| |eapply Bi; eauto].
  intros D x y Hxy. exists R. auto.
Qed.

Lemma te_complete st : well_formed st -> forall f eq a b G, incl G eq -> eqv st G a b ->
  te f st eq a b <> Some false.
Proof.
  intros Wf f. induction f as [|f IH]; intros eq a b G I H; [discriminate|]. cbn [te].
  destruct (normal_type f st a) as [[sa a0]|] eqn:Na; [|discriminate].
  destruct (normal_type f st b) as [[sb b0]|] eqn:Nb; [|discriminate].
  assert (Hn : forall x s m, normal_type f st x = Some (s, m) -> whnf st x m).
  { intros x s m Nx. destruct (le_lt_dec (List.length st) x) as [Le|Lx].
    - exfalso. unfold normal_type in Nx. destruct f; [discriminate|]. cbn in Nx. unfold get in Nx.
      rewrite (proj2 (nth_error_None st x) Le) in Nx. discriminate.
    - destruct (lt_get _ _ Lx) as [t Et]. destruct (Wf _ _ Et) as [_ [m' W]].
      destruct (normal_type_cases _ _ _ f W) as [R | R]; rewrite R in Nx; congruence. }
  pose proof (Hn _ _ _ Na) as Wa. pose proof (Hn _ _ _ Nb) as Wb. clear Hn Na Nb.
  destruct (pair_in a0 b0 eq) eqn:Pi; [discriminate|].
  destruct (get st a0) as [ta|] eqn:Ea; [|discriminate]. destruct (get st b0) as [tb|] eqn:Eb; [|discriminate].
  unfold cmp.
  assert (Sub : forall x y, eqv st G x y -> te f st ((a0, b0) :: eq) x y <> Some false).
  { intros x y. apply IH. apply incl_tl. auto. }
  assert (H0 : eqv st G a0 b0).
  { eapply eqv_heads; [| |exact H]; intros h Hh; eapply head_of_whnf; eauto. }
  destruct (through st ta) as [[t|]|] eqn:Ta; [| |discriminate].
  { apply Sub. eapply eqv_heads; [| |exact H0]; intros h Hh; [|auto].
    eapply head_under; [eapply whnf_self; eauto|eapply through_transparent; eauto|auto]. }
  destruct (through st tb) as [[t|]|] eqn:Tb; [| |discriminate].
  { apply Sub. eapply eqv_heads; [| |exact H0]; intros h Hh; [auto|].
    eapply head_under; [eapply whnf_self; eauto|eapply through_transparent; eauto|auto]. }
  assert (Sm : same st (eqv st) G a0 b0).
  { apply (eqv_same st G a0 b0); [auto| |]; apply head_here;
      try (eapply whnf_self; eauto); intros t; eapply through_not; eauto. }
  assert (Sub2 : forall x y x' y', eqv st G x y /\ eqv st G x' y' ->
            and2 (te f st ((a0, b0) :: eq) x y) (te f st ((a0, b0) :: eq) x' y') <> Some false).
  { intros x y x' y' [H1 H2]. specialize (Sub _ _ H1) as S1. specialize (Sub _ _ H2) as S2.
    destruct (te f st ((a0, b0) :: eq) x y) as [[]|]; cbn; congruence. }
  unfold same in Sm. rewrite Ea, Eb in Sm. destruct ta, tb; try contradiction; auto.
  - destruct Sm as [-> Sm]. rewrite Bool.eqb_reflx.
    assert (List.length fields = List.length fields0) as -> by (eapply Forall2_len; eauto). rewrite Nat.eqb_refl. cbn.
    clear - Sub Sm. induction Sm as [|[x s] [y t] fs gs [Hn Hr] Sm IHs]; [discriminate|]. cbn in *. rewrite Hn.
    specialize (Sub _ _ Hr). destruct (te f st ((a0, b0) :: eq) s t) as [[]|]; cbn; congruence.
  - destruct Sm as ((k & n & v & l & m & w & E1 & E2 & Ke) & Sm).
    destruct f as [|f]; [discriminate|]. cbn [kind_of]. rewrite E1, E2, Ke.
    apply (IH _ _ _ ((arg, arg0) :: G)); [|auto].
    intros p [<-|Hp]; [left; auto|right; right; auto].
  - rewrite (proj2 (path_equal_eq _ _) Sm). discriminate.
  - destruct value, value0; try discriminate. destruct Sm as [Hin| ->].
    + apply I in Hin. apply pair_in_true in Hin. congruence.
    + rewrite Nat.eqb_refl. discriminate.
Qed.

(** ** The theorems *)

(** FbleTypesEqual's steps on a graph of N types: enough fuel. *)
Definition enough (st : store) : nat := List.length st * List.length st + List.length st + 1.

(** C40: type equality terminates and says whether the types can be told
    apart. *)
Theorem types_equal_exact_partial st a b fuel :
  well_formed st -> a < List.length st -> b < List.length st -> enough st <= fuel ->
  exists r, fble_types_equal fuel st a b = Some r /\ (r = true <-> equal_types st a b).
Proof.
  intros Wf La Lb Lf. unfold fble_types_equal, type_infer. rewrite (types_equal_te _ Wf) by auto.
  assert (Lo : left_over (List.length st) [] + List.length st < fuel).
  { pose proof (left_over_bound (List.length st) []). unfold enough in Lf. lia. }
  destruct (te_total st Wf fuel [] a b La Lb Lo) as [r Hr]. rewrite Hr. cbn. exists r. split; [reflexivity|]. split.
  - intros ->. exists (L st). split; [apply step_bisimulation; [auto|apply L_step]|].
    intros n. apply (te_sound st Wf _ _ _ _ Hr [] []); intros x y [].
  - intros H. pose proof (te_complete st Wf fuel [] a b [] (incl_refl _) H). destruct r; congruence.
Qed.

(** Reflexive. *)
Lemma vname_equal_refl x : vname_equal x x = true.
Proof. unfold vname_equal. rewrite Bool.eqb_reflx, String.eqb_refl. reflexivity. Qed.

Lemma kinds_equal_refl k : kinds_equal k k = true.
Proof. induction k; cbn; [apply Nat.eqb_refl|rewrite IHk1, IHk2; reflexivity]. Qed.

Theorem equal_types_refl st a : well_formed st -> equal_types st a a.
Proof.
  intros Wf. exists (fun _ x y => x = y). split; [|auto].
  intros G x y -> ha hb Ha Hb. rewrite (head_det _ _ _ Hb _ Ha). unfold same.
  assert (exists t, get st ha = Some t) as [t Et].
  { clear - Ha. induction Ha; auto. destruct (whnf_node _ _ _ H) as (t & Et & _). eauto. }
  rewrite Et. destruct t; auto.
  - split; [auto|]. clear. induction fields; constructor; auto. split; [apply vname_equal_refl|auto].
  - destruct (get_wf _ _ _ Wf Et) as [(k & x & E1) _]. split; [|auto].
    exists k, x, None, k, x, None. rewrite kinds_equal_refl. auto.
Qed.

(** Symmetric. *)
Lemma vname_equal_sym x y : vname_equal x y = vname_equal y x.
Proof. unfold vname_equal. rewrite String.eqb_sym. f_equal. destruct (v_type x), (v_type y); reflexivity. Qed.

Lemma kinds_equal_sym k : forall l, kinds_equal k l = kinds_equal l k.
Proof. induction k; intros []; cbn; auto; [apply Nat.eqb_sym|rewrite IHk1, IHk2; reflexivity]. Qed.

Definition flip (G : list (nat * nat)) := map (fun p => (snd p, fst p)) G.
Lemma flip_flip G : flip (flip G) = G.
Proof. unfold flip. rewrite map_map. rewrite <- (map_id G) at 2. apply map_ext. intros []; reflexivity. Qed.

Lemma same_flip st (R : rel) G a b : same st (fun G x y => R (flip G) y x) (flip G) a b -> same st R G b a.
Proof.
  unfold same. destruct (get st a) as [ta|]; [|intros []]. destruct (get st b) as [tb|]; [|destruct ta; intros []].
  destruct ta, tb; try (intros []; fail); rewrite ?flip_flip; auto.
  - intros [-> F]. split; [auto|]. induction F as [|x y fs gs [H1 H2] F IH]; constructor; auto.
    split; [rewrite vname_equal_sym; auto|auto].
  - intros ((k & n & v & l & m & w & E1 & E2 & Ke) & H). split.
    + exists l, m, w, k, n, v. rewrite kinds_equal_sym. auto.
    + cbn in H. rewrite flip_flip in H. auto.
  - intros [H|H]; [left|right; auto]. unfold flip in H. apply in_map_iff in H.
    destruct H as ((x, y) & Hxy & H). cbn in Hxy. injection Hxy as -> ->. auto.
Qed.

Lemma same_ext st (R R' : rel) G a b : (forall G x y, R G x y -> R' G x y) -> same st R G a b -> same st R' G a b.
Proof. intros H. apply same_mono; [apply incl_refl|auto]. Qed.

Theorem equal_types_sym st a b : equal_types st a b -> equal_types st b a.
Proof.
  intros (R & Bi & H). exists (fun G x y => R (flip G) y x). split; [|auto].
  intros G x y Hxy hx hy Hx Hy. apply same_flip.
  eapply same_ext; [|exact (Bi _ _ _ Hxy _ _ Hy Hx)]. intros G' u v. rewrite flip_flip. auto.
Qed.

(** Transitive on types without parameters, when no abstract type is its own
    contents. *)
Lemma vname_equal_trans x y z : vname_equal x y = true -> vname_equal y z = true -> vname_equal x z = true.
Proof.
  unfold vname_equal. intros H1 H2. apply andb_prop in H1, H2. destruct H1 as [A1 B1], H2 as [A2 B2].
  apply Bool.eqb_prop in A1, A2. apply String.eqb_eq in B1, B2. rewrite A1, A2, B1, B2, Bool.eqb_reflx, String.eqb_refl. reflexivity.
Qed.

Theorem equal_types_trans_partial st a b c :
  well_formed st -> no_poly st -> has_heads st -> b < List.length st ->
  equal_types st a b -> equal_types st b c -> equal_types st a c.
Proof.
  intros Wf Np Hh Lb (R & BR & Hab) (Q & BQ & Hbc).
  exists (fun G x z => G = [] /\ exists y, y < List.length st /\ R [] x y /\ Q [] y z). split; [|eauto 6].
  intros G x z (-> & y & Ly & Hxy & Hyz) hx hz Hx Hz. destruct (Hh y Ly) as [hy Hy].
  specialize (BR _ _ _ Hxy _ _ Hx Hy). specialize (BQ _ _ _ Hyz _ _ Hy Hz).
  unfold same in *. destruct (get st hx) as [tx|]; [|contradiction].
  destruct (get st hy) as [ty|] eqn:Ey; [|destruct tx; contradiction].
  destruct (get st hz) as [tz|]; [|destruct ty; contradiction].
  pose proof (get_wf _ _ _ Wf Ey) as Fy.
  destruct tx, ty; try contradiction; destruct tz; try contradiction; cbn in Fy.
  - destruct BR as [-> F1], BQ as [-> F2]. split; [auto|]. clear - F1 F2 Fy.
    revert fields1 F2. induction F1 as [|p q fs gs [H1 H2] F1 IH]; intros hs F2; inversion F2 as [|? r ? ? [G1 G2] F3]; subst; constructor.
    + split; [eapply vname_equal_trans; eauto|]. apply Forall_cons_iff in Fy. split; [auto|]. exists (snd q). tauto.
    + apply Forall_cons_iff in Fy. apply IH; tauto.
  - destruct BR, BQ, Fy. split; (split; [auto|]); eexists; eauto.
  - destruct (Np _ _ _ Ey).
  - pose proof (app_lt _ _ _ Wf Fy). destruct BR, BQ, Fy as [? _]. split; (split; [auto|]); eexists; eauto.
  - congruence.
  - destruct Fy as [(? & ? & Ep) ?]. apply get_lt in Ep. destruct BR, BQ. split; (split; [auto|]); eexists; eauto.
  - destruct BR as [[]| ->], BQ as [[]| ->]. auto.
  - split; [auto|]. eexists; eauto.
Qed.

(** The same for the function itself. *)
Theorem types_equal_refl_partial st a fuel :
  well_formed st -> a < List.length st -> enough st <= fuel -> fble_types_equal fuel st a a = Some true.
Proof.
  intros Wf La Lf. destruct (types_equal_exact_partial st a a fuel Wf La La Lf) as (r & -> & H).
  rewrite (proj2 H (equal_types_refl st a Wf)). reflexivity.
Qed.

Theorem types_equal_sym_partial st a b fuel :
  well_formed st -> a < List.length st -> b < List.length st -> enough st <= fuel ->
  fble_types_equal fuel st a b = fble_types_equal fuel st b a.
Proof.
  intros Wf La Lb Lf. destruct (types_equal_exact_partial st a b fuel Wf La Lb Lf) as (r & -> & H).
  destruct (types_equal_exact_partial st b a fuel Wf Lb La Lf) as (s & -> & H'). f_equal.
  destruct r, s; auto.
  - symmetry. apply H'. apply equal_types_sym. apply H. auto.
  - apply H. apply equal_types_sym. apply H'. auto.
Qed.

Theorem types_equal_trans_partial st a b c fuel :
  well_formed st -> no_poly st -> has_heads st -> a < List.length st -> b < List.length st -> c < List.length st ->
  enough st <= fuel ->
  fble_types_equal fuel st a b = Some true -> fble_types_equal fuel st b c = Some true ->
  fble_types_equal fuel st a c = Some true.
Proof.
  intros Wf Np Hh La Lb Lc Lf H1 H2.
  destruct (types_equal_exact_partial st a b fuel Wf La Lb Lf) as (r1 & E1 & Q1).
  destruct (types_equal_exact_partial st b c fuel Wf Lb Lc Lf) as (r2 & E2 & Q2).
  destruct (types_equal_exact_partial st a c fuel Wf La Lc Lf) as (r3 & E3 & Q3).
  rewrite E3. f_equal. apply Q3. apply (equal_types_trans_partial st a b c); auto; [apply Q1|apply Q2]; congruence.
Qed.
