(** * Types keep their constructors while a program is checked: lemmas for ResolveProps.v. *)
From Coq Require Import String List Arith Bool ZArith Lia.
From Verif Require CodeModel CompileModel.
From Verif Require Import KindModel UnusedModel TypeModel CheckModel CheckScope.
Import ListNotations.
Local Open Scope list_scope.
Local Notation tc := CompileModel.tc.

Definition ctor (t : ty) : nat :=
  match t with
  | TData false _ => 0 | TData true _ => 1 | TFunc _ _ => 2 | TPoly _ _ => 3 | TApply _ _ => 4 | TPackage _ _ => 5
  | TAbstract _ _ => 6 | TVar _ _ _ => 7 | TType _ => 8
  end.
Definition pres (st st' : store) : Prop := forall n d, get st n = Some d -> exists d', get st' n = Some d' /\ ctor d' = ctor d.

Lemma pres_refl st : pres st st.
Proof. intros n d E. eauto. Qed.
Lemma pres_trans a b c : pres a b -> pres b c -> pres a c.
Proof. intros A B n d E. destruct (A _ _ E) as (d1 & E1 & C1). destruct (B _ _ E1) as (d2 & E2 & C2). exists d2. split; congruence. Qed.
Lemma pres_app st l : pres st (st ++ l).
Proof. intros n d E. exists d. split; auto. unfold get in *. rewrite nth_error_app1; auto. apply nth_error_Some. congruence. Qed.
Lemma put_get : forall st n m t, get (put st n t) m = if Nat.eqb n m then match get st m with Some _ => Some t | None => None end else get st m.
Proof. unfold get. induction st as [|x st IH]; intros [|n] [|m] t; cbn; auto; try (destruct (n =? m); auto). Qed.
Lemma pres_put st n t : (forall d, get st n = Some d -> ctor t = ctor d) -> pres st (put st n t).
Proof.
  intros H m d E. rewrite put_get. destruct (Nat.eqb_spec n m) as [<-|]; [|eauto]. rewrite E. eauto.
Qed.
Lemma get_app_new st t : get (st ++ [t]) (List.length st) = Some t.
Proof. unfold get. rewrite nth_error_app2, Nat.sub_diag; auto. Qed.
Lemma pres_new st t st' n : new_type st t = (st', n) -> pres st st'.
Proof. intros H. injection H as <- <-. apply pres_app. Qed.
#[export] Hint Resolve pres_refl pres_app pres_new : pres.

Lemma pres_wrap : forall m st t st' n, wrap m st t = (st', n) -> pres st st'.
Proof.
  induction m as [|m IH]; intros st t st' n H; cbn in H; [injection H as <- <-; apply pres_refl|].
  apply IH in H. eapply pres_trans; [apply pres_app|exact H].
Qed.
Lemma pres_new_var st k x st' n : new_var_type st k x = Some (st', n) -> pres st st'.
Proof.
  unfold new_var_type. destruct (level_adjusted k _); [|discriminate]. cbn. intros H.
  destruct (wrap (kind_level k) (st ++ [TVar k0 x None]) (List.length st)) as [st1 m] eqn:E. injection H as <- <-.
  eapply pres_trans; [apply pres_app|eapply pres_wrap; eauto].
Qed.
Lemma pres_assign : forall f st v t st', assign_var f st v t = Some st' -> pres st st'.
Proof.
  induction f as [|f IH]; intros st v t st' H; cbn in H; [discriminate|].
  destruct (get st v) as [d|] eqn:E; [|discriminate]. destruct d; try discriminate.
  - destruct (kind_of f st t); [|discriminate]. injection H as <-. apply pres_put. intros d E'. assert (d = TVar k name value) as -> by congruence. reflexivity.
  - destruct (get st t) as [[]|]; try discriminate. eauto.
Qed.
#[export] Hint Resolve pres_new_var pres_assign : pres.

Lemma pres_subst : forall f st t p a tps st' n, subst f st t p a tps = Some (st', n) -> pres st st'.
Proof.
  induction f as [|f IH]; intros st t p a tps st' n H; cbn in H; [discriminate|].
  destruct (has_param f st [] t p) as [[|]|]; try discriminate; [|injection H as <- <-; apply pres_refl].
  destruct (get st t) as [d|]; [|discriminate]. destruct d as [u fs|x r|x b|q x|q o|q b|k x [v|]|b]; try discriminate.
  - set (s := List.length st) in *.
    match type of H with ?g _ _ _ = _ =>
      assert (K : forall l acc st1, pres (st ++ [TData u []]) st1 -> g l st1 acc = Some (st', n) -> pres st st') end.
    { clear H. induction l as [|[x ft] l IHl]; intros acc st1 P H.
      - injection H as <- <-. eapply pres_trans; [apply pres_app|]. eapply pres_trans; [exact P|]. apply pres_put.
        intros d E. destruct (P s (TData u []) (get_app_new _ _)) as (d' & E' & C). assert (d = d') as -> by congruence. rewrite C. destruct u; auto.
      - destruct (subst f st1 ft p a tps) as [[st2 ft']|] eqn:E; [|discriminate]. apply IH in E. eapply IHl; [|exact H]. eapply pres_trans; eauto. }
    eapply K; [|exact H]. apply pres_refl.
  - destruct (subst f st x p a tps) as [[st1 x']|] eqn:E1; [|discriminate]. destruct (subst f st1 r p a tps) as [[st2 r']|] eqn:E2; [|discriminate].
    injection H as <- <-. eapply pres_trans; [eapply IH; eauto|]. eapply pres_trans; [eapply IH; eauto|]. apply pres_app.
  - destruct (subst f st b p a tps) as [[st1 b']|] eqn:E1; [|discriminate]. apply IH in E1.
    destruct (get st1 b') as [[]|]; try discriminate; injection H as <- <-; (eapply pres_trans; [exact E1|apply pres_app]).
  - destruct (subst f st q p a tps) as [[st1 q']|] eqn:E1; [|discriminate]. destruct (subst f st1 x p a tps) as [[st2 x']|] eqn:E2; [|discriminate].
    apply IH in E1, E2. pose proof (pres_trans _ _ _ E1 E2) as E.
    destruct (get st2 q') as [[]|]; try discriminate; injection H as <- <-; (eapply pres_trans; [exact E|apply pres_app]).
  - destruct (subst f st b p a tps) as [[st1 b']|] eqn:E1; [|discriminate]. apply IH in E1. injection H as <- <-. eapply pres_trans; [exact E1|apply pres_app].
  - destruct (find _ tps) as [[? ?]|]; [injection H as <- <-; apply pres_refl|].
    destruct (new_var_type st k x) as [[st1 sv]|] eqn:E1; [|discriminate].
    destruct (subst f st1 v p a ((v, sv) :: tps)) as [[st2 v']|] eqn:E2; [|discriminate].
    destruct (assign_var f st2 sv v') as [st3|] eqn:E3; [|discriminate]. injection H as <- <-.
    eapply pres_trans; [eapply pres_new_var; eauto|]. eapply pres_trans; [eapply IH; eauto|]. eapply pres_assign; eauto.
  - injection H as <- <-. apply pres_refl.
  - destruct (subst f st b p a tps) as [[st1 b']|] eqn:E1; [|discriminate]. apply IH in E1. injection H as <- <-. eapply pres_trans; [exact E1|apply pres_app].
Qed.
Lemma pres_normal : forall f st t l st' r, normal f st t l = Some (st', r) -> pres st st'.
Proof.
  induction f as [|f IH]; intros st t l st' r H; cbn in H; [discriminate|].
  destruct (is_in t l); [injection H as <- <-; apply pres_refl|].
  destruct (get st t) as [d|]; [|discriminate]. destruct d as [u fs|x b|x b|q x|q o|q b|k x [v|]|b];
    try (injection H as <- <-; apply pres_refl).
  - destruct (normal f st b (t :: l)) as [[st1 [pt|]]|] eqn:E; try discriminate; apply IH in E; [|injection H as <- <-; auto].
    destruct (get st1 pt) as [[]|]; try discriminate; injection H as <- <-; auto.
  - destruct (normal f st q (t :: l)) as [[st1 [pt|]]|] eqn:E; try discriminate; apply IH in E; [|injection H as <- <-; auto].
    destruct (get st1 pt) as [[]|]; try discriminate; try (injection H as <- <-; auto; fail).
    destruct (subst f st1 body arg x []) as [[st2 s]|] eqn:E2; [|discriminate]. apply pres_subst in E2. apply IH in H.
    eauto using pres_trans.
  - eauto.
Qed.
Lemma pres_normal_type f st t st' r : normal_type f st t = Some (st', r) -> pres st st'.
Proof. unfold normal_type. destruct (normal f st t []) as [[st1 [n|]]|] eqn:E; intros H; try discriminate. injection H as <- <-. eapply pres_normal; eauto. Qed.

Ltac brk H := repeat
  match type of H with
  | None = Some _ => discriminate H
  | (match ?x with _ => _ end) = _ =>
      lazymatch x with types_equal _ _ _ _ _ _ => fail | _ => let E := fresh "E" in destruct x eqn:E end
  | (if ?x then _ else _) = _ => let E := fresh "E" in destruct x eqn:E
  end.
Lemma pres_equal : forall f st vars a b eq st' vars' r, types_equal f st vars a b eq = Some (st', vars', r) -> pres st st'.
Proof.
  induction f as [|f IH]; intros st vars a b eq st' vars' r H; [discriminate|].
  assert (B : forall st2 x y x' y' neq, match types_equal f st2 vars x y neq with
                    | None => None
                    | Some (st3, vars3, false) => Some (st3, vars3, false)
                    | Some (st3, vars3, true) => types_equal f st3 vars3 x' y' neq
                    end = Some (st', vars', r) -> pres st2 st').
  { intros st2 x y x' y' neq E. destruct (types_equal f st2 vars x y neq) as [[[st3 v3] [|]]|] eqn:E1; try discriminate.
    - apply IH in E, E1. eauto using pres_trans.
    - injection E as <- <- <-. eauto. }
  assert (Gf : forall neq la lb st2 vars2,
    (fix go (la lb : list (vname * nat)) st vars :=
       match la, lb with
       | (x, s) :: ra, (y, t) :: rb =>
           if vname_equal x y then
             match types_equal f st vars s t neq with
             | None => None
             | Some (st', vars', false) => Some (st', vars', false)
             | Some (st', vars', true) => go ra rb st' vars'
             end
           else Some (st, vars, false)
       | _, _ => Some (st, vars, true)
       end) la lb st2 vars2 = Some (st', vars', r) -> pres st2 st').
  { intros neq. induction la as [|[x s] la IHl]; intros [|[y t] lb] st2 vars2 E; try (injection E as <- <- <-; apply pres_refl).
    destruct (vname_equal x y); [|injection E as <- <- <-; apply pres_refl].
    destruct (types_equal f st2 vars2 s t neq) as [[[st3 v3] [|]]|] eqn:E1; try discriminate.
    - apply IH in E1. apply IHl in E. eauto using pres_trans.
    - injection E as <- <- <-. eauto. }
  cbn [types_equal] in H.
  destruct (normal_type f st a) as [[st0 a0]|] eqn:E0; [|discriminate]. apply pres_normal_type in E0.
  eapply pres_trans; [exact E0|]. clear E0 st a.
  assert (Fin : forall st1 st2 b', pres st0 st1 -> normal_type f st1 b = Some (st2, b') -> pres st2 st' -> pres st0 st').
  { intros st1 st2 b' P1 P2 P3. apply pres_normal_type in P2. eauto using pres_trans. }
  destruct (find (fun p => fst p =? a0) vars) as [[x [v|]]|]; [| injection H as <- <- <-; apply pres_refl|].
  - destruct (normal_type f st0 v) as [[st1 a1]|] eqn:E1; [|discriminate]. apply pres_normal_type in E1.
    destruct (normal_type f st1 b) as [[st2 b2]|] eqn:E2; [|discriminate]. eapply Fin; [exact E1|exact E2|]. clear Fin E1 E2 st0 st1.
    brk H; try (injection H as <- <- <-; apply pres_refl); try (eapply IH; exact H); try (eapply B; exact H); try (eapply Gf; exact H).
  - destruct (normal_type f st0 b) as [[st2 b2]|] eqn:E2; [|discriminate]. eapply Fin; [apply pres_refl|exact E2|]. clear Fin E2 st0.
    brk H; try (injection H as <- <- <-; apply pres_refl); try (eapply IH; exact H); try (eapply B; exact H); try (eapply Gf; exact H).
Qed.

Lemma set_asgn_fst : forall vars a b, map fst (set_asgn vars a b) = map fst vars.
Proof. induction vars as [|[x v] vars IH]; intros a b; cbn; auto. destruct (x =? a); cbn; auto. f_equal. auto. Qed.
Lemma equal_vars : forall f st vars a b eq st' vars' r, types_equal f st vars a b eq = Some (st', vars', r) -> map fst vars' = map fst vars.
Proof.
  induction f as [|f IH]; intros st vars a b eq st' vars' r H; [discriminate|].
  assert (B : forall st2 x y x' y' neq, match types_equal f st2 vars x y neq with
                    | None => None
                    | Some (st3, vars3, false) => Some (st3, vars3, false)
                    | Some (st3, vars3, true) => types_equal f st3 vars3 x' y' neq
                    end = Some (st', vars', r) -> map fst vars' = map fst vars).
  { intros st2 x y x' y' neq E. destruct (types_equal f st2 vars x y neq) as [[[st3 v3] [|]]|] eqn:E1; try discriminate.
    - apply IH in E, E1. congruence.
    - injection E as <- <- <-. eauto. }
  assert (Gf : forall neq la lb st2 vars2,
    (fix go (la lb : list (vname * nat)) st vars :=
       match la, lb with
       | (x, s) :: ra, (y, t) :: rb =>
           if vname_equal x y then
             match types_equal f st vars s t neq with
             | None => None
             | Some (st', vars', false) => Some (st', vars', false)
             | Some (st', vars', true) => go ra rb st' vars'
             end
           else Some (st, vars, false)
       | _, _ => Some (st, vars, true)
       end) la lb st2 vars2 = Some (st', vars', r) -> map fst vars' = map fst vars2).
  { intros neq. induction la as [|[x s] la IHl]; intros [|[y t] lb] st2 vars2 E; try (injection E as <- <- <-; auto; fail).
    destruct (vname_equal x y); [|injection E as <- <- <-; auto].
    destruct (types_equal f st2 vars2 s t neq) as [[[st3 v3] [|]]|] eqn:E1; try discriminate.
    - apply IH in E1. apply IHl in E. congruence.
    - injection E as <- <- <-. eauto. }
  cbn [types_equal] in H.
  destruct (normal_type f st a) as [[st0 a0]|] eqn:E0; [|discriminate]. clear E0 st a.
  destruct (find (fun p => fst p =? a0) vars) as [[x [v|]]|]; [| injection H as <- <- <-; apply set_asgn_fst|].
  - destruct (normal_type f st0 v) as [[st1 a1]|] eqn:E1; [|discriminate].
    destruct (normal_type f st1 b) as [[st2 b2]|] eqn:E2; [|discriminate]. clear E1 E2 st0 st1.
    brk H; try (injection H as <- <- <-; reflexivity); try (eapply IH; exact H); try (eapply B; exact H); try (eapply Gf; exact H).
  - destruct (normal_type f st0 b) as [[st2 b2]|] eqn:E2; [|discriminate]. clear E2 st0.
    brk H; try (injection H as <- <- <-; reflexivity); try (eapply IH; exact H); try (eapply B; exact H); try (eapply Gf; exact H).
Qed.

(** ** In the checker *)
Definition stable {A} (m : M A) := forall s x s', m s = Done x s' -> pres (types s) (types s').
Lemma stable_bind {A B} (m : M A) (k : A -> M B) : stable m -> (forall x, stable (k x)) -> stable (bind m k).
Proof. intros Hm Hk s y s' H. apply bind_inv in H. destruct H as (x & s1 & E & H). eapply pres_trans; [eapply Hm; eauto|eapply Hk; eauto]. Qed.
Lemma stable_ret {A} (x : A) : stable (ret x).
Proof. intros s y s' H. apply ret_inv in H. destruct H as [_ ->]. apply pres_refl. Qed.
Lemma stable_and_then {A B} (m : M (option A)) (k : A -> M (option B)) : stable m -> (forall x, stable (k x)) -> stable (and_then m k).
Proof. intros Hm Hk. apply stable_bind; [auto|]. intros [x|]; auto using stable_ret. Qed.
Lemma stable_bad {A} : stable (@bad A).
Proof. intros s x s' H. discriminate. Qed.
Lemma stable_more {A} : stable (fun _ => @More A).
Proof. intros s x s' H. discriminate. Qed.
Lemma stable_kind f t : stable (kind_of_m f t).
Proof. intros s x s'. unfold kind_of_m, lift. destruct (kind_of f (types s) t); intros H; inversion H; apply pres_refl. Qed.
Lemma stable_normal f t : stable (normal_m f t).
Proof. intros s x s'. unfold normal_m. destruct (normal f (types s) t []) as [[st [n|]]|] eqn:E; intros H; inversion H. eapply pres_normal; eauto. Qed.
Lemma stable_get n : stable (get_m n).
Proof. intros s x s'. unfold get_m. destruct (get (types s) n); intros H; inversion H; apply pres_refl. Qed.
Lemma stable_infer f vars a b : stable (infer_m f vars a b).
Proof. intros s x s'. unfold infer_m, type_infer. destruct (types_equal f (types s) vars a b []) as [[[st v] r]|] eqn:E; intros H; inversion H. eapply pres_equal; eauto. Qed.
Lemma stable_equal f a b : stable (equal_m f a b).
Proof. apply stable_bind; auto using stable_infer, stable_ret. Qed.
Lemma stable_new_var k x : stable (new_var_m k x).
Proof. intros s y s'. unfold new_var_m. destruct (new_var_type (types s) k x) as [[st n]|] eqn:E; intros H; inversion H. eapply pres_new_var; eauto. Qed.
Lemma stable_assign f v t : stable (assign_m f v t).
Proof. intros s y s'. unfold assign_m. destruct (assign_var f (types s) v t) as [st|] eqn:E; intros H; inversion H. eapply pres_assign; eauto. Qed.
Lemma stable_alloc t : stable (alloc t).
Proof. intros s y s'. unfold alloc, new_type. intros H; inversion H. apply pres_app. Qed.
Lemma stable_read {A} (g : state -> A) : stable (read g).
Proof. intros s y s'. unfold read. intros H; inversion H. apply pres_refl. Qed.
Lemma stable_value_of t : stable (value_of t).
Proof. apply stable_read. Qed.
Lemma stable_same {A} (m : M A) : (forall s x s', m s = Done x s' -> types s' = types s) -> stable m.
Proof. intros K s x s' H. rewrite (K _ _ _ H). apply pres_refl. Qed.
Lemma stable_get_var x : stable (get_var_m x).
Proof. apply stable_same. intros s y s'. unfold get_var_m. destruct (get_var false x (scopes s)) as [[v sc]|]; intros H; inversion H; auto. Qed.
Lemma stable_push_frame fr : stable (push_frame fr).
Proof. apply stable_same. intros s y s' H. unfold push_frame in H. inversion H; auto. Qed.
Lemma stable_pop_frame : stable pop_frame.
Proof. apply stable_same. intros s y s'. unfold pop_frame. destruct (scopes s); intros H; inversion H; auto. Qed.
Lemma stable_on_frame g : stable (on_frame g).
Proof. apply stable_same. intros s y s'. unfold on_frame. destruct (scopes s); intros H; inversion H; auto. Qed.
Lemma stable_top_locals n : stable (top_locals n).
Proof. apply stable_same. intros s y s'. unfold top_locals. destruct (scopes s); intros H; inversion H; auto. Qed.
Lemma stable_vacuous f : forall t, stable (vacuous f t).
Proof.
  induction f as [|f IH]; intros t s x s'; cbn; [discriminate|].
  destruct (normal f (types s) t []) as [[st [n|]]|] eqn:E; try discriminate; apply pres_normal in E; [|intros H; inversion H; auto; subst; auto].
  destruct (get st n) as [d|]; [destruct d|]; intros H; try (inversion H; subst; auto; fail); apply IH in H; eapply pres_trans; eauto.
Qed.

#[export] Hint Resolve stable_ret stable_bad stable_more stable_kind stable_normal stable_get stable_infer stable_get_var stable_push_frame
  stable_pop_frame stable_on_frame stable_top_locals
  stable_equal stable_new_var stable_assign stable_alloc stable_read stable_value_of stable_vacuous : stable.

Ltac stable_tac := repeat first
  [ apply stable_bind; [|intros] | apply stable_and_then; [|intros] | solve [auto with stable]
  | match goal with |- stable (match ?x with _ => _ end) => destruct x end
  | match goal with |- stable (let (_, _) := ?x in _) => destruct x end ].

Lemma stable_new_poly f : forall a b, stable (new_poly f a b).
Proof. induction f as [|f IH]; intros a b; cbn [new_poly]; stable_tac. Qed.
Lemma stable_new_poly_apply f : forall a b, stable (new_poly_apply f a b).
Proof. induction f as [|f IH]; intros a b; cbn [new_poly_apply]; stable_tac. Qed.
Lemma stable_list_element f t : stable (list_element f t).
Proof. unfold list_element. stable_tac. Qed.
Lemma stable_name_space f x t : stable (name_space f x t).
Proof. unfold name_space. stable_tac. Qed.
Lemma stable_depoly f : forall t vars, stable (depoly f t vars).
Proof. induction f as [|f IH]; intros; cbn [depoly]; stable_tac. Qed.
#[export] Hint Resolve stable_new_poly stable_new_poly_apply stable_list_element stable_name_space stable_depoly : stable.
Lemma stable_poly_apply f p a : stable (poly_apply f p a).
Proof. unfold poly_apply. stable_tac. Qed.
#[export] Hint Resolve stable_poly_apply : stable.
Lemma stable_infer_all f : forall xs ys vars, stable (infer_all f vars xs ys).
Proof. induction xs as [|x xs IH]; intros [|y ys] vars; cbn [infer_all]; stable_tac. Qed.
Lemma stable_apply_vars f : forall vars p, stable (apply_vars f vars p).
Proof. induction vars as [|[x [v|]] vars IH]; intros p; cbn [apply_vars]; stable_tac. Qed.
#[export] Hint Resolve stable_infer_all stable_apply_vars : stable.
Lemma stable_infer_args f vars xs ys p : stable (infer_args f vars xs ys p).
Proof. unfold infer_args. stable_tac. Qed.
Lemma stable_letters f u fields : forall n w, stable (letters f u fields n w).
Proof.
  induction n as [|n IH]; intros [|c w]; cbn [letters]; auto with stable.
  destruct (longest 0 fields (String c w) 0 0) as [len j]. stable_tac.
Qed.
Lemma stable_struct_fields f : forall l seen, stable (struct_fields f seen l).
Proof. induction l as [|[x [t e]] l IH]; intros seen; cbn [struct_fields]; stable_tac. Qed.
Lemma stable_copy_fields f : forall fields args, stable (copy_fields f fields args).
Proof. induction fields as [|[x t] fields IH]; intros [|[y [[u e]|]] args]; cbn [copy_fields]; stable_tac. Qed.
Lemma stable_let_assign f : forall bs ts ds, stable (let_assign f bs ts ds).
Proof. induction bs as [|[[x kt] e] bs IH]; intros [|t ts] [|d ds]; cbn [let_assign]; stable_tac. Qed.
Lemma stable_each {A B} (g : A -> M B) : (forall x, stable (g x)) -> forall l, stable (each g l).
Proof. intros Hg. induction l as [|x l IH]; cbn [each]; stable_tac. Qed.
Lemma stable_each_rev {A B} (g : A -> M B) : (forall x, stable (g x)) -> forall l, stable (each_rev g l).
Proof. intros Hg. induction l as [|x l IH]; cbn [each_rev]; stable_tac. Qed.
Lemma stable_push_locals : forall l, stable (push_locals l).
Proof. induction l as [|[x t] l IH]; cbn [push_locals]; unfold push_local; stable_tac. Qed.
Lemma stable_pop_locals : forall n, stable (pop_locals n).
Proof. induction n as [|n IH]; cbn [pop_locals]; unfold pop_local; stable_tac. Qed.
#[export] Hint Resolve stable_infer_args stable_letters stable_struct_fields stable_copy_fields stable_let_assign stable_each stable_each_rev
  stable_push_locals stable_pop_locals : stable.

Section check.
  Variable module : list string.
  Section parts.
    Variable chk : expr -> M (option (nat * tc)).
    Variable chk_type : expr -> M (option nat).
    Variable f : nat.
    Hypothesis Hc : forall e, stable (chk e).
    Hypothesis Ht : forall e, stable (chk_type e).
    Lemma stable_for_type e : stable (for_type chk e).
    Proof. unfold for_type. stable_tac. Qed.
    Lemma stable_let_types : forall bs seen, stable (let_types chk_type f seen bs).
    Proof. induction bs as [|[[x kt] e] bs IH]; intros seen; cbn [let_types]; stable_tac. Qed.
    Lemma stable_let_defs : forall bs ts, stable (let_defs chk f bs ts).
    Proof. induction bs as [|[[x kt] e] bs IH]; intros [|t ts]; cbn [let_defs]; stable_tac. Qed.
    Lemma stable_let bs body : stable (check_let chk chk_type f bs body).
    Proof.
      unfold check_let, set_top_types. pose proof stable_let_types. pose proof stable_let_defs. stable_tac.
    Qed.
    Lemma stable_select_fields : forall fields i choices d a, stable (select_fields chk f i fields choices d a).
    Proof.
      induction fields as [|[x t] fields IH]; intros i choices d a; cbn [select_fields]; [auto with stable|].
      destruct choices as [|[y e] cr]; [apply IH|]. destruct (vname_equal y x); [|apply IH]. stable_tac; apply IH.
    Qed.
    Lemma stable_check_select c choices d : stable (check_select chk f c choices d).
    Proof. unfold check_select. pose proof stable_select_fields. stable_tac. Qed.
    Lemma stable_apply_args : forall args g, stable (apply_args f g args).
    Proof. induction args as [|a args IH]; intros g; cbn [apply_args]; stable_tac; apply IH. Qed.
    Lemma stable_check_apply b m args : stable (check_apply module chk f b m args).
    Proof. unfold check_apply. pose proof stable_apply_args. stable_tac. Qed.
  End parts.
  Lemma stable_data_fields chk_type f : (forall e, stable (chk_type e)) -> forall l seen, stable (data_fields chk_type f seen l).
  Proof. intros T. induction l as [|[x e] l IH]; intros seen; cbn [data_fields]; stable_tac. Qed.

  Theorem check_stable : forall fuel, (forall e, stable (check module fuel e)) /\ (forall e, stable (check_type module fuel e)).
  Proof.
    induction fuel as [|f [IHc IHt]]; [split; intros; apply stable_more|].
    pose proof (stable_for_type _ IHc) as Hf. pose proof (stable_data_fields _ f IHt) as Hd.
    pose proof (stable_let _ _ f IHc IHt) as Hl. pose proof (stable_check_select _ f IHc) as Hs. pose proof (stable_check_apply _ f IHc) as Ha.
    split; [|intros e; destruct e; cbn [check_type]; stable_tac].
    intros e; destruct e; cbn [check]; try (apply Hl); try (apply Hs); try (apply Ha); try (unfold push_local_type, pop_local; stable_tac; fail).
    intros s y s' H.
    apply and_then_inv in H. destruct H as [[H _]|(pt & s1 & E1 & H)]; [apply (IHt _ _ _ _ H)|]. apply IHt in E1.
    apply bind_inv in H. destruct H as (p & s2 & E2 & H). apply stable_normal in E2.
    apply bind_inv in H. destruct H as (d & s3 & E3 & H). pose proof (stable_get _ _ _ _ E3) as P3.
    assert (P : pres (types s) (types s3)) by eauto using pres_trans.
    destruct d; try (apply ret_inv in H; destruct H as [_ ->]; exact P).
    assert (Gp : get (types s3) p = Some (TPackage path opaque)).
    { unfold get_m in E3. destruct (get (types s2) p) eqn:E; [|discriminate]. injection E3 as -> <-. auto. }
    apply and_then_inv in H. destruct H as [[H _]|(t & s4 & E4 & H)]; [apply IHt in H; eauto using pres_trans|]. apply IHt in E4.
    apply and_then_inv in H. destruct H as [[H _]|(v & s5 & E5 & H)]; [apply IHc in H; eauto using pres_trans|]. apply IHc in E5.
    assert (P45 : pres (types s3) (types s5)) by eauto using pres_trans.
    destruct (belongs module path); [|apply ret_inv in H; destruct H as [_ ->]; eauto using pres_trans].
    destruct opaque; [|discriminate].
    apply bind_inv in H. destruct H as (st & s6 & E6 & H). unfold read in E6. injection E6 as <- <-.
    apply bind_inv in H. destruct H as ([] & s6 & E6 & H). unfold set_types in E6. injection E6 as <-.
    destruct (P45 _ _ Gp) as (d5 & G5 & C5).
    assert (P6 : pres (types s5) (put (types s5) p (TPackage path false))).
    { apply pres_put. intros d' E'. assert (d' = d5) as -> by congruence. rewrite C5. auto. }
    apply bind_inv in H. destruct H as (b & s7 & E7 & H). apply stable_equal in E7. cbn [types] in E7.
    apply bind_inv in H. destruct H as (st & s8 & E8 & H). unfold read in E8. injection E8 as <- <-.
    apply bind_inv in H. destruct H as ([] & s8 & E8 & H). unfold set_types in E8. injection E8 as <-.
    assert (P57 : pres (types s3) (types s7)) by eauto using pres_trans. destruct (P57 _ _ Gp) as (d7 & G7 & C7).
    apply ret_inv in H. destruct H as [_ ->]. cbn [types].
    eapply pres_trans; [exact P|]. eapply pres_trans; [exact P57|]. apply pres_put. intros d' E'. assert (d' = d7) as -> by congruence. rewrite C7. auto.
  Qed.
End check.

(** ** Instances of poly values have the code of the value *)
Definition no_type (st : store) (t : nat) : Prop := exists d, get st t = Some d /\ ctor d <> 8.
Lemma no_type_pres st st' t : pres st st' -> no_type st t -> no_type st' t.
Proof. intros P (d & E & C). destruct (P _ _ E) as (d' & E' & C'). exists d'. split; auto. congruence. Qed.
Lemma no_type_value s t o s' : no_type (types s) t -> value_of t s = Done o s' -> o = None.
Proof.
  intros (d & E & C) H. unfold value_of, read, value_of_type in H. injection H as <- _. rewrite E. destruct d; auto. destruct C; auto.
Qed.
Lemma new_poly_apply_no_type f p a s t s' : no_type (types s) p -> new_poly_apply f p a s = Done t s' -> no_type (types s') t.
Proof.
  intros (d & E & C) H. destruct f as [|f]; [discriminate|]. cbn [new_poly_apply] in H. apply bind_inv in H. destruct H as (d0 & s1 & E1 & H).
  unfold get_m in E1. rewrite E in E1. injection E1 as <- <-.
  assert (H' : alloc (TApply p a) s = Done t s') by (destruct d as [[|]| | | | | | |]; auto; destruct C; auto).
  unfold alloc, new_type in H'. injection H' as <- <-. cbn. exists (TApply p a). rewrite get_app_new. split; auto. discriminate.
Qed.
Lemma poly_apply_exact f p a s q s' : no_type (types s) (fst p) -> poly_apply f p a s = Done (Some q) s' ->
  snd q = snd p /\ no_type (types s') (fst q).
Proof.
  intros N H. unfold poly_apply in H. apply bind_inv in H. destruct H as (k & s1 & E1 & H). apply stable_kind in E1.
  pose proof (no_type_pres _ _ _ E1 N) as N1. destruct k as [n|ex k].
  - apply bind_inv in H. destruct H as (o & s2 & E2 & H). apply no_type_value in E2; auto. subst o. discriminate.
  - apply bind_inv in H. destruct H as (k' & s2 & E2 & H). apply stable_kind in E2. pose proof (no_type_pres _ _ _ E2 N1) as N2.
    destruct (kinds_equal ex k'); [|discriminate].
    apply bind_inv in H. destruct H as (o & s3 & E3 & H). apply stable_value_of in E3. pose proof (no_type_pres _ _ _ E3 N2) as N3.
    destruct o as [v|]; [|discriminate].
    apply bind_inv in H. destruct H as (t & s4 & E4 & H). apply ret_inv in H. destruct H as [H ->]. injection H as ->. cbn. split; auto.
    eapply new_poly_apply_no_type; eauto.
Qed.
Lemma apply_vars_exact f : forall vars p s q s', vars = [] \/ no_type (types s) (fst p) -> apply_vars f vars p s = Done (Some q) s' -> snd q = snd p.
Proof.
  induction vars as [|[x [v|]] vars IH]; intros p s q s' N H; cbn [apply_vars] in H; [| |discriminate].
  - apply ret_inv in H. destruct H as [H _]. injection H as ->. auto.
  - destruct N as [N|N]; [discriminate|].
    apply bind_inv in H. destruct H as (t & s1 & E1 & H). apply stable_alloc in E1. pose proof (no_type_pres _ _ _ E1 N) as N1.
    apply and_then_inv in H. destruct H as [[_ H]|(p' & s2 & E & H)]; [discriminate|].
    apply poly_apply_exact in E; auto. destruct E as [E N2]. rewrite <- E. eapply IH; eauto.
Qed.
Lemma infer_all_vars f : forall xs ys s r s', infer_all f [] xs ys s = Done r s' -> fst r = [].
Proof.
  induction xs as [|x xs IH]; intros [|y ys] s r s' H; cbn [infer_all] in H; try (apply ret_inv in H; destruct H as [-> _]; reflexivity).
  apply bind_inv in H. destruct H as ([v b] & s1 & E1 & H). unfold infer_m, type_infer in E1.
  destruct (types_equal f (types s) [] x y []) as [[[st v'] b']|] eqn:E; [|discriminate]. injection E1 as -> -> <-.
  apply equal_vars in E. destruct v; [|discriminate]. cbn [fst] in H.
  apply bind_inv in H. destruct H as (r' & s2 & E2 & H). apply ret_inv in H. destruct H as [-> _]. cbn. eauto.
Qed.
Lemma infer_args_exact f vars xs ys p s q s' : vars = [] \/ no_type (types s) (fst p) -> infer_args f vars xs ys p s = Done (Some q) s' -> snd q = snd p.
Proof.
  unfold infer_args. intros N. destruct (_ =? _); [|discriminate]. intros H. apply bind_inv in H. destruct H as (r & s1 & E1 & H).
  destruct (snd r); [|discriminate]. eapply apply_vars_exact; [|exact H]. destruct N as [-> |N].
  - left. eapply infer_all_vars; eauto.
  - right. eapply no_type_pres; [|exact N]. eapply stable_infer_all; eauto.
Qed.
(** What [depoly] finds parameters of is no type. *)
Lemma depoly_no_type f t s p s' : depoly f t [] s = Done p s' -> snd p = [] \/ no_type (types s) t.
Proof.
  intros H. destruct f as [|f]; [discriminate|]. cbn [depoly] in H. apply bind_inv in H. destruct H as (n & s1 & E1 & H).
  apply bind_inv in H. destruct H as (d & s2 & E2 & H). unfold get_m in E2. destruct (get (types s1) n) as [d0|] eqn:G; [|discriminate].
  injection E2 as -> <-. destruct d; try (apply ret_inv in H; destruct H as [-> _]; auto; fail). right. clear H.
  unfold normal_m in E1. destruct (normal f (types s) t []) as [[st [m|]]|] eqn:E; try discriminate. injection E1 as -> <-. cbn in G.
  destruct f as [|f]; [discriminate|]. cbn in E. destruct (get (types s) t) as [d|] eqn:Gt; [|discriminate]. exists d. split; auto.
  intros C. destruct d as [[|]| | | | | | |]; try discriminate. injection E as <- <-. congruence.
Qed.
