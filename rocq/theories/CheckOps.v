(** * What the parts of the type checker do to the types: lemmas for CheckProps.v. *)
From Coq Require Import String List Arith Bool ZArith Lia.
From Verif Require CodeModel CompileModel CompileStatic.
From Verif Require Import KindModel UnusedModel TypeModel TypeSpec TypeProps CheckModel CheckScope CheckTyping CheckSafe CheckGrow.
Import ListNotations.
Local Open Scope list_scope.
Local Notation tc := CompileModel.tc.

(** ** States *)
Definition frame_vars (n : nat) (fr : frame) : Prop :=
  Forall (fun v => is_value v = true /\ sv_type v < n) (f_statics fr ++ f_args fr ++ f_locals fr).
Record fine (s : state) : Prop := {
  fi_flat : flat (types s);
  fi_ground : grounded (types s);
  fi_ok : scopes_ok (scopes s);
  fi_vars : Forall (frame_vars (List.length (types s))) (scopes s) }.
Definition pre (st st' : store) : Prop := forall n t, get st n = Some t -> get st' n = Some t.
Definition step (s s' : state) : Prop := fine s' /\ pre (types s) (types s') /\ sext (scopes s) (scopes s').

Lemma fine_plain s : fine s -> plain (types s).
Proof. intros [A B _ _]. apply flat_plain; auto. Qed.
Lemma pre_refl st : pre st st.
Proof. intros n t E; auto. Qed.
Lemma pre_trans a b c : pre a b -> pre b c -> pre a c.
Proof. intros H1 H2 n t E. auto. Qed.
Lemma pre_app st l : pre st (st ++ l).
Proof. intros n t E. unfold get in *. rewrite nth_error_app1; auto. apply nth_error_Some. congruence. Qed.
Lemma pre_sle st st' : pre st st' -> sle st st'.
Proof. intros H n t E. left; auto. Qed.
Lemma pre_lt st st' : pre st st' -> List.length st <= List.length st'.
Proof. intros H. apply sle_lt, pre_sle; auto. Qed.
Lemma step_refl s : fine s -> step s s.
Proof. intros F. split; auto. split; auto using pre_refl, sext_refl. Qed.
Lemma step_trans a b c : step a b -> step b c -> step a c.
Proof. intros (_ & P & S) (F & P' & S'). split; auto. split; eauto using pre_trans, sext_trans. Qed.
Lemma step_fine s s' : step s s' -> fine s'.
Proof. intros (F & _). auto. Qed.
Lemma step_lt s s' n : step s s' -> n < List.length (types s) -> n < List.length (types s').
Proof. intros (_ & P & _) L. apply pre_lt in P. lia. Qed.

Definition ltypes (fr : frame) : list (option nat) :=
  map (fun v => if sv_used v then Some (sv_type v) else None) (values (f_locals fr)).
Definition top_typed (st : store) (sc : list frame) (e : tc) (t : nat) : Prop :=
  match sc with
  | [] => typed st [] [] [] e t
  | fr :: _ => typed st (map sv_type (f_statics fr)) (map sv_type (f_args fr)) (ltypes fr) e t
  end.
Definition tyd (s : state) (p : nat * tc) : Prop := fst p < List.length (types s) /\ top_typed (types s) (scopes s) (snd p) (fst p).

Lemma vle_types l l' : Forall2 vle l l' -> map sv_type l' = map sv_type l.
Proof. intros F. induction F as [|v w l l' (_ & E & _) F IH]; cbn; congruence. Qed.
Lemma vle_ltypes st l l' : Forall2 vle l l' ->
  Forall2 (lconv st) (map (fun v => if sv_used v then Some (sv_type v) else None) l)
                     (map (fun v => if sv_used v then Some (sv_type v) else None) l').
Proof.
  intros F. induction F as [|v w l l' (_ & E & _ & U) F IH]; cbn; constructor; auto.
  destruct (sv_used v); cbn; auto. rewrite U, E by auto. eauto using conv_refl.
Qed.
Lemma frame_typed st fr fr' e t : plain st -> fext fr fr' ->
  typed st (map sv_type (f_statics fr)) (map sv_type (f_args fr)) (ltypes fr) e t ->
  typed st (map sv_type (f_statics fr')) (map sv_type (f_args fr')) (ltypes fr') e t.
Proof.
  intros S [X1 X2 (l & x & X3 & X3') _ _] T. rewrite X3, map_app. apply typed_weak.
  rewrite (vle_types _ _ X3'), (vle_types _ _ X2).
  eapply typed_ctx; eauto using F2_conv_refl, conv_refl. apply vle_ltypes, values_ext; auto.
Qed.
Lemma top_typed_step s s' e t : fine s -> step s s' -> top_typed (types s) (scopes s) e t -> top_typed (types s') (scopes s') e t.
Proof.
  intros F (F' & P & X) T. assert (T' : top_typed (types s') (scopes s) e t).
  { assert (forall Ss As L, typed (types s) Ss As L e t -> typed (types s') Ss As L e t).
    { intros Ss As L. apply typed_grow; auto using fine_plain, pre_sle. }
    unfold top_typed in *. destruct (scopes s); auto. }
  clear T. destruct s as [st sc], s' as [st' sc']. cbn in *. destruct X as [|fr fr' r r' Xf X']; unfold top_typed in *; auto.
  eapply frame_typed; eauto. apply (fine_plain _ F').
Qed.
Lemma tyd_step s s' p : fine s -> step s s' -> tyd s p -> tyd s' p.
Proof. intros F S [L T]. split; [eapply step_lt; eauto|eapply top_typed_step; eauto]. Qed.
Lemma tyd_conv s e t t' : fine s -> tyd s (t, e) -> t' < List.length (types s) -> conv (types s) t t' -> tyd s (t', e).
Proof.
  intros F [L T] L' C. split; auto. cbn in *. unfold top_typed in *. destruct (scopes s); eapply typed_conv; eauto using fine_plain.
Qed.

(** ** Normal forms, kinds and equality *)
Lemma normal_flat st : flat st -> forall f t l st' r, normal f st t l = Some (st', r) -> st' = st /\ forall n, r = Some n -> whnf st t n.
Proof.
  intros F. induction f as [|f IH]; intros t l st' r H; cbn in H; [discriminate|].
  destruct (is_in t l); [injection H as <- <-; split; [auto|discriminate]|].
  destruct (get st t) as [d|] eqn:E; [|discriminate].
  destruct d as [u fs|a b|a b|p a|p o|p b|k x [v|]|b].
  - injection H as <- <-. split; auto. intros n H. injection H as <-. eapply whnf_data; eauto.
  - injection H as <- <-. split; auto. intros n H. injection H as <-. eapply whnf_func; eauto.
  - destruct (fl_poly _ F _ _ _ E).
  - destruct (fl_apply _ F _ _ _ E).
  - injection H as <- <-. split; auto. intros n H. injection H as <-. eapply whnf_package; eauto.
  - injection H as <- <-. split; auto. intros n H. injection H as <-. eapply whnf_abstract; eauto.
  - apply IH in H. destruct H as [-> H]. split; auto. intros n En. eapply whnf_var; eauto.
  - injection H as <- <-. split; auto. intros n H. injection H as <-. eapply whnf_free; eauto.
  - injection H as <- <-. split; auto. intros n H. injection H as <-. eapply whnf_type; eauto.
Qed.
Lemma state_eta s : MkState (types s) (scopes s) = s.
Proof. destruct s; reflexivity. Qed.
Lemma normal_m_ok s f t n s' : flat (types s) -> normal_m f t s = Done n s' -> s' = s /\ whnf (types s) t n.
Proof.
  intros F H. unfold normal_m in H. destruct (normal f (types s) t []) as [[st [m|]]|] eqn:E; try discriminate.
  injection H as <- <-. apply (normal_flat _ F) in E. destruct E as [-> E]. rewrite state_eta. auto.
Qed.
Lemma get_m_ok s n d s' : get_m n s = Done d s' -> s' = s /\ get (types s) n = Some d.
Proof. unfold get_m. destruct (get (types s) n) as [t|] eqn:E; [|discriminate]. intros H. injection H as <- <-. auto. Qed.
Lemma infer_m_ok s f a b r s' : fine s -> a < List.length (types s) -> b < List.length (types s) ->
  infer_m f [] a b s = Done r s' -> s' = s /\ fst r = [] /\ (snd r = true -> eqv (types s) [] a b).
Proof.
  intros F La Lb H. unfold infer_m, type_infer in H. pose proof (s_wf _ (fine_plain _ F)) as Wf.
  rewrite (types_equal_te _ Wf) in H by auto. destruct (te f (types s) [] a b) as [q|] eqn:E; [|discriminate].
  cbn in H. injection H as <- <-. rewrite state_eta. cbn. split; auto. split; auto. intros ->.
  exists (L (types s)). split; [apply step_bisimulation; [auto|apply L_step]|].
  intros n. apply (te_sound _ Wf _ _ _ _ E [] []); intros x y [].
Qed.
Lemma equal_m_ok s f a b r s' : fine s -> a < List.length (types s) -> b < List.length (types s) ->
  equal_m f a b s = Done r s' -> s' = s /\ (r = true -> conv (types s) a b).
Proof.
  intros F La Lb H. unfold equal_m in H. apply bind_inv in H. destruct H as (q & s1 & E & H). apply ret_inv in H. destruct H as [-> ->].
  apply infer_m_ok in E; auto. destruct E as (-> & _ & E). split; auto. intros Hr. apply conv_eq; auto.
Qed.
Lemma kind_flat st : flat st -> forall f t k, kind_of f st t = Some k -> exists l, k = Basic l.
Proof.
  intros F. induction f as [|f IH]; intros t k H; cbn in H; [discriminate|].
  destruct (get st t) as [d|] eqn:E; [|discriminate].
  destruct d as [u fs|a b|a b|p a|p o|p b|k' x v|b]; try (injection H as <-; eauto; fail).
  - destruct (fl_poly _ F _ _ _ E).
  - destruct (fl_apply _ F _ _ _ E).
  - injection H as <-. eapply fl_kind; eauto.
  - destruct (kind_of f st b) as [k'|] eqn:Ek; [|discriminate]. destruct (IH _ _ Ek) as [l ->]. cbn in H.
    destruct (0 <=? Z.of_nat l + 1)%Z; [|discriminate]. injection H as <-. eauto.
Qed.
Lemma kind_m_ok s f t k s' : flat (types s) -> kind_of_m f t s = Done k s' -> s' = s /\ exists l, k = Basic l.
Proof.
  intros F H. unfold kind_of_m, lift in H. destruct (kind_of f (types s) t) as [k'|] eqn:E; [|discriminate].
  injection H as <- <-. split; auto. eapply kind_flat; eauto.
Qed.
Lemma name_space_ok s f x t b s' : name_space f x t s = Done b s' -> s' = s.
Proof.
  unfold name_space. intros H. apply bind_inv in H. destruct H as (k & s1 & E & H). apply ret_inv in H. destruct H as [_ ->].
  unfold kind_of_m, lift in E. destruct (kind_of f (types s) t); [|discriminate]. injection E as _ <-. reflexivity.
Qed.
Lemma struct_fields_same f : forall l seen s b s', struct_fields f seen l s = Done b s' -> s' = s.
Proof.
  induction l as [|[x [t e]] l IH]; intros seen s b s' H; cbn [struct_fields] in H.
  - apply ret_inv in H. apply H.
  - apply bind_inv in H. destruct H as (b1 & s1 & E1 & H). apply bind_inv in H. destruct H as (b2 & s2 & E2 & H).
    apply ret_inv in H. destruct H as [_ ->]. apply name_space_ok in E1. apply IH in E2. congruence.
Qed.
Lemma depoly_ok s f t p s' : fine s -> depoly f t [] s = Done p s' -> s' = s /\ snd p = [] /\ whnf (types s) t (fst p).
Proof.
  intros F H. destruct f as [|f]; [discriminate|]. cbn [depoly] in H. apply bind_inv in H. destruct H as (n & s1 & E1 & H).
  apply normal_m_ok in E1; [|apply F]. destruct E1 as [-> W]. apply bind_inv in H. destruct H as (d & s2 & E2 & H).
  apply get_m_ok in E2. destruct E2 as [-> E2].
  destruct d; try (apply ret_inv in H; destruct H as [-> ->]; auto; fail).
  destruct (fl_poly _ (fi_flat _ F) _ _ _ E2).
Qed.
Lemma infer_all_ok s f : fine s -> forall xs ys r s', Forall (fun x => x < List.length (types s)) xs ->
  Forall (fun x => x < List.length (types s)) ys -> infer_all f [] xs ys s = Done r s' ->
  s' = s /\ fst r = [] /\ (snd r = true -> List.length xs = List.length ys -> Forall2 (conv (types s)) xs ys).
Proof.
  intros F. induction xs as [|x xs IH]; intros [|y ys] r s' Hx Hy H; cbn [infer_all] in H;
    try (apply ret_inv in H; destruct H as [-> ->]; cbn; repeat split; auto; discriminate).
  apply Forall_cons_iff in Hx, Hy. destruct Hx as [Lx Hx], Hy as [Ly Hy].
  apply bind_inv in H. destruct H as (q & s1 & E1 & H). apply infer_m_ok in E1; auto. destruct E1 as (-> & Eq & E1). rewrite Eq in H.
  apply bind_inv in H. destruct H as (q' & s2 & E2 & H). apply IH in E2; auto. destruct E2 as (-> & Eq' & E2).
  apply ret_inv in H. destruct H as [-> ->]. cbn. split; auto. split; auto. intros T Le. apply andb_prop in T. destruct T.
  constructor; [apply conv_eq; auto|]. apply E2; auto.
Qed.
Lemma infer_args_same s f xs ys p q s' : fine s -> Forall (fun x => x < List.length (types s)) xs ->
  Forall (fun x => x < List.length (types s)) ys -> infer_args f [] xs ys p s = Done (Some q) s' ->
  s' = s /\ q = p /\ Forall2 (conv (types s)) xs ys.
Proof.
  intros F Hx Hy H. unfold infer_args in H. destruct (List.length xs =? List.length ys) eqn:El; [|discriminate].
  apply Nat.eqb_eq in El. apply bind_inv in H. destruct H as (r & s1 & E1 & H). apply infer_all_ok in E1; auto. destruct E1 as (-> & Er & E1).
  destruct (snd r); [|discriminate]. rewrite Er in H. cbn in H. apply ret_inv in H. destruct H as [H ->]. injection H as ->. auto.
Qed.

(** ** New types *)
Definition node_ok (st : store) (t : ty) : Prop :=
  match t with
  | TPoly _ _ | TApply _ _ => False
  | TPackage _ o => o = true
  | TVar k _ v => (exists l, k = Basic l) /\ v = None
  | _ => wf_node st t
  end.
Lemma wf_node_pre st st' t : pre st st' -> (forall f x, t <> TApply f x) -> wf_node st t -> wf_node st' t.
Proof.
  intros P N W. pose proof (pre_lt _ _ P) as L. destruct t as [u fs|a b|a b|p a|p o|p b|k x [v|]|b]; cbn in *; auto; try lia.
  - eapply Forall_impl; [|exact W]. cbn. intros; lia.
  - destruct W as ((k & x & E) & W). split; [eauto|lia].
  - destruct (N _ _ eq_refl).
  - destruct W as ((q & o & E) & W). split; [eauto|lia].
Qed.
Lemma get_snoc st t n d : get (st ++ [t]) n = Some d -> get st n = Some d \/ (n = List.length st /\ d = t).
Proof.
  unfold get. intros H. destruct (Nat.lt_ge_cases n (List.length st)) as [L|L].
  - rewrite nth_error_app1 in H; auto.
  - rewrite nth_error_app2 in H by auto. destruct (n - List.length st) as [|k] eqn:E; cbn in H.
    + injection H as <-. right. split; auto. lia.
    + destruct k; discriminate.
Qed.
Lemma get_snoc_new st t : get (st ++ [t]) (List.length st) = Some t.
Proof. unfold get. rewrite nth_error_app2, Nat.sub_diag by auto. reflexivity. Qed.
Lemma alloc_store st t : flat st -> grounded st -> node_ok st t -> flat (st ++ [t]) /\ grounded (st ++ [t]).
Proof.
  intros F G N. pose proof (pre_app st [t]) as P. split.
  - destruct F as [A B C D E]. split.
    + intros n d H. apply get_snoc in H. destruct H as [H|[_ ->]].
      * eapply wf_node_pre; eauto. intros f x ->. eapply C; eauto.
      * eapply wf_node_pre; eauto; [intros f x ->; exact N|]. destruct t as [| | | | | |k x v|]; cbn in *; try contradiction; auto.
        destruct N as [_ ->]. exact I.
    + intros n x b H. apply get_snoc in H. destruct H as [H|[_ <-]]; [eapply B; eauto|exact N].
    + intros n x b H. apply get_snoc in H. destruct H as [H|[_ <-]]; [eapply C; eauto|exact N].
    + intros n p H. apply get_snoc in H. destruct H as [H|[_ <-]]; [eapply D; eauto|discriminate N].
    + intros n k x v H. apply get_snoc in H. destruct H as [H|[_ <-]]; [eapply E; eauto|apply N].
  - intros n H. rewrite app_length in H. cbn in H. destruct (Nat.eq_dec n (List.length st)) as [->|Ne].
    + exists (List.length st). pose proof (get_snoc_new st t) as E. destruct t as [| | | | | |k x v|]; cbn in N; try contradiction.
      * eapply whnf_data; eauto.
      * eapply whnf_func; eauto.
      * eapply whnf_package; eauto.
      * eapply whnf_abstract; eauto.
      * destruct N as [_ ->]. eapply whnf_free; eauto.
      * eapply whnf_type; eauto.
    + destruct (G n) as [m W]; [lia|]. assert (Si : plain st) by (apply flat_plain; auto).
      destruct (whnf_node _ _ _ W) as (d & E & Nd). exists m. apply (whnf_to st (st ++ [t]) (plain_wide_self _ Si) (pre_sle _ _ P) _ _ W).
      apply P in E. destruct d as [u fs|a r|a b|p a|p o|p b|k x [v|]|z]; try (destruct (Nd _ _ _ eq_refl)).
      * eapply whnf_data; eauto.
      * eapply whnf_func; eauto.
      * apply get_snoc in E. destruct E as [E|[_ <-]]; [destruct (fl_poly _ F _ _ _ E)|destruct N].
      * apply get_snoc in E. destruct E as [E|[_ <-]]; [destruct (fl_apply _ F _ _ _ E)|destruct N].
      * eapply whnf_package; eauto.
      * eapply whnf_abstract; eauto.
      * eapply whnf_free; eauto.
      * eapply whnf_type; eauto.
Qed.
Lemma vars_pre n n' sc : n <= n' -> Forall (frame_vars n) sc -> Forall (frame_vars n') sc.
Proof.
  intros L. apply Forall_impl. intros fr. apply Forall_impl. intros v [A B]. split; auto. lia.
Qed.
Lemma alloc_ok s t n s' : fine s -> node_ok (types s) t -> alloc t s = Done n s' ->
  step s s' /\ n < List.length (types s') /\ get (types s') n = Some t /\ scopes s' = scopes s.
Proof.
  intros F N H. unfold alloc, new_type in H. injection H as <- <-. cbn. destruct F as [A B C D].
  destruct (alloc_store _ _ A B N) as [A' B']. split; [|split; [rewrite app_length; cbn; lia|split; auto using get_snoc_new]].
  split; [|split; cbn; auto using pre_app, sext_refl]. split; cbn; auto. eapply vars_pre; [|exact D]. rewrite app_length. lia.
Qed.

(** Chains of types of types. *)
Inductive tchain (st : store) : nat -> nat -> nat -> Prop :=
| tc_here t : tchain st 0 t t
| tc_type l t u v : get st t = Some (TType u) -> tchain st l u v -> tchain st (S l) t v.
Lemma tchain_pre st st' l t v : pre st st' -> tchain st l t v -> tchain st' l t v.
Proof. intros P C. induction C; [constructor|]. econstructor; eauto. Qed.
Lemma tchain_sle st st' l t v : sle st st' -> tchain st l t v -> tchain st' l t v.
Proof. intros P C. induction C; [constructor|]. econstructor; eauto. eapply sle_get; eauto. discriminate. Qed.
Lemma tchain_lt st l t v : flat st -> tchain st l t v -> t < List.length st -> v < List.length st.
Proof. intros F C. induction C as [|l t u v E C IH]; auto. intros _. apply IH. apply (fl_node _ F _ _ E). Qed.

Lemma wrap_ok st0 : forall m l st t v st' n, flat st -> grounded st -> pre st0 st -> t < List.length st -> tchain st l t v ->
  wrap m st t = (st', n) -> flat st' /\ grounded st' /\ pre st st' /\ n < List.length st' /\ tchain st' (m + l) n v.
Proof.
  induction m as [|m IH]; intros l st t v st' n F G P L C H; cbn in H.
  - injection H as <- <-. auto using pre_refl.
  - destruct (alloc_store st (TType t) F G L) as [F1 G1]. pose proof (pre_app st [TType t]) as P1.
    destruct (IH (S l) (st ++ [TType t]) (List.length st) v st' n F1 G1) as (A1 & A2 & A3 & A4 & A5); auto.
    + eapply pre_trans; eauto.
    + rewrite app_length. cbn. lia.
    + econstructor; [apply get_snoc_new|]. eapply tchain_pre; eauto.
    + split; [auto|]. split; [auto|]. split; [eapply pre_trans; eauto|]. split; auto.
      rewrite Nat.add_succ_r in A5. exact A5.
Qed.
Lemma new_var_ok s k x n s' : fine s -> new_var_m (Basic (kind_level k)) x s = Done n s' ->
  step s s' /\ n < List.length (types s') /\
  exists v, tchain (types s') (kind_level k) n v /\ List.length (types s) <= v /\ exists k' y, get (types s') v = Some (TVar k' y None).
Proof.
  intros F H. unfold new_var_m, new_var_type in H. cbn [kind_level level_adjusted] in H.
  destruct (0 <=? Z.of_nat (kind_level k) + - Z.of_nat (kind_level k))%Z eqn:Ez.
  2:{ exfalso. apply Z.leb_nle in Ez. lia. }
  cbn [new_type] in H. set (k0 := Basic _) in *.
  destruct (wrap (kind_level k) (types s ++ [TVar k0 x None]) (List.length (types s))) as [st n'] eqn:Ew. injection H as <- <-. cbn [types].
  destruct F as [A B C D]. destruct (alloc_store (types s) (TVar k0 x None) A B) as [A' B']. { split; auto. unfold k0. eauto. }
  assert (Lv : List.length (types s) < List.length (types s ++ [TVar k0 x None])) by (rewrite app_length; cbn; lia).
  destruct (wrap_ok (types s) _ _ _ _ _ _ _ A' B' (pre_app _ _) Lv (tc_here _ _) Ew) as (F1 & G1 & P1 & L1 & C1).
  pose proof (pre_trans _ _ _ (pre_app (types s) [TVar k0 x None]) P1) as P.
  split; [|split; auto].
  - split; [|split; cbn; auto using sext_refl]. split; cbn; auto. eapply vars_pre; [|exact D]. apply pre_lt; auto.
  - exists (List.length (types s)). rewrite Nat.add_0_r in C1. split; auto. split; auto. exists k0, x. apply P1. apply get_snoc_new.
Qed.

(** ** Fields *)
Lemma find_field_ok fields : forall i x j t, find_field i x fields = Some (j, t) -> exists y, nth_error fields (j - i) = Some (y, t) /\ i <= j.
Proof.
  induction fields as [|[y u] fields IH]; intros i x j t H; cbn in H; [discriminate|].
  destruct (vname_equal x y).
  - injection H as <- <-. rewrite Nat.sub_diag. exists y. auto.
  - apply IH in H. destruct H as (z & H & L). exists z. replace (j - i) with (S (j - S i)) by lia. split; auto. lia.
Qed.
Lemma field_lt st u fs n i y t : flat st -> get st n = Some (TData u fs) -> nth_error fs i = Some (y, t) -> t < List.length st.
Proof. intros F E H. pose proof (fl_node _ F _ _ E) as W. cbn in W. rewrite Forall_forall in W. apply nth_error_In in H. apply (W _ H). Qed.

Lemma data_here st t n u fs : plain st -> whnf st t n -> get st n = Some (TData u fs) -> is_data st u fs t.
Proof. intros S W E. exists n. split; auto. apply peel_here; auto. intros p v. rewrite E. discriminate. Qed.
Lemma func_here st t n x r : plain st -> whnf st t n -> get st n = Some (TFunc x r) -> is_func st x r t.
Proof. intros S W E. exists n. split; auto. apply peel_here; auto. intros p v. rewrite E. discriminate. Qed.
Lemma type_here st n u : plain st -> get st n = Some (TType u) -> is_type st n.
Proof. intros S E. exists n, u. split; auto. apply peel_here; [eapply whnf_type; eauto|]. intros p v. rewrite E. discriminate. Qed.

Lemma list_element_ok s f t el s' : fine s -> t < List.length (types s) -> list_element f t s = Done (Some el) s' ->
  s' = s /\ el < List.length (types s) /\ is_list (types s) t el.
Proof.
  intros F L H. pose proof (fine_plain _ F) as S. pose proof (fi_flat _ F) as Fl. unfold list_element in H.
  apply bind_inv in H. destruct H as (n & s1 & E1 & H). apply normal_m_ok in E1; auto. destruct E1 as [-> W].
  apply bind_inv in H. destruct H as (d & s2 & E2 & H). apply get_m_ok in E2. destruct E2 as [-> E2].
  destruct d as [[|] [|[x c] [|[y e] [|]]]| | | | | | | ]; try discriminate.
  apply bind_inv in H. destruct H as (nn & s3 & E3 & H). apply normal_m_ok in E3; auto. destruct E3 as [-> We].
  apply bind_inv in H. destruct H as (nd & s4 & E4 & H). apply get_m_ok in E4. destruct E4 as [-> E4].
  destruct nd as [[|] [|]| | | | | | | ]; try discriminate.
  apply bind_inv in H. destruct H as (cn & s5 & E5 & H). apply normal_m_ok in E5; auto. destruct E5 as [-> Wc].
  apply bind_inv in H. destruct H as (cd & s6 & E6 & H). apply get_m_ok in E6. destruct E6 as [-> E6].
  destruct cd as [[|] [|[z elem] [|[w tail] [|]]]| | | | | | | ]; try discriminate.
  apply bind_inv in H. destruct H as (b & s7 & E7 & H).
  pose proof (fl_node _ Fl _ _ E6) as N6. cbn in N6. apply Forall_cons_iff in N6. destruct N6 as [N6 N7]. apply Forall_cons_iff in N7. destruct N7 as [N7 _].
  apply equal_m_ok in E7; auto. destruct E7 as [-> E7]. apply ret_inv in H. destruct H as [H ->]. destruct b; [|discriminate].
  injection H as ->. split; auto. split; auto. exists c, e, x, y, z, w, elem, tail.
  split; [eapply data_here; eauto|]. split; [eapply data_here; eauto|]. split; [eapply data_here; eauto|].
  split; [apply conv_refl|]. apply conv_sym. auto.
Qed.

Lemma letters_ok s f u fields : fine s -> u < List.length (types s) -> is_unit (types s) u ->
  Forall (fun p => snd p < List.length (types s)) fields ->
  forall n w ls s', letters f u fields n w s = Done (Some ls) s' -> s' = s /\ Forall (some_letter (types s) fields) ls.
Proof.
  intros F L U Hf. induction n as [|n IH]; intros [|c w] ls s' H; cbn [letters] in H.
  - apply ret_inv in H. destruct H as [H ->]. injection H as ->. auto.
  - discriminate.
  - apply ret_inv in H. destruct H as [H ->]. injection H as ->. auto.
  - destruct (longest 0 fields (String c w) 0 0) as [len j]. destruct (len =? 0); [discriminate|].
    destruct (nth_error fields j) as [[y t]|] eqn:En; [|discriminate].
    assert (Lt : t < List.length (types s)). { rewrite Forall_forall in Hf. apply nth_error_In in En. apply (Hf _ En). }
    apply bind_inv in H. destruct H as (b & s1 & E1 & H). apply equal_m_ok in E1; auto. destruct E1 as [-> E1].
    destruct b; [|discriminate]. apply and_then_inv in H. destruct H as [[_ H]|(r & s2 & E2 & H)]; [discriminate|].
    apply IH in E2. destruct E2 as [-> E2]. apply ret_inv in H. destruct H as [H ->]. injection H as ->. split; auto.
    constructor; auto. exists y, t, u. split; auto. split; auto. apply conv_sym; auto.
Qed.

(** ** Abstract types *)
Lemma poly_apply_typed s f p a q s' : fine s -> fst p < List.length (types s) -> a < List.length (types s) ->
  poly_apply f p a s = Done (Some q) s' -> step s s' /\ tyd s' q.
Proof.
  intros F Lp La H. pose proof (fi_flat _ F) as Fl. unfold poly_apply in H.
  apply bind_inv in H. destruct H as (k & s1 & E1 & H). apply kind_m_ok in E1; auto. destruct E1 as [-> [l ->]].
  apply bind_inv in H. destruct H as (o & s2 & E2 & H). unfold value_of, read in E2. injection E2 as <- <-.
  destruct (value_of_type (types s) (fst p)) as [v|]; [|discriminate].
  apply bind_inv in H. destruct H as (pk & s3 & E3 & H). apply normal_m_ok in E3; auto. destruct E3 as [-> W].
  apply bind_inv in H. destruct H as (d & s4 & E4 & H). apply get_m_ok in E4. destruct E4 as [-> E4].
  destruct d as [| | | |path opq| | | ]; try discriminate.
  apply and_then_inv in H. destruct H as [[_ H]|(arg & s5 & E5 & H)]; [discriminate|].
  unfold value_of, read in E5. injection E5 as E5 <-. unfold value_of_type in E5.
  destruct (get (types s) a) as [d|] eqn:Ea; [|discriminate]. destruct d; try discriminate. injection E5 as ->.
  pose proof (fl_node _ Fl _ _ Ea) as Larg. cbn in Larg.
  apply bind_inv in H. destruct H as (b & s6 & E6 & H).
  assert (N6 : node_ok (types s) (TAbstract pk arg)). { cbn. split; eauto. }
  apply alloc_ok in E6; auto. destruct E6 as (S6 & L6 & G6 & _). pose proof (step_fine _ _ S6) as F6.
  apply bind_inv in H. destruct H as (t & s7 & E7 & H). apply alloc_ok in E7; auto. destruct E7 as (S7 & L7 & G7 & _).
  apply ret_inv in H. destruct H as [H ->]. injection H as ->. split; [eapply step_trans; eauto|]. split; auto. cbn.
  pose proof (fine_plain _ (step_fine _ _ S7)) as S. unfold top_typed. destruct (scopes s7); cbn; (exists t; split; [apply conv_refl|eapply type_here; eauto]).
Qed.
