(** * The types of let bindings: lemmas for CheckProps.v. *)
From Coq Require Import String List Arith Bool ZArith Lia.
From Verif Require CodeModel CompileModel CompileStatic.
From Verif Require Import KindModel UnusedModel TypeModel TypeSpec TypeProps CheckModel CheckScope CheckTyping CheckSafe CheckGrow CheckOps.
Import ListNotations.
Local Open Scope list_scope.
Local Notation tc := CompileModel.tc.

Local Notation binding := (vname * (kind + expr) * expr)%type.

(** ** Looking up variables *)
Lemma vars_vle n l l' : Forall2 vle l l' -> Forall (fun v => is_value v = true /\ sv_type v < n) l ->
  Forall (fun v => is_value v = true /\ sv_type v < n) l'.
Proof.
  intros F. induction F as [|v w l l' (A & B & C & D) F IH]; intros H; auto. apply Forall_cons_iff in H. destruct H as [[H1 H2] H].
  constructor; auto. unfold is_value in *. rewrite C, B. auto.
Qed.
Lemma get_var_vars n x : forall sc ph v sc', Forall (frame_vars n) sc -> get_var ph x sc = Some (v, sc') ->
  Forall (frame_vars n) sc' /\ is_value v = true /\ sv_type v < n.
Proof.
  induction sc as [|fr parents IH]; intros ph v sc' OK G; [discriminate|].
  apply Forall_cons_iff in OK. destruct OK as [V OK]. unfold frame_vars in V. rewrite !Forall_app in V. destruct V as (V1 & V2 & V3).
  assert (Hn : forall l i u, Forall (fun v => is_value v = true /\ sv_type v < n) l -> nth_error l i = Some u -> is_value u = true /\ sv_type u < n).
  { intros l i u F E. rewrite Forall_forall in F. apply F. eapply nth_error_In; eauto. }
  cbn [get_var] in G.
  destruct (find_last ph x (f_locals fr)) as [[v0 l]|] eqn:E1.
  { injection G as <- <-. destruct (find_last_spec _ _ _ _ _ E1) as (V & i & w & N1 & E & N2).
    pose proof (vars_vle _ _ _ V V3) as V'. split; [|eapply Hn; eauto]. constructor; auto. unfold frame_vars. cbn. rewrite !Forall_app. auto. }
  destruct (find_last ph x (f_args fr)) as [[v0 l]|] eqn:E2.
  { injection G as <- <-. destruct (find_last_spec _ _ _ _ _ E2) as (V & i & w & N1 & E & N2).
    pose proof (vars_vle _ _ _ V V2) as V'. split; [|eapply Hn; eauto]. constructor; auto. unfold frame_vars. cbn. rewrite !Forall_app. auto. }
  destruct (find_first ph x (f_statics fr)) as [[v0 l]|] eqn:E3.
  { injection G as <- <-. destruct (find_first_spec _ _ _ _ _ E3) as (V & i & w & N1 & E & N2).
    pose proof (vars_vle _ _ _ V V1) as V'. split; [|eapply Hn; eauto]. constructor; auto. unfold frame_vars. cbn. rewrite !Forall_app. auto. }
  destruct (get_var _ x parents) as [[v0 parents']|] eqn:E4; [|discriminate].
  destruct (IH _ _ _ OK E4) as (OK' & Vv & Lv).
  assert (S1 : Forall (frame_vars n) (fr :: parents')). { constructor; auto. unfold frame_vars. rewrite !Forall_app. auto. }
  destruct ph; [injection G as <- <-; auto|]. destruct (sv_place v0) as [w|] eqn:Pl; [|injection G as <- <-; auto].
  injection G as <- <-. cbn. split; [|auto]. constructor; auto. unfold frame_vars. cbn. rewrite !Forall_app. repeat split; auto.
Qed.
Lemma var_at_vtype fr w t : var_at fr w t -> vtype (map sv_type (f_statics fr)) (map sv_type (f_args fr)) (ltypes fr) w = Some t.
Proof.
  destruct w as [i|i|i]; cbn.
  - intros (v & E & <-). rewrite nth_error_map, E. reflexivity.
  - intros (v & E & <-). rewrite nth_error_map, E. reflexivity.
  - intros (v & E & U & <-). unfold ltypes. rewrite nth_error_map, E. cbn. rewrite U. reflexivity.
Qed.
Lemma get_var_m_typed x s v s' : fine s -> get_var_m x s = Done (Some v) s' ->
  step s s' /\ sv_type v < List.length (types s') /\
  exists w fr r, sv_place v = Some w /\ scopes s' = fr :: r /\ var_at fr w (sv_type v).
Proof.
  intros F H. destruct (get_var_m_spec _ _ _ _ (fi_ok _ F) H) as (T & O & X & (fr & r & Sc & V)).
  unfold get_var_m in H. destruct (get_var false x (scopes s)) as [[v' sc]|] eqn:E; [|discriminate]. injection H as -> <-. cbn in *.
  destruct (get_var_vars _ _ _ _ _ _ (fi_vars _ F) E) as (Fv & Vv & Lv). unfold is_value in Vv.
  destruct (sv_place v) as [w|]; [|discriminate]. split; [|split; auto].
  - split; [|split; cbn; auto using pre_refl]. destruct F. split; auto.
  - exists w, fr, r. auto.
Qed.

(** ** Scopes *)
Lemma push_fine s c args : fine s -> (c = None \/ c = Some []) -> Forall (fun p => snd p < List.length (types s)) args ->
  fine (MkState (types s) (new_frame c args :: scopes s)).
Proof.
  intros F Hc Ha. destruct F as [A B C D]. split; cbn; auto.
  - split; [split; cbn; auto|split; auto].
    + generalize 0. clear. induction args as [|[x t] args IH]; intros i; cbn; auto.
    + unfold captured_ok. cbn. destruct (scopes s); destruct Hc as [-> | ->]; auto.
  - constructor; auto. unfold frame_vars. cbn. rewrite app_nil_r. generalize 0. clear - Ha.
    induction Ha as [|[x t] args H Ha IH]; intros i; cbn; auto.
Qed.
Lemma pop_step s fr0 s2 fr sc : fine s -> step (MkState (types s) (fr0 :: scopes s)) s2 -> scopes s2 = fr :: sc ->
  step s (MkState (types s2) sc) /\ fext fr0 fr.
Proof.
  intros F (F2 & P & X) E. cbn in X. rewrite E in X. inversion X as [|? ? ? ? X1 X2]; subst. split; auto.
  split; [|split; cbn; auto]. destruct F2 as [A B C D]. rewrite E in C, D. split; cbn; auto; [apply C|]. apply Forall_cons_iff in D. apply D.
Qed.
Lemma step_scopes s fr r s' : step s s' -> scopes s = fr :: r -> exists fr' r', scopes s' = fr' :: r' /\ fext fr fr' /\ sext r r'.
Proof. intros (_ & _ & X) E. rewrite E in X. inversion X; subst. eauto. Qed.

(** ** Types to be filled in *)
Inductive lt_ok (st : store) : nat -> list binding -> list nat -> Prop :=
| lt_nil lo : lt_ok st lo [] []
| lt_inr lo x t0 e bs t ts : lt_ok st lo bs ts -> lt_ok st lo ((x, inr t0, e) :: bs) (t :: ts)
| lt_inl lo x k e bs t ts v : tchain st (kind_level k) t v -> (exists k' y, get st v = Some (TVar k' y None)) -> lo <= v ->
    lt_ok st (S v) bs ts -> lt_ok st lo ((x, inl k, e) :: bs) (t :: ts).
Lemma lt_ok_pre st st' lo bs ts : pre st st' -> lt_ok st lo bs ts -> lt_ok st' lo bs ts.
Proof.
  intros P H. induction H as [|lo x t0 e bs t ts H IH|lo x k e bs t ts v C (k' & y & E) L H IH].
  - constructor.
  - constructor; auto.
  - eapply lt_inl; [eapply tchain_pre; eauto|eauto|auto|auto].
Qed.
Lemma lt_ok_lo st lo lo' bs ts : lo' <= lo -> lt_ok st lo bs ts -> lt_ok st lo' bs ts.
Proof.
  intros L H. revert lo' L. induction H as [|lo x t0 e bs t ts H IH|lo x k e bs t ts v C E L H IH]; intros lo' L'.
  - constructor.
  - constructor; auto.
  - eapply lt_inl; eauto. lia.
Qed.

(** After filling in: [vs] are the variables that got values. *)
Inductive asg (st : store) : list binding -> list nat -> list (nat * tc) -> list nat -> list nat -> Prop :=
| asg_nil : asg st [] [] [] [] []
| asg_inr x t0 e bs t ts d ds r vs : asg st bs ts ds r vs -> asg st ((x, inr t0, e) :: bs) (t :: ts) (d :: ds) (t :: r) vs
| asg_inl x k e bs t ts d ds r vs v d' : tchain st (kind_level k) t v -> tchain st (kind_level k) (fst d) d' ->
    (exists k' y, get st v = Some (TVar k' y (Some d'))) -> asg st bs ts ds r vs ->
    asg st ((x, inl k, e) :: bs) (t :: ts) (d :: ds) (match kind_level k with 0 => fst d | _ => t end :: r) (v :: vs).
Lemma asg_sle st st' bs ts ds r vs : sle st st' -> asg st bs ts ds r vs -> asg st' bs ts ds r vs.
Proof.
  intros P H. induction H as [|x t0 e bs t ts d ds r vs H IH|x k e bs t ts d ds r vs v d' C C' (k' & y & E) H IH].
  - constructor.
  - constructor; auto.
  - eapply asg_inl; eauto using tchain_sle. exists k', y. eapply sle_get; eauto. discriminate.
Qed.

Lemma get_put_eq : forall st n t, n < List.length st -> get (put st n t) n = Some t.
Proof. unfold get. induction st as [|x st IH]; intros [|n] t L; cbn in *; try lia; auto. apply IH. lia. Qed.
Lemma get_put_ne : forall st n m t, n <> m -> get (put st n t) m = get st m.
Proof. unfold get. induction st as [|x st IH]; intros [|n] [|m] t N; cbn in *; auto; try congruence. Qed.
Lemma put_length : forall st n t, List.length (put st n t) = List.length st.
Proof. induction st as [|x st IH]; intros [|n] t; cbn; auto. Qed.

Lemma assign_chain st : forall l f t v d x k0 st', tchain st l t v -> get st v = Some (TVar k0 x None) -> assign_var f st t d = Some st' ->
  exists d' k f', tchain st l d d' /\ st' = put st v (TVar k x (Some d')) /\ kind_of f' st d' = Some k.
Proof.
  intros l f t v d x k0 st' C. revert f d. induction C as [t|l t u v E C IH]; intros f d Ev H; (destruct f as [|f]; [discriminate|]); cbn in H.
  - rewrite Ev in H. destruct (kind_of f st d) as [k|] eqn:Ek; [|discriminate]. injection H as <-. exists d, k, f. split; [constructor|]. auto.
  - rewrite E in H. destruct (get st d) as [dd|] eqn:Ed; [|discriminate]. destruct dd; try discriminate.
    destruct (IH _ _ Ev H) as (d' & k & f' & C' & E' & K). exists d', k, f'. split; auto. econstructor; eauto.
Qed.
Lemma put_flat st v k0 k x d : flat st -> get st v = Some (TVar k0 x None) -> d < List.length st -> (exists l, k = Basic l) ->
  flat (put st v (TVar k x (Some d))) /\ sle st (put st v (TVar k x (Some d))).
Proof.
  intros F E L K. pose proof (get_lt _ _ _ E) as Lv.
  assert (G : forall n t, get (put st v (TVar k x (Some d))) n = Some t -> (n = v /\ t = TVar k x (Some d)) \/ (n <> v /\ get st n = Some t)).
  { intros n t H. destruct (Nat.eq_dec n v) as [->|N]; [left; rewrite get_put_eq in H by auto; split; congruence|].
    right. rewrite get_put_ne in H; auto. }
  split.
  - destruct F as [A B C D K']. split.
    + intros n t H. apply G in H. destruct H as [[-> ->]|[N H]]; [cbn; rewrite put_length; auto|].
      pose proof (A _ _ H) as W. destruct t as [u fs|a b|a b|p a|p o|p b|k1 y [w|]|b]; cbn in *; rewrite ?put_length; auto.
      * destruct (B _ _ _ H).
      * destruct (C _ _ _ H).
      * destruct W as ((path & o & Ep) & W). split; auto. exists path, o. rewrite get_put_ne; auto. intros <-. congruence.
    + intros n y b H. apply G in H. destruct H as [[_ H]|[_ H]]; [discriminate|eapply B; eauto].
    + intros n y b H. apply G in H. destruct H as [[_ H]|[_ H]]; [discriminate|eapply C; eauto].
    + intros n p H. apply G in H. destruct H as [[_ H]|[_ H]]; [discriminate|eapply D; eauto].
    + intros n k1 y w H. apply G in H. destruct H as [[_ H]|[_ H]]; [injection H as -> -> ->; auto|eapply K'; eauto].
  - intros n t H. destruct (Nat.eq_dec n v) as [->|N].
    + right. rewrite E in H. injection H as <-. exists k0, x, k, d. rewrite get_put_eq; auto.
    + left. rewrite get_put_ne; auto.
Qed.
Lemma lt_ok_put st v lo bs ts t : v < lo -> (exists k x, get st v = Some (TVar k x None)) ->
  lt_ok st lo bs ts -> lt_ok (put st v t) lo bs ts.
Proof.
  intros L (k0 & x0 & E) H. induction H as [|lo x t0 e bs t1 ts H IH|lo x k e bs t1 ts w C (k' & y & Ew) Lw H IH].
  - constructor.
  - constructor; auto.
  - apply lt_inl with w; [|exists k', y; rewrite get_put_ne; auto; lia|auto|apply IH; lia].
    clear - C E. induction C; [constructor|]. econstructor; eauto. rewrite get_put_ne; auto. intros <-. congruence.
Qed.

Lemma let_assign_ok f : forall bs ts ds s r s' lo, flat (types s) -> lt_ok (types s) lo bs ts ->
  Forall (fun d => fst d < List.length (types s)) ds -> List.length ds = List.length bs -> let_assign f bs ts ds s = Done r s' ->
  exists vs, asg (types s') bs ts ds r vs /\ flat (types s') /\ sle (types s) (types s') /\ scopes s' = scopes s /\
    List.length (types s') = List.length (types s) /\ Forall (le lo) vs /\ (forall n, get (types s') n = get (types s) n \/ In n vs).
Proof.
  induction bs as [|[[x kt] e] bs IH]; intros ts ds s r s' lo F Lt Ld Le H.
  - inversion Lt; subst. destruct ds; [|discriminate]. cbn in H. apply ret_inv in H. destruct H as [-> ->]. exists []. auto 10 using asg_nil, sle_refl.
  - destruct ds as [|d ds]; [discriminate|]. cbn in Le. injection Le as Le. apply Forall_cons_iff in Ld. destruct Ld as [Ld1 Ld].
    inversion Lt as [|? ? t0 ? ? t ts' Lt'|? ? k ? ? t ts' v C (k0 & y & E) Lo Lt']; subst; cbn [let_assign] in H.
    + apply bind_inv in H. destruct H as (t' & s1 & E1 & H). apply ret_inv in E1. destruct E1 as [-> ->].
      apply bind_inv in H. destruct H as (r' & s2 & E2 & H). apply ret_inv in H. destruct H as [-> ->].
      destruct (IH _ _ _ _ _ _ F Lt' Ld Le E2) as (vs & A1 & A2 & A3 & A4 & A5 & A6 & A7). exists vs. split; [constructor; auto|]. auto 10.
    + apply bind_inv in H. destruct H as (t' & s1 & E1 & H). apply bind_inv in E1. destruct E1 as ([] & s2 & E1 & E2).
      apply ret_inv in E2. destruct E2 as [-> ->]. unfold assign_m in E1.
      destruct (assign_var f (types s) t (fst d)) as [st1|] eqn:Ea; [|discriminate]. injection E1 as <-.
      destruct (assign_chain _ _ _ _ _ _ _ _ _ C E Ea) as (d' & k1 & f' & C' & -> & K).
      destruct (put_flat (types s) v k0 k1 y d') as [F1 S1]; auto.
      { eapply tchain_lt; eauto. } { eapply kind_flat; eauto. }
      apply bind_inv in H. destruct H as (r' & s2 & E2 & H). apply ret_inv in H. destruct H as [-> ->].
      apply (IH _ _ _ _ _ (S v)) in E2; cbn [types] in *; auto.
      2:{ apply lt_ok_put; eauto. }
      2:{ rewrite put_length. auto. }
      destruct E2 as (vs & A1 & A2 & A3 & A4 & A5 & A6 & A7). rewrite put_length in A5. exists (v :: vs).
      split; [|split; [auto|split; [eapply sle_trans; eauto|split; [auto|split; [auto|split]]]]].
      * apply asg_inl with d'; auto.
        -- eapply tchain_sle; [|exact C]. eapply sle_trans; eauto.
        -- eapply tchain_sle; [|exact C']. eapply sle_trans; eauto.
        -- exists k1, y. apply (sle_get _ _ _ _ A3); [|discriminate]. apply get_put_eq. eapply get_lt; eauto.
      * constructor; auto. eapply Forall_impl; [|exact A6]. intros a Ha. lia.
      * intros n. destruct (Nat.eq_dec v n) as [->|N]; [right; left; auto|].
        destruct (A7 n) as [A|A]; [|right; right; auto]. left. rewrite A. apply get_put_ne; auto.
Qed.

(** ** Vacuous types *)
Lemma vacuous_ok : forall f t s b s', flat (types s) -> vacuous f t s = Done b s' ->
  s' = s /\ (b = false -> forall l v, tchain (types s) l t v -> exists m, whnf (types s) v m).
Proof.
  induction f as [|f IH]; intros t s b s' F H; cbn in H; [discriminate|].
  destruct (normal f (types s) t []) as [[st [n|]]|] eqn:E; [| |discriminate].
  - apply (normal_flat _ F) in E. destruct E as [-> W]. specialize (W _ eq_refl). rewrite state_eta in H.
    assert (K : forall u, get (types s) t = Some (TType u) -> n = t). { intros u Eu. eapply whnf_det; eauto. eapply whnf_type; eauto. }
    assert (J : (forall u, get (types s) n <> Some (TType u)) -> forall l v, tchain (types s) l t v -> exists m, whnf (types s) v m).
    { intros N l v C. inversion C as [|? ? u ? Eu]; subst; [eauto|]. rewrite (K _ Eu) in N. destruct (N _ Eu). }
    destruct (get (types s) n) as [d|] eqn:En; [|injection H as <- <-; split; [auto|]; intros _; apply J; discriminate].
    destruct d; try (injection H as <- <-; split; [auto|]; intros _; apply J; discriminate).
    + destruct (fl_poly _ F _ _ _ En).
    + apply IH in H; auto. destruct H as [-> H]. split; auto. intros Hb l v C.
      inversion C as [|? ? u ? Eu Cu]; subst; [eauto|]. rewrite (K _ Eu), Eu in En. injection En as ->. eauto.
  - apply (normal_flat _ F) in E. destruct E as [-> _]. rewrite state_eta in H. injection H as <- <-. split; auto. discriminate.
Qed.
Lemma vacuous_each f : forall ts s bs s', flat (types s) -> each (vacuous f) ts s = Done bs s' ->
  s' = s /\ (existsb (fun b => b) bs = false -> forall t, In t ts -> forall l v, tchain (types s) l t v -> exists m, whnf (types s) v m).
Proof.
  induction ts as [|t ts IH]; intros s bs s' F H; cbn [each] in H.
  - apply ret_inv in H. destruct H as [-> ->]. split; auto. intros _ t [].
  - apply bind_inv in H. destruct H as (b & s1 & E1 & H). apply vacuous_ok in E1; auto. destruct E1 as [-> E1].
    apply bind_inv in H. destruct H as (bs' & s2 & E2 & H). apply IH in E2; auto. destruct E2 as [-> E2].
    apply ret_inv in H. destruct H as [-> ->]. split; auto. cbn. intros Hb. apply orb_false_iff in Hb. destruct Hb.
    intros u [<-|Hu] l v C; [eapply E1; eauto|eapply E2; eauto].
Qed.

Lemma asg_grounded st st' bs ts ds r vs : plain st -> sle st st' -> List.length st' = List.length st -> flat st' ->
  asg st' bs ts ds r vs -> (forall n, get st' n = get st n \/ In n vs) ->
  (forall t, In t r -> forall l v, tchain st' l t v -> exists m, whnf st' v m) -> grounded st'.
Proof.
  intros S P Le F A G V.
  assert (Vs : forall v, In v vs -> exists m, whnf st' v m).
  { clear - A V. induction A as [|x t0 e bs t ts d ds r vs A IH|x k e bs t ts d ds r vs v d' C C' (k' & y & E) A IH]; intros w Hw.
    - destruct Hw.
    - apply IH; auto. intros u Hu. apply V. right; auto.
    - destruct Hw as [<-|Hw]; [|apply IH; auto; intros u Hu; apply V; right; auto].
      specialize (V _ (or_introl eq_refl)). destruct (kind_level k) as [|l].
      + inversion C'; subst. destruct (V 0 (fst d)) as [m W]; [constructor|]. exists m. eapply whnf_var; eauto.
      + eapply V; eauto. }
  intros n L. rewrite Le in L. destruct (has_whnf _ S _ L) as [m W].
  assert (exists m', whnf st' m m') as [m' W'].
  { destruct (G m) as [E|Hm]; [|auto]. destruct (whnf_node _ _ _ W) as (d & Ed & Nd). rewrite Ed in E. exists m.
    destruct d as [u fs|a b|a b|p a|p o|p b|k x [w|]|b].
    - eapply whnf_data; eauto.
    - eapply whnf_func; eauto.
    - destruct (s_poly _ S _ _ _ Ed).
    - destruct (s_apply _ S _ _ _ Ed).
    - eapply whnf_package; eauto.
    - eapply whnf_abstract; eauto.
    - destruct (Nd _ _ _ eq_refl).
    - eapply whnf_free; eauto.
    - eapply whnf_type; eauto. }
  exists m'. eapply whnf_to; eauto using plain_wide_self.
Qed.

(** Equal values, equal types of types. *)
Lemma eqv_type st t t' u u' : plain st -> get st t = Some (TType u) -> get st t' = Some (TType u') -> eqv st [] u u' -> eqv st [] t t'.
Proof.
  intros S E E' (R & B & H). exists (fun G x y => R G x y \/ (G = [] /\ x = t /\ y = t')). split; [|auto].
  intros G x y [Hr|(-> & -> & ->)] hx hy Hx Hy.
  - eapply same_ext; [|eapply B; eauto]. auto.
  - apply head_whnf_plain in Hx, Hy; auto. rewrite (whnf_det _ _ _ Hx _ (whnf_type _ _ _ E)), (whnf_det _ _ _ Hy _ (whnf_type _ _ _ E')).
    unfold same. rewrite E, E'. left. auto.
Qed.
Lemma eqv_chain st l t v : plain st -> tchain st l t v -> forall t' v', tchain st l t' v' -> eqv st [] v v' -> eqv st [] t t'.
Proof.
  intros S C. induction C as [|l t u v E C IH]; intros t' v' C' Q; inversion C' as [|? ? u' ? E' C'']; subst; auto.
  eapply eqv_type; eauto.
Qed.
Lemma asg_conv st bs ts ds r vs : plain st -> asg st bs ts ds r vs -> Forall (fun t => t < List.length st) ts ->
  Forall (fun d => fst d < List.length st) ds ->
  Forall2 (conv st) r ts /\ Forall (fun t => t < List.length st) r /\
  Forall2 (fun b p => match b with ((_, inl _), _) => conv st (fst p) (fst (snd p)) | _ => True end) bs (combine ts ds).
Proof.
  intros S A. induction A as [|x t0 e bs t ts d ds r vs A IH|x k e bs t ts d ds r vs v d' C C' (k' & y & E) A IH]; intros Ht Hd.
  - split; [|split]; cbn; constructor.
  - apply Forall_cons_iff in Ht, Hd. destruct Ht as [Ht1 Ht], Hd as [Hd1 Hd]. destruct (IH Ht Hd) as (A1 & A2 & A3).
    split; [constructor; auto using conv_refl|]. split; [constructor; auto|]. cbn. constructor; auto.
  - apply Forall_cons_iff in Ht, Hd. destruct Ht as [Ht1 Ht], Hd as [Hd1 Hd]. destruct (IH Ht Hd) as (A1 & A2 & A3).
    assert (Q : conv st t (fst d)).
    { apply conv_eq; auto. eapply eqv_chain; eauto.
      pose proof (get_wf _ _ _ (s_wf _ S) E) as Ld'. cbn in Ld'. destruct (has_whnf _ S _ Ld') as [m W].
      apply (eqv_heads st [] m m).
      - intros h Hh. apply head_whnf with v; auto. eapply whnf_var; eauto.
      - intros h Hh. apply head_whnf with d'; auto.
      - apply equal_types_refl. apply (s_wf _ S). }
    split; [|split].
    + constructor; auto. destruct (kind_level k); [apply conv_sym; auto|apply conv_refl].
    + constructor; auto. destruct (kind_level k); auto.
    + cbn. constructor; auto.
Qed.
