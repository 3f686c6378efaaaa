(** * The type checker and scopes: lemmas for CheckProps.v. *)
From Coq Require Import String List Arith Bool ZArith Lia.
From Verif Require CodeModel CompileModel CompileEval CompileStatic.
From Verif Require Import KindModel UnusedModel TypeModel CheckModel.
Import ListNotations.
Local Open Scope list_scope.
Local Notation tc := CompileModel.tc.
Local Notation var := CodeModel.var.

(** ** Running the monad *)
Lemma bind_inv {A B} (m : M A) (k : A -> M B) s y s' : bind m k s = Done y s' ->
  exists x s1, m s = Done x s1 /\ k x s1 = Done y s'.
Proof. unfold bind. destruct (m s) as [x s1| |]; intros H; try discriminate. eauto. Qed.
Lemma and_then_inv {A B} (m : M (option A)) (k : A -> M (option B)) s y s' : and_then m k s = Done y s' ->
  (m s = Done None s' /\ y = None) \/ exists x s1, m s = Done (Some x) s1 /\ k x s1 = Done y s'.
Proof.
  unfold and_then. intros H. apply bind_inv in H. destruct H as ([x|] & s1 & E & H); [right; eauto|].
  cbv in H. injection H as <- <-. auto.
Qed.
Lemma ret_inv {A} (x : A) s y s' : ret x s = Done y s' -> y = x /\ s' = s.
Proof. unfold ret. intros H. injection H as <- <-. auto. Qed.

(** Nothing but the types changes. *)
Definition keeps {A} (m : M A) := forall s x s', m s = Done x s' -> scopes s' = scopes s.
Lemma keeps_bind {A B} (m : M A) (k : A -> M B) : keeps m -> (forall x, keeps (k x)) -> keeps (bind m k).
Proof. intros Hm Hk s y s' H. apply bind_inv in H. destruct H as (x & s1 & E & H). rewrite (Hk _ _ _ _ H). eapply Hm; eauto. Qed.
Lemma keeps_ret {A} (x : A) : keeps (ret x).
Proof. intros s y s' H. apply ret_inv in H. destruct H; congruence. Qed.
Lemma keeps_and_then {A B} (m : M (option A)) (k : A -> M (option B)) : keeps m -> (forall x, keeps (k x)) -> keeps (and_then m k).
Proof. intros Hm Hk. apply keeps_bind; [auto|]. intros [x|]; auto using keeps_ret. Qed.
Lemma keeps_bad {A} : keeps (@bad A).
Proof. intros s x s' H. discriminate. Qed.
Lemma keeps_more {A} : keeps (fun _ => @More A).
Proof. intros s x s' H. discriminate. Qed.
Lemma keeps_kind f t : keeps (kind_of_m f t).
Proof. intros s x s'. unfold kind_of_m, lift. destruct (kind_of f (types s) t); intros H; inversion H; auto. Qed.
Lemma keeps_normal f t : keeps (normal_m f t).
Proof. intros s x s'. unfold normal_m. destruct (normal f (types s) t []) as [[st [n|]]|]; intros H; inversion H; auto. Qed.
Lemma keeps_get n : keeps (get_m n).
Proof. intros s x s'. unfold get_m. destruct (get (types s) n); intros H; inversion H; auto. Qed.
Lemma keeps_infer f vars a b : keeps (infer_m f vars a b).
Proof. intros s x s'. unfold infer_m. destruct (type_infer f (types s) vars a b) as [[[st v] r]|]; intros H; inversion H; auto. Qed.
Lemma keeps_equal f a b : keeps (equal_m f a b).
Proof. apply keeps_bind; auto using keeps_infer, keeps_ret. Qed.
Lemma keeps_new_var k x : keeps (new_var_m k x).
Proof. intros s y s'. unfold new_var_m. destruct (new_var_type (types s) k x) as [[st n]|]; intros H; inversion H; auto. Qed.
Lemma keeps_assign f v t : keeps (assign_m f v t).
Proof. intros s y s'. unfold assign_m. destruct (assign_var f (types s) v t) as [st|]; intros H; inversion H; auto. Qed.
Lemma keeps_alloc t : keeps (alloc t).
Proof. intros s y s'. unfold alloc, new_type. intros H; inversion H; auto. Qed.
Lemma keeps_read {A} (g : state -> A) : keeps (read g).
Proof. intros s y s'. unfold read. intros H; inversion H; auto. Qed.
Lemma keeps_value_of t : keeps (value_of t).
Proof. apply keeps_read. Qed.
Lemma keeps_set_types st : keeps (set_types st).
Proof. intros s y s'. unfold set_types. intros H; inversion H; auto. Qed.
Lemma keeps_vacuous f : forall t, keeps (vacuous f t).
Proof.
  induction f as [|f IH]; intros t s x s'; cbn; [discriminate|].
  destruct (normal f (types s) t []) as [[st [n|]]|]; try discriminate; [|intros H; inversion H; auto].
  destruct (get st n) as [d|]; [destruct d|]; intros H; try (inversion H; auto; fail); apply IH in H; auto.
Qed.

#[export] Hint Resolve keeps_bind keeps_ret keeps_and_then keeps_bad keeps_more keeps_kind keeps_normal keeps_get keeps_infer
  keeps_equal keeps_new_var keeps_assign keeps_alloc keeps_read keeps_value_of keeps_set_types keeps_vacuous : keeps.

Ltac keeps_tac := repeat first
  [ apply keeps_bind; [|intros] | apply keeps_and_then; [|intros] | solve [auto with keeps]
  | match goal with |- keeps (match ?x with _ => _ end) => destruct x end
  | match goal with |- keeps (let (_, _) := ?x in _) => destruct x end ].

Lemma keeps_new_poly f : forall a b, keeps (new_poly f a b).
Proof. induction f as [|f IH]; intros a b; cbn [new_poly]; keeps_tac. Qed.
Lemma keeps_new_poly_apply f : forall a b, keeps (new_poly_apply f a b).
Proof. induction f as [|f IH]; intros a b; cbn [new_poly_apply]; keeps_tac. Qed.
Lemma keeps_list_element f t : keeps (list_element f t).
Proof. unfold list_element. keeps_tac. Qed.
Lemma keeps_name_space f x t : keeps (name_space f x t).
Proof. unfold name_space. keeps_tac. Qed.
Lemma keeps_depoly f : forall t vars, keeps (depoly f t vars).
Proof. induction f as [|f IH]; intros; cbn [depoly]; keeps_tac. Qed.
#[export] Hint Resolve keeps_new_poly keeps_new_poly_apply keeps_list_element keeps_name_space keeps_depoly : keeps.
Lemma keeps_poly_apply f p a : keeps (poly_apply f p a).
Proof. unfold poly_apply. keeps_tac. Qed.
#[export] Hint Resolve keeps_poly_apply : keeps.
Lemma keeps_infer_all f : forall xs ys vars, keeps (infer_all f vars xs ys).
Proof. induction xs as [|x xs IH]; intros [|y ys] vars; cbn [infer_all]; keeps_tac. Qed.
Lemma keeps_apply_vars f : forall vars p, keeps (apply_vars f vars p).
Proof. induction vars as [|[x [v|]] vars IH]; intros p; cbn [apply_vars]; keeps_tac. Qed.
#[export] Hint Resolve keeps_infer_all keeps_apply_vars : keeps.
Lemma keeps_infer_args f vars xs ys p : keeps (infer_args f vars xs ys p).
Proof. unfold infer_args. keeps_tac. Qed.
Lemma keeps_letters f u fields : forall n w, keeps (letters f u fields n w).
Proof.
  induction n as [|n IH]; intros [|c w]; cbn [letters]; auto with keeps.
  destruct (longest 0 fields (String c w) 0 0) as [len j]. keeps_tac.
Qed.
Lemma keeps_struct_fields f : forall l seen, keeps (struct_fields f seen l).
Proof. induction l as [|[x [t e]] l IH]; intros seen; cbn [struct_fields]; keeps_tac. Qed.
Lemma keeps_copy_fields f : forall fields args, keeps (copy_fields f fields args).
Proof. induction fields as [|[x t] fields IH]; intros [|[y [[u e]|]] args]; cbn [copy_fields]; keeps_tac. Qed.
Lemma keeps_let_assign f : forall bs ts ds, keeps (let_assign f bs ts ds).
Proof. induction bs as [|[[x kt] e] bs IH]; intros [|t ts] [|d ds]; cbn [let_assign]; keeps_tac. Qed.
Lemma keeps_each {A B} (g : A -> M B) : (forall x, keeps (g x)) -> forall l, keeps (each g l).
Proof. intros Hg. induction l as [|x l IH]; cbn [each]; keeps_tac. Qed.
#[export] Hint Resolve keeps_infer_args keeps_letters keeps_struct_fields keeps_copy_fields keeps_let_assign keeps_each : keeps.

(** ** Scopes *)
Definition is_value (v : svar) : bool := match sv_place v with Some _ => true | None => false end.
Definition values (l : list svar) : list svar := filter is_value l.
Definition flags (fr : frame) : list bool := map sv_used (values (f_locals fr)).

(** The variable [w] of type [t] can be read in this scope. *)
Definition var_at (fr : frame) (w : var) (t : nat) : Prop :=
  match w with
  | CodeModel.Static i => exists v, nth_error (f_statics fr) i = Some v /\ sv_type v = t
  | CodeModel.Arg i => exists v, nth_error (f_args fr) i = Some v /\ sv_type v = t
  | CodeModel.Local i => exists v, nth_error (values (f_locals fr)) i = Some v /\ sv_used v = true /\ sv_type v = t
  end.

Definition vle (v w : svar) : Prop :=
  sv_name w = sv_name v /\ sv_type w = sv_type v /\ sv_place w = sv_place v /\ (sv_used v = true -> sv_used w = true).

Record fext (fr fr' : frame) : Prop := {
  x_locals : Forall2 vle (f_locals fr) (f_locals fr');
  x_args : Forall2 vle (f_args fr) (f_args fr');
  x_statics : exists l x, f_statics fr' = l ++ x /\ Forall2 vle (f_statics fr) l;
  x_allocated : f_allocated fr' = f_allocated fr;
  x_captured : match f_captured fr with None => f_captured fr' = None | Some c => exists x, f_captured fr' = Some (c ++ x) end }.

Fixpoint placed (mk : nat -> var) (i : nat) (l : list svar) : Prop :=
  match l with [] => True | v :: r => sv_place v = Some (mk i) /\ placed mk (S i) r end.

Record frame_ok (fr : frame) : Prop := {
  o_statics : placed CodeModel.Static 0 (f_statics fr);
  o_args : placed CodeModel.Arg 0 (f_args fr);
  o_locals : placed CodeModel.Local 0 (values (f_locals fr));
  o_allocated : f_allocated fr = List.length (values (f_locals fr)) }.

Definition captured_ok (fr : frame) (parents : list frame) : Prop :=
  match parents with
  | [] => f_statics fr = [] /\ match f_captured fr with None => True | Some cs => cs = [] end
  | p :: _ => match f_captured fr with
              | None => True
              | Some cs => Forall2 (fun w v => var_at p w (sv_type v)) cs (f_statics fr)
              end
  end.
Fixpoint scopes_ok (sc : list frame) : Prop :=
  match sc with [] => True | fr :: r => frame_ok fr /\ captured_ok fr r /\ scopes_ok r end.
Definition sext := Forall2 fext.

Lemma vle_refl v : vle v v.
Proof. unfold vle. auto. Qed.
Lemma vle_trans u v w : vle u v -> vle v w -> vle u w.
Proof. unfold vle. intros (A & B & C & D) (A' & B' & C' & D'). repeat split; try congruence. auto. Qed.
Lemma F2_refl {A} (R : A -> A -> Prop) l : (forall x, R x x) -> Forall2 R l l.
Proof. intros H. induction l; auto. Qed.
Lemma F2_trans {A} (R : A -> A -> Prop) l m n : (forall x y z, R x y -> R y z -> R x z) -> Forall2 R l m -> Forall2 R m n -> Forall2 R l n.
Proof. intros H F. revert n. induction F; intros n G; inversion G; subst; constructor; eauto. Qed.
Lemma F2_nth {A B} (R : A -> B -> Prop) l m i x : Forall2 R l m -> nth_error l i = Some x -> exists y, nth_error m i = Some y /\ R x y.
Proof. intros F. revert i. induction F; intros [|i] H'; cbn in *; try discriminate; eauto. injection H' as <-. eauto. Qed.
Lemma F2_app_inv {A B} (R : A -> B -> Prop) l1 l2 m : Forall2 R (l1 ++ l2) m ->
  exists m1 m2, m = m1 ++ m2 /\ Forall2 R l1 m1 /\ Forall2 R l2 m2.
Proof. intros F. apply Forall2_app_inv_l in F. destruct F as (m1 & m2 & F1 & F2 & ->). eauto. Qed.
Lemma F2_length {A B} (R : A -> B -> Prop) l m : Forall2 R l m -> List.length l = List.length m.
Proof. intros F; induction F; cbn; congruence. Qed.

Lemma fext_refl fr : fext fr fr.
Proof.
  split; auto using F2_refl, vle_refl.
  - exists (f_statics fr), []. rewrite app_nil_r. auto using F2_refl, vle_refl.
  - destruct (f_captured fr) as [c|]; auto. exists []. rewrite app_nil_r. reflexivity.
Qed.
Lemma fext_trans a b c : fext a b -> fext b c -> fext a c.
Proof.
  intros [A1 A2 (l & x & A3 & A3') A4 A5] [B1 B2 (l' & x' & B3 & B3') B4 B5]. split; eauto using F2_trans, vle_trans.
  - rewrite A3 in B3'. apply F2_app_inv in B3'. destruct B3' as (m1 & m2 & -> & F1 & F2).
    exists m1, (m2 ++ x'). rewrite B3, app_assoc. eauto using F2_trans, vle_trans.
  - congruence.
  - destruct (f_captured a) as [ca|]; [|rewrite A5 in B5; auto].
    destruct A5 as [y A5]. rewrite A5 in B5. destruct B5 as [z B5]. exists (y ++ z). rewrite B5, app_assoc. reflexivity.
Qed.
Lemma sext_refl sc : sext sc sc.
Proof. apply F2_refl. apply fext_refl. Qed.
Lemma sext_trans a b c : sext a b -> sext b c -> sext a c.
Proof. apply F2_trans. apply fext_trans. Qed.

Lemma values_ext l l' : Forall2 vle l l' -> Forall2 vle (values l) (values l').
Proof.
  intros F. induction F as [|v w l l' H F IH]; cbn; auto.
  assert (is_value w = is_value v) as ->. { unfold is_value. destruct H as (_ & _ & -> & _). reflexivity. }
  destruct (is_value v); auto.
Qed.

Lemma var_at_ext fr fr' w t : fext fr fr' -> var_at fr w t -> var_at fr' w t.
Proof.
  intros [X1 X2 (l & x & X3 & X3') X4 X5] H. destruct w as [i|i|i]; cbn in *.
  - destruct H as (v & E & <-). destruct (F2_nth _ _ _ _ _ X3' E) as (w & E' & V).
    exists w. split; [|apply V]. rewrite X3. rewrite nth_error_app1; auto. apply nth_error_Some. congruence.
  - destruct H as (v & E & <-). destruct (F2_nth _ _ _ _ _ X2 E) as (w & E' & V). exists w. split; auto. apply V.
  - destruct H as (v & E & U & <-). destruct (F2_nth _ _ _ _ _ (values_ext _ _ X1) E) as (w & E' & V).
    exists w. split; auto. destruct V as (_ & V1 & _ & V2). auto.
Qed.

Lemma placed_ext mk l l' : Forall2 vle l l' -> forall i, placed mk i l -> placed mk i l'.
Proof.
  intros F. induction F as [|v w l l' (A & B & C & D) F IH]; cbn; auto. intros i [H1 H2]. split; [congruence|auto].
Qed.
Lemma placed_app mk l m : forall i, placed mk i (l ++ m) <-> placed mk i l /\ placed mk (i + List.length l) m.
Proof.
  induction l as [|v l IH]; intros i; cbn.
  - rewrite Nat.add_0_r. tauto.
  - rewrite IH. rewrite <- Nat.add_succ_comm. cbn. tauto.
Qed.
Lemma placed_nth mk l : forall i k v, placed mk i l -> nth_error l k = Some v -> sv_place v = Some (mk (i + k)).
Proof.
  induction l as [|w l IH]; intros i [|k] v P E; cbn in *; try discriminate; destruct P as [H1 H2].
  - injection E as <-. rewrite Nat.add_0_r. auto.
  - rewrite <- Nat.add_succ_comm. eapply IH; eauto.
Qed.
Lemma placed_values mk l i : placed mk i l -> values l = l.
Proof.
  revert i. induction l as [|v l IH]; intros i; cbn; auto. intros [H1 H2]. unfold is_value. rewrite H1.
  f_equal. eapply IH; eauto.
Qed.

Lemma captured_ext fr p p' r : fext p p' -> captured_ok fr (p :: r) -> forall r', captured_ok fr (p' :: r').
Proof.
  intros X. cbn. destruct (f_captured fr) as [cs|]; auto. intros F r'. induction F; constructor; auto. eapply var_at_ext; eauto.
Qed.
Lemma captured_sext fr sc sc' : sext sc sc' -> captured_ok fr sc -> captured_ok fr sc'.
Proof. intros S. destruct S as [|p p' r r' X S]; auto. intros H. eapply captured_ext; eauto. Qed.

(** ** Looking up variables *)
Lemma hit_vle ph v : vle v (hit ph v).
Proof. unfold hit. destruct (sv_place v) eqn:E; [destruct ph|]; auto using vle_refl. unfold vle, mark. cbn. auto. Qed.

Lemma find_last_spec ph x l : forall v l', find_last ph x l = Some (v, l') ->
  Forall2 vle l l' /\ exists i w, nth_error l i = Some w /\ v = hit ph w /\ nth_error l' i = Some v.
Proof.
  induction l as [|u l IH]; intros v l'; cbn; [discriminate|].
  destruct (find_last ph x l) as [[w r']|] eqn:E.
  - intros H. injection H as <- <-. destruct (IH _ _ eq_refl) as (F & i & y & E1 & E2 & E3).
    split; [constructor; auto using vle_refl|]. exists (S i), y. auto.
  - destruct (var_names_equal x (sv_name u)); [|discriminate]. intros H. injection H as <- <-.
    split; [constructor; auto using hit_vle, F2_refl, vle_refl|]. exists 0, u. auto.
Qed.
Lemma find_first_spec ph x l : forall v l', find_first ph x l = Some (v, l') ->
  Forall2 vle l l' /\ exists i w, nth_error l i = Some w /\ v = hit ph w /\ nth_error l' i = Some v.
Proof.
  induction l as [|u l IH]; intros v l'; cbn; [discriminate|].
  destruct (var_names_equal x (sv_name u)).
  - intros H. injection H as <- <-.
    split; [constructor; auto using hit_vle, F2_refl, vle_refl|]. exists 0, u. auto.
  - destruct (find_first ph x l) as [[w r']|] eqn:E; [|discriminate].
    intros H. injection H as <- <-. destruct (IH _ _ eq_refl) as (F & i & y & E1 & E2 & E3).
    split; [constructor; auto using vle_refl|]. exists (S i), y. auto.
Qed.

(** The position of a value among the values. *)
Lemma nth_values l : forall k v, nth_error l k = Some v -> is_value v = true ->
  exists j, nth_error (values l) j = Some v.
Proof.
  induction l as [|u l IH]; intros [|k] v E Hv; cbn in *; try discriminate.
  - injection E as ->. rewrite Hv. exists 0. reflexivity.
  - destruct (IH _ _ E Hv) as [j Hj]. destruct (is_value u); [exists (S j)|exists j]; auto.
Qed.

Lemma found_local fr i v : placed CodeModel.Local 0 (values (f_locals fr)) -> nth_error (f_locals fr) i = Some v ->
  sv_used v = true -> match sv_place v with Some w => var_at fr w (sv_type v) | None => True end.
Proof.
  intros P E U. destruct (sv_place v) as [w|] eqn:Pl; auto.
  destruct (nth_values _ _ _ E) as [j Hj]. { unfold is_value. rewrite Pl. auto. }
  pose proof (placed_nth _ _ _ _ _ P Hj) as H. rewrite Pl in H. injection H as ->. cbn. eauto.
Qed.

Lemma hit_used v w : sv_place v = Some w -> sv_used (hit false v) = true.
Proof. unfold hit. intros ->. reflexivity. Qed.
Lemma hit_place ph v : sv_place (hit ph v) = sv_place v.
Proof. unfold hit. destruct (sv_place v) eqn:E; [destruct ph|]; cbn; auto. Qed.

Lemma get_var_spec x : forall sc ph v sc', scopes_ok sc -> get_var ph x sc = Some (v, sc') ->
  scopes_ok sc' /\ sext sc sc' /\
  (ph = false -> match sc' with
                 | fr :: _ => match sv_place v with Some w => var_at fr w (sv_type v) | None => True end
                 | [] => False
                 end).
Proof.
  induction sc as [|fr parents IH]; intros ph v sc' OK G; [discriminate|].
  destruct OK as (F & C & OK). cbn [get_var] in G. destruct F as [F1 F2 F3 F4].
  destruct (find_last ph x (f_locals fr)) as [[v0 l]|] eqn:E1.
  { injection G as <- <-. destruct (find_last_spec _ _ _ _ _ E1) as (V & i & w & N1 & -> & N2).
    assert (X : fext fr (MkFrame (f_statics fr) (f_args fr) l (f_allocated fr) (f_captured fr))).
    { pose proof (fext_refl fr) as []. split; auto. }
    assert (P : placed CodeModel.Local 0 (values l)). { eapply placed_ext; eauto using values_ext. }
    split; [|split].
    - split; [|split]; auto. split; auto. cbn. rewrite F4. eapply F2_length, values_ext; eauto.
    - constructor; auto. apply sext_refl.
    - intros ->. destruct (sv_place (hit false w)) as [p|] eqn:Pl; auto.
      pose proof (found_local (MkFrame (f_statics fr) (f_args fr) l (f_allocated fr) (f_captured fr)) i _ P N2) as H.
      rewrite Pl in H. apply H. apply hit_used with p. rewrite hit_place in Pl. auto. }
  destruct (find_last ph x (f_args fr)) as [[v0 l]|] eqn:E2.
  { injection G as <- <-. destruct (find_last_spec _ _ _ _ _ E2) as (V & i & w & N1 & -> & N2).
    assert (X : fext fr (MkFrame (f_statics fr) l (f_locals fr) (f_allocated fr) (f_captured fr))).
    { pose proof (fext_refl fr) as []. split; auto. }
    split; [|split].
    - split; [|split]; auto. split; auto. eapply placed_ext; eauto.
    - constructor; auto. apply sext_refl.
    - intros _. pose proof (placed_nth _ _ _ _ _ (placed_ext _ _ _ V _ F2) N2) as Pl. rewrite Pl. cbn. eauto. }
  destruct (find_first ph x (f_statics fr)) as [[v0 l]|] eqn:E3.
  { injection G as <- <-. destruct (find_first_spec _ _ _ _ _ E3) as (V & i & w & N1 & -> & N2).
    assert (X : fext fr (MkFrame l (f_args fr) (f_locals fr) (f_allocated fr) (f_captured fr))).
    { pose proof (fext_refl fr) as []. split; auto. exists l, []. rewrite app_nil_r. auto. }
    split; [|split].
    - split; [|split]; auto.
      + split; auto. eapply placed_ext; eauto.
      + unfold captured_ok in *. cbn. destruct parents as [|p parents]; [destruct C as [C _]; rewrite C in N1; destruct i; discriminate|].
        destruct (f_captured fr) as [cs|]; auto. clear - C V. revert l V. induction C as [|w v cs ss H C IH]; intros l V; inversion V; subst; auto.
        constructor; auto. destruct H2 as (_ & -> & _). auto.
    - constructor; auto. apply sext_refl.
    - intros _. pose proof (placed_nth _ _ _ _ _ (placed_ext _ _ _ V _ F1) N2) as Pl. rewrite Pl. cbn. eauto. }
  destruct (get_var (ph || match f_captured fr with None => true | Some _ => false end)%bool x parents) as [[v0 parents']|] eqn:E4; [|discriminate].
  destruct (IH _ _ _ OK E4) as (OK' & S' & H').
  assert (same : scopes_ok (fr :: parents') /\ sext (fr :: parents) (fr :: parents')).
  { split; [split; [|split]; auto|constructor; auto using fext_refl]. { split; auto. } eapply captured_sext; eauto. }
  destruct ph.
  { injection G as <- <-. destruct same as [S1 S2]. split; [exact S1|]. split; [exact S2|]. discriminate. }
  destruct (sv_place v0) as [w|] eqn:Pl.
  2:{ injection G as <- <-. destruct same as [S1 S2]. split; [exact S1|]. split; [exact S2|]. rewrite Pl. auto. }
  injection G as <- <-. clear same. split; [|split].
  - split; [|split]; auto.
    + split; auto. cbn. apply placed_app. cbn. auto.
    + unfold captured_ok in *. cbn. destruct parents as [|p parents]; [cbn in E4; discriminate|].
      inversion S' as [|? p' ? r' X S'']; subst. destruct (f_captured fr) as [cs|]; auto.
      apply Forall2_app.
      * clear - C X. induction C; constructor; auto. eapply var_at_ext; eauto.
      * constructor; auto.
  - constructor; auto. pose proof (fext_refl fr) as []. split; auto; cbn.
    + exists (f_statics fr), [MkVar (sv_name v0) (sv_type v0) true (Some (CodeModel.Static (List.length (f_statics fr))))].
      auto using F2_refl, vle_refl.
    + destruct (f_captured fr); eauto.
  - intros _. cbn. eexists. rewrite nth_error_app2, Nat.sub_diag by auto. split; reflexivity.
Qed.

Lemma get_var_m_spec x s o s' : scopes_ok (scopes s) -> get_var_m x s = Done o s' ->
  types s' = types s /\ scopes_ok (scopes s') /\ sext (scopes s) (scopes s') /\
  match o with
  | None => True
  | Some v => exists fr r, scopes s' = fr :: r /\
                match sv_place v with Some w => var_at fr w (sv_type v) | None => True end
  end.
Proof.
  intros OK H. unfold get_var_m in H. destruct (get_var false x (scopes s)) as [[v sc]|] eqn:E.
  - injection H as <- <-. destruct (get_var_spec _ _ _ _ _ OK E) as (A & B & C). cbn.
    split; [auto|]. split; [auto|]. split; [auto|]. specialize (C eq_refl). destruct sc as [|fr r]; [contradiction|]. eauto.
  - injection H as <- <-. auto using sext_refl.
Qed.

(** ** Expressions whose variables are in scope *)
Section good.
  Import CodeModel CompileModel CompileEval.
  (** [wf], but selects may have no targets. *)
  Fixpoint good (ns na : nat) (env : list bool) (e : tc) : bool :=
    match e with
    | TType | TLiteral _ => true
    | TVar v => wf_var ns na env v
    | TLet r bs b =>
      forallb (good ns na (env ++ repeat r (length bs))) bs && good ns na (env ++ repeat true (length bs)) b
    | TStruct fs | TList fs => forallb (good ns na env) fs
    | TCopy src fs => good ns na env src && forallb (fun o => match o with Some e => good ns na env e | None => true end) fs
    | TUnion _ a => good ns na env a
    | TSelect c n ts d =>
      good ns na env c && forallb (fun p => good ns na env (snd p)) ts && good ns na env d
      && sorted_from 0 (map fst ts) && forallb (fun t => t <? n) (map fst ts)
    | TAccess _ o _ => good ns na env o
    | TFunc scope b => forallb (wf_var ns na env) scope && good (length scope) 1 [] b
    | TApply f a => good ns na env f && good ns na env a
    end.
  (** Every select has a target. *)
  Fixpoint has_targets (e : tc) : bool :=
    match e with
    | TType | TLiteral _ | TVar _ => true
    | TLet r bs b => forallb has_targets bs && has_targets b
    | TStruct fs | TList fs => forallb has_targets fs
    | TCopy src fs => has_targets src && forallb (fun o => match o with Some e => has_targets e | None => true end) fs
    | TUnion _ a => has_targets a
    | TSelect c _ ts d =>
      has_targets c && forallb (fun p => has_targets (snd p)) ts && has_targets d && negb (length ts =? 0)
    | TAccess _ o _ => has_targets o
    | TFunc scope b => has_targets b
    | TApply f a => has_targets f && has_targets a
    end.

  Lemma forallb_two {A} (p q r : A -> bool) l : Forall (fun x => p x = true -> q x = true -> r x = true) l ->
    forallb p l = true -> forallb q l = true -> forallb r l = true.
  Proof.
    intros F. induction F as [|x l H F IH]; cbn; auto. intros H1 H2. apply andb_prop in H1, H2.
    destruct H1, H2. rewrite H, IH; auto.
  Qed.

  Lemma good_wf e : forall ns na env, good ns na env e = true -> has_targets e = true -> wf ns na env e = true.
  Proof.
    induction e using CompileStatic.tc_ind'; intros ns na env G T; cbn in *; auto;
      repeat match goal with H : (_ && _)%bool = true |- _ => apply andb_prop in H; destruct H end;
      repeat (rewrite andb_true_iff; split); auto;
      try match goal with G : forallb ?p ?l = true, T : forallb ?q ?l = true |- forallb _ ?l = true =>
        solve [refine (forallb_two p q _ l _ G T); eapply Forall_impl; [|eassumption]; cbn; auto;
               intros [|]; auto] end.
  Qed.

  Definition below (env env' : list bool) : Prop := forall i, nth i env false = true -> nth i env' false = true.
  Lemma below_app env env' x : length env = length env' -> below env env' -> below (env ++ x) (env' ++ x).
  Proof.
    intros L B i. destruct (Nat.lt_ge_cases i (length env)).
    - rewrite !app_nth1 by lia. apply B.
    - rewrite !app_nth2 by lia. rewrite L. auto.
  Qed.
  Lemma below_F2 env env' : Forall2 (fun a b => a = true -> b = true) env env' -> below env env'.
  Proof. intros F. induction F; intros [|i]; cbn; auto. Qed.

  Lemma forallb_impl {A} (p q : A -> bool) l : Forall (fun x => p x = true -> q x = true) l -> forallb p l = true -> forallb q l = true.
  Proof. intros F. induction F; cbn; auto. intros G. apply andb_prop in G. destruct G. rewrite H, IHF; auto. Qed.

  Lemma good_mono e : forall ns ns' na env env', ns <= ns' -> length env = length env' -> below env env' ->
    good ns na env e = true -> good ns' na env' e = true.
  Proof.
    assert (Wv : forall ns ns' na env env' v, ns <= ns' -> below env env' -> wf_var ns na env v = true -> wf_var ns' na env' v = true).
    { intros ns ns' na env env' [i|i|i] L B W; cbn in *; auto. apply Nat.ltb_lt. apply Nat.ltb_lt in W. lia. }
    induction e using CompileStatic.tc_ind'; intros ns ns' na env env' Ln Le B G; cbn in *; auto;
      repeat match goal with H : (_ && _)%bool = true |- _ => apply andb_prop in H; destruct H end;
      repeat (rewrite andb_true_iff; split); eauto;
      try (eapply forallb_impl; [|eassumption]; eapply Forall_impl; [|eassumption]; cbn; eauto; fail).
    - eapply forallb_impl; [|eassumption]. eapply Forall_impl; [|eassumption]. intros e0 IH. apply IH; auto.
      + rewrite !app_length. lia.
      + apply below_app; auto.
    - eapply IHe; [| |apply below_app; eauto|]; eauto. rewrite !app_length. lia.
    - eapply forallb_impl; [|eassumption]. eapply Forall_impl; [|eassumption]. intros [e0|]; eauto.
    - eapply forallb_impl; [|eassumption]. apply Forall_forall. eauto.
  Qed.
End good.

(** The variables of [e] can be read in the innermost scope. *)
Definition top_good (sc : list frame) (e : tc) : Prop :=
  match sc with
  | [] => good 0 0 [] e = true
  | fr :: _ => good (List.length (f_statics fr)) (List.length (f_args fr)) (flags fr) e = true
  end.

Lemma flags_ext fr fr' : Forall2 vle (f_locals fr) (f_locals fr') ->
  List.length (flags fr) = List.length (flags fr') /\ below (flags fr) (flags fr').
Proof.
  intros X. pose proof (values_ext _ _ X) as F. unfold flags. rewrite !map_length. split; [eapply F2_length; eauto|].
  apply below_F2. clear X. induction F as [|v w l l' V F IH]; cbn; constructor; auto. apply V.
Qed.
Lemma statics_ext fr fr' : fext fr fr' -> List.length (f_statics fr) <= List.length (f_statics fr').
Proof. intros X. destruct (x_statics _ _ X) as (l & x & -> & F). apply F2_length in F. rewrite app_length. lia. Qed.
Lemma args_ext fr fr' : fext fr fr' -> List.length (f_args fr') = List.length (f_args fr).
Proof. intros X. symmetry. eapply F2_length, x_args; eauto. Qed.

Lemma top_good_ext sc sc' e : sext sc sc' -> top_good sc e -> top_good sc' e.
Proof.
  intros S. destruct S as [|fr fr' r r' X S]; auto. cbn. intros G. rewrite (args_ext _ _ X).
  destruct (flags_ext fr fr' (x_locals _ _ X)). eapply good_mono; [| | |exact G]; auto. apply statics_ext; auto.
Qed.

Lemma var_at_wf fr w t : var_at fr w t ->
  CompileEval.wf_var (List.length (f_statics fr)) (List.length (f_args fr)) (flags fr) w = true.
Proof.
  destruct w as [i|i|i]; cbn; intros H.
  - destruct H as (v & E & _). apply Nat.ltb_lt. apply nth_error_Some. congruence.
  - destruct H as (v & E & _). apply Nat.ltb_lt. apply nth_error_Some. congruence.
  - destruct H as (v & E & U & _). unfold flags. change false with (sv_used (MkVar (Mod []) 0 false None)). rewrite map_nth.
    apply nth_error_nth with (d := MkVar (Mod []) 0 false None) in E. rewrite E. auto.
Qed.
