(** * Names and scopes of the type checker: lemmas for ResolveProps.v. *)
From Coq Require Import String List Arith Bool ZArith Lia.
From Verif Require CodeModel CompileModel CompileStatic.
From Verif Require Import KindModel UnusedModel TypeModel CheckModel CheckScope CheckScoped.
From Verif Require ResolveSpec.
Import ListNotations.
Local Open Scope list_scope.
Local Notation tc := CompileModel.tc.
Local Notation var := CodeModel.var.
Import ResolveSpec(key(..), key_dec, named, place(..), env, empty, bind_locals, bind_modules, captures, present, apply_to, resolves, resolves_all).
Local Notation rbind := ResolveSpec.bind.

Definition key_of (x : var_name) : key := match x with Plain v => named v | Mod p => Module p end.

Lemma path_equal_iff p : forall q, path_equal p q = true <-> p = q.
Proof.
  induction p as [|x p IH]; intros [|y q]; cbn; split; intros H; try discriminate; auto.
  - apply andb_prop in H. destruct H as [H1 H2]. apply String.eqb_eq in H1. apply IH in H2. congruence.
  - injection H as -> ->. rewrite String.eqb_refl. apply IH. auto.
Qed.
Lemma names_key x y : var_names_equal x y = true <-> key_of x = key_of y.
Proof.
  destruct x as [x|p], y as [y|q]; cbn; unfold named; split; intros H; try discriminate.
  - unfold vname_equal in H. apply andb_prop in H. destruct H as [H1 H2].
    destruct (String.eqb_spec (v_str x) (v_str y)); try discriminate. destruct (v_type x), (v_type y); try discriminate; congruence.
  - injection H as H1 H2. unfold vname_equal. rewrite H1, H2, String.eqb_refl. destruct (v_type y); reflexivity.
  - apply path_equal_iff in H. congruence.
  - injection H as ->. apply path_equal_iff. auto.
Qed.
Lemma names_key_false x y : var_names_equal x y = false <-> key_of x <> key_of y.
Proof. rewrite <- names_key. destruct (var_names_equal x y); split; congruence. Qed.

(** ** What is in scope, by the scopes of the checker *)
Definition keyed (j : key) (v : svar) : bool := if key_dec j (key_of (sv_name v)) then true else false.
Fixpoint lastv (j : key) (l : list svar) : option svar :=
  match l with
  | [] => None
  | v :: r => match lastv j r with Some w => Some w | None => if keyed j v then Some v else None end
  end.
Fixpoint firstv (j : key) (l : list svar) : option svar :=
  match l with [] => None | v :: r => if keyed j v then Some v else firstv j r end.

(** A local variable that was not used may yet be undefined. *)
Definition local_place (v : svar) : place :=
  match sv_place v with None => NoValue | Some w => if sv_used v then At w else Away end.
Definition other_place (v : svar) : place := match sv_place v with None => NoValue | Some w => At w end.
Definition outer (o : option place) : option place :=
  match o with Some NoValue => Some NoValue | Some _ => Some Away | None => None end.
Fixpoint scope_env (sc : list frame) : env :=
  match sc with
  | [] => empty
  | fr :: r => fun j =>
      match lastv j (f_locals fr) with
      | Some v => Some (local_place v)
      | None =>
      match lastv j (f_args fr) with
      | Some v => Some (other_place v)
      | None =>
      match firstv j (f_statics fr) with
      | Some v => Some (other_place v)
      | None => outer (scope_env r j)
      end end end
  end.

(** [le G H]: what is readable in [G] is so in [H]. *)
Definition le (G H : env) : Prop := forall j p, G j = Some p -> p <> Away -> H j = Some p.
Lemma le_refl G : le G G.
Proof. intros j p E _. auto. Qed.
Lemma le_trans G H K : le G H -> le H K -> le G K.
Proof. intros A B j p E N. auto. Qed.
Lemma le_bind k p G H : le G H -> le (rbind k p G) (rbind k p H).
Proof. intros L j q. unfold rbind. destruct (key_dec j k); auto. Qed.
Lemma le_locals r : forall xs k G H, le G H -> le (bind_locals k xs r G) (bind_locals k xs r H).
Proof. induction xs as [|x xs IH]; intros k G H L; cbn; auto. apply IH, le_bind, L. Qed.
Lemma captures_le vs G H K : captures vs G K -> le G H -> captures vs H K.
Proof.
  intros C L j. specialize (C j). destruct (K j) as [[|v|]|]; auto.
  - apply L; auto. discriminate.
  - destruct C as (i & w & E1 & E2 & E3). exists i, w. split; [auto|]. split; [auto|]. apply L; auto. discriminate.
Qed.

Lemma resolves_le k G e c : resolves k G e c -> forall H, le G H -> resolves k H e c.
Proof.
  apply (ResolveSpec.resolves_mut (fun k G e c => forall H, le G H -> resolves k H e c)
                                  (fun k G es cs => forall H, le G H -> resolves_all k H es cs)); intros.
  all: try (econstructor; eauto; fail).
  - constructor. apply H1; auto. discriminate.
  - apply ResolveSpec.res_type_var. apply H1; auto. discriminate.
  - constructor. apply H1; auto. discriminate.
  - constructor; [apply H0|apply H2]; apply le_locals; auto.
  - econstructor; eauto using captures_le.
  - constructor. apply H0. apply le_bind; auto.
Qed.
Lemma resolves_all_le k G : forall es cs H, resolves_all k G es cs -> le G H -> resolves_all k H es cs.
Proof. intros es cs H R L. induction R; constructor; eauto using resolves_le. Qed.

Lemma resolves_all_nil_r k G cs : resolves_all k G [] cs -> cs = [].
Proof. intros H. inversion H. auto. Qed.
Lemma resolves_all_app k G es es' : forall cs cs', resolves_all k G es cs -> resolves_all k G es' cs' -> resolves_all k G (es ++ es') (cs ++ cs').
Proof. intros cs cs' R R'. induction R; cbn; auto. constructor; auto. Qed.

(** ** Variables found *)
Lemma keyed_vle j v w : vle v w -> keyed j w = keyed j v.
Proof. intros (E & _). unfold keyed. rewrite E. auto. Qed.
Lemma lastv_vle j l l' : Forall2 vle l l' ->
  match lastv j l, lastv j l' with Some v, Some w => vle v w | None, None => True | _, _ => False end.
Proof.
  intros F. induction F as [|v w l l' H F IH]; cbn; auto.
  destruct (lastv j l), (lastv j l'); auto; try contradiction. rewrite (keyed_vle _ _ _ H). destruct (keyed j v); auto.
Qed.
Lemma firstv_vle j l l' : Forall2 vle l l' ->
  match firstv j l, firstv j l' with Some v, Some w => vle v w | None, None => True | _, _ => False end.
Proof.
  intros F. induction F as [|v w l l' H F IH]; cbn; auto. rewrite (keyed_vle _ _ _ H). destruct (keyed j v); auto.
Qed.
Lemma lastv_app j l m : lastv j (l ++ m) = match lastv j m with Some v => Some v | None => lastv j l end.
Proof.
  induction l as [|v l IH]; cbn; [destruct (lastv j m); auto|]. rewrite IH. destruct (lastv j m); auto.
Qed.
Lemma firstv_app j l m : firstv j (l ++ m) = match firstv j l with Some v => Some v | None => firstv j m end.
Proof. induction l as [|v l IH]; cbn; auto. destruct (keyed j v); auto. Qed.
Lemma lastv_in j l v : lastv j l = Some v -> In v l /\ key_of (sv_name v) = j.
Proof.
  induction l as [|u l IH]; cbn; [discriminate|]. destruct (lastv j l) as [w|]; [intros H; apply IH in H; tauto|].
  unfold keyed. destruct (key_dec j (key_of (sv_name u))); [|discriminate]. intros H. injection H as <-. auto.
Qed.
Lemma firstv_in j l v : firstv j l = Some v -> key_of (sv_name v) = j /\ exists i, nth_error l i = Some v.
Proof.
  induction l as [|u l IH]; cbn; [discriminate|].
  unfold keyed. destruct (key_dec j (key_of (sv_name u))).
  - intros H. injection H as <-. split; auto. exists 0. auto.
  - intros H. destruct (IH H) as (A & i & B). split; auto. exists (S i). auto.
Qed.
Lemma firstv_none j l v : firstv j l = None -> In v l -> key_of (sv_name v) <> j.
Proof.
  induction l as [|u l IH]; cbn; [tauto|]. unfold keyed. destruct (key_dec j (key_of (sv_name u))); [discriminate|].
  intros H [<-|I]; auto.
Qed.

Lemma find_last_lastv ph x l :
  match find_last ph x l with
  | Some (v, l') => exists w, lastv (key_of x) l = Some w /\ v = hit ph w /\ lastv (key_of x) l' = Some v
  | None => lastv (key_of x) l = None
  end.
Proof.
  induction l as [|u l IH]; cbn; auto.
  destruct (find_last ph x l) as [[v l']|].
  - destruct IH as (w & A & B & C). exists w. cbn. rewrite A, C. auto.
  - rewrite IH. unfold keyed. destruct (var_names_equal x (sv_name u)) eqn:E.
    + apply names_key in E. destruct (key_dec (key_of x) (key_of (sv_name u))); [|congruence].
      exists u. split; [auto|]. split; [auto|]. cbn. rewrite IH. unfold keyed.
      assert (sv_name (hit ph u) = sv_name u) as -> by (apply (hit_vle ph u)).
      destruct (key_dec (key_of x) (key_of (sv_name u))); [|congruence]. auto.
    + apply names_key_false in E. destruct (key_dec (key_of x) (key_of (sv_name u))); [congruence|]. auto.
Qed.
Lemma find_first_firstv ph x l :
  match find_first ph x l with
  | Some (v, l') => exists w, firstv (key_of x) l = Some w /\ v = hit ph w /\ firstv (key_of x) l' = Some v
  | None => firstv (key_of x) l = None
  end.
Proof.
  induction l as [|u l IH]; cbn; auto. unfold keyed.
  destruct (var_names_equal x (sv_name u)) eqn:E.
  - apply names_key in E. destruct (key_dec (key_of x) (key_of (sv_name u))); [|congruence].
    exists u. split; [auto|]. split; [auto|]. cbn. unfold keyed.
    assert (sv_name (hit ph u) = sv_name u) as -> by (apply (hit_vle ph u)).
    destruct (key_dec (key_of x) (key_of (sv_name u))); [|congruence]. auto.
  - apply names_key_false in E. destruct (key_dec (key_of x) (key_of (sv_name u))); [congruence|].
    destruct (find_first ph x l) as [[v l']|]; auto. destruct IH as (w & A & B & C). exists w. cbn. unfold keyed.
    destruct (key_dec (key_of x) (key_of (sv_name u))); [congruence|]. auto.
Qed.
Lemma find_last_same x l v l' : find_last true x l = Some (v, l') -> l' = l.
Proof.
  revert v l'. induction l as [|u l IH]; intros v l'; cbn; [discriminate|]. destruct (find_last true x l) as [[w r]|].
  - intros H. injection H as <- <-. f_equal. eauto.
  - destruct (var_names_equal x (sv_name u)); [|discriminate]. intros H. injection H as <- <-. unfold hit. destruct (sv_place u); auto.
Qed.
Lemma find_first_same x l v l' : find_first true x l = Some (v, l') -> l' = l.
Proof.
  revert v l'. induction l as [|u l IH]; intros v l'; cbn; [discriminate|].
  destruct (var_names_equal x (sv_name u)).
  - intros H. injection H as <- <-. unfold hit. destruct (sv_place u); auto.
  - destruct (find_first true x l) as [[w r]|]; [|discriminate]. intros H. injection H as <- <-. f_equal. eauto.
Qed.
Lemma get_var_phantom x : forall sc v sc', get_var true x sc = Some (v, sc') -> sc' = sc.
Proof.
  induction sc as [|fr r IH]; intros v sc'; cbn [get_var]; [discriminate|].
  destruct (find_last true x (f_locals fr)) as [[u l]|] eqn:E1.
  { apply find_last_same in E1. intros H. injection H as <- <-. rewrite E1. destruct fr; auto. }
  destruct (find_last true x (f_args fr)) as [[u l]|] eqn:E2.
  { apply find_last_same in E2. intros H. injection H as <- <-. rewrite E2. destruct fr; auto. }
  destruct (find_first true x (f_statics fr)) as [[u l]|] eqn:E3.
  { apply find_first_same in E3. intros H. injection H as <- <-. rewrite E3. destruct fr; auto. }
  cbn [orb]. destruct (get_var true x r) as [[u r']|] eqn:E4; [|discriminate]. intros H. injection H as <- <-. f_equal. eauto.
Qed.

(** ** The invariant: a captured variable is the one of that name outside *)
Definition capture_inv (fr : frame) (r : list frame) : Prop :=
  forall i v, nth_error (f_statics fr) i = Some v ->
    scope_env r (key_of (sv_name v)) <> Some NoValue /\
    forall cs, f_captured fr = Some cs -> exists w, nth_error cs i = Some w /\ scope_env r (key_of (sv_name v)) = Some (At w).
Fixpoint names_ok (sc : list frame) : Prop :=
  match sc with [] => True | fr :: r => capture_inv fr r /\ names_ok r end.

Lemma at_le v w : vle v w -> local_place v <> Away -> local_place w = local_place v.
Proof.
  intros (_ & _ & E & U). unfold local_place. rewrite E. destruct (sv_place v); auto.
  destruct (sv_used v); [rewrite U; auto|congruence].
Qed.
Lemma other_vle v w : vle v w -> other_place w = other_place v.
Proof. intros (_ & _ & E & _). unfold other_place. rewrite E. auto. Qed.

Lemma scope_env_le sc sc' : sext sc sc' -> names_ok sc' -> le (scope_env sc) (scope_env sc').
Proof.
  intros S. induction S as [|fr fr' r r' X S IH]; [intros; apply le_refl|]. intros [C O] j p E N.
  specialize (IH O). cbn in *. destruct X as [X1 X2 (l & x & X3 & X3') _ _].
  pose proof (lastv_vle j _ _ X1) as H. destruct (lastv j (f_locals fr)) as [v|], (lastv j (f_locals fr')) as [w|]; try contradiction.
  { injection E as <-. f_equal. apply at_le; auto. }
  clear H. pose proof (lastv_vle j _ _ X2) as H. destruct (lastv j (f_args fr)) as [v|], (lastv j (f_args fr')) as [w|]; try contradiction.
  { injection E as <-. f_equal. apply other_vle; auto. }
  clear H. pose proof (firstv_vle j _ _ X3') as H. destruct (firstv j (f_statics fr)) as [v|] eqn:Ef.
  { rewrite X3, firstv_app. destruct (firstv j l) as [w|]; [|contradiction]. injection E as <-. f_equal. apply other_vle; auto. }
  destruct (scope_env r j) as [q|] eqn:Eq; [|discriminate]. destruct q; cbn in E; try (injection E as <-; congruence).
  injection E as <-. pose proof (IH _ _ Eq ltac:(discriminate)) as Ir.
  destruct (firstv j (f_statics fr')) as [w|] eqn:Ew; [|rewrite Ir; auto].
  destruct (firstv_in _ _ _ Ew) as (Hk & i & Hi). destruct (C _ _ Hi) as [Cn _]. congruence.
Qed.

(** Types stay types, and other variables other variables. *)
Lemma novalue_sext sc sc' : sext sc sc' -> scopes_ok sc' -> forall j, scope_env sc' j = Some NoValue -> scope_env sc j = Some NoValue.
Proof.
  intros S. induction S as [|fr fr' r r' X S IH]; auto. intros (F & _ & O) j E.
  specialize (IH O j). cbn in *. destruct X as [X1 X2 (l & x & X3 & X3') _ _].
  pose proof (lastv_vle j _ _ X1) as H. destruct (lastv j (f_locals fr)) as [v|], (lastv j (f_locals fr')) as [w|]; try contradiction.
  { destruct H as (_ & _ & Hp & _). unfold local_place in *. rewrite Hp in E. destruct (sv_place v); auto. destruct (sv_used w); discriminate. }
  clear H. pose proof (lastv_vle j _ _ X2) as H. destruct (lastv j (f_args fr)) as [v|], (lastv j (f_args fr')) as [w|]; try contradiction.
  { rewrite (other_vle _ _ H) in E. auto. }
  destruct (firstv j (f_statics fr')) as [w|] eqn:Ew.
  { exfalso. destruct (firstv_in _ _ _ Ew) as (_ & i & Hi). pose proof (placed_nth _ _ _ _ _ (o_statics _ F) Hi) as P.
    unfold other_place in E. rewrite P in E. discriminate. }
  rewrite X3, firstv_app in Ew. clear H. pose proof (firstv_vle j _ _ X3') as H.
  destruct (firstv j l); [discriminate|]. destruct (firstv j (f_statics fr)); [contradiction|].
  destruct (scope_env r' j) as [[]|]; try discriminate. rewrite IH; auto.
Qed.
Lemma capture_sext fr r r' : capture_inv fr r -> sext r r' -> names_ok r' -> scopes_ok r' -> capture_inv fr r'.
Proof.
  intros C S N O i v E. destruct (C _ _ E) as [C1 C2]. split.
  - intros H. apply C1. eapply novalue_sext; eauto.
  - intros cs Hc. destruct (C2 _ Hc) as (w & A & B). exists w. split; auto. eapply scope_env_le; eauto. discriminate.
Qed.

(** ** Looking up a variable *)
Lemma get_var_novalue x : forall sc ph v sc', scopes_ok sc -> get_var ph x sc = Some (v, sc') ->
  (sv_place v = None <-> scope_env sc (key_of x) = Some NoValue) /\ key_of (sv_name v) = key_of x.
Proof.
  induction sc as [|fr r IH]; intros ph v sc' OK H; cbn [get_var] in H; [discriminate|]. destruct OK as (F & _ & O). cbn [scope_env].
  pose proof (find_last_lastv ph x (f_locals fr)) as HL. destruct (find_last ph x (f_locals fr)) as [[u l]|].
  { injection H as <- <-. destruct HL as (w & A & -> & _). rewrite A. destruct (lastv_in _ _ _ A) as [_ K]. unfold local_place.
    rewrite hit_place. assert (sv_name (hit ph w) = sv_name w) as -> by (apply (hit_vle ph w)). split; auto.
    destruct (sv_place w); split; intros E; try discriminate; auto. destruct (sv_used w); discriminate. }
  rewrite HL. clear HL. pose proof (find_last_lastv ph x (f_args fr)) as HL. destruct (find_last ph x (f_args fr)) as [[u l]|].
  { injection H as <- <-. destruct HL as (w & A & -> & _). rewrite A. destruct (lastv_in _ _ _ A) as [_ K]. unfold other_place.
    rewrite hit_place. assert (sv_name (hit ph w) = sv_name w) as -> by (apply (hit_vle ph w)). split; auto.
    destruct (sv_place w); split; intros E; try discriminate; auto. }
  rewrite HL. clear HL. pose proof (find_first_firstv ph x (f_statics fr)) as HL. destruct (find_first ph x (f_statics fr)) as [[u l]|].
  { injection H as <- <-. destruct HL as (w & A & -> & _). rewrite A. destruct (firstv_in _ _ _ A) as [K _]. unfold other_place.
    rewrite hit_place. assert (sv_name (hit ph w) = sv_name w) as -> by (apply (hit_vle ph w)). split; auto.
    destruct (sv_place w); split; intros E; try discriminate; auto. }
  rewrite HL. clear HL.
  destruct (get_var (ph || match f_captured fr with None => true | Some _ => false end)%bool x r) as [[u r']|] eqn:E; [|discriminate].
  destruct (IH _ _ _ O E) as [IH1 IH2].
  assert (H' : (sv_place u = None <-> outer (scope_env r (key_of x)) = Some NoValue)).
  { rewrite IH1. destruct (scope_env r (key_of x)) as [[]|]; cbn; split; congruence. }
  destruct ph; [injection H as <- <-; auto|]. destruct (sv_place u) as [w|] eqn:P; injection H as <- <-; cbn; [|rewrite P; auto].
  split; auto. split; [discriminate|]. intros E'. apply H' in E'. discriminate.
Qed.

Lemma get_var_names x : forall sc v sc', scopes_ok sc -> names_ok sc -> get_var false x sc = Some (v, sc') ->
  names_ok sc' /\ scope_env sc' (key_of x) = Some (other_place v).
Proof.
  induction sc as [|fr r IH]; intros v sc' OK NO H; [discriminate|]. destruct NO as (C & N).
  destruct (get_var_spec _ _ _ _ _ OK H) as (OK' & S & _). destruct (get_var_novalue _ _ _ _ _ OK H) as [NV KV].
  cbn [get_var] in H. destruct OK as (F & Cp & O).
  pose proof (find_last_lastv false x (f_locals fr)) as HL. destruct (find_last false x (f_locals fr)) as [[u l]|].
  { injection H as <- <-. destruct HL as (w & A & -> & B). cbn. rewrite B. split; [split; auto|]. f_equal.
    unfold local_place, other_place. destruct (sv_place (hit false w)) eqn:P; auto. rewrite hit_place in P. rewrite (hit_used _ _ P). auto. }
  pose proof (find_last_lastv false x (f_args fr)) as HA. destruct (find_last false x (f_args fr)) as [[u l]|].
  { injection H as <- <-. destruct HA as (w & A & -> & B). cbn. rewrite HL, B. split; [split; auto|]. auto. }
  pose proof (find_first_firstv false x (f_statics fr)) as HS. destruct (find_first false x (f_statics fr)) as [[u l]|] eqn:EF.
  { injection H as <- <-. destruct HS as (w & A & -> & B). cbn. rewrite HL, HA, B. split; [split; auto|auto].
    destruct (find_first_spec _ _ _ _ _ EF) as (V & _). intros i v E. cbn in E. destruct (nth_error (f_statics fr) i) as [v0|] eqn:E0.
    - destruct (F2_nth _ _ _ _ _ V E0) as (v1 & E1 & (Hn & _)). assert (v1 = v) as -> by congruence. rewrite Hn. apply (C _ _ E0).
    - apply nth_error_None in E0. apply F2_length in V. assert (i < List.length l) by (apply nth_error_Some; congruence). lia. }
  destruct (get_var (false || match f_captured fr with None => true | Some _ => false end)%bool x r) as [[u r']|] eqn:E; [|discriminate].
  destruct (get_var_novalue _ _ _ _ _ O E) as [NV' KV']. destruct (get_var_spec _ _ _ _ _ O E) as (Or' & Sr & _).
  assert (IHr : names_ok r' /\ forall cs, f_captured fr = Some cs -> scope_env r' (key_of x) = Some (other_place u)).
  { destruct (f_captured fr) as [cs|]; cbn in E.
    - destruct (IH _ _ O N E) as [A B]. auto.
    - apply get_var_phantom in E. subst r'. split; auto. discriminate. }
  destruct IHr as [Nr' Er'].
  destruct (sv_place u) as [w|] eqn:P; injection H as <- <-; cbn [scope_env f_locals f_args f_statics].
  - split.
    + split; auto. intros i v E1. cbn [f_statics] in E1. cbn [f_captured].
      destruct (Nat.lt_ge_cases i (List.length (f_statics fr))) as [Hl|Hl].
      * rewrite nth_error_app1 in E1 by auto. pose proof (capture_sext _ _ _ C Sr Nr' Or' _ _ E1) as [C1 C2]. split; auto.
        intros cs Hc. destruct (f_captured fr) as [cs0|]; [|discriminate]. injection Hc as <-. destruct (C2 _ eq_refl) as (w0 & A & B).
        exists w0. split; auto. rewrite nth_error_app1; auto. apply nth_error_Some. congruence.
      * rewrite nth_error_app2 in E1 by auto. destruct (i - List.length (f_statics fr)) as [|q] eqn:Q; [|destruct q; discriminate].
        injection E1 as <-. cbn [sv_name]. rewrite KV'. split.
        -- intros B. apply (novalue_sext _ _ Sr Or') in B. apply NV' in B. discriminate.
        -- intros cs Hc. destruct (f_captured fr) as [cs0|] eqn:Ec; [|discriminate]. injection Hc as <-. exists w. split.
           ++ assert (List.length cs0 = List.length (f_statics fr)) as L.
              { unfold captured_ok in Cp. rewrite Ec in Cp. destruct r as [|pr r0]; [discriminate|]. eapply F2_length; eauto. }
              rewrite nth_error_app2 by lia. replace (i - List.length cs0) with 0 by lia. reflexivity.
           ++ rewrite (Er' _ eq_refl). unfold other_place. rewrite P. reflexivity.
    + rewrite HL, HA, firstv_app, HS. cbn. unfold keyed. cbn. rewrite KV'. destruct (key_dec (key_of x) (key_of x)); [|congruence]. reflexivity.
  - split.
    + split; auto. eapply capture_sext; eauto.
    + rewrite HL, HA, HS. assert (E0 : scope_env r (key_of x) = Some NoValue) by (apply NV'; auto).
      rewrite (scope_env_le _ _ Sr Nr' _ _ E0 ltac:(discriminate)). cbn. unfold other_place. rewrite P. auto.
Qed.

Lemma get_var_m_names x s v s' : scopes_ok (scopes s) -> names_ok (scopes s) -> get_var_m x s = Done v s' ->
  names_ok (scopes s') /\ match v with Some v => scope_env (scopes s') (key_of x) = Some (other_place v) | None => True end.
Proof.
  intros O N H. unfold get_var_m in H. destruct (get_var false x (scopes s)) as [[u sc]|] eqn:E; injection H as <- <-; cbn; auto.
  eapply get_var_names; eauto.
Qed.
