(** * The commands of the fbld evaluator follow the specification: the steps. *)
From Coq Require Import ZArith String Ascii List Arith Lia Bool.
From Verif Require Import FbldModel FbldSpec FbldMem FbldSafe FbldOps FbldSim.
Import ListNotations.
Local Open Scope list_scope.
Notation length := List.length.
Notation bind := FbldModel.bind.

Lemma Forall2_len : forall {A B} (R : A -> B -> Prop) l m, Forall2 R l m -> length l = length m.
Proof. intros A B R l m F. induction F; cbn; auto. Qed.
Lemma Forall2_first : forall {A B} (R : A -> B -> Prop) k l m, Forall2 R l m -> Forall2 R (firstn k l) (firstn k m).
Proof. intros A B R k l m F. revert k. induction F; intros [|k]; cbn; constructor; auto. Qed.
Lemma gather : forall h ms vs j k, Forall2 (fun i v => exists p, nth_error ms i = Some p /\ holds h p v) (seq j k) vs -> Forall2 (holds h) (firstn k (skipn j ms)) vs.
Proof.
  intros h ms vs j k. revert vs j. induction k as [|k IH]; intros vs j F; inversion F as [|? v ? vs' [p [Hp Hv]] F']; subst; [constructor|].
  assert (E : skipn j ms = p :: skipn (S j) ms).
  { clear - Hp. revert ms Hp. induction j as [|j IH]; intros [|m ms] Hp; cbn in *; try discriminate; [injection Hp as ->; auto|]. apply IH. auto. }
  rewrite E. cbn [firstn]. constructor; auto.
Qed.
Lemma forall2_map : forall {A B C} (f : A -> B) (R : B -> C -> Prop) l m, Forall2 R (map f l) m -> Forall2 (fun a c => R (f a) c) l m.
Proof. intros A B C f R l. induction l as [|a l IH]; intros m F; inversion F; subst; constructor; auto. Qed.
Lemma forall2_imp : forall {A B} (R R' : A -> B -> Prop) l m, Forall2 R l m -> (forall a b, In a l -> R a b -> R' a b) -> Forall2 R' l m.
Proof. intros A B R R' l m F. induction F; intros K; constructor; [apply K; [left; auto|auto]|]. apply IHF. intros. apply K; [right; auto|auto]. Qed.
Lemma holds_all_grow : forall h h' r re r' re' ms ds, Forall2 (holds h) ms ds -> grow h h' -> inv h r re -> inv h' r' re' -> (forall m, In m ms -> live h' m) -> Forall2 (holds h') ms ds.
Proof.
  intros h h' r re r' re' ms ds F G I J L. eapply forall2_imp; [exact F|]. intros m d Im H. eapply holds_grow; eauto.
Qed.

Section Others.
Variables r0 re0 : nat -> nat.
Notation W := (wf r0 re0).

Lemma got_live : forall s lr le ds d a, W s lr le ds -> got s d (Some a) -> live (hp s) (Some a).
Proof.
  intros s lr le ds d a H G. destruct d as [|id i|b i|e]; cbn in G.
  - eapply live_r; [apply (w_inv _ _ _ _ _ _ H)|]. unfold mroots. rewrite G, one_same. lia.
  - destruct G as [c [Ic [_ Hc]]]. eapply live_r; [apply (w_inv _ _ _ _ _ _ H)|]. unfold mroots. apply nth_error_In in Hc.
    enough (0 < cnt a (marks (stack s))) by lia. apply cnt_in. unfold marks. apply in_flat_map. eauto.
  - destruct G as [n [Hn Hc]]. apply nth_error_In in Hc. eapply live_kid; [apply (w_inv _ _ _ _ _ _ H)|exact Hn|exact Hc].
  - destruct G as [n [Hn Hc]]. eapply live_body; [apply (w_inv _ _ _ _ _ _ H)|exact Hn|exact Hc].
Qed.

(** ** A value is stored *)
Definition stored (s0 s1 : st) (rest : list cmd) (d : dest) (v : doc) (lr le : list (option nat)) : Prop :=
  W s1 lr le [] /\ err s1 = err s0 /\ evolve s0 s1 rest (stack s1) /\ (d <> DResult -> res s1 = res s0) /\ value_at s1 d v /\ anchor (hp s1) (res s1) (stack s1) d.
Lemma stored_store : forall s d p v lr le, W s (p :: lr) le [d] -> holds (hp s) p v -> tot (fun _ => store s d p) (fun s1 => stored s s1 (stack s) d v lr le).
Proof.
  intros s d p v lr le H V. eapply tot_weak; [apply (w_store r0 re0); exact H|]. intros s1 [A [B [C [D [E [F O]]]]]]. destruct p as [a|]; [|inversion V].
  split; auto. split; auto. split; auto. split; auto. split; auto. exists (Some a). split; auto. eapply holds_grow; [exact V|apply B|apply (w_inv _ _ _ _ _ _ H)|apply (w_inv _ _ _ _ _ _ A)|].
  eapply got_live; eauto.
Qed.
Lemma stored_keeps : forall s0 s1 s2 rest d v lr le lr' le', stored s0 s1 rest d v lr le -> W s2 lr' le' [] -> keeps s1 s2 -> stored s0 s2 rest d v lr' le'.
Proof.
  intros s0 s1 s2 rest d v lr le lr' le' [A [B [C [D [E F]]]]] H K. pose proof (keeps_evolve _ _ K) as EV.
  destruct (value_evolve r0 re0 s1 s2 lr le lr' le' (stack s1) (stack s2) d v A H EV (fun c I => I) (fun c I => I) (fun c I _ => I) F E) as [V X].
  destruct K as [K1 [K2 [K3 [K4 K5]]]]. split; auto. split; [congruence|]. split; [eapply evolve_trans; eauto|]. split; [intros N; rewrite K5; auto|auto].
Qed.
Lemma stored_heap : forall s0 h s1 rest d v lr le, sub (hp s0) h -> stored (with_heap s0 h) s1 rest d v lr le -> stored s0 s1 rest d v lr le.
Proof.
  intros s0 h s1 rest d v lr le B [A1 [A2 [[G [P F]] A4]]]. split; auto. split; auto. split; auto. split; [|auto]. eapply grow_trans; [apply sub_grow; exact B|exact G].
Qed.
Lemma stored_finished : forall s s1 rest d v, err s = false -> stored (with_stack s rest) s1 rest d v [] [] -> finished r0 re0 s s1 rest d v.
Proof. intros s s1 rest d v E [A1 [A2 [A3 [A4 [A5 A6]]]]]. split; auto. split; [cbn in A2; congruence|]. split; auto. Qed.

Lemma top_step : forall s c rest E d, top_eval r0 re0 s c rest E d -> exists a, c_marks c = [Some a] /\ W (with_stack s rest) [Some a] [c_env c] [c_dest c] /\
  holds (hp s) (Some a) d /\ env_holds (hp s) (c_env c) E /\ err s = false /\ (forall f, step f s = step_eval f (with_stack s rest) c (Some a)).
Proof.
  intros s c rest E d [H [ER [ST [K [[m [M V]] HE]]]]]. destruct m as [a|]; [|inversion V]. exists a. split; auto. pose proof (wf_pop _ _ s c rest ST H) as W0. rewrite M in W0.
  split; auto. split; auto. split; auto. split; auto. intros f. unfold step. rewrite ST. cbv zeta. rewrite K, M. reflexivity.
Qed.

Lemma fails : forall s a env d, W s [Some a] [env] [d] -> tot (fun f => bind (free_e f (with_err s) env) (fun s1 => free_m f s1 (Some a))) (fun s' => W s' [] [] [] /\ err s' = true).
Proof.
  intros s a env d H. eapply tot_weak; [apply w_free_both; apply wf_err; eapply wf_drop; exact H|]. intros s' [A [_ [_ [_ [B _]]]]]. split; auto.
Qed.

(** ** Arguments *)
Lemma list_then : forall s rest1 rest ds d n r K, outcome_all r0 re0 s rest1 ds n r ->
  (forall vs s2, r = Value vs -> finished_all r0 re0 s s2 rest1 ds vs -> exists rest2, evolve s s2 rest rest2 /\ outcome r0 re0 s2 rest2 d n (K vs)) -> outcome r0 re0 s rest d n (FbldSpec.bind r K).
Proof.
  intros s rest1 rest ds d n r K O C. destruct r as [vs| | |]; cbn [FbldSpec.bind]; try exact O. destruct O as [k O].
  apply outcome_less with (n := k + n); [lia|]. apply outcome_steps. eapply tot_weak; [exact O|]. intros s2 F. destruct (C vs s2 eq_refl F) as [rest2 [E R]]. exists rest2. split; auto. split; auto.
  intros _. apply F.
Qed.

Definition ready (s : st) (c : cmd) (rest : list cmd) (k : kind) (docs : list doc) : Prop :=
  W s [] [] [] /\ err s = false /\ stack s = c :: rest /\ c_kind c = k /\ Forall2 (holds (hp s)) (c_marks c) docs.

Lemma frames_app : forall k1 k2 l, Forall2 frame (k1 ++ k2) l -> exists l1 l2, l = l1 ++ l2 /\ Forall2 frame k1 l1 /\ Forall2 frame k2 l2.
Proof. intros k1 k2 l F. apply Forall2_app_inv_l in F. destruct F as [l1 [l2 [F1 [F2 ->]]]]. eauto. Qed.
Lemma pushed_id : forall id env ds ms c, In c (pushed id env ds ms) -> id <= c_id c.
Proof.
  intros id env ds. revert id. induction ds as [|d ds IH]; intros id [|m ms] c I; cbn in I; try destruct I as [<-|I]; cbn; try contradiction; auto. apply IH in I. lia.
Qed.
Lemma same_cmd : forall k c c', NoDup (map c_id k) -> In c k -> In c' k -> c_id c = c_id c' -> c = c'.
Proof.
  induction k as [|x k IH]; intros c c' N I I' E; [destruct I|]. inversion N as [|? ? X N']; subst. destruct I as [->|I], I' as [->|I']; auto.
  - exfalso. apply X. rewrite E. apply in_map. auto.
  - exfalso. apply X. rewrite <- E. apply in_map. auto.
Qed.

(** The values of the first [k] fields of a command. *)
Lemma fields_ready : forall n s id d k ms keep kdocs env' env E rest margs args, sim r0 re0 n -> W s [] [] [] -> err s = false ->
  stack s = rev (pushed (S id) env (map (DField id) (seq 0 (length margs))) margs) ++ mk_cmd id d k ms env' :: rest ->
  ms = repeat None (length margs) ++ keep -> Forall2 (holds (hp s)) margs args -> Forall2 (holds (hp s)) keep kdocs -> env_holds (hp s) env E ->
  forall n' K, n' <= n -> (forall vs s2 c rest2, ready s2 c rest2 k (vs ++ kdocs) -> c_id c = id -> c_dest c = d -> c_env c = env' -> length vs = length args ->
     grow (hp s) (hp s2) -> outcome r0 re0 s2 rest2 d n' (K vs)) -> outcome r0 re0 s rest d n' (FbldSpec.bind (eval_list (eval n E) args) K).
Proof.
  intros n s id d k ms keep kdocs env' env E rest margs args SIM H ER ST -> HM HK HE n' K Ln C. set (ds := map (DField id) (seq 0 (length margs))) in *.
  set (X := mk_cmd id d k (repeat None (length margs) ++ keep) env') in *.
  assert (O : outcome_all r0 re0 s (X :: rest) ds n (eval_list (eval n E) args)).
  { eapply sim_list with (id := S id) (env := env) (ms := margs); eauto.
    - unfold ds. rewrite map_length, seq_length. auto.
    - apply Forall_forall. intros t It. apply in_map_iff in It. destruct It as [i [<- Ii]]. exact Logic.I.
    - apply Forall_forall. intros t It. apply in_map_iff in It. destruct It as [i [<- Ii]]. discriminate.
    - apply Forall_forall. intros t It. apply in_map_iff in It. destruct It as [i [<- Ii]]. intros j i' Ej. injection Ej as <- _. lia. }
  assert (O' : outcome_all r0 re0 s (X :: rest) ds n' (eval_list (eval n E) args)).
  { destruct (eval_list (eval n E) args); auto. destruct O as [j [Lj O]]. exists j. split; [lia|auto]. }
  eapply list_then; [exact O'|]. intros vs s2 EV [W2 [E2 [[G [P F]] [R2 [V2 A2]]]]]. inversion F as [|? c ? rest2 Fc FR EQ1 EQ2]; subst. exists rest2. split; [split; auto|].
  destruct Fc as [F1 [F2 [F3 [F4 F5]]]]. cbn in F1, F2, F3, F4, F5.
  assert (LV : length vs = length args). { apply Forall2_len in V2. unfold ds in V2. rewrite map_length, seq_length in V2. apply Forall2_len in HM. lia. }
  apply (C vs s2 c rest2); auto. split; auto. split; auto. split; auto. split; auto.
  assert (VM : Forall2 (holds (hp s2)) (firstn (length margs) (c_marks c)) vs).
  { change (c_marks c) with (skipn 0 (c_marks c)). apply gather. unfold ds in V2. apply forall2_map in V2. eapply forall2_imp; [exact V2|]. intros i v Ii [p [[c' [Ic [Ec Hc]]] Hv]].
    assert (c' = c) as ->. { eapply same_cmd; [apply (w_ids _ _ _ _ _ _ W2)|exact Ic| |congruence]. rewrite <- EQ2. left. auto. } eauto. }
  apply Forall2_app_inv_l in F5. destruct F5 as [m1 [m2 [F5 [F6 EM]]]]. assert (L1 : length m1 = length margs). { apply Forall2_len in F5. rewrite repeat_length in F5. auto. }
  assert (m2 = keep) as -> by (eapply wopts_holds; eauto). rewrite EM in *. rewrite <- L1, firstn_app, Nat.sub_diag, firstn_all, app_nil_r in VM. apply Forall2_app; auto.
  eapply holds_all_grow; [exact HK|exact G|apply (w_inv _ _ _ _ _ _ H)|apply (w_inv _ _ _ _ _ _ W2)|]. intros m Im. eapply live_stack with (c := c); [exact W2|rewrite <- EQ2; left; auto|]. rewrite EM. apply in_or_app. auto.
Qed.
(** ** Steps *)
Lemma store_then : forall s p env d v, W s [p] [env] [d] -> holds (hp s) p v -> tot (fun f => bind (store s d p) (fun s1 => free_e f s1 env)) (fun s' => stored s s' (stack s) d v [] []).
Proof.
  intros s p env d v H V. eapply tot_bind; [apply stored_store; [exact H|exact V]|]. intros s1 S1. eapply tot_weak; [apply (w_free_e r0 re0); exact (proj1 S1)|].
  intros s2 [W2 K2]. exact (stored_keeps _ _ _ _ _ _ _ _ _ _ S1 W2 K2).
Qed.
Lemma with_stack_finished : forall s rest d v s', err s = false -> stored (with_stack s rest) s' (stack (with_stack s rest)) d v [] [] -> finished r0 re0 s s' rest d v.
Proof. intros. apply stored_finished; auto. Qed.
Lemma evals_tot : forall args ds1 s env lr le ds, W s lr le (ds1 ++ ds) -> length ds1 = length args -> elive (hp s) env -> (forall m, In m args -> live (hp s) m) ->
  tot (fun _ : nat => push_evals s env ds1 args) (fun s' => W s' lr le ds /\ pushes s s' (rev (pushed (nc s) env ds1 args))).
Proof. intros args ds1 s env lr le ds H L E M. eapply tot_weak; [apply tot_const; apply (push_evals_ok r0 re0); eauto|]. intros s' [A B]. auto. Qed.
Lemma holds_alike : forall h h' p d, alike h h' -> holds h p d -> holds h' p d.
Proof. intros h h' p d A H. eapply holds_keep; [apply alike_keep; exact A|exact H]. Qed.
Lemma holds_all_live : forall h ms ds m, Forall2 (holds h) ms ds -> In m ms -> live h m.
Proof. intros h ms ds m F I. eapply live_holds; eauto. Qed.
Lemma in_rev_pushed : forall env ds ms id m, length ds = length ms -> In m ms -> exists c, In c (rev (pushed id env ds ms)) /\ In m (c_marks c).
Proof.
  intros env ds. induction ds as [|d ds IH]; intros [|m0 ms] id m L I; try discriminate; [destruct I|]. cbn [pushed rev]. destruct I as [->|I].
  - eexists. split; [apply in_or_app; right; left; reflexivity|left; auto].
  - destruct (IH ms (S id) m ltac:(cbn in L; lia) I) as [c [Ic Hc]]. exists c. split; auto. apply in_or_app. auto.
Qed.

Lemma wf_none : forall ds s lr le, W s lr le ds -> W s lr le [].
Proof. induction ds as [|d ds IH]; intros s lr le H; auto. apply IH. eapply wf_drop. exact H. Qed.
(** The result of evaluating the sequence. *)
Lemma seq_outcome : forall n s c rest E ds, sim r0 re0 n -> top_eval r0 re0 s c rest E (Sequence ds) -> outcome r0 re0 s rest (c_dest c) (S n) (eval (S n) E (Sequence ds)).
Proof.
  intros n s c rest E ds SIM TE. destruct (top_step _ _ _ _ _ TE) as [a [M [W0 [H [HE [ER ST]]]]]]. apply inv_sequence in H. destruct H as [a' [tx [ks [rc [Ea [Ha F]]]]]]. injection Ea as <-.
  cbn [eval]. apply outcome_step. set (s0 := with_stack s rest) in *.
  eapply tot_ext; [|intros f; symmetry; apply ST]. unfold step_eval, node_at. change (hp s0) with (hp s). rewrite Ha. cbn [bind n_tag n_kids].
  assert (HO : map (fun _ : option nat => @None nat) ks = repeat None (length ks)) by (clear; induction ks; cbn; congruence).
  rewrite HO. change (mk_node TSequence [] (repeat None (length ks)) 1) with (hollow (length ks)). rewrite (surjective_pairing (new_node (hp s) _)).
  change (snd (new_node (hp s) (hollow (length ks)))) with (nm (hp s)). set (q := nm (hp s)).
  eapply tot_bind; [apply tot_const; apply (new_seq_ok r0 re0 s0 (c_dest c) (length ks) _ _ _ W0)|]. intros s1 [W1 [EV1 [Go1 [N1 [E1 [An1 [[x1 [Hx1 [T1 L1]]] R1]]]]]]].
  change (hp s0) with (hp s) in *. fold q in W1, Go1, Hx1.
  pose proof (w_inv _ _ _ _ _ _ W0) as I0. pose proof (w_inv _ _ _ _ _ _ W1) as I1. destruct EV1 as [G1 [P1 FR1]]. change (hp s0) with (hp s) in *. change (stack s0) with rest in *. change (err s0) with (err s) in *. change (res s0) with (res s) in *.
  assert (H1 : holds (hp s1) (Some a) (Sequence ds)).
  { eapply holds_grow; [eapply holds_sequence; eauto|exact G1|exact I0|exact I1|]. apply (wf_live _ _ _ _ _ _ _ W1). left. auto. }
  assert (LE1 : elive (hp s1) (c_env c)) by (apply (wf_elive _ _ _ _ _ _ _ W1); left; auto).
  assert (HE1 : env_holds (hp s1) (c_env c) E) by (eapply env_grow; eauto).
  apply inv_sequence in H1. destruct H1 as [a' [tx1 [ks1 [rc1 [Ea [Ha1 F1]]]]]]. injection Ea as <-.
  assert (ks1 = ks) as ->.
  { destruct (g_m _ _ G1 a _ (proj1 (i_m _ _ _ I0 _ _ Ha)) Ha1) as [n0 [Hn0 [_ [_ Q]]]]. rewrite Ha in Hn0. injection Hn0 as <-. cbn in Q. eapply wopts_holds; eauto. }
  eapply tot_bind; [apply (evals_tot ks _ s1 (c_env c) _ _ _ W1)|].
  { rewrite map_length, seq_length. auto. } { exact LE1. } { intros m Im. eapply holds_all_live; eauto. }
  intros s2 [W2 P2]. eapply tot_bind; [apply (w_free_m r0 re0); exact W2|]. intros s3 [W3 K3]. eapply tot_weak; [apply (w_free_e r0 re0); exact W3|]. intros s4 [W4 K4].
  pose proof (keeps_trans _ _ _ K3 K4) as K. clear K3 K4 W3. destruct K as [B4 [ST4 [NC4 [E4 R4]]]].
  set (dks := map (DKid q) (seq 0 (length ks))) in *.
  assert (ST4' : stack s4 = rev (pushed (nc s1) (c_env c) dks ks) ++ stack s1) by (rewrite ST4; apply (p_stack _ _ _ P2)).
  assert (G4 : grow (hp s1) (hp s4)) by (eapply grow_trans; [apply sub_grow, (p_sub _ _ _ P2)|apply sub_grow; exact B4]).
  assert (RES : res s4 = res s1) by (rewrite R4; apply (p_res _ _ _ P2)).
  pose proof (w_inv _ _ _ _ _ _ W4) as I4.
  assert (LD : length dks = length ks) by (unfold dks; rewrite map_length, seq_length; auto).
  exists (stack s1). split; [split; [eapply grow_trans; eauto|split; [rewrite RES; auto|exact FR1]]|]. split; [intros Nd; rewrite RES; auto|].
  assert (KD : ks = [] \/ ks <> []) by (clear; destruct ks; [left; auto|right; congruence]). destruct KD as [Eks|NE].
  { subst ks. inversion F as [|]; subst. cbn [eval_list FbldSpec.bind outcome]. exists 0. apply tot_ret. split; auto. split; [rewrite E4, (p_err _ _ _ P2), E1; auto|]. cbn in ST4'. 
    split; [rewrite ST4'; split; [apply grow_refl|split; [apply wopt_refl|apply frames_refl]]|]. split; auto.
    assert (EV4 : evolve s1 s4 (stack s1) (stack s4)) by (rewrite ST4'; split; [exact G4|split; [rewrite RES; apply wopt_refl|apply frames_refl]]).
    assert (Go4 : got s4 (c_dest c) (Some q)).
    { eapply (got_evolve r0 re0 s1 s4 _ _ _ _ (stack s1) (stack s4)); [eapply wf_swap; [exact W1| |]; reflexivity|exact W4|exact EV4|auto|auto|auto|exact An1|exact Go1]. }
    exists (Some q). split; auto. destruct (got_live _ _ _ _ _ _ W4 Go4) as [x4 Hx4]. destruct (g_m _ _ G4 q _ (proj1 (i_m _ _ _ I1 _ _ Hx1)) Hx4) as [n0 [Hn0 [Q1 [Q2 Q3]]]].
    rewrite Hx1 in Hn0. injection Hn0 as <-. destruct x4 as [tg4 tx4 ks4 rc4]. cbn in Q1, Q3. rewrite T1 in Q1. subst tg4. eapply holds_sequence; [exact Hx4|].
    apply Forall2_len in Q3. rewrite L1 in Q3. destruct ks4; [constructor|discriminate]. }
  assert (AN4 : Forall (anchor (hp s4) (res s4) (stack s1)) dks).
  { apply Forall_forall. intros t It. pose proof (w_ds _ _ _ _ _ _ W1) as D. rewrite Forall_forall in D. assert (A1 : anchor (hp s1) (res s1) (stack s1) t) by (apply D; apply in_or_app; left; exact It).
    eapply (anchor_grow r0 re0 s1 s4 _ _ _ _ (stack s1) (stack s1)); [exact I1|exact I4|exact G4|rewrite RES; apply wopt_refl|apply frames_refl|auto| |exact A1].
    intros c0 Ic. rewrite ST4'. apply in_or_app. auto. }
  assert (F4 : Forall2 (holds (hp s4)) ks ds).
  { eapply holds_all_grow; [exact F1|exact G4|exact I1|exact I4|]. intros m Im. destruct (in_rev_pushed (c_env c) dks ks (nc s1) m LD Im) as [c0 [Ic Hc]].
    eapply live_stack with (c := c0); [exact W4|rewrite ST4'; apply in_or_app; left; exact Ic|exact Hc]. }
  assert (HE4 : env_holds (hp s4) (c_env c) E).
  { eapply env_grow; [exact HE1|exact G4|exact I1|exact I4|]. destruct ks as [|k0 ks0]; [congruence|]. destruct dks as [|d0 dks0]; [discriminate|].
    apply (elive_stack r0 re0 s4 [] [] [] (mk_cmd (nc s1) d0 KEval [k0] (c_env c)) W4). rewrite ST4'. apply in_or_app. left. cbn [pushed rev]. apply in_or_app. right. left. auto. }
  eapply list_then.
  { eapply sim_list with (id := nc s1) (env := c_env c) (ms := ks); [exact SIM|exact W4|rewrite E4, (p_err _ _ _ P2), E1; exact ER|exact F4|exact LD|intros _; exact HE4|exact ST4'|exact AN4| |].
    - apply Forall_forall. intros t It. apply in_map_iff in It. destruct It as [i [<- Ii]]. discriminate.
    - apply Forall_forall. intros t It. apply in_map_iff in It. destruct It as [i [<- Ii]]. intros. discriminate. }
  intros vs s5 EVS [W5 [E5 [EV5 [R5 [V5 A5]]]]]. exists (stack s5). split; [exact EV5|]. cbn [outcome]. exists 0. apply tot_ret.
  split; auto. split; auto. split; [split; [apply grow_refl|split; [apply wopt_refl|apply frames_refl]]|]. split; auto.
  (* the destination still has the sequence *)
  assert (Go4 : got s4 (c_dest c) (Some q) /\ anchor (hp s4) (res s4) (stack s1) (c_dest c)).
  { eapply (got_evolve r0 re0 s1 s4 _ _ _ _ (stack s1) (stack s1)); [|exact W4| | | | |exact An1|exact Go1].
    - eapply wf_none. exact W1.
    - split; [exact G4|split; [rewrite RES; apply wopt_refl|apply frames_refl]].
    - auto.
    - intros c0 Ic. rewrite ST4'. apply in_or_app. auto.
    - auto. }
  destruct Go4 as [Go4 An4].
  assert (Go5 : got s5 (c_dest c) (Some q)).
  { eapply (got_evolve r0 re0 s4 s5 _ _ _ _ (stack s1) (stack s5)); [exact W4|exact W5|exact EV5| |auto| |exact An4|exact Go4].
    - intros c0 Ic. rewrite ST4'. apply in_or_app. auto.
    - intros c0 Ic [i Ed]. rewrite ST4' in Ic. apply in_app_or in Ic. destruct Ic as [Ic|Ic]; auto. exfalso. apply in_rev in Ic. apply pushed_id in Ic.
      rewrite Ed in Go1. cbn in Go1. destruct Go1 as [c1 [Ic1 [Ec1 _]]]. pose proof (w_nc _ _ _ _ _ _ W1 _ Ic1). lia. }
  exists (Some q). split; auto.
  assert (G5 : grow (hp s1) (hp s5)) by (eapply grow_trans; [exact G4|apply EV5]).
  destruct (got_live _ _ _ _ _ _ W5 Go5) as [x5 Hx5]. destruct (g_m _ _ G5 q _ (proj1 (i_m _ _ _ I1 _ _ Hx1)) Hx5) as [n0 [Hn0 [Q1 [Q2 Q3]]]].
  rewrite Hx1 in Hn0. injection Hn0 as <-. destruct x5 as [tg5 tx5 ks5 rc5]. cbn in Q1, Q3. rewrite T1 in Q1. subst tg5. eapply holds_sequence; [exact Hx5|].
  apply Forall2_len in Q3. rewrite L1 in Q3. assert (Z : ks5 = firstn (length ks) (skipn 0 ks5)) by (cbn [skipn]; rewrite Q3; symmetry; apply firstn_all).
  rewrite Z. apply gather.
  unfold dks in V5. apply forall2_map in V5. eapply forall2_imp; [exact V5|]. intros i v Ii [p [[x [Hx Hp]] Hv]]. rewrite Hx5 in Hx. injection Hx as <-. eauto.
Qed.
End Others.
