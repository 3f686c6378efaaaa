(** * The commands of the fbld evaluator follow the specification: builtin commands. *)
From Coq Require Import ZArith String Ascii List Arith Lia Bool.
From Verif Require Import FbldModel FbldSpec FbldMem FbldSafe FbldOps FbldSim FbldSim2 FbldSim3.
Import ListNotations.
Local Open Scope list_scope.
Notation length := List.length.
Notation bind := FbldModel.bind.

Section Others.
Variables r0 re0 : nat -> nat.
Notation W := (wf r0 re0).
Notation top_eval := (top_eval r0 re0).
Notation outcome := (outcome r0 re0).
Notation sim := (sim r0 re0).
Notation ready := (ready r0 re0).

Lemma ready_pop : forall s c rest k docs, ready s c rest k docs -> W (with_stack s rest) (c_marks c) [c_env c] [c_dest c] /\ (has_env k = false -> c_env c = None).
Proof.
  intros s c rest k docs [H [ER [ST [K F]]]]. split; [apply wf_pop; auto|]. destruct (w_shape _ _ _ _ _ _ H c) as [_ E]; [rewrite ST; left; auto|]. rewrite <- K. exact E.
Qed.
Lemma fails_ms : forall s ms env ds, W s ms [env] ds -> ds = [] -> tot (fun f => bind (free_ms f (with_err s) ms) (fun s1 => free_e f s1 env)) (fun s' => W s' [] [] [] /\ err s' = true).
Proof.
  intros s ms env ds H ->. eapply tot_bind; [apply (w_free_ms r0 re0); rewrite app_nil_r; apply wf_err; exact H|]. intros s1 [W1 K1].
  eapply tot_weak; [apply (w_free_e r0 re0); exact W1|]. intros s2 [W2 K2]. split; auto. pose proof (keeps_trans _ _ _ K1 K2) as [_ [_ [_ [E _]]]]. rewrite E. auto.
Qed.
Lemma w_nods : forall ds s lr le, W s lr le ds -> W s lr le [].
Proof. apply wf_none. Qed.

(** ** Evaluating next *)
Definition nexts (s s' : st) (env m : option nat) (d : dest) : Prop :=
  grow (hp s) (hp s') /\ stack s' = mk_cmd (nc s) d KEval [m] env :: stack s /\ err s' = err s /\ res s' = res s.
Lemma nexts_push : forall s env m d lr le, W s lr le [d] -> elive (hp s) env -> live (hp s) m -> tot (fun _ : nat => push_eval s env m d) (fun s' => W s' lr le [] /\ nexts s s' env m d).
Proof.
  intros s env m d lr le H E M. eapply tot_weak; [apply tot_const; apply (push_eval_ok r0 re0); eauto|]. intros s' [A P]. split; auto.
  split; [apply sub_grow, (p_sub _ _ _ P)|]. split; [apply (p_stack _ _ _ P)|]. split; [apply (p_err _ _ _ P)|apply (p_res _ _ _ P)].
Qed.
Lemma nexts_keeps : forall s s1 s2 env m d, nexts s s1 env m d -> keeps s1 s2 -> nexts s s2 env m d.
Proof.
  intros s s1 s2 env m d [A [B [C D]]] [K1 [K2 [K3 [K4 K5]]]]. split; [eapply grow_trans; [exact A|apply sub_grow; exact K1]|]. repeat split; congruence.
Qed.
(** [s] is the state before, with a heap that may have more; the document and the environment are in it. *)
Lemma nexts_outcome : forall n s h s' env m d E doc r re, sim n -> nexts (with_heap s h) s' env m d -> grow (hp s) h -> inv h r re -> W s' [] [] [] -> err s = false -> holds h m doc -> env_holds h env E ->
  exists rest1, evolve s s' (stack s) rest1 /\ (d <> DResult -> res s' = res s) /\ outcome s' rest1 d n (eval n E doc).
Proof.
  intros n s h s' env m d E doc r re SIM [G [ST [ER' RS]]] G0 I H ER HM HE. cbn [hp with_heap stack nc err res] in *. exists (stack s).
  split; [split; [eapply grow_trans; [exact G0|exact G]|split; [rewrite RS; apply wopt_refl|apply frames_refl]]|]. split; auto.
  apply (SIM s' (mk_cmd (nc s) d KEval [m] env) (stack s)). split; auto. split; [rewrite ER'; exact ER|]. split; auto. split; auto. pose proof (w_inv _ _ _ _ _ _ H) as I'.
  assert (IX : In (mk_cmd (nc s) d KEval [m] env) (stack s')) by (rewrite ST; left; auto). split.
  - exists m. split; auto. eapply holds_grow; [exact HM|exact G|exact I|exact I'|]. eapply live_stack; [exact H|exact IX|left; auto].
  - eapply env_grow; [exact HE|exact G|exact I|exact I'|]. apply (elive_stack _ _ _ _ _ _ _ H IX).
Qed.

Ltac enter ST K M := eapply tot_ext; [|intros f; symmetry; unfold step; rewrite ST; cbv zeta; rewrite K, M; cbv beta iota; reflexivity].

Lemma head_outcome : forall n s c rest v, ready s c rest KHead [v] -> outcome s rest (c_dest c) n (match items v with [] => Value v | Char ch :: _ => Value (Plain [ch]) | Cmd _ :: _ => Error end).
Proof.
  intros n s c rest v RD. destruct (ready_pop _ _ _ _ _ RD) as [W0 EN]. rewrite (EN eq_refl) in W0. destruct RD as [H [ER [ST [K F]]]]. inversion F as [|m ? ms ? Hm F' M]; subst. inversion F'; subst. symmetry in M. rewrite M in W0.
  set (s0 := with_stack s rest) in *. change (hp s) with (hp s0) in Hm. assert (W1 : W s0 [m] [] [c_dest c]) by (eapply wf_swap; [exact W0| |]; auto).
  pose proof (head_of_tot v (hp s0) m Hm) as HT.
  assert (Z : forall (P : st -> Prop), tot (fun f => match head (items v) with None => free_m f (with_err s0) m | Some None => store s0 (c_dest c) m
     | Some (Some ch) => let '(h, q) := new_plain (hp s0) [ch] in bind (store (with_heap s0 h) (c_dest c) (Some q)) (fun s1 => free_m f s1 m) end) P -> tot (fun f => step f s) P).
  { intros P T. enter ST K M. eapply tot_bind; [exact HT|]. intros y ->. exact T. }
  destruct (items v) as [|[ch|x] l]; cbn [head] in Z.
  - apply outcome_value. apply Z. eapply tot_weak; [apply (stored_store r0 re0); [exact W1|exact Hm]|]. intros s1 S1. apply stored_finished; auto.
  - apply outcome_value. apply Z. unfold new_plain. rewrite (surjective_pairing (new_node (hp s0) _)). set (x := mk_node TPlain [ch] [] 1).
    pose proof (wf_new_node r0 re0 s0 x [m] [] _ W1 eq_refl) as W2. change (snd (new_node (hp s0) x)) with (nm (hp s0)).
    eapply tot_bind; [apply (stored_store r0 re0 _ _ _ (Plain [ch]) _ _ W2)|].
    { apply holds_plain with (ks := []) (r := 1). cbn. unfold upd. rewrite Nat.eqb_refl. reflexivity. }
    intros s1 S1. eapply tot_weak; [apply (w_free_m r0 re0); exact (proj1 S1)|]. intros s2 [W3 K3].
    apply stored_finished; auto. eapply stored_keeps; [|exact W3|exact K3]. eapply stored_heap; [|exact S1]. apply sub_new.
  - apply outcome_error. apply Z. eapply tot_weak; [apply (w_free_m r0 re0); apply wf_err; apply w_nods with (ds := [c_dest c]); exact W1|]. intros s1 [W2 [_ [_ [_ [E _]]]]]. split; auto.
Qed.

Lemma tail_outcome : forall n s c rest v, ready s c rest KTail [v] ->
  outcome s rest (c_dest c) n (match items v with [] => Value v | Cmd _ :: _ => Error | Char _ :: _ => Value (match drop v with Some w => w | None => v end) end).
Proof.
  intros n s c rest v RD. destruct (ready_pop _ _ _ _ _ RD) as [W0 EN]. rewrite (EN eq_refl) in W0. destruct RD as [H [ER [ST [K F]]]]. inversion F as [|m ? ms ? Hm F' M]; subst. inversion F'; subst. symmetry in M. rewrite M in W0.
  set (s0 := with_stack s rest) in *. change (hp s) with (hp s0) in Hm. assert (W1 : W s0 [m] [] [c_dest c]) by (eapply wf_swap; [exact W0| |]; auto).
  pose proof (w_inv _ _ _ _ _ _ W1) as I1.
  assert (HT : tot (fun f => tail_of f (hp s0) m) (fun y => tails v y /\ (keep (hp s0) (fst y) /\ match snd y with Some (Some q) => sub (hp s0) (fst y) /\ inv (fst y) (add (Some q) (mroots r0 s0 [m])) (eroots re0 s0 []) | _ => fst y = hp s0 end))).
  { eapply tot_weak; [eapply tot_post; [eapply tail_of_tot; [exact I1|exact Hm]|intros f; eapply tail_of_ok; [exact I1|eapply holds_live; eauto]]|]. intros [h [[q|]|]] [T [Kp [B J]]]; cbn [fst snd] in *; auto. }
  assert (Z : forall (P : st -> Prop), (forall y, tails v y -> keep (hp s0) (fst y) -> match snd y with Some (Some q) => sub (hp s0) (fst y) /\ inv (fst y) (add (Some q) (mroots r0 s0 [m])) (eroots re0 s0 []) | _ => fst y = hp s0 end ->
     tot (fun f => let '(h, x) := y in match x with
      | None => bind (store (with_err (with_heap s0 h)) (c_dest c) None) (fun s1 => free_m f s1 m)
      | Some None => store (with_heap s0 h) (c_dest c) m
      | Some (Some q) => bind (store (with_heap s0 h) (c_dest c) (Some q)) (fun s1 => free_m f s1 m) end) P) -> tot (fun f => step f s) P).
  { intros P T. enter ST K M. eapply tot_bind; [exact HT|]. intros y [Y1 [Y2 Y3]]. apply T; auto. }
  unfold tails in Z. destruct (items v) as [|[ch|x] l] eqn:EI; cbn [head] in Z.
  - apply outcome_value. apply Z. intros [h x] Y1 _ Y3. cbn [fst snd] in *. subst x h. assert (W2 : W (with_heap s0 (hp s0)) [m] [] [c_dest c]) by (destruct W1; constructor; auto).
    eapply tot_weak; [apply (stored_store r0 re0 _ _ _ v _ _ W2); exact Hm|]. intros s1 S1. apply stored_finished; auto.
  - apply outcome_value. apply Z. intros [h x] [q [w [E1 [E2 E3]]]] _ Y3. cbn [fst snd] in *. subst x. destruct Y3 as [B J]. rewrite E2.
    assert (W2 : W (with_heap s0 h) [Some q; m] [] [c_dest c]).
    { eapply wf_heap; [exact W1| |exact B]. eapply inv_ext; [exact J| |]; auto. intros a. unfold add, mroots. cbn [cnt]. lia. }
    eapply tot_bind; [apply (stored_store r0 re0 _ _ _ w _ _ W2); exact E3|]. intros s1 S1. eapply tot_weak; [apply (w_free_m r0 re0); exact (proj1 S1)|]. intros s2 [W3 K3].
    apply stored_finished; auto. eapply stored_keeps; [|exact W3|exact K3]. eapply stored_heap; [exact B|exact S1].
  - apply outcome_error. apply Z. intros [h y] Y1 _ Y3. cbn [fst snd] in *. subst y h. assert (W2 : W (with_err (with_heap s0 (hp s0))) [None; m] [] [c_dest c]).
    { apply wf_err. apply (wf_swap _ _ (with_heap s0 (hp s0)) [m] [] [None; m] []); auto; destruct W1; constructor; auto. }
    eapply tot_bind; [apply (w_store r0 re0); exact W2|]. intros s1 [W3 [_ [_ [_ [E _]]]]]. eapply tot_weak; [apply (w_free_m r0 re0); exact W3|]. intros s2 [W4 [_ [_ [_ [E' _]]]]]. split; auto. rewrite E', E. auto.
Qed.

Lemma error_outcome : forall n s c rest v, ready s c rest KError [v] -> outcome s rest (c_dest c) n (FbldSpec.bind (string_of v) (fun _ => Error)).
Proof.
  intros n s c rest v RD. destruct (ready_pop _ _ _ _ _ RD) as [W0 EN]. rewrite (EN eq_refl) in W0. destruct RD as [H [ER [ST [K F]]]]. inversion F as [|m ? ms ? Hm F' M]; subst. inversion F'; subst. symmetry in M. rewrite M in W0.
  set (s0 := with_stack s rest) in *. change (hp s) with (hp s0) in Hm. assert (W1 : W (with_err s0) [m] [] []) by (apply wf_err; apply w_nods with (ds := [c_dest c]); eapply wf_swap; [exact W0| |]; auto).
  pose proof (text_of_tot v (hp s0) m Hm) as HT.
  assert (Z : forall y, tot (fun f => text_of f (hp s0) m) (fun x => x = y) -> tot (fun f => step f s) (fun s' => W s' [] [] [] /\ err s' = true)).
  { intros y T. enter ST K M. eapply tot_bind; [exact T|]. intros y0 _. eapply tot_weak; [apply (w_free_m r0 re0); exact W1|]. intros s1 [W2 [_ [_ [_ [E _]]]]]. split; auto. }
  destruct (string_of v) as [t| | |]; cbn [FbldSpec.bind]; [eapply outcome_error, Z; exact HT|eapply outcome_error, Z; exact HT| |destruct HT].
  apply outcome_assert. destruct HT as [f0 HT]. exists f0. intros f L. unfold step. rewrite ST. cbv zeta. rewrite K, M. cbv beta iota. change (hp (with_stack s rest)) with (hp s0). rewrite HT by auto. reflexivity.
Qed.

(** The string of a markup, and then something. *)
Lemma text_outcome : forall s rest d n v m h (g : nat -> option text -> out st) (k : text -> result doc), holds h m v -> (forall f, step f s = bind (text_of f h m) (g f)) ->
  tot (fun f => g f None) (fun s' => W s' [] [] [] /\ err s' = true) ->
  (forall t, string_of v = Value t -> tot (fun f => g f (Some t)) (fun s1 => exists rest1, evolve s s1 rest rest1 /\ (d <> DResult -> res s1 = res s) /\ outcome s1 rest1 d n (k t))) ->
  outcome s rest d n (FbldSpec.bind (string_of v) k).
Proof.
  intros s rest d n v m h g k Hm ST FAIL GO. pose proof (text_of_tot v h m Hm) as HT. destruct (string_of v) as [t| | |]; cbn [FbldSpec.bind].
  - apply outcome_less with (n := S n); [lia|]. apply outcome_step. eapply tot_ext; [|intros f; symmetry; apply ST]. eapply tot_bind; [exact HT|]. intros y ->. auto.
  - apply outcome_error. eapply tot_ext; [|intros f; symmetry; apply ST]. eapply tot_bind; [exact HT|]. intros y ->. auto.
  - apply outcome_assert. destruct HT as [f0 HT]. exists f0. intros f L. rewrite ST, HT; auto.
  - destruct HT.
Qed.

Lemma let_outcome : forall n s c rest E nm v body, sim n -> ready s c rest KLet [nm; v; body] -> env_holds (hp s) (c_env c) E ->
  outcome s rest (c_dest c) n (FbldSpec.bind (string_of nm) (fun x => eval n (Val x v :: E) body)).
Proof.
  intros n s c rest E nm0 v body SIM RD HE. destruct (ready_pop _ _ _ _ _ RD) as [W0 _]. destruct RD as [H [ER [ST [K F]]]]. inversion F as [|m1 ? ms1 ? H1 F1 M]; subst. inversion F1 as [|m2 ? ms2 ? H2 F2]; subst. inversion F2 as [|m3 ? ms3 ? H3 F3]; subst. inversion F3; subst. symmetry in M. rewrite M in W0.
  set (s0 := with_stack s rest) in *. change (hp s) with (hp s0) in *.
  eapply text_outcome; [exact H1|intros f; unfold step; rewrite ST; cbv zeta; rewrite K, M; cbv beta iota; change (hp (with_stack s rest)) with (hp s0); reflexivity| |].
  - apply (fails_ms s0 [m1; m2; m3] (c_env c) []); auto. eapply wf_drop. exact W0.
  - intros x Ex. eapply tot_bind; [apply (w_free_m r0 re0); exact W0|]. intros s1 [W1 K1]. rewrite (surjective_pairing (new_env _ _)). set (xe := mk_env 1 x None m2 (c_env c)).
    pose proof (wf_new_env r0 re0 s1 xe [m3] [] _ W1 eq_refl) as W2. change (snd (new_env (hp s1) xe)) with (ne (hp s1)). set (h := fst (new_env (hp s1) xe)) in *.
    pose proof (w_inv _ _ _ _ _ _ W2) as I2. cbn [hp with_heap] in I2.
    assert (L1 : forall m, In m [m2; m3] -> live (hp s1) m) by (intros m Im; apply (wf_live _ _ _ _ _ _ _ W1); exact Im).
    assert (HK : keep (hp s1) h). { split; [intros a n0 Hn; exists n0; auto|]. intros e n0 He. cbn. unfold upd. destruct (Nat.eqb_spec e (ne (hp s1))) as [Ee|_]; [|exists n0; auto]. destruct (i_e _ _ _ (w_inv _ _ _ _ _ _ W1) _ _ He). lia. }
    assert (G1 : grow (hp s0) (hp s1)) by (apply sub_grow; apply K1). pose proof (w_inv _ _ _ _ _ _ W0) as I0. pose proof (w_inv _ _ _ _ _ _ W1) as I1.
    assert (H2' : holds h m2 v) by (eapply holds_keep; [exact HK|]; eapply holds_grow; [exact H2|exact G1|exact I0|exact I1|apply L1; left; auto]).
    assert (H3' : holds h m3 body) by (eapply holds_keep; [exact HK|]; eapply holds_grow; [exact H3|exact G1|exact I0|exact I1|apply L1; right; left; auto]).
    assert (HE1 : env_holds (hp s1) (c_env c) E) by (eapply env_grow; [exact HE|exact G1|exact I0|exact I1|apply (wf_elive _ _ _ _ _ _ _ W1); left; auto]).
    assert (Hx : eh h (ne (hp s1)) = Some xe) by (cbn; unfold upd; rewrite Nat.eqb_refl; auto).
    assert (HE2 : env_holds h (Some (ne (hp s1))) (Val x v :: E)).
    { eapply env_val; [exact Hx|exact H2'|]. eapply env_grow; [exact HE1|apply sub_grow; apply sub_enew|exact I1|exact I2|]. destruct (c_env c) as [e0|] eqn:Ee0; [|exact Logic.I]. eapply live_next; [exact I2|exact Hx|reflexivity]. }
    eapply tot_bind; [apply nexts_push; [exact W2|exists xe; exact Hx|eapply holds_live; exact H3']|]. intros s2 [W3 N3].
    eapply tot_weak; [apply (w_free_both r0 re0); exact W3|]. intros s3 [W4 K4].
    destruct K1 as [K1 [K2 [K3 [K5 K6]]]].
    destruct (nexts_outcome n s1 h s3 _ _ _ _ _ _ _ SIM (nexts_keeps _ _ _ _ _ _ N3 K4) ltac:(apply sub_grow; apply sub_enew) I2 W4 ltac:(rewrite K5; exact ER) H3' HE2) as [rest1 [EV [RS O]]].
    exists rest1. rewrite K2 in EV. split; [destruct EV as [V1 [V2 V3]]; split; [eapply grow_trans; [exact G1|exact V1]|split; [rewrite K6 in V2; exact V2|exact V3]]|]. split; [intros Nd; rewrite RS by exact Nd; exact K6|exact O].
Qed.
(** ** What one step does *)
Definition does (g : nat -> out st) (s : st) (rest : list cmd) (d : dest) (n : nat) (r : result doc) : Prop :=
  tot g (fun s1 => exists rest1, evolve s s1 rest rest1 /\ (d <> DResult -> res s1 = res s) /\ outcome s1 rest1 d n r) \/
  (r = Assert /\ stops g AssertFail) \/ (r = Error /\ tot g (fun s' => W s' [] [] [] /\ err s' = true)).
Lemma does_step : forall g s rest d n r, (forall f, step f s = g f) -> does g s rest d n r -> outcome s rest d n r.
Proof.
  intros g s rest d n r ST [T|[[-> T]|[-> T]]].
  - apply outcome_less with (n := S n); [lia|]. apply outcome_step. eapply tot_ext; [exact T|]. intros f. symmetry. apply ST.
  - apply outcome_assert. destruct T as [f0 T]. exists f0. intros f L. rewrite ST. auto.
  - apply outcome_error. eapply tot_ext; [exact T|]. intros f. symmetry. apply ST.
Qed.
Lemma does_bind : forall {A} (x : nat -> out A) (k : nat -> A -> out st) P s rest d n r, tot x P -> (forall a, P a -> does (fun f => k f a) s rest d n r) -> does (fun f => bind (x f) (k f)) s rest d n r.
Proof.
  intros A x k P s rest d n r [a [f0 [H Pa]]] C. assert (T : tot x (fun b => b = a)) by (exists a, f0; auto). destruct (C a Pa) as [Q|[[E Q]|[E Q]]].
  - left. eapply tot_bind; [exact T|]. intros b ->. exact Q.
  - right. left. split; auto. eapply tot_stops; [exact T|]. intros b ->. exact Q.
  - right. right. split; auto. eapply tot_bind; [exact T|]. intros b ->. exact Q.
Qed.
Lemma does_text : forall s rest d n v m h (g : nat -> option text -> out st) (k : text -> result doc), holds h m v ->
  tot (fun f => g f None) (fun s' => W s' [] [] [] /\ err s' = true) -> (forall t, string_of v = Value t -> does (fun f => g f (Some t)) s rest d n (k t)) ->
  does (fun f => bind (text_of f h m) (g f)) s rest d n (FbldSpec.bind (string_of v) k).
Proof.
  intros s rest d n v m h g k Hm FAIL GO. pose proof (text_of_tot v h m Hm) as HT. destruct (string_of v) as [t| | |]; cbn [FbldSpec.bind].
  - eapply does_bind; [exact HT|]. intros y ->. auto.
  - right. right. split; auto. eapply tot_bind; [exact HT|]. intros y ->. auto.
  - right. left. split; auto. apply stops_bind. exact HT.
  - destruct HT.
Qed.

Lemma define_outcome : forall n s c rest E nm p def body, sim n -> ready s c rest KDefine [nm; p; def; body] -> env_holds (hp s) (c_env c) E ->
  outcome s rest (c_dest c) n (FbldSpec.bind (string_of nm) (fun x => FbldSpec.bind (string_of p) (fun ps => eval n (Fun x (split_args ps []) def :: E) body))).
Proof.
  intros n s c rest E nm0 p v body SIM RD HE. destruct (ready_pop _ _ _ _ _ RD) as [W0 _]. destruct RD as [H [ER [ST [K F]]]]. inversion F as [|m0 ? ms0 ? H0 F0 M]; subst. inversion F0 as [|m1 ? ms1 ? H1 F1]; subst. inversion F1 as [|m2 ? ms2 ? H2 F2]; subst. inversion F2 as [|m3 ? ms3 ? H3 F3]; subst. inversion F3; subst. symmetry in M. rewrite M in W0.
  set (s0 := with_stack s rest) in *. change (hp s) with (hp s0) in *.
  eapply does_step; [intros f; unfold step; rewrite ST; cbv zeta; rewrite K, M; cbv beta iota; change (hp (with_stack s rest)) with (hp s0); reflexivity|].
  eapply does_text; [exact H0|apply (fails_ms s0 [m0; m1; m2; m3] (c_env c) []); auto; eapply wf_drop; exact W0|].
  intros x Ex. eapply does_bind; [apply (w_free_m r0 re0); exact W0|]. intros sa [Wa Ka].
  assert (Ga : grow (hp s0) (hp sa)) by (apply sub_grow; apply Ka). pose proof (w_inv _ _ _ _ _ _ W0) as I0. pose proof (w_inv _ _ _ _ _ _ Wa) as Ia.
  assert (Hl : forall m, In m [m1; m2; m3] -> live (hp sa) m) by (intros m Im; apply (wf_live _ _ _ _ _ _ _ Wa); exact Im).
  assert (H1a : holds (hp sa) m1 p) by (eapply holds_grow; [exact H1|exact Ga|exact I0|exact Ia|apply Hl; left; auto]).
  eapply does_text; [exact H1a|apply (fails_ms sa [m1; m2; m3] (c_env c) []); auto; eapply wf_drop; exact Wa|].
  intros ps Eps. left. eapply tot_bind; [apply (w_free_m r0 re0); exact Wa|]. intros s1 [W1 Kb]. pose proof (keeps_trans _ _ _ Ka Kb) as K1. clear Ka Kb Ga Ia Hl H1a Wa sa.
  rewrite (surjective_pairing (new_env _ _)). set (xe := mk_env 1 x (Some (split_args ps [])) m2 (c_env c)).
  pose proof (wf_new_env r0 re0 s1 xe [m3] [] _ W1 eq_refl) as W2. change (snd (new_env (hp s1) xe)) with (ne (hp s1)). set (h := fst (new_env (hp s1) xe)) in *.
  pose proof (w_inv _ _ _ _ _ _ W2) as I2. cbn [hp with_heap] in I2.
  assert (L1 : forall m, In m [m2; m3] -> live (hp s1) m) by (intros m Im; apply (wf_live _ _ _ _ _ _ _ W1); exact Im).
  assert (HK : keep (hp s1) h). { split; [intros a n0 Hn; exists n0; auto|]. intros e n0 He. cbn. unfold upd. destruct (Nat.eqb_spec e (ne (hp s1))) as [Ee|_]; [|exists n0; auto]. destruct (i_e _ _ _ (w_inv _ _ _ _ _ _ W1) _ _ He). lia. }
  assert (G1 : grow (hp s0) (hp s1)) by (apply sub_grow; apply K1). pose proof (w_inv _ _ _ _ _ _ W1) as I1.
  assert (H2' : holds h m2 v) by (eapply holds_keep; [exact HK|]; eapply holds_grow; [exact H2|exact G1|exact I0|exact I1|apply L1; left; auto]).
  assert (H3' : holds h m3 body) by (eapply holds_keep; [exact HK|]; eapply holds_grow; [exact H3|exact G1|exact I0|exact I1|apply L1; right; left; auto]).
  assert (HE1 : env_holds (hp s1) (c_env c) E) by (eapply env_grow; [exact HE|exact G1|exact I0|exact I1|apply (wf_elive _ _ _ _ _ _ _ W1); left; auto]).
  assert (Hx : eh h (ne (hp s1)) = Some xe) by (cbn; unfold upd; rewrite Nat.eqb_refl; auto).
  assert (HE2 : env_holds h (Some (ne (hp s1))) (Fun x (split_args ps []) v :: E)).
  { eapply env_fun; [exact Hx|exact H2'|]. eapply env_grow; [exact HE1|apply sub_grow; apply sub_enew|exact I1|exact I2|]. destruct (c_env c) as [e0|] eqn:Ee0; [|exact Logic.I]. eapply live_next; [exact I2|exact Hx|reflexivity]. }
  eapply tot_bind; [apply nexts_push; [exact W2|exists xe; exact Hx|eapply holds_live; exact H3']|]. intros s2 [W3 N3].
  eapply tot_weak; [apply (w_free_both r0 re0); exact W3|]. intros s3 [W4 K4].
  destruct K1 as [K1 [K2 [K3 [K5 K6]]]].
  destruct (nexts_outcome n s1 h s3 _ _ _ _ _ _ _ SIM (nexts_keeps _ _ _ _ _ _ N3 K4) ltac:(apply sub_grow; apply sub_enew) I2 W4 ltac:(rewrite K5; exact ER) H3' HE2) as [rest1 [EV [RS O]]].
  exists rest1. rewrite K2 in EV. split; [destruct EV as [V1 [V2 V3]]; split; [eapply grow_trans; [exact G1|exact V1]|split; [rewrite K6 in V2; exact V2|exact V3]]|]. split; [intros Nd; rewrite RS by exact Nd; exact K6|exact O].
Qed.

Lemma if_outcome : forall n s c rest E v w yes no, sim n -> ready s c rest KIf [v; w; yes; no] -> env_holds (hp s) (c_env c) E ->
  outcome s rest (c_dest c) n (match same (items v) (items w) with None => Error | Some r => eval n E (if r then yes else no) end).
Proof.
  intros n s c rest E v w yes no SIM RD HE. destruct (ready_pop _ _ _ _ _ RD) as [W0 _]. destruct RD as [H [ER [ST [K F]]]]. inversion F as [|m0 ? ms0 ? H0 F0 M]; subst. inversion F0 as [|m1 ? ms1 ? H1 F1]; subst. inversion F1 as [|m2 ? ms2 ? H2 F2]; subst. inversion F2 as [|m3 ? ms3 ? H3 F3]; subst. inversion F3; subst. symmetry in M. rewrite M in W0.
  set (s0 := with_stack s rest) in *. change (hp s) with (hp s0) in *. pose proof (w_inv _ _ _ _ _ _ W0) as I0.
  eapply does_step; [intros f; unfold step; rewrite ST; cbv zeta; rewrite K, M; cbv beta iota; change (hp (with_stack s rest)) with (hp s0); reflexivity|]. 
  eapply does_bind.
  { eapply tot_post; [eapply eq_tot; [exact I0|exact H0|exact H1]|]. intros f. eapply eq_ok; [exact I0|eapply holds_live; exact H0|eapply holds_live; exact H1]. }
  intros [h r] [Er [J B]]. cbn [fst snd] in *. subst r.
  assert (W1 : W (with_heap s0 h) [m0; m1; m2; m3] [c_env c] [c_dest c]) by (eapply wf_heap; [exact W0|exact J|exact B]).
  destruct (same (items v) (items w)) as [r|].
  - left. assert (Hl : forall m, In m [m0; m1; m2; m3] -> live h m) by (intros m Im; apply (wf_live _ _ _ _ _ _ _ W1); exact Im).
    assert (G1 : grow (hp s0) h) by (apply sub_grow; exact B).
    assert (Hm : holds h (if r then m2 else m3) (if r then yes else no)) by (destruct r; (eapply holds_grow; [eassumption|exact G1|exact I0|exact J|apply Hl; cbn; auto])).
    assert (HE1 : env_holds h (c_env c) E) by (eapply env_grow; [exact HE|exact G1|exact I0|exact J|apply (wf_elive _ _ _ _ _ _ _ W1); left; auto]).
    eapply tot_bind; [apply nexts_push; [exact W1|apply (wf_elive _ _ _ _ _ _ _ W1); left; auto|eapply holds_live; exact Hm]|]. intros s2 [W2 N2].
    eapply tot_bind; [apply (w_free_ms r0 re0); rewrite app_nil_r; exact W2|]. intros s3 [W3 K3]. eapply tot_weak; [apply (w_free_e r0 re0); exact W3|]. intros s4 [W4 K4].
    exact (nexts_outcome n s0 h s4 _ _ _ _ _ _ _ SIM (nexts_keeps _ _ _ _ _ _ (nexts_keeps _ _ _ _ _ _ N2 K3) K4) G1 J W4 ER Hm HE1).
  - right. right. split; auto. cbn [bind]. apply (fails_ms (with_heap s0 h) [m0; m1; m2; m3] (c_env c) []); auto. eapply wf_drop. exact W1.
Qed.

Lemma plain_outcome : forall n s c rest E g v, sim n -> ready s c rest KPlain [g; v] -> env_holds (hp s) (c_env c) E ->
  outcome s rest (c_dest c) n (FbldSpec.bind (string_of g) (fun t => eval n E (apply_plain t v))).
Proof.
  intros n s c rest E g v SIM RD HE. destruct (ready_pop _ _ _ _ _ RD) as [W0 _]. destruct RD as [H [ER [ST [K F]]]]. inversion F as [|m0 ? ms0 ? H0 F0 M]; subst. inversion F0 as [|m1 ? ms1 ? H1 F1]; subst. inversion F1; subst. symmetry in M. rewrite M in W0.
  set (s0 := with_stack s rest) in *. change (hp s) with (hp s0) in *. pose proof (w_inv _ _ _ _ _ _ W0) as I0.
  eapply does_step; [intros f; unfold step; rewrite ST; cbv zeta; rewrite K, M; cbv beta iota; change (hp (with_stack s rest)) with (hp s0); reflexivity|].
  eapply does_text; [exact H0|apply (fails_ms s0 [m0; m1] (c_env c) []); auto; eapply wf_drop; exact W0|].
  intros t Et. left. eapply tot_bind.
  { eapply tot_post; [eapply map_plain_tot; [exact I0|exact H1]|]. intros f. eapply map_plain_ok; [exact I0|eapply holds_live; exact H1]. }
  intros [h q] [Hq [Kp [B J]]]; cbn [fst snd] in *.
  assert (W1 : W (with_heap s0 h) ([m0; m1] ++ [Some q]) [c_env c] [c_dest c]).
  { eapply wf_heap; [exact W0| |exact B]. eapply inv_ext; [exact J| |]; auto. intros a. unfold add, mroots. rewrite cnt_app. cbn [cnt]. lia. }
  eapply tot_bind; [apply (w_free_ms r0 re0); exact W1|]. intros s1 [W2 K2].
  pose proof (w_inv _ _ _ _ _ _ W1) as I1. pose proof (w_inv _ _ _ _ _ _ W2) as I2.
  assert (G1 : grow (hp s0) h) by (apply sub_grow; exact B). assert (G2 : grow h (hp s1)) by (apply sub_grow; apply K2).
  assert (Hm : holds (hp s1) (Some q) (apply_plain t v)) by (eapply holds_grow; [exact Hq|exact G2|exact I1|exact I2|apply (wf_live _ _ _ _ _ _ _ W2); left; auto]).
  assert (HE1 : env_holds (hp s1) (c_env c) E).
  { eapply env_grow; [exact HE|eapply grow_trans; [exact G1|exact G2]|exact I0|exact I2|apply (wf_elive _ _ _ _ _ _ _ W2); left; auto]. }
  eapply tot_bind; [apply nexts_push; [exact W2|apply (wf_elive _ _ _ _ _ _ _ W2); left; auto|eapply holds_live; exact Hm]|]. intros s2 [W3 N3].
  eapply tot_bind; [apply (w_free_m r0 re0); exact W3|]. intros s3 [W4 K4]. eapply tot_weak; [apply (w_free_e r0 re0); exact W4|]. intros s4 [W5 K5].
  pose proof (nexts_keeps _ _ _ _ _ _ (nexts_keeps _ _ _ _ _ _ N3 K4) K5) as N5. destruct K2 as [K1' [K2 [K3 [K5' K6]]]]. cbn [stack with_heap nc err res] in K2, K3, K5', K6.
  destruct (nexts_outcome n s1 (hp s1) s4 _ _ _ _ _ _ _ SIM N5 (grow_refl _) I2 W5 ltac:(rewrite K5'; exact ER) Hm HE1) as [rest1 [EV [RS O]]].
  exists rest1. rewrite K2 in EV. split; [destruct EV as [V1 [V2 V3]]; split; [eapply grow_trans; [eapply grow_trans; [exact G1|exact G2]|exact V1]|split; [rewrite K6 in V2; exact V2|exact V3]]|]. split; [intros Nd; rewrite RS by exact Nd; exact K6|exact O].
Qed.
End Others.
