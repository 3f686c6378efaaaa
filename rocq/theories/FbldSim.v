(** * The commands of the fbld evaluator follow the specification: lemmas. *)
From Coq Require Import ZArith String Ascii List Arith Lia Bool.
From Verif Require Import FbldModel FbldSpec FbldMem FbldSafe FbldOps.
Import ListNotations.
Local Open Scope list_scope.
Notation length := List.length.
Notation bind := FbldModel.bind.

(** ** Environments *)
Inductive env_holds (h : heap) : option nat -> list def -> Prop :=
| env_nil : env_holds h None []
| env_fun e rc x ps b next body E : eh h e = Some (mk_env rc x (Some ps) b next) -> holds h b body -> env_holds h next E -> env_holds h (Some e) (Fun x ps body :: E)
| env_val e rc x b next v E : eh h e = Some (mk_env rc x None b next) -> holds h b v -> env_holds h next E -> env_holds h (Some e) (Val x v :: E).
Lemma env_grow : forall E h h' r re r' re' p, env_holds h p E -> grow h h' -> inv h r re -> inv h' r' re' -> elive h' p -> env_holds h' p E.
Proof.
  intros E h h' r re r' re' p H G I J L. induction H as [|e rc x ps b next body E He Hb H IH|e rc x b next v E He Hb H IH]; [constructor| |];
    destruct L as [n' Hn']; destruct (i_e _ _ _ I _ _ He) as [Le _]; destruct (g_e _ _ G _ _ Le Hn') as [n [Hn [E1 [E2 [E3 E4]]]]];
    rewrite He in Hn; injection Hn as <-; cbn in E1, E2, E3, E4; destruct n' as [rc' x' ps' b' next']; cbn in E1, E2, E3, E4; subst;
    assert (b' = b) as -> by (destruct E4 as [->|E4]; [inversion Hb|auto]).
  - eapply env_fun; [exact Hn'| |].
    + eapply holds_grow; eauto. destruct b; [|exact Logic.I]. eapply live_body; [exact J|exact Hn'|reflexivity].
    + apply IH. destruct next; [|exact Logic.I]. eapply live_next; [exact J|exact Hn'|reflexivity].
  - eapply env_val; [exact Hn'| |].
    + eapply holds_grow; eauto. destruct b; [|exact Logic.I]. eapply live_body; [exact J|exact Hn'|reflexivity].
    + apply IH. destruct next; [|exact Logic.I]. eapply live_next; [exact J|exact Hn'|reflexivity].
Qed.
Lemma find_env_tot : forall E h p x, env_holds h p E -> tot (fun f => find_env f h p x)
  (fun y => match lookup E x with Some (d, E') => exists e n, y = Some (e, n) /\ eh h e = Some n /\ env_holds h (Some e) E' /\ exists E'', E' = d :: E'' | None => y = None end).
Proof.
  intros E h p x H. induction H as [|e rc y ps b next body E He Hb H IH|e rc y b next v E He Hb H IH]; apply tot_S; cbn [find_env lookup]; [apply tot_ret; auto| |];
    unfold env_at; rewrite He; cbn [bind e_name e_next name_of]; destruct (text_eqb x y).
  - apply tot_ret. exists e, (mk_env rc y (Some ps) b next). split; [reflexivity|]. split; [exact He|]. split; [eapply env_fun; eauto|eauto].
  - exact IH.
  - apply tot_ret. exists e, (mk_env rc y None b next). split; [reflexivity|]. split; [exact He|]. split; [eapply env_val; eauto|eauto].
  - exact IH.
Qed.

(** ** Several steps *)
Fixpoint steps (f k : nat) (s : st) : out st := match k with O => Ok s | S k' => bind (step f s) (steps f k') end.
Lemma bind_assoc : forall {A B C} (x : out A) (k : A -> out B) (l : B -> out C), bind (bind x k) l = bind x (fun a => bind (k a) l).
Proof. intros A B C [a|w] k l; auto. Qed.
Lemma steps_app : forall f a b s, steps f (a + b) s = bind (steps f a s) (steps f b).
Proof.
  intros f. induction a as [|a IH]; intros b s; cbn [steps Nat.add]; auto. rewrite bind_assoc. destruct (step f s) as [s1|w]; cbn [bind]; auto.
Qed.
Lemma steps_one : forall f s, steps f 1 s = step f s.
Proof. intros f s. cbn. destruct (step f s); auto. Qed.

Section Others.
Variables r0 re0 : nat -> nat.
Notation W := (wf r0 re0).

Lemma w_free_m : forall s p lr le ds, W s (p :: lr) le ds -> tot (fun f => free_m f s p) (fun s' => W s' lr le ds /\ keeps s s').
Proof.
  intros s p lr le ds H. eapply tot_weak; [eapply tot_post with (P := fun _ => True); [|intros f; apply (free_m_ok r0 re0 f); exact H]|intros ? [_ Q]; exact Q].
  unfold free_m. eapply tot_bind; [eapply tot_weak; [eapply free_tot with (r := mroots r0 s lr)|intros; exact Logic.I]|intros; apply tot_ret; exact Logic.I].
  eapply inv_ext; [exact (w_inv _ _ _ _ _ _ H)| |]; auto. intros a. unfold add, mroots. cbn [cnt]. lia.
Qed.
Lemma w_free_ms : forall ps s lr le ds, W s (ps ++ lr) le ds -> tot (fun f => free_ms f s ps) (fun s' => W s' lr le ds /\ keeps s s').
Proof.
  induction ps as [|p ps IH]; intros s lr le ds H; cbn [free_ms]; [apply tot_ret; split; auto; apply keeps_refl|].
  eapply tot_bind; [apply w_free_m; exact H|]. intros s1 [W1 S1]. eapply tot_weak; [apply IH; exact W1|]. intros s2 [W2 S2]. split; auto. eapply keeps_trans; eauto.
Qed.
Lemma w_free_e : forall s p lr le ds, W s lr (p :: le) ds -> tot (fun f => free_e f s p) (fun s' => W s' lr le ds /\ keeps s s').
Proof.
  intros s p lr le ds H. eapply tot_weak; [eapply tot_post with (P := fun _ => True); [|intros f; apply (free_e_ok r0 re0 f); exact H]|intros ? [_ Q]; exact Q].
  unfold free_e.
  assert (I : inv (hp s) (mroots r0 s lr) (add p (eroots re0 s le))).
  { eapply inv_ext; [exact (w_inv _ _ _ _ _ _ H)| |]; auto. intros a. unfold add, eroots. cbn [cnt]. lia. }
  eapply tot_bind; [eapply free_env_tot with (k := ne (hp s)); [|exact I]|intros; apply tot_ret; exact Logic.I].
  destruct p as [e|]; auto. destruct (elive_r _ _ _ e I) as [n Hn]; [unfold add; rewrite one_same; lia|]. destruct (i_e _ _ _ I _ _ Hn). auto.
Qed.
Lemma w_free_both : forall s m env, W s [m] [env] [] -> tot (fun f => bind (free_e f s env) (fun s1 => free_m f s1 m)) (fun s' => W s' [] [] [] /\ keeps s s').
Proof.
  intros s m env H. eapply tot_bind; [apply w_free_e; exact H|]. intros s1 [W1 S1]. eapply tot_weak; [apply w_free_m; exact W1|]. intros s2 [W2 S2]. split; auto. eapply keeps_trans; eauto.
Qed.
Lemma w_store : forall s d p lr le ds, W s (p :: lr) le (d :: ds) -> tot (fun _ => store s d p)
  (fun s' => W s' lr le ds /\ evolve s s' (stack s) (stack s') /\ got s' d p /\ nc s' = nc s /\ err s' = err s /\ anchor (hp s') (res s') (stack s') d /\ (d <> DResult -> res s' = res s)).
Proof.
  intros s d p lr le ds H. apply tot_const. eapply post_weak; [apply (store_ok r0 re0); exact H|auto|]. intros s' [A [B [C [D [E [F O]]]]]].
  split; [exact A|]. split; [exact B|]. split; [exact C|]. split; [exact D|]. split; [exact E|]. split; [exact F|]. apply (o_res _ _ _ O).
Qed.

Lemma keeps_evolve : forall s s', keeps s s' -> evolve s s' (stack s) (stack s').
Proof. intros s s' [B [E [_ [_ R]]]]. rewrite E. split; [apply sub_grow; auto|]. split; [right; auto|apply frames_refl]. Qed.
Lemma evolve_trans : forall a b c k1 k2 k3, evolve a b k1 k2 -> evolve b c k2 k3 -> evolve a c k1 k3.
Proof. intros a b c k1 k2 k3 [A1 [A2 A3]] [B1 [B2 B3]]. split; [eapply grow_trans; eauto|]. split; [eapply wopt_trans; eauto|eapply frames_trans; eauto]. Qed.

(** What has been assigned stays. *)
Lemma got_evolve : forall s s' lr le lr' le' k k' d p, W s lr le [] -> W s' lr' le' [] -> evolve s s' k k' -> (forall c, In c k -> In c (stack s)) -> (forall c, In c k' -> In c (stack s')) ->
  (forall c, In c (stack s) -> (exists i, d = DField (c_id c) i) -> In c k) ->
  anchor (hp s) (res s) k d -> got s d (Some p) -> got s' d (Some p) /\ anchor (hp s') (res s') k' d.
Proof.
  intros s s' lr le lr' le' k k' d p H H' [G [P F]] S1 S2 SD A Go.
  assert (A' : anchor (hp s') (res s') k' d) by (eapply anchor_grow; [apply (w_inv _ _ _ _ _ _ H)|apply (w_inv _ _ _ _ _ _ H')|exact G|exact P|exact F|exact S1|exact S2|exact A]).
  split; auto. destruct d as [|id i|a i|e]; cbn in *.
  - destruct P; congruence.
  - destruct Go as [c [Ic [Ec Hc]]]. assert (Ik : In c k) by (apply SD; [auto|subst id; eauto]). clear - F Ik Ec Hc S2. induction F as [|c0 c1 k k' Fr F IH]; [destruct Ik|].
    destruct Ik as [->|Ik].
    + exists c1. destruct Fr as [E1 [_ [_ [_ E5]]]]. split; [apply S2; left; auto|]. split; [congruence|].
      clear - E5 Hc. revert i Hc. induction E5 as [|x y l m Wx F IH]; intros [|i] Hc; cbn in *; try discriminate; auto. injection Hc as ->. destruct Wx; congruence.
    + apply IH; auto. intros; apply S2; right; auto.
  - destruct Go as [n [Hn Hi]]. destruct (held_live _ _ _ _ _ _ (w_inv _ _ _ _ _ _ H') (covers_m _ _ _ _ S2) (covers_e _ _ _ _ S2) A') as [n' Hn'].
    destruct (i_m _ _ _ (w_inv _ _ _ _ _ _ H) _ _ Hn) as [L _]. destruct (g_m _ _ G _ _ L Hn') as [n0 [H0 [_ [_ E5]]]]. rewrite Hn in H0. injection H0 as <-.
    exists n'. split; auto. clear - E5 Hi. revert i Hi. induction E5 as [|x y l m Wx F IH]; intros [|i] Hc; cbn in *; try discriminate; auto. injection Hc as ->. destruct Wx; congruence.
  - destruct Go as [n [Hn Hi]]. destruct (eheld_live _ _ _ _ _ (w_inv _ _ _ _ _ _ H') (covers_e _ _ _ _ S2) A') as [n' Hn'].
    destruct (i_e _ _ _ (w_inv _ _ _ _ _ _ H) _ _ Hn) as [L _]. destruct (g_e _ _ G _ _ L Hn') as [n0 [H0 [_ [_ [_ E5]]]]]. rewrite Hn in H0. injection H0 as <-.
    exists n'. split; auto. rewrite Hi in E5. destruct E5; congruence.
Qed.
Definition value_at (s : st) (d : dest) (v : doc) : Prop := exists p, got s d p /\ holds (hp s) p v.
Lemma value_evolve : forall s s' lr le lr' le' k k' d v, W s lr le [] -> W s' lr' le' [] -> evolve s s' k k' -> (forall c, In c k -> In c (stack s)) -> (forall c, In c k' -> In c (stack s')) ->
  (forall c, In c (stack s) -> (exists i, d = DField (c_id c) i) -> In c k) ->
  anchor (hp s) (res s) k d -> value_at s d v -> value_at s' d v /\ anchor (hp s') (res s') k' d.
Proof.
  intros s s' lr le lr' le' k k' d v H H' E S1 S2 SD A [p [G V]]. destruct p as [a|]; [|inversion V].
  destruct (got_evolve s s' lr le lr' le' k k' d a H H' E S1 S2 SD A G) as [G' A']. split; auto. exists (Some a). split; auto.
  eapply holds_grow; [exact V|apply E|apply (w_inv _ _ _ _ _ _ H)|apply (w_inv _ _ _ _ _ _ H')|].
  destruct d as [|id i|b i|e]; cbn in G'.
  - eapply live_r; [apply (w_inv _ _ _ _ _ _ H')|]. unfold mroots. rewrite G', one_same. lia.
  - destruct G' as [c [Ic [_ Hc]]]. eapply live_r; [apply (w_inv _ _ _ _ _ _ H')|]. unfold mroots. apply nth_error_In in Hc.
    enough (0 < cnt a (marks (stack s'))) by lia. apply cnt_in. unfold marks. apply in_flat_map. eauto.
  - destruct G' as [n [Hn Hc]]. apply nth_error_In in Hc. eapply live_kid; [apply (w_inv _ _ _ _ _ _ H')|exact Hn|exact Hc].
  - destruct G' as [n [Hn Hc]]. eapply live_body; [apply (w_inv _ _ _ _ _ _ H')|exact Hn|exact Hc].
Qed.

(** ** Outcomes *)
Definition finished (s s' : st) (rest : list cmd) (d : dest) (v : doc) : Prop :=
  W s' [] [] [] /\ err s' = false /\ evolve s s' rest (stack s') /\ (d <> DResult -> res s' = res s) /\ value_at s' d v.
Definition outcome (s : st) (rest : list cmd) (d : dest) (n : nat) (r : result doc) : Prop :=
  match r with
  | Value v => exists k, tot (fun f => steps f k s) (fun s' => finished s s' rest d v)
  | Error => exists k, tot (fun f => steps f k s) (fun s' => W s' [] [] [] /\ err s' = true)
  | Assert => exists k, stops (fun f => steps f k s) AssertFail
  | Deep => exists k, n <= k /\ tot (fun f => steps f k s) (fun s' => stack s' <> [])
  end.
Lemma outcome_steps : forall k s rest d n r, tot (fun f => steps f k s) (fun s1 => exists rest1, evolve s s1 rest rest1 /\ (d <> DResult -> res s1 = res s) /\ outcome s1 rest1 d n r) -> outcome s rest d (k + n) r.
Proof.
  intros k s rest d n r [s1 [f0 [H [rest1 [E [R O]]]]]]. assert (T : tot (fun f => steps f k s) (fun x => x = s1)) by (exists s1, f0; auto).
  destruct r as [v| | |]; cbn [outcome] in *.
  - destruct O as [j O]. exists (k + j). eapply tot_ext; [|intros f; symmetry; apply steps_app]. eapply tot_bind; [exact T|]. intros x ->. eapply tot_weak; [exact O|].
    intros s2 [A [B [C [D F]]]]. split; auto. split; auto. split; [eapply evolve_trans; eauto|]. split; auto. intros N. rewrite D, R; auto.
  - destruct O as [j O]. exists (k + j). eapply tot_ext; [|intros f; symmetry; apply steps_app]. eapply tot_bind; [exact T|]. intros x ->. exact O.
  - destruct O as [j O]. exists (k + j). assert (Z : stops (fun f => bind (steps f k s) (steps f j)) AssertFail) by (eapply tot_stops; [exact T|intros x ->; exact O]).
    destruct Z as [f1 Z]. exists f1. intros f L. rewrite steps_app. auto.
  - destruct O as [j [L O]]. exists (k + j). split; [lia|]. eapply tot_ext; [|intros f; symmetry; apply steps_app]. eapply tot_bind; [exact T|]. intros x ->. exact O.
Qed.
Lemma outcome_step : forall s rest d n r, tot (fun f => step f s) (fun s1 => exists rest1, evolve s s1 rest rest1 /\ (d <> DResult -> res s1 = res s) /\ outcome s1 rest1 d n r) -> outcome s rest d (S n) r.
Proof. intros s rest d n r T. apply (outcome_steps 1). eapply tot_ext; [exact T|]. intros f. symmetry. apply steps_one. Qed.
Lemma outcome_value : forall s rest d n v, tot (fun f => step f s) (fun s' => finished s s' rest d v) -> outcome s rest d n (Value v).
Proof. intros s rest d n v T. exists 1. eapply tot_ext; [exact T|]. intros f. symmetry. apply steps_one. Qed.
Lemma outcome_error : forall s rest d n, tot (fun f => step f s) (fun s' => W s' [] [] [] /\ err s' = true) -> outcome s rest d n Error.
Proof. intros s rest d n T. exists 1. eapply tot_ext; [exact T|]. intros f. symmetry. apply steps_one. Qed.
Lemma outcome_assert : forall s rest d n, stops (fun f => step f s) AssertFail -> outcome s rest d n Assert.
Proof. intros s rest d n [f0 T]. exists 1, f0. intros f L. rewrite steps_one. auto. Qed.
Lemma outcome_less : forall s rest d n m r, m <= n -> outcome s rest d n r -> outcome s rest d m r.
Proof. intros s rest d n m [v| | |] L O; auto. destruct O as [k [K O]]. exists k. split; [lia|auto]. Qed.

Definition top_eval (s : st) (c : cmd) (rest : list cmd) (E : list def) (d : doc) : Prop :=
  W s [] [] [] /\ err s = false /\ stack s = c :: rest /\ c_kind c = KEval /\ (exists m, c_marks c = [m] /\ holds (hp s) m d) /\ env_holds (hp s) (c_env c) E.
Definition sim (n : nat) : Prop := forall s c rest E d, top_eval s c rest E d -> outcome s rest (c_dest c) n (eval n E d).

(** ** Lists *)
Definition finished_all (s s' : st) (rest : list cmd) (ds : list dest) (vs : list doc) : Prop :=
  W s' [] [] [] /\ err s' = false /\ evolve s s' rest (stack s') /\ res s' = res s /\ Forall2 (value_at s') ds vs /\ Forall (anchor (hp s') (res s') (stack s')) ds.
Definition outcome_all (s : st) (rest : list cmd) (ds : list dest) (n : nat) (r : result (list doc)) : Prop :=
  match r with
  | Value vs => exists k, tot (fun f => steps f k s) (fun s' => finished_all s s' rest ds vs)
  | Error => exists k, tot (fun f => steps f k s) (fun s' => W s' [] [] [] /\ err s' = true)
  | Assert => exists k, stops (fun f => steps f k s) AssertFail
  | Deep => exists k, n <= k /\ tot (fun f => steps f k s) (fun s' => stack s' <> [])
  end.
Lemma live_stack : forall s lr le ds c m, W s lr le ds -> In c (stack s) -> In m (c_marks c) -> live (hp s) m.
Proof.
  intros s lr le ds c [a|] H I J; [|exact Logic.I]. eapply live_r; [apply (w_inv _ _ _ _ _ _ H)|]. unfold mroots.
  enough (0 < cnt a (marks (stack s))) by lia. apply cnt_in. unfold marks. apply in_flat_map. eauto.
Qed.
Lemma elive_stack : forall s lr le ds c, W s lr le ds -> In c (stack s) -> elive (hp s) (c_env c).
Proof.
  intros s lr le ds c H I. destruct (c_env c) as [e|] eqn:E; [|exact Logic.I]. eapply elive_r; [apply (w_inv _ _ _ _ _ _ H)|]. unfold eroots.
  enough (0 < cnt e (envs (stack s))) by lia. apply cnt_in. unfold envs. rewrite <- E. apply in_map. auto.
Qed.
Lemma frame_one : forall c c' m, frame c c' -> c_marks c = [Some m] -> c' = c.
Proof.
  intros [i d k ms e] [i' d' k' ms' e'] m [E1 [E2 [E3 [E4 E5]]]] M. cbn in *. subst. inversion E5; subst. inversion H3; subst. destruct H1 as [H1|H1]; [discriminate|]. subst. auto.
Qed.
Lemma sim_list : forall n, sim n -> forall docs ds ms s id env E rest, W s [] [] [] -> err s = false -> Forall2 (holds (hp s)) ms docs -> length ds = length ms -> (docs <> [] -> env_holds (hp s) env E) ->
  stack s = rev (pushed id env ds ms) ++ rest -> Forall (anchor (hp s) (res s) rest) ds -> Forall (fun d => d <> DResult) ds -> Forall (fun d => forall j i, d = DField j i -> j < id) ds ->
  outcome_all s rest ds n (eval_list (eval n E) docs).
Proof.
  intros n SIM. induction docs as [|x docs IH]; intros ds ms s id env E rest H ER F L HE ST A ND OLD; inversion F as [|m d0 ms0 docs0 Hm F0]; subst; destruct ds as [|dx ds]; try discriminate; cbn [pushed rev] in ST.
  - cbn [app] in ST. cbn [eval_list outcome_all]. exists 0. apply tot_ret. split; auto. split; auto. split; [|split; [auto|split; constructor]]. rewrite ST. split; [apply grow_refl|]. split; [apply wopt_refl|apply frames_refl].
  - rewrite <- app_assoc in ST. cbn [app] in ST. set (cx := mk_cmd id dx KEval [m] env) in *. inversion A as [|? ? Ax A0]; subst. inversion ND as [|? ? Nx N0]; subst. inversion OLD as [|? ? Ox O0]; subst.
    assert (HE0 : env_holds (hp s) env E) by (apply HE; discriminate).
    assert (IHr : outcome_all s (cx :: rest) ds n (eval_list (eval n E) docs)).
    { eapply (IH ds ms0 s (S id) env E (cx :: rest)); eauto.
      - eapply Forall_impl; [|exact A0]. intros d Ad. apply anchor_more. auto.
      - eapply Forall_impl; [|exact O0]. intros d Ad j i Ed. specialize (Ad j i Ed). lia. }
    cbn [eval_list]. fold (eval_list (eval n E) docs). destruct (eval_list (eval n E) docs) as [vs| | |]; cbn [FbldSpec.bind].
    + destruct IHr as [k [s1 [f0 [HS [W1 [E1 [EV [R1 [V1 A1]]]]]]]]].
      assert (T : tot (fun f => steps f k s) (fun z => z = s1)) by (exists s1, f0; auto).
      pose proof EV as [G1 [P1 FR]]. inversion FR as [|? cx' ? rest1 Fc FR1 EQ1 EQ2]; subst.
      destruct m as [mx|]; [|inversion Hm]. assert (cx' = cx) as -> by (eapply frame_one; [exact Fc|reflexivity]). clear Fc.
      assert (TE : top_eval s1 cx rest1 E x).
      { split; auto. split; auto. split; auto. split; auto. split.
        - exists (Some mx). split; auto. eapply holds_grow; [exact Hm|exact G1|apply (w_inv _ _ _ _ _ _ H)|apply (w_inv _ _ _ _ _ _ W1)|]. eapply live_stack with (c := cx); [exact W1|rewrite <- EQ2; left; auto|left; auto].
        - eapply env_grow; [exact HE0|exact G1|apply (w_inv _ _ _ _ _ _ H)|apply (w_inv _ _ _ _ _ _ W1)|]. apply (elive_stack _ _ _ _ cx W1). rewrite <- EQ2. left. auto. }
      pose proof (SIM s1 cx rest1 E x TE) as O.
      destruct (eval n E x) as [v| | |]; cbn [FbldSpec.bind outcome_all].
      * destruct O as [j O]. exists (k + j). eapply tot_ext; [|intros f; symmetry; apply steps_app]. eapply tot_bind; [exact T|]. intros z ->.
        eapply tot_weak; [exact O|]. intros s2 [W2 [E2 [EV2 [R2 V2]]]]. cbn [c_dest cx] in *. assert (EVT : evolve s s2 rest (stack s2)) by (eapply evolve_trans; [|exact EV2]; split; [exact G1|split; [exact P1|exact FR1]]).
        assert (AT : forall d, In d (dx :: ds) -> anchor (hp s2) (res s2) (stack s2) d).
        { intros d Id. rewrite Forall_forall in A. destruct EVT as [GT [PT FT]].
          eapply (anchor_grow r0 re0 s s2); [apply (w_inv _ _ _ _ _ _ H)|apply (w_inv _ _ _ _ _ _ W2)|exact GT|exact PT|exact FT| |intros c Ic; exact Ic|apply A; exact Id].
          intros c Ic. rewrite ST. apply in_or_app. right. right. auto. }
        split; auto. split; auto. split; [exact EVT|]. split; [rewrite R2; auto|]. split; [constructor; [exact V2|]|apply Forall_forall; exact AT].
        assert (Q : forall d v, In d ds -> value_at s1 d v -> value_at s2 d v).
        { intros d v0 Id V. apply (value_evolve s1 s2 [] [] [] [] rest1 (stack s2) d v0); auto.
          - intros c Ic. rewrite <- EQ2. right. auto.
          - intros c Ic [i Ed]. rewrite <- EQ2 in Ic. destruct Ic as [<-|Ic]; auto. exfalso. cbn [c_id cx] in Ed. rewrite Forall_forall in O0. specialize (O0 d Id _ _ Ed). lia.
          - rewrite Forall_forall in A0. eapply (anchor_grow r0 re0 s s1); [apply (w_inv _ _ _ _ _ _ H)|apply (w_inv _ _ _ _ _ _ W1)|exact G1|exact P1|exact FR1| | |apply A0; exact Id].
            + intros c Ic. rewrite ST. apply in_or_app. right. right. auto.
            + intros c Ic. rewrite <- EQ2. right. auto. }
        clear - V1 Q. induction V1; constructor; [apply Q; [left; auto|auto]|]. apply IHV1. intros d v0 Id. apply Q. right. auto.
      * destruct O as [j O]. exists (k + j). eapply tot_ext; [|intros f; symmetry; apply steps_app]. eapply tot_bind; [exact T|]. intros z ->. exact O.
      * destruct O as [j O]. exists (k + j). assert (Z : stops (fun f => bind (steps f k s) (steps f j)) AssertFail) by (eapply tot_stops; [exact T|intros x0 ->; exact O]).
        destruct Z as [f1 Z]. exists f1. intros f Lf. rewrite steps_app. auto.
      * destruct O as [j [Lj O]]. exists (k + j). split; [lia|]. eapply tot_ext; [|intros f; symmetry; apply steps_app]. eapply tot_bind; [exact T|]. intros z ->. exact O.
    + exact IHr.
    + exact IHr.
    + exact IHr.
Qed.
End Others.
