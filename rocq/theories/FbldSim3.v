(** * The commands of the fbld evaluator follow the specification: commands. *)
From Coq Require Import ZArith String Ascii List Arith Lia Bool.
From Verif Require Import FbldModel FbldSpec FbldMem FbldSafe FbldOps FbldSim FbldSim2.
Import ListNotations.
Local Open Scope list_scope.
Notation length := List.length.
Notation bind := FbldModel.bind.

Lemma chain_grow : forall h h' r re r' re' p es ps last, chain h p es ps last -> grow h h' -> inv h r re -> inv h' r' re' -> elive h' last -> chain h' p es ps last /\ elive h' p.
Proof.
  intros h h' r re r' re' p es ps last C G I J L. induction C as [p|p e x es ps last n H N A Nx C IH]; [split; auto; constructor|].
  destruct (IH L) as [C' [n' Hn']]. destruct (i_e _ _ _ I _ _ H) as [Le _]. destruct (g_e _ _ G _ _ Le Hn') as [n0 [Hn0 [E1 [E2 [E3 E4]]]]]. rewrite H in Hn0. injection Hn0 as <-.
  split; [econstructor; [exact Hn'| | | |exact C']; congruence|]. destruct p as [e0|]; [|exact Logic.I]. eapply live_next; [exact J|exact Hn'|congruence].
Qed.
Lemma chain_env : forall s p es ps last vs E, chain (hp s) p es ps last -> env_holds (hp s) p E -> Forall2 (fun e v => value_at s (DBody e) v) es vs -> env_holds (hp s) last (bind_args ps vs E).
Proof.
  intros s p es ps last vs E C. revert vs E. induction C as [p|p e x es ps last n H N A Nx C IH]; intros vs E HE F; inversion F as [|? v ? vs' V F']; subst; [exact HE|]. cbn [bind_args].
  apply IH; auto. destruct V as [q [[n' [Hn' Hb]] Hq]]. rewrite H in Hn'. injection Hn' as <-. destruct n as [rc nm a b nx]. cbn in *. subst. eapply env_val; eauto.
Qed.
Lemma set_field_app : forall L x r id i p ms, (forall c, In c L -> c_id c <> id) -> c_id x = id -> set_nth (c_marks x) i p = Some ms ->
  set_field (L ++ x :: r) id i p = Some (L ++ mk_cmd (c_id x) (c_dest x) (c_kind x) ms (c_env x) :: r).
Proof.
  induction L as [|c L IH]; intros x r id i p ms N E M; cbn [app set_field].
  - rewrite E, Nat.eqb_refl, M. auto.
  - destruct (Nat.eqb_spec (c_id c) id) as [Ec|_]; [exfalso; apply (N c); [left; auto|auto]|]. rewrite (IH x r id i p ms); auto. intros c' I. apply N. right. auto.
Qed.

Section Others.
Variables r0 re0 : nat -> nat.
Notation W := (wf r0 re0).
Notation top_eval := (top_eval r0 re0).
Notation outcome := (outcome r0 re0).
Notation sim := (sim r0 re0).

Lemma fun_outcome : forall f0 n s s0 c rest E E' x ds a ks rc e en y params body, sim n -> s0 = with_stack s rest -> W s0 [Some a] [c_env c] [c_dest c] -> err s = false ->
  mh (hp s) a = Some (mk_node TCommand x ks rc) -> Forall2 (holds (hp s)) ks ds -> env_holds (hp s) (c_env c) E ->
  eh (hp s) e = Some en -> e_args en = Some params -> env_holds (hp s) (Some e) (Fun y params body :: E') -> length ks = length params ->
  (forall f, f0 <= f -> step f s = bind (copy_env (hp s0) (Some e)) (fun h =>
            let '(h1, next, es) := env_chain h (Some e) params in
            bind (push_evals (push (with_heap s0 h1) (c_dest c) KEval [None] next) (c_env c) (map DBody es) ks) (fun s2 =>
            bind (free_e f s2 (c_env c)) (fun s3 =>
            bind (free_m f s3 (Some a)) (fun s4 =>
            bind (env_at (hp s4) e) (fun en' =>
            bind (copy (hp s4) (e_body en')) (fun h5 =>
            store (with_heap s4 h5) (DField (nc s0) 0) (e_body en')))))))) ->
  outcome s rest (c_dest c) (S n) (FbldSpec.bind (eval_list (eval n E) ds) (fun vs => eval n (bind_args params vs (Fun y params body :: E')) body)).
Proof.
  intros f0 n s s0 c rest E E' x ds a ks rc e en y params body SIM Es0 W0 ER Ha F HE Hen Hargs HF NE ST.
  apply outcome_step. assert (TX : forall (P : st -> Prop) g, (forall f, f0 <= f -> step f s = g f) -> tot g P -> tot (fun f => step f s) P).
  { intros P g Q [v [f1 [H1 H2]]]. exists v, (f0 + f1). split; auto. intros f L. rewrite Q by lia. apply H1. lia. }
  eapply TX; [exact ST|]. clear TX ST.
  assert (Hh : hp s0 = hp s) by (subst; auto). assert (Hst : stack s0 = rest) by (subst; auto). assert (Her : err s0 = false) by (subst; auto). assert (Hres : res s0 = res s) by (subst; auto).
  eapply tot_bind; [apply tot_const; apply (wf_copy_env r0 re0 s0 (Some e) _ _ _ W0); exists en; rewrite Hh; auto|]. intros h [W1 [B1 A1]].
  destruct (env_chain_ok r0 re0 params _ _ _ _ _ W1) as [h1 [last [es [Ec [W2 [B2 [K2 [C [N Q]]]]]]]]]. cbn [hp with_heap] in Ec. rewrite Ec.
  set (s2 := with_heap s0 h1). change (with_heap (with_heap s0 h) h1) with s2 in W2.
  assert (W3 : W (push s2 (c_dest c) KEval [None] last) [Some a] [c_env c] (map (DField (nc s2)) [0] ++ [])).
  { apply (wf_push r0 re0 s2 (c_dest c) KEval [None] last); auto.
    - eapply wf_swap; [exact W2| |]; auto.
    - split; [auto|discriminate].
    - constructor; auto. constructor.
    - intros i [<-|[]]. auto. }
  rewrite app_nil_r in W3. set (s3 := push s2 (c_dest c) KEval [None] last) in *.
  assert (LEN : length es = length ks). { rewrite NE. clear -C. induction C; cbn; auto. }
  assert (W4 : W s3 [Some a] [c_env c] (map DBody es ++ [DField (nc s0) 0])).
  { eapply wf_bodies; [exact W3|exact C|left; reflexivity|exact N|]. intros e' I'. destruct (Q e' I') as [L' [n' [H1 H2]]]. split; [exists n'; auto|].
    intros J. cbn [map app] in J. destruct J as [J|J]; [discriminate|]. cbn [stack s3 push map c_dest] in J.
    assert (J' : In (DBody e') ([c_dest c] ++ map c_dest (stack s0))) by exact J.
    apply (dests_good _ _ s0 _ _ _ _ W0) in J'. destruct J' as [_ [n0 [H0 _]]].
    destruct (i_e _ _ _ (w_inv _ _ _ _ _ _ W0) _ _ H0) as [L0 _]. cbn [hp with_heap] in L'. destruct B1 as [_ B1 _ _]. lia. }
  assert (KA : forall k, In k ks -> live (hp s3) k).
  { intros k Ik. change (hp s3) with h1. eapply keep_live; [exact K2|]. eapply alike_live; [exact A1|]. rewrite Hh. eapply holds_all_live; eauto. }
  eapply tot_bind; [apply (evals_tot r0 re0 ks _ s3 (c_env c) _ _ _ W4); [rewrite map_length; auto|apply (wf_elive _ _ _ _ _ _ _ W4); left; auto|exact KA]|].
  intros s4 [W5 P5]. eapply tot_bind; [apply (w_free_e r0 re0); exact W5|]. intros s5 [W6 S6]. eapply tot_bind; [apply (w_free_m r0 re0); exact W6|]. intros s6 [W7 S7].
  pose proof (keeps_trans _ _ _ S6 S7) as S8. clear S6 S7 W6.
  assert (ST6 : stack s6 = rev (pushed (nc s3) (c_env c) (map DBody es) ks) ++ stack s3) by (destruct S8 as [_ [E8 _]]; rewrite E8; apply (p_stack _ _ _ P5)).
  assert (G6 : grow (hp s3) (hp s6)) by (eapply grow_trans; [apply sub_grow, (p_sub _ _ _ P5)|apply sub_grow; apply S8]).
  assert (G3 : grow (hp s0) (hp s3)) by (eapply grow_trans; [apply sub_grow; exact B1|apply sub_grow; exact B2]).
  assert (L6 : elive (hp s6) last).
  { change last with (c_env (mk_cmd (nc s2) (c_dest c) KEval [None] last)). apply (elive_stack _ _ _ _ _ _ _ W7). rewrite ST6. apply in_or_app. right. left. reflexivity. }
  destruct (chain_grow _ _ _ _ _ _ _ _ _ _ C G6 (w_inv _ _ _ _ _ _ W4) (w_inv _ _ _ _ _ _ W7) L6) as [C6 [en' Hen']].
  assert (HF6 : env_holds (hp s6) (Some e) (Fun y params body :: E')).
  { eapply env_grow; [exact HF|rewrite <- Hh; eapply grow_trans; [exact G3|exact G6]|rewrite <- Hh; apply (w_inv _ _ _ _ _ _ W0)|apply (w_inv _ _ _ _ _ _ W7)|exists en'; auto]. }
  unfold env_at. rewrite Hen'. cbn [bind].
  assert (HB6 : holds (hp s6) (e_body en') body) by (inversion HF6 as [|? ? ? ? b ? ? ? Hx Hb ?|]; subst; rewrite Hen' in Hx; injection Hx as ->; exact Hb).
  eapply tot_bind; [apply tot_const; apply (wf_copy r0 re0 s6 (e_body en') _ _ _ W7); eapply holds_live; eauto|]. intros h6 [W8 [B8 A8]].
  destruct (e_body en') as [b|]; [|inversion HB6]. set (L := rev (pushed (nc s3) (c_env c) (map DBody es) ks)) in *.
  assert (E6 : stack s3 = mk_cmd (nc s0) (c_dest c) KEval [None] last :: rest) by (cbn; rewrite Hst; auto).
  set (X := mk_cmd (nc s0) (c_dest c) KEval [Some b] last).
  assert (ES : store (with_heap s6 h6) (DField (nc s0) 0) (Some b) = Ok (with_stack (with_heap s6 h6) (L ++ X :: rest))).
  { cbn [store]. change (stack (with_heap s6 h6)) with (stack s6). rewrite ST6, E6.
    rewrite (set_field_app L (mk_cmd (nc s0) (c_dest c) KEval [None] last) rest (nc s0) 0 (Some b) [Some b]); auto.
    intros c0 Ic. unfold L in Ic. apply in_rev in Ic. apply pushed_id in Ic. cbn in Ic. lia. }
  pose proof (store_ok r0 re0 (with_heap s6 h6) (DField (nc s0) 0) (Some b) _ _ _ W8) as PS. rewrite ES in PS. cbn [post] in PS. rewrite ES. clear ES.
  destruct PS as [W9 _]. apply tot_ret. set (s9 := with_stack (with_heap s6 h6) (L ++ X :: rest)) in *.
  assert (E9 : err s9 = false). { cbn. destruct S8 as [_ [_ [_ [E8 _]]]]. rewrite E8, (p_err _ _ _ P5). cbn. exact Her. }
  assert (R9 : res s9 = res s). { cbn. destruct S8 as [_ [_ [_ [_ R8]]]]. rewrite R8, (p_res _ _ _ P5). cbn. exact Hres. }
  assert (G9 : grow (hp s6) (hp s9)) by (apply sub_grow; exact B8).
  assert (G09 : grow (hp s) (hp s9)) by (rewrite <- Hh; eapply grow_trans; [exact G3|eapply grow_trans; [exact G6|exact G9]]).
  pose proof (w_inv _ _ _ _ _ _ W9) as I9. pose proof (w_inv _ _ _ _ _ _ W0) as I0. rewrite Hh in I0.
  assert (IX : In X (stack s9)) by (cbn; apply in_or_app; right; left; auto).
  assert (L9 : elive (hp s9) last) by (change last with (c_env X); apply (elive_stack _ _ _ _ _ _ _ W9 IX)).
  destruct (chain_grow _ _ _ _ _ _ _ _ _ _ C6 G9 (w_inv _ _ _ _ _ _ W7) I9 L9) as [C9 Le9].
  assert (HF9 : env_holds (hp s9) (Some e) (Fun y params body :: E')) by (eapply env_grow; [exact HF|exact G09|exact I0|exact I9|exact Le9]).
  assert (HB9 : holds (hp s9) (Some b) body) by (eapply holds_alike; [exact A8|exact HB6]).
  assert (LM : length (map DBody es) = length ks) by (rewrite map_length; auto).
  assert (FK : Forall2 (holds (hp s9)) ks ds).
  { eapply holds_all_grow; [exact F|exact G09|exact I0|exact I9|]. intros m Im. destruct (in_rev_pushed (c_env c) (map DBody es) ks (nc s3) m LM Im) as [c0 [Ic Hc]].
    eapply live_stack with (c := c0); [exact W9|cbn; apply in_or_app; left; exact Ic|exact Hc]. }
  exists rest. split; [split; [exact G09|split; [rewrite R9; apply wopt_refl|apply frames_refl]]|]. split; [intros _; exact R9|].
  eapply list_then.
  { eapply sim_list with (id := nc s3) (env := c_env c) (ms := ks) (rest := X :: rest); [exact SIM|exact W9|exact E9|exact FK|exact LM| |reflexivity| | |].
    - intros Nd. eapply env_grow; [exact HE|exact G09|exact I0|exact I9|]. destruct ks as [|k0 ks0]; [inversion F; subst; congruence|]. destruct es as [|e0 es0]; [discriminate|].
      apply (elive_stack r0 re0 s9 [] [] [] (mk_cmd (nc s3) (DBody e0) KEval [k0] (c_env c)) W9). cbn [stack s9 with_stack]. apply in_or_app. left. unfold L. cbn [map pushed rev]. apply in_or_app. right. left. auto.
    - apply Forall_forall. intros t It. apply in_map_iff in It. destruct It as [e1 [<- Ie]]. cbn. destruct (chain_held _ _ _ _ _ C9 (envs (X :: rest)) (or_introl eq_refl)) as [_ Q9]. apply Q9. auto.
    - apply Forall_forall. intros t It. apply in_map_iff in It. destruct It as [i [<- Ii]]. discriminate.
    - apply Forall_forall. intros t It. apply in_map_iff in It. destruct It as [i [<- Ii]]. intros. discriminate. }
  intros vs s10 EVS [W10 [E10 [[G10 [P10 F10]] [R10 [V10 A10]]]]]. inversion F10 as [|? X' ? rest2 Fc FR EQ1 EQ2]; subst.
  assert (X' = X) as -> by (eapply frame_one; [exact Fc|reflexivity]). exists rest2. split; [split; [exact G10|split; [exact P10|exact FR]]|].
  assert (IX10 : In X (stack s10)) by (rewrite <- EQ2; left; auto). pose proof (w_inv _ _ _ _ _ _ W10) as I10.
  assert (L10 : elive (hp s10) last) by (change last with (c_env X); apply (elive_stack _ _ _ _ _ _ _ W10 IX10)).
  destruct (chain_grow _ _ _ _ _ _ _ _ _ _ C9 G10 I9 I10 L10) as [C10 Le10].
  apply (SIM s10 X rest2). split; auto. split; auto. split; auto. split; auto. split.
  - exists (Some b). split; auto. eapply holds_grow; [exact HB9|exact G10|exact I9|exact I10|]. eapply live_stack with (c := X); [exact W10|exact IX10|left; auto].
  - cbn [c_env X]. eapply chain_env; [exact C10| |apply forall2_map in V10; exact V10]. eapply env_grow; [exact HF9|exact G10|exact I9|exact I10|exact Le10].
Qed.
(** ** The value of a definition *)
Lemma val_outcome : forall f0 n s s0 c rest x a ks rc e en v, s0 = with_stack s rest -> W s0 [Some a] [c_env c] [c_dest c] -> err s = false ->
  mh (hp s) a = Some (mk_node TCommand x ks rc) -> holds (hp s) (e_body en) v ->
  (forall f, f0 <= f -> step f s = bind (copy (hp s0) (e_body en)) (fun h => bind (store (with_heap s0 h) (c_dest c) (e_body en)) (fun s1 => bind (free_e f s1 (c_env c)) (fun s2 => free_m f s2 (Some a))))) ->
  eh (hp s) e = Some en -> outcome s rest (c_dest c) (S n) (Value v).
Proof.
  intros f0 n s s0 c rest x a ks rc e en v -> W0 ER Ha HV ST Hen.
  assert (TX : forall (P : st -> Prop) g, (forall f, f0 <= f -> step f s = g f) -> tot g P -> tot (fun f => step f s) P).
  { intros P g Q [v0 [f1 [H1 H2]]]. exists v0, (f0 + f1). split; auto. intros f L. rewrite Q by lia. apply H1. lia. }
  apply outcome_value. eapply TX; [exact ST|]. clear TX ST. set (s0 := with_stack s rest) in *.
  eapply tot_bind; [apply tot_const; apply (wf_copy r0 re0 s0 (e_body en) _ _ _ W0); eapply holds_live; exact HV|]. intros h [W1 [B1 A1]].
  eapply tot_bind; [apply (stored_store r0 re0 (with_heap s0 h) _ _ v _ _ W1); eapply holds_alike; [exact A1|exact HV]|]. intros s1 S1.
  eapply tot_weak; [apply (w_free_both r0 re0); exact (proj1 S1)|]. intros s2 [W2 K2].
  apply stored_finished; auto. eapply stored_keeps; [|exact W2|exact K2]. eapply stored_heap; [exact B1|exact S1].
Qed.

(** ** Builtin commands *)
Lemma pick_holds : forall h ks ds is dummy, Forall2 (holds h) ks ds -> (forall i, In i is -> i < length ks) -> Forall2 (holds h) (pick ks is) (map (fun i => nth i ds dummy) is).
Proof.
  intros h ks ds is dummy F. unfold pick. induction is as [|i is IH]; intros L; cbn; constructor; [|apply IH; intros; apply L; right; auto].
  assert (Li : i < length ks) by (apply L; left; auto). clear L IH. revert i Li. induction F as [|k d ks ds H F IH]; intros i Li; cbn in Li; [lia|]. destruct i as [|i]; cbn; auto. apply IH. lia.
Qed.
Definition dummy : doc := Plain [].
Lemma builtin_outcome : forall f0 n s s0 c rest E x ds a ks rc b K, sim n -> s0 = with_stack s rest -> W s0 [Some a] [c_env c] [c_dest c] -> err s = false ->
  mh (hp s) a = Some (mk_node TCommand x ks rc) -> Forall2 (holds (hp s)) ks ds -> env_holds (hp s) (c_env c) E -> length ks = b_args b ->
  b_eval b + length (b_keep b) = size (b_kind b) -> 0 < b_eval b <= b_args b -> has_env (b_kind b) = b_env b -> (forall i, In i (b_keep b) -> i < b_args b) ->
  (forall f, f0 <= f -> step f s =
            let keep := pick ks (b_keep b) in
            let env := if b_env b then c_env c else None in
            bind (copy_all (hp s0) keep) (fun h =>
            bind (copy_env h env) (fun h1 =>
            let s1 := push (with_heap s0 h1) (c_dest c) (b_kind b) (repeat None (b_eval b) ++ keep) env in
            bind (push_evals s1 (c_env c) (map (DField (nc s0)) (seq 0 (b_eval b))) (firstn (b_eval b) ks)) (fun s2 =>
            bind (free_e f s2 (c_env c)) (fun s3 => free_m f s3 (Some a)))))) ->
  (forall vs s2 c' rest2, ready r0 re0 s2 c' rest2 (b_kind b) (vs ++ map (fun i => nth i ds dummy) (b_keep b)) -> c_dest c' = c_dest c -> (b_env b = true -> env_holds (hp s2) (c_env c') E) -> length vs = b_eval b ->
     outcome s2 rest2 (c_dest c) n (K vs)) ->
  outcome s rest (c_dest c) (S n) (FbldSpec.bind (eval_list (eval n E) (firstn (b_eval b) ds)) K).
Proof.
  intros f0 n s s0 c rest E x ds a ks rc b K SIM Es0 W0 ER Ha F HE NA BS [BP BA] BK BI ST CONT.
  apply outcome_step. assert (TX : forall (P : st -> Prop) g, (forall f, f0 <= f -> step f s = g f) -> tot g P -> tot (fun f => step f s) P).
  { intros P g Q [v [f1 [H1 H2]]]. exists v, (f0 + f1). split; auto. intros f L. rewrite Q by lia. apply H1. lia. }
  eapply TX; [exact ST|]. clear TX ST. cbv zeta.
  assert (Hh : hp s0 = hp s) by (subst; auto). assert (Hst : stack s0 = rest) by (subst; auto). assert (Her : err s0 = false) by (subst; auto). assert (Hres : res s0 = res s) by (subst; auto).
  set (keep := pick ks (b_keep b)). set (env := if b_env b then c_env c else None). set (kdocs := map (fun i => nth i ds dummy) (b_keep b)) in *.
  assert (FK : Forall2 (holds (hp s)) keep kdocs) by (apply pick_holds; [exact F|intros i Ii; rewrite NA; auto]).
  pose proof (wf_elive _ _ _ _ _ _ (c_env c) W0 (or_introl eq_refl)) as Le.
  eapply tot_bind; [apply tot_const; apply (wf_copy_all r0 re0 s0 keep _ _ _ W0)|].
  { intros p Ip. rewrite Hh. eapply holds_all_live; eauto. }
  intros h [W1 [B1 A1]]. eapply tot_bind; [apply tot_const; apply (wf_copy_env r0 re0 _ env _ _ _ W1)|].
  { unfold env. destruct (b_env b); [|exact Logic.I]. eapply alike_elive; eauto. }
  intros h1 [W2 [B2 A2]]. set (s2 := with_heap s0 h1). change (with_heap (with_heap s0 h) h1) with s2 in W2.
  assert (W3 : W (push s2 (c_dest c) (b_kind b) (repeat None (b_eval b) ++ keep) env) [Some a] [c_env c] (map (DField (nc s2)) (seq 0 (b_eval b)) ++ [])).
  { apply (wf_push r0 re0 s2 (c_dest c) (b_kind b) _ env); auto.
    - eapply wf_swap; [exact W2| |]; auto. intros y. rewrite !cnt_app, cnt_repeat. cbn [cnt]. lia.
    - split; [rewrite app_length, repeat_length; unfold keep, pick; rewrite map_length; exact BS|]. rewrite BK. unfold env. intros ->. auto.
    - apply seq_NoDup.
    - intros i Ii. apply in_seq in Ii. apply nth_none_app. lia. }
  set (s3 := push s2 (c_dest c) (b_kind b) (repeat None (b_eval b) ++ keep) env) in *. change (nc s2) with (nc s0) in W3.
  assert (A13 : alike (hp s) (hp s3)) by (rewrite <- Hh; eapply alike_trans; [exact A1|exact A2]).
  assert (G13 : grow (hp s) (hp s3)) by (rewrite <- Hh; apply sub_grow; eapply sub_trans; [exact B1|exact B2]).
  set (margs := firstn (b_eval b) ks) in *. assert (LM : length margs = b_eval b) by (unfold margs; rewrite firstn_length; lia).
  assert (F3 : Forall2 (holds (hp s3)) margs (firstn (b_eval b) ds)).
  { apply Forall2_first. eapply forall2_imp; [exact F|]. intros m d _ Hm. eapply holds_alike; eauto. }
  eapply tot_bind; [apply (evals_tot r0 re0 margs _ s3 (c_env c) _ _ _ W3)|].
  { rewrite map_length, seq_length, LM. auto. } { apply (wf_elive _ _ _ _ _ _ _ W3). left. auto. } { intros k Ik. eapply holds_all_live; eauto. }
  intros s4 [W4 P4]. eapply tot_weak; [apply (w_free_both r0 re0); exact W4|]. intros s5 [W5 K5].
  assert (G5 : grow (hp s3) (hp s5)) by (eapply grow_trans; [apply sub_grow, (p_sub _ _ _ P4)|apply sub_grow; apply K5]).
  destruct K5 as [K1 [K2 [K3 [K4 K5]]]]. rewrite (p_stack _ _ _ P4) in K2. change (nc s3) with (S (nc s0)) in K2. cbn [stack s3 push s2 with_heap] in K2. rewrite Hst in K2. change (nc s2) with (nc s0) in K2. rewrite <- LM in K2.
  pose proof (w_inv _ _ _ _ _ _ W5) as I5. pose proof (w_inv _ _ _ _ _ _ W0) as I0. rewrite Hh in I0. pose proof (w_inv _ _ _ _ _ _ W3) as I3.
  assert (G05 : grow (hp s) (hp s5)) by (eapply grow_trans; eauto).
  assert (R5 : res s5 = res s) by (rewrite K5, (p_res _ _ _ P4); exact Hres).
  assert (E5 : err s5 = false) by (rewrite K4, (p_err _ _ _ P4); exact Her).
  exists rest. split; [split; [exact G05|split; [rewrite R5; apply wopt_refl|apply frames_refl]]|]. split; [intros _; exact R5|].
  set (ms := repeat None (length margs) ++ keep) in *. set (X := mk_cmd (nc s0) (c_dest c) (b_kind b) ms env) in *.
  assert (IX : In X (stack s5)) by (rewrite K2; apply in_or_app; right; left; auto).
  assert (LD : length (map (DField (nc s0)) (seq 0 (length margs))) = length margs) by (rewrite map_length, seq_length; auto).
  assert (Lenv : elive (hp s5) (c_env c)).
  { destruct margs as [|k0 margs']; [cbn in LM; lia|]. apply (elive_stack r0 re0 s5 [] [] [] (mk_cmd (S (nc s0)) (DField (nc s0) 0) KEval [k0] (c_env c)) W5). rewrite K2. apply in_or_app. left.
    cbn [length seq map pushed rev]. apply in_or_app. right. left. auto. }
  assert (HE5 : env_holds (hp s5) (c_env c) E) by (eapply env_grow; [exact HE|exact G05|exact I0|exact I5|exact Lenv]).
  eapply fields_ready with (n := n) (margs := margs) (keep := keep) (kdocs := kdocs) (env := c_env c) (ms := ms); [exact SIM|exact W5|exact E5|exact K2|reflexivity| | |exact HE5|apply le_n|].
  - eapply holds_all_grow; [exact F3|exact G5|exact I3|exact I5|]. intros m Im. destruct (in_rev_pushed (c_env c) _ margs (S (nc s0)) m LD Im) as [c0 [Ic Hc]].
    eapply live_stack with (c := c0); [exact W5|rewrite K2; apply in_or_app; left; exact Ic|exact Hc].
  - eapply holds_all_grow; [exact FK|exact G05|exact I0|exact I5|]. intros m Im. eapply live_stack with (c := X); [exact W5|exact IX|]. cbn. apply in_or_app. auto.
  - intros vs s6 c' rest2 RD _ ED EE LV G6. apply CONT with (c' := c'); auto.
    + intros EB. rewrite EE. unfold env. rewrite EB. destruct RD as [W6 [_ [S6 _]]]. eapply env_grow; [exact HE5|exact G6|exact I5|apply (w_inv _ _ _ _ _ _ W6)|].
      replace (c_env c) with (c_env c') by (rewrite EE; unfold env; rewrite EB; auto). apply (elive_stack _ _ _ _ _ _ _ W6). rewrite S6. left. auto.
    + rewrite LV. apply Forall2_len in F3. lia.
Qed.
End Others.
