(** * The fbld evaluator follows the specification. *)
From Coq Require Import ZArith String Ascii List Arith Lia Bool.
From Verif Require Import FbldModel FbldSpec FbldMem FbldSafe FbldOps FbldSim FbldSim2 FbldSim3 FbldSim4.
Import ListNotations.
Local Open Scope list_scope.
Notation length := List.length.
Notation bind := FbldModel.bind.

Lemma tot_late : forall {A} f0 (x g : nat -> out A) P, (forall f, f0 <= f -> x f = g f) -> tot g P -> tot x P.
Proof. intros A f0 x g P Q [v [f1 [H1 H2]]]. exists v, (f0 + f1). split; auto. intros f L. rewrite Q by lia. apply H1. lia. Qed.

Section Others.
Variables r0 re0 : nat -> nat.
Notation W := (wf r0 re0).
Notation top_eval := (top_eval r0 re0).
Notation outcome := (outcome r0 re0).
Notation sim := (sim r0 re0).
Notation ready := (ready r0 re0).

Lemma eval_outcome : forall f0 n s s0 c rest E x k d a rc, sim n -> s0 = with_stack s rest -> W s0 [Some a] [c_env c] [c_dest c] -> err s = false ->
  mh (hp s) a = Some (mk_node TCommand x [k] rc) -> holds (hp s) k d -> env_holds (hp s) (c_env c) E ->
  (forall f, f0 <= f -> step f s = bind (push_eval (push s0 (c_dest c) KEval [None] (c_env c)) (c_env c) k (DField (nc s0) 0)) (fun s1 => free_m f s1 (Some a))) ->
  outcome s rest (c_dest c) (S n) (FbldSpec.bind (eval n E d) (fun v => eval n E v)).
Proof.
  intros f0 n s s0 c rest E x k d a rc SIM Es0 W0 ER Ha Hk HE ST.
  assert (EQ : FbldSpec.bind (eval n E d) (fun v => eval n E v) = FbldSpec.bind (eval_list (eval n E) [d]) (fun vs : list doc => match vs return result doc with [v] => eval n E v | _ => Error end)).
  { cbn [eval_list FbldSpec.bind]. destruct (eval n E d); reflexivity. }
  rewrite EQ. clear EQ. apply outcome_step. eapply tot_late; [exact ST|]. clear ST.
  assert (Hh : hp s0 = hp s) by (subst; auto). assert (Hst : stack s0 = rest) by (subst; auto). assert (Her : err s0 = false) by (subst; auto). assert (Hres : res s0 = res s) by (subst; auto).
  pose proof (wf_elive _ _ _ _ _ _ (c_env c) W0 (or_introl eq_refl)) as Le.
  assert (W3 : W (push s0 (c_dest c) KEval [None] (c_env c)) [Some a] [] (map (DField (nc s0)) [0] ++ [])).
  { apply (wf_push r0 re0 s0 (c_dest c) KEval [None] (c_env c)).
    - eapply wf_swap; [exact W0| |]; auto.
    - split; [auto|discriminate].
    - constructor; auto. constructor.
    - intros i [<-|[]]. auto. }
  eapply tot_bind; [apply tot_const; apply (push_eval_ok r0 re0 _ (c_env c) k _ _ _ _ W3)|].
  { exact Le. } { cbn [push hp]. rewrite Hh. eapply holds_live; eauto. }
  intros s4 [W4 P4]. eapply tot_weak; [apply (w_free_m r0 re0); exact W4|]. intros s5 [W5 [K1 [K2 [K3 [K4 K5]]]]].
  rewrite (p_stack _ _ _ P4) in K2. cbn [stack push app nc] in K2. rewrite Hst in K2.
  pose proof (w_inv _ _ _ _ _ _ W5) as I5. pose proof (w_inv _ _ _ _ _ _ W0) as I0. rewrite Hh in I0.
  assert (G5 : grow (hp s) (hp s5)) by (rewrite <- Hh; eapply grow_trans; [apply sub_grow; apply (p_sub _ _ _ P4)|apply sub_grow; exact K1]).
  assert (R5 : res s5 = res s) by (rewrite K5, (p_res _ _ _ P4); exact Hres). assert (E5 : err s5 = false) by (rewrite K4, (p_err _ _ _ P4); exact Her).
  exists rest. split; [split; [exact G5|split; [rewrite R5; apply wopt_refl|apply frames_refl]]|]. split; [intros _; exact R5|].
  set (X := mk_cmd (nc s0) (c_dest c) KEval [None] (c_env c)) in *. set (Y := mk_cmd (S (nc s0)) (DField (nc s0) 0) KEval [k] (c_env c)) in *.
  assert (IY : In Y (stack s5)) by (rewrite K2; left; auto).
  assert (HE5 : env_holds (hp s5) (c_env c) E) by (eapply env_grow; [exact HE|exact G5|exact I0|exact I5|apply (elive_stack _ _ _ _ _ _ Y W5 IY)]).
  eapply fields_ready with (n := n) (margs := [k]) (keep := []) (kdocs := []) (env := c_env c) (ms := [None]) (id := nc s0) (args := [d]); [exact SIM|exact W5|exact E5|exact K2|reflexivity| |constructor|exact HE5|apply le_n|].
  - constructor; [|constructor]. eapply holds_grow; [exact Hk|exact G5|exact I0|exact I5|]. eapply live_stack with (c := Y); [exact W5|exact IY|left; auto].
  - intros vs s6 c' rest2 RD _ ED EE LV G6. destruct vs as [|v [|? ?]]; try discriminate. destruct RD as [W6 [E6 [S6 [K6 F6]]]]. rewrite <- ED. apply SIM.
    inversion F6 as [|m ? ms ? Hm Fm Em]; subst. inversion Fm; subst. split; auto. split; auto. split; auto. split; auto. split; [exists m; auto|].
    rewrite EE. eapply env_grow; [exact HE5|exact G6|exact I5|apply (w_inv _ _ _ _ _ _ W6)|]. rewrite <- EE. apply (elive_stack _ _ _ _ _ _ _ W6). rewrite S6. left. auto.
Qed.

Lemma command_outcome : forall n s c rest E x ds, sim n -> top_eval s c rest E (Command x ds) -> outcome s rest (c_dest c) (S n) (eval (S n) E (Command x ds)).
Proof.
  intros n s c rest E x ds SIM TE. destruct (top_step _ _ _ _ _ _ _ TE) as [a [M [W0 [H [HE [ER ST]]]]]]. apply inv_command in H. destruct H as [a' [ks [rc [Ea [Ha F]]]]]. injection Ea as <-.
  destruct (find_env_tot E (hp s) (c_env c) x HE) as [y [f0 [FE PY]]]. pose proof (Forall2_len _ _ _ F) as LEN.
  set (s0 := with_stack s rest) in *.
  assert (ST' : forall f, f0 <= f -> step f s =
      let fail (s : st) := bind (free_e f (with_err s) (c_env c)) (fun s1 => free_m f s1 (Some a)) in
      match y with
      | Some (e, en) =>
        if negb (length ks =? match e_args en with Some l => length l | None => 0 end) then fail s0
        else
          match e_args en with
          | None =>
            bind (copy (hp s0) (e_body en)) (fun h =>
            bind (store (with_heap s0 h) (c_dest c) (e_body en)) (fun s1 =>
            bind (free_e f s1 (c_env c)) (fun s2 => free_m f s2 (Some a))))
          | Some params =>
            bind (copy_env (hp s0) (Some e)) (fun h =>
            let '(h1, next, es) := env_chain h (Some e) params in
            bind (push_evals (push (with_heap s0 h1) (c_dest c) KEval [None] next) (c_env c) (map DBody es) ks) (fun s2 =>
            bind (free_e f s2 (c_env c)) (fun s3 =>
            bind (free_m f s3 (Some a)) (fun s4 =>
            bind (env_at (hp s4) e) (fun en' =>
            bind (copy (hp s4) (e_body en')) (fun h5 =>
            store (with_heap s4 h5) (DField (nc s0) 0) (e_body en')))))))
          end
      | None =>
        match find_builtin x with
        | Some b =>
          if length ks =? b_args b then
            let keep := pick ks (b_keep b) in
            let env := if b_env b then c_env c else None in
            bind (copy_all (hp s0) keep) (fun h =>
            bind (copy_env h env) (fun h1 =>
            let s1 := push (with_heap s0 h1) (c_dest c) (b_kind b) (repeat None (b_eval b) ++ keep) env in
            bind (push_evals s1 (c_env c) (map (DField (nc s0)) (seq 0 (b_eval b))) (firstn (b_eval b) ks)) (fun s2 =>
            bind (free_e f s2 (c_env c)) (fun s3 => free_m f s3 (Some a)))))
          else fail s0
        | None =>
          if text_eqb x (txt "eval") then
            match ks with
            | [k] =>
              bind (push_eval (push s0 (c_dest c) KEval [None] (c_env c)) (c_env c) k (DField (nc s0) 0)) (fun s1 =>
              free_m f s1 (Some a))
            | _ => fail s0
            end
          else bind (store s0 (c_dest c) (Some a)) (fun s1 => free_e f s1 (c_env c))
        end
      end).
  { intros f L. rewrite ST. unfold step_eval, node_at. change (hp s0) with (hp s). rewrite Ha. cbn [FbldModel.bind n_tag n_text n_kids]. rewrite (FE f L). reflexivity. }
  clear ST FE. cbv zeta in ST'. cbn [eval].
  assert (FAIL : forall P : result doc, P = Error -> (forall f, f0 <= f -> step f s = bind (free_e f (with_err s0) (c_env c)) (fun s1 => free_m f s1 (Some a))) -> outcome s rest (c_dest c) (S n) P).
  { intros P -> Q. apply outcome_error. eapply tot_late; [exact Q|]. eapply fails. exact W0. }
  destruct (lookup E x) as [[[y1 params body|y1 v] E']|].
  - (* a function *)
    destruct PY as [e [en [-> [Hen [HF [E'' ->]]]]]].
    assert (AR : e_args en = Some params) by (inversion HF as [|? ? ? ? ? ? ? ? Hx| ]; subst; rewrite Hen in Hx; injection Hx as ->; reflexivity).
    rewrite AR in ST'. destruct (Nat.eqb_spec (length ds) (length params)) as [NE|NE].
    + assert (NK : (length ks =? length params) = true) by (apply Nat.eqb_eq; lia). rewrite NK in ST'. cbn [negb] in ST'.
      eapply (fun_outcome r0 re0 f0 n s s0 c rest E E'' x ds a ks rc e en y1 params body); eauto. lia.
    + assert (NK : (length ks =? length params) = false) by (apply Nat.eqb_neq; lia). rewrite NK in ST'. cbn [negb] in ST'. apply FAIL; auto.
  - (* a value *)
    destruct PY as [e [en [-> [Hen [HF [E'' ->]]]]]].
    assert (AR : e_args en = None /\ holds (hp s) (e_body en) v) by (inversion HF as [| |? ? ? ? ? ? ? Hx Hb]; subst; rewrite Hen in Hx; injection Hx as ->; auto).
    destruct AR as [AR HV]. rewrite AR in ST'. destruct ds as [|d ds].
    + destruct ks; [|discriminate]. cbn in ST'. eapply (val_outcome r0 re0 f0 n s s0 c rest x a [] rc e en v); eauto.
    + destruct ks; [discriminate|]. cbn in ST'. apply FAIL; auto.
  - subst y.
    assert (BUILT : forall b K, find_builtin x = Some b -> length ks = b_args b -> 0 < b_eval b -> (forall i, In i (b_keep b) -> i < b_args b) ->
      (forall vs s2 c' rest2, ready s2 c' rest2 (b_kind b) (vs ++ map (fun i => nth i ds dummy) (b_keep b)) -> (b_env b = true -> env_holds (hp s2) (c_env c') E) -> length vs = b_eval b -> outcome s2 rest2 (c_dest c') n (K vs)) ->
      outcome s rest (c_dest c) (S n) (FbldSpec.bind (eval_list (eval n E) (firstn (b_eval b) ds)) K)).
    { intros b K FB NA BP BI CONT. rewrite FB in ST'. assert (NK : (length ks =? b_args b) = true) by (apply Nat.eqb_eq; auto). rewrite NK in ST'. destruct (builtins_size _ _ FB) as [BS [BA BK]].
      eapply (builtin_outcome r0 re0 f0 n s s0 c rest E x ds a ks rc b K); eauto.
      intros vs s2 c' rest2 RD ED HE' LV. rewrite <- ED. eapply CONT; eauto. }
    assert (MIS : forall b P, find_builtin x = Some b -> length ds <> b_args b -> P = Error -> outcome s rest (c_dest c) (S n) P).
    { intros b P FB NA EP. apply FAIL; auto. rewrite FB in ST'. assert (NK : (length ks =? b_args b) = false) by (apply Nat.eqb_neq; lia). rewrite NK in ST'. exact ST'. }
    unfold find_builtin, builtins in BUILT, MIS, ST'. cbn [find fst] in BUILT, MIS, ST'.
    destruct (text_eqb x (txt "error")) eqn:T1.
    { destruct ds as [|d1 [|d2 ds]]; try (eapply MIS; [reflexivity|cbn; lia|reflexivity]).
      match goal with |- outcome _ _ _ _ ?rhs => replace rhs with (FbldSpec.bind (eval_list (eval n E) [d1]) (fun vs : list doc => match vs return result doc with [v] => FbldSpec.bind (string_of v) (fun _ => Error) | _ => Error end)) end.
      - refine (BUILT (mk_builtin 1 KError 1 [] false) (fun vs : list doc => match vs return result doc with [v] => FbldSpec.bind (string_of v) (fun _ => Error) | _ => Error end) eq_refl _ _ _ _); auto; [intros i []|]. intros vs s2 c' rest2 RD _ LV. destruct vs as [|v [|? ?]]; try discriminate. apply error_outcome. exact RD.
      - cbn [eval_list FbldSpec.bind]. destruct (eval n E d1); reflexivity. }
    destruct (text_eqb x (txt "define")) eqn:T2.
    { destruct ds as [|d1 [|d2 [|d3 [|d4 [|d5 ds]]]]]; try (eapply MIS; [reflexivity|cbn; lia|reflexivity]).
      match goal with |- outcome _ _ _ _ ?rhs => replace rhs with (FbldSpec.bind (eval_list (eval n E) [d1; d2]) (fun vs : list doc => match vs return result doc with [m; p] => FbldSpec.bind (string_of m) (fun y => FbldSpec.bind (string_of p) (fun ps => eval n (Fun y (split_args ps []) d3 :: E) d4)) | _ => Error end)) end.
      - refine (BUILT (mk_builtin 4 KDefine 2 [2; 3] true) (fun vs : list doc => match vs return result doc with [m; p] => FbldSpec.bind (string_of m) (fun y => FbldSpec.bind (string_of p) (fun ps => eval n (Fun y (split_args ps []) d3 :: E) d4)) | _ => Error end) eq_refl _ _ _ _); auto; [cbn; lia|intros i [<-|[<-|[]]]; cbn; lia|]. intros vs s2 c' rest2 RD HE' LV. destruct vs as [|m [|p [|? ?]]]; try discriminate. apply define_outcome; auto.
      - cbn [eval_list FbldSpec.bind]. destruct (eval n E d2); cbn [FbldSpec.bind]; auto. destruct (eval n E d1); reflexivity. }
    destruct (text_eqb x (txt "let")) eqn:T3.
    { destruct ds as [|d1 [|d2 [|d3 [|d4 ds]]]]; try (eapply MIS; [reflexivity|cbn; lia|reflexivity]).
      match goal with |- outcome _ _ _ _ ?rhs => replace rhs with (FbldSpec.bind (eval_list (eval n E) [d1; d2]) (fun vs : list doc => match vs return result doc with [m; v] => FbldSpec.bind (string_of m) (fun y => eval n (Val y v :: E) d3) | _ => Error end)) end.
      - refine (BUILT (mk_builtin 3 KLet 2 [2] true) (fun vs : list doc => match vs return result doc with [m; v] => FbldSpec.bind (string_of m) (fun y => eval n (Val y v :: E) d3) | _ => Error end) eq_refl _ _ _ _); auto; [cbn; lia|intros i [<-|[]]; cbn; lia|]. intros vs s2 c' rest2 RD HE' LV. destruct vs as [|m [|p [|? ?]]]; try discriminate. apply let_outcome; auto.
      - cbn [eval_list FbldSpec.bind]. destruct (eval n E d2); cbn [FbldSpec.bind]; auto. destruct (eval n E d1); reflexivity. }
    destruct (text_eqb x (txt "head")) eqn:T4.
    { destruct ds as [|d1 [|d2 ds]]; try (eapply MIS; [reflexivity|cbn; lia|reflexivity]).
      match goal with |- outcome _ _ _ _ ?rhs => replace rhs with (FbldSpec.bind (eval_list (eval n E) [d1]) (fun vs : list doc => match vs return result doc with [v] => match items v with [] => Value v | Char ch :: _ => Value (Plain [ch]) | Cmd _ :: _ => Error end | _ => Error end)) end.
      - refine (BUILT (mk_builtin 1 KHead 1 [] false) (fun vs : list doc => match vs return result doc with [v] => match items v with [] => Value v | Char ch :: _ => Value (Plain [ch]) | Cmd _ :: _ => Error end | _ => Error end) eq_refl _ _ _ _); auto; [intros i []|]. intros vs s2 c' rest2 RD _ LV. destruct vs as [|v [|? ?]]; try discriminate. apply head_outcome. exact RD.
      - cbn [eval_list FbldSpec.bind]. destruct (eval n E d1); reflexivity. }
    destruct (text_eqb x (txt "tail")) eqn:T5.
    { destruct ds as [|d1 [|d2 ds]]; try (eapply MIS; [reflexivity|cbn; lia|reflexivity]).
      match goal with |- outcome _ _ _ _ ?rhs => replace rhs with (FbldSpec.bind (eval_list (eval n E) [d1]) (fun vs : list doc => match vs return result doc with [v] => match items v with [] => Value v | Cmd _ :: _ => Error | Char _ :: _ => Value (match drop v with Some w => w | None => v end) end | _ => Error end)) end.
      - refine (BUILT (mk_builtin 1 KTail 1 [] false) (fun vs : list doc => match vs return result doc with [v] => match items v with [] => Value v | Cmd _ :: _ => Error | Char _ :: _ => Value (match drop v with Some w => w | None => v end) end | _ => Error end) eq_refl _ _ _ _); auto; [intros i []|]. intros vs s2 c' rest2 RD _ LV. destruct vs as [|v [|? ?]]; try discriminate. apply tail_outcome. exact RD.
      - cbn [eval_list FbldSpec.bind]. destruct (eval n E d1); reflexivity. }
    destruct (text_eqb x (txt "ifeq")) eqn:T6; cbn [orb].
    { destruct ds as [|d1 [|d2 [|d3 [|d4 [|d5 ds]]]]]; try (eapply MIS; [reflexivity|cbn; lia|reflexivity]).
      match goal with |- outcome _ _ _ _ ?rhs => replace rhs with (FbldSpec.bind (eval_list (eval n E) [d1; d2]) (fun vs : list doc => match vs return result doc with [v; w] => match same (items v) (items w) with None => Error | Some r => eval n E (if r then d3 else d4) end | _ => Error end)) end.
      - refine (BUILT (mk_builtin 4 KIf 2 [2; 3] true) (fun vs : list doc => match vs return result doc with [v; w] => match same (items v) (items w) with None => Error | Some r => eval n E (if r then d3 else d4) end | _ => Error end) eq_refl _ _ _ _); auto; [cbn; lia|intros i [<-|[<-|[]]]; cbn; lia|]. intros vs s2 c' rest2 RD HE' LV. destruct vs as [|v [|w [|? ?]]]; try discriminate. apply if_outcome; auto.
      - cbn [eval_list FbldSpec.bind]. destruct (eval n E d2) as [w| | |]; cbn [FbldSpec.bind]; auto. destruct (eval n E d1) as [v| | |]; cbn [FbldSpec.bind]; auto. destruct (same (items v) (items w)) as [[|]|]; reflexivity. }
    destruct (text_eqb x (txt "ifneq")) eqn:T7.
    { destruct ds as [|d1 [|d2 [|d3 [|d4 [|d5 ds]]]]]; try (eapply MIS; [reflexivity|cbn; lia|reflexivity]).
      match goal with |- outcome _ _ _ _ ?rhs => replace rhs with (FbldSpec.bind (eval_list (eval n E) [d1; d2]) (fun vs : list doc => match vs return result doc with [v; w] => match same (items v) (items w) with None => Error | Some r => eval n E (if r then d4 else d3) end | _ => Error end)) end.
      - refine (BUILT (mk_builtin 4 KIf 2 [3; 2] true) (fun vs : list doc => match vs return result doc with [v; w] => match same (items v) (items w) with None => Error | Some r => eval n E (if r then d4 else d3) end | _ => Error end) eq_refl _ _ _ _); auto; [cbn; lia|intros i [<-|[<-|[]]]; cbn; lia|]. intros vs s2 c' rest2 RD HE' LV. destruct vs as [|v [|w [|? ?]]]; try discriminate. apply if_outcome; auto.
      - cbn [eval_list FbldSpec.bind]. destruct (eval n E d2) as [w| | |]; cbn [FbldSpec.bind]; auto. destruct (eval n E d1) as [v| | |]; cbn [FbldSpec.bind]; auto. destruct (same (items v) (items w)) as [[|]|]; reflexivity. }
    destruct (text_eqb x (txt "plain")) eqn:T8.
    { destruct ds as [|d1 [|d2 [|d3 ds]]]; try (eapply MIS; [reflexivity|cbn; lia|reflexivity]).
      match goal with |- outcome _ _ _ _ ?rhs => replace rhs with (FbldSpec.bind (eval_list (eval n E) [d1; d2]) (fun vs : list doc => match vs return result doc with [g; v] => FbldSpec.bind (string_of g) (fun t => eval n E (apply_plain t v)) | _ => Error end)) end.
      - refine (BUILT (mk_builtin 2 KPlain 2 [] true) (fun vs : list doc => match vs return result doc with [g; v] => FbldSpec.bind (string_of g) (fun t => eval n E (apply_plain t v)) | _ => Error end) eq_refl _ _ _ _); auto; [cbn; lia|intros i []|]. intros vs s2 c' rest2 RD HE' LV. destruct vs as [|g [|v [|? ?]]]; try discriminate. apply plain_outcome; auto.
      - cbn [eval_list FbldSpec.bind]. destruct (eval n E d2); cbn [FbldSpec.bind]; auto. destruct (eval n E d1); reflexivity. }
    clear BUILT MIS. destruct (text_eqb x (txt "eval")).
    + destruct ds as [|d1 [|d2 ds]]; destruct ks as [|k1 [|k2 ks]]; try discriminate; try (apply FAIL; [reflexivity|exact ST']).
      inversion F; subst. eapply (eval_outcome f0 n s s0 c rest E x k1 d1 a rc); eauto.
    + apply outcome_value. eapply tot_late; [exact ST'|]. eapply tot_weak; [apply (store_then r0 re0); [exact W0|]|].
      * eapply holds_command; [exact Ha|exact F].
      * intros s1 S1. apply stored_finished; auto.
Qed.

Lemma sim_all : forall n, sim n.
Proof.
  induction n as [|n IH]; intros s c rest E d TE.
  - cbn [eval]. exists 0. split; auto. apply tot_ret. destruct TE as [_ [_ [ST _]]]. rewrite ST. discriminate.
  - destruct d as [t|x ds|ds].
    + destruct (top_step _ _ _ _ _ _ _ TE) as [a [M [W0 [H [HE [ER ST]]]]]]. cbn [eval]. apply outcome_value. eapply tot_ext; [|intros f; symmetry; apply ST].
      pose proof H as H'. apply inv_plain in H'. destruct H' as [a' [ks [rc [Ea Ha]]]]. injection Ea as <-. unfold step_eval, node_at. change (hp (with_stack s rest)) with (hp s). rewrite Ha. cbn [FbldModel.bind n_tag].
      eapply tot_weak; [apply (store_then r0 re0); [exact W0|exact H]|]. intros s1 S1. apply stored_finished; auto.
    + apply command_outcome; auto.
    + apply seq_outcome; auto.
Qed.
End Others.
