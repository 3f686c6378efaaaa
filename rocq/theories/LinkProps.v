(** * What a linked program does (C32). *)
From Coq Require Import ZArith List Arith Lia Bool.
From Verif Require FuncProps CodeProps LoadProps.
From Verif Require Import PathModel PathProps LoadModel FuncModel CodeModel LinkModel.
Import ListNotations.

(** ** The specification *)

(** Evaluating the modules of a program in turn: a module is called with the values of the
    modules it names, in the order it names them.  [env] has the values so far. *)
Inductive evaluates (callf : cst -> cval -> list cval -> cres) : list cmodule -> list (path * cval) -> cst -> cres -> Prop :=
| ev_next : forall m ms env s args v s1 r,
    Forall2 (fun d x => In (d, x) env) (c_deps m) args ->
    callf s (module_func m) args = (Ret v, s1) ->
    evaluates callf ms (env ++ [(c_path m, v)]) s1 r ->
    evaluates callf (m :: ms) env s r
| ev_stop : forall m ms env s args o s1,
    Forall2 (fun d x => In (d, x) env) (c_deps m) args ->
    callf s (module_func m) args = (o, s1) -> (forall v, o <> Ret v) ->
    evaluates callf (m :: ms) env s (o, s1)
| ev_end : forall env p v s, evaluates callf [] (env ++ [(p, v)]) s (Ret v, s).

(** Every module comes after those it names, and no path occurs twice: what
    LoadProps.loaded_program_in_order shows of loaded programs. *)
Definition ordered (ms : list cmodule) : Prop :=
  NoDup (map c_path ms) /\
  (forall a m b, ms = a ++ m :: b -> forall d, In d (c_deps m) -> In d (map c_path a)) /\
  (forall m, In m ms -> path_ok (c_path m) /\ Forall path_ok (c_deps m)).

Lemma path_eqb_eq : forall a b, path_ok a -> path_ok b -> (path_eqb a b = true <-> a = b).
Proof.
  intros a b A B. unfold path_eqb. destruct (module_paths_equal_exact a b A B) as [r [-> H]]. exact H.
Qed.

Lemma find_module_nth : forall d ms v, path_ok d -> (forall m, In m ms -> path_ok (c_path m)) -> In d (map c_path ms) ->
  exists i m, find_module d ms v = Some (v + i) /\ nth_error ms i = Some m /\ c_path m = d.
Proof.
  intros d. induction ms as [|m ms IH]; intros v D P I; [destruct I|]. cbn [find_module].
  destruct (path_eqb d (c_path m)) eqn:E.
  - apply path_eqb_eq in E; auto; [|apply P; left; auto]. exists 0, m. rewrite Nat.add_0_r. auto.
  - destruct I as [I|I].
    + assert (X : path_eqb d (c_path m) = true) by (apply path_eqb_eq; auto; apply P; left; auto). congruence.
    + destruct (IH (S v) D) as [i [m' [F [N Q]]]]; auto; [intros x Hx; apply P; right; auto|].
      exists (S i), m'. rewrite F. split; [f_equal; lia|]. auto.
Qed.

(** The arguments of a call are the locals of the dependencies. *)
Lemma link_args_spec : forall before deps, (forall m, In m before -> path_ok (c_path m)) -> Forall path_ok deps ->
  (forall d, In d deps -> In d (map c_path before)) ->
  Forall2 (fun d v => exists i m, v = Local i /\ nth_error before i = Some m /\ c_path m = d) deps (link_args deps before).
Proof.
  intros before. induction deps as [|d deps IH]; intros P D I; cbn [link_args]; [constructor|].
  inversion D as [|? ? Dd Dds]; subst. destruct (find_module_nth d before 0 Dd P (I d (or_introl eq_refl))) as [i [m [F [N Q]]]].
  rewrite F. constructor; [exists i, m; auto|]. apply IH; auto. intros x Hx. apply I. right. auto.
Qed.

Lemma Forall2_len : forall {A B} (R : A -> B -> Prop) a b, Forall2 R a b -> length a = length b.
Proof. induction 1; cbn; auto. Qed.

(** The assertion on the number of arguments holds. *)
Lemma link_calls_total : forall ms before, ordered (before ++ ms) -> exists l, link_calls before ms = Some l /\ length l = length ms.
Proof.
  induction ms as [|m ms IH]; intros before O; cbn [link_calls]; [eauto|]. cbv zeta.
  pose proof O as [N [D P]].
  assert (F : Forall2 (fun d v => exists i m, v = Local i /\ nth_error before i = Some m /\ c_path m = d) (c_deps m) (link_args (c_deps m) before)).
  { apply link_args_spec.
    - intros x Hx. apply P. apply in_or_app. auto.
    - apply (P m). apply in_or_app. right. left. auto.
    - apply (D before m ms eq_refl). }
  rewrite <- (Forall2_len _ _ _ F), Nat.eqb_refl.
  destruct (IH (before ++ [m])) as [l [E L]]; [rewrite <- app_assoc; exact O|]. rewrite E. eexists. split; [reflexivity|]. cbn. auto.
Qed.

(** Locals that hold the values of the modules evaluated so far. *)
Definition holds (before : list cmodule) (vals : list cval) (n : nat) (l : list (option cval)) : Prop :=
  length vals = length before /\ l = map Some vals ++ repeat None n.

Lemma holds_get : forall before vals n l i m ss xs, holds before vals n l -> nth_error before i = Some m ->
  exists x, get ss xs l (Local i) = Some x /\ nth_error vals i = Some x.
Proof.
  intros before vals n l i m ss xs [L ->] N.
  assert (Li : i < length vals) by (rewrite L; apply nth_error_Some; congruence).
  destruct (nth_error vals i) as [x|] eqn:E; [|apply nth_error_None in E; lia]. exists x. split; auto.
  cbn [get]. rewrite nth_error_app1 by (rewrite map_length; auto). rewrite (map_nth_error Some _ _ E). reflexivity.
Qed.

Lemma combine_nth_in : forall (before : list cmodule) (vals : list cval) i m x, nth_error before i = Some m -> nth_error vals i = Some x ->
  In (c_path m, x) (combine (map c_path before) vals).
Proof.
  induction before as [|b before IH]; intros vals i m x A B; [destruct i; discriminate|]. destruct vals as [|v vals]; [destruct i; discriminate|].
  destruct i; cbn in *; [left; congruence|right; eapply IH; eauto].
Qed.

Lemma holds_gets : forall before vals n l ss xs deps vs, holds before vals n l ->
  Forall2 (fun d v => exists i m, v = Local i /\ nth_error before i = Some m /\ c_path m = d) deps vs ->
  exists ys, gets ss xs l vs = Some ys /\ Forall2 (fun d x => In (d, x) (combine (map c_path before) vals)) deps ys.
Proof.
  intros before vals n l ss xs deps vs H F. induction F as [|d v deps vs [i [m [-> [N Q]]]] F IH]; cbn [gets]; [exists []; auto|].
  destruct (holds_get _ _ _ _ i m ss xs H N) as [x [G X]]. destruct IH as [ys [Gs Fs]]. rewrite G, Gs. exists (x :: ys). split; auto.
  constructor; auto. subst d. eapply combine_nth_in; eauto.
Qed.

(** The values of [env] are unique. *)
Lemma args_unique : forall (env : list (path * cval)) deps xs ys, NoDup (map fst env) ->
  Forall2 (fun d x => In (d, x) env) deps xs -> Forall2 (fun d x => In (d, x) env) deps ys -> xs = ys.
Proof.
  intros env deps xs ys N F. revert ys. induction F as [|d x deps xs I F IH]; intros ys G; inversion G as [|? y ? ys' J G']; subst; auto.
  f_equal; auto. clear -N I J. induction env as [|[p v] env IH]; [destruct I|]. cbn in N. inversion N as [|? ? Np Ne]; subst.
  destruct I as [I|I], J as [J|J].
  - congruence.
  - injection I as -> ->. exfalso. apply Np. apply (in_map fst) in J. exact J.
  - injection J as -> ->. exfalso. apply Np. apply (in_map fst) in I. exact I.
  - auto.
Qed.

Lemma set_nth_fill : forall (a : list (option cval)) n x, set_nth (length a) (Some x) (a ++ repeat None (S n)) = a ++ Some x :: repeat None n.
Proof. induction a as [|y a IH]; intros n x; cbn; auto. f_equal. apply IH. Qed.

Lemma combine_snoc : forall {A B} (a : list A) (b : list B) x y, length a = length b -> combine (a ++ [x]) (b ++ [y]) = combine a b ++ [(x, y)].
Proof. induction a as [|p a IH]; intros [|q b] x y L; cbn in *; try lia; auto. rewrite IH by lia. reflexivity. Qed.
Lemma combine_fst : forall {A B} (a : list A) (b : list B), length a = length b -> map fst (combine a b) = a.
Proof. induction a as [|p a IH]; intros [|q b] L; cbn in *; try lia; auto. rewrite IH by lia. reflexivity. Qed.

Section run.
  Variable callf : cst -> cval -> list cval -> cres.
  (** FbleCall never returns the sentinel of a tail call (CodeProps.interpreted_call_frames). *)
  Hypothesis no_tail : forall s f xs g ys s', callf s f xs <> (Tail g ys, s').
  Variable blk : nat.

  Lemma loop_link : forall ms before instrs vals l s k,
    ordered (before ++ ms) -> link_calls before ms = Some l -> before ++ ms <> [] ->
    length instrs = length before -> length vals = length before -> length ms < k ->
    evaluates callf ms (combine (map c_path before) vals) s
      (loop callf blk (map module_func (before ++ ms)) [] k
        (instrs ++ l ++ [([], IReturn (Local (length (before ++ ms) - 1)))]) (length before)
        (map Some vals ++ repeat None (length ms)) s).
  Proof.
    induction ms as [|m ms IH]; intros before instrs vals l s k O E Ne Li Lv K; cbn [link_calls] in E.
    - injection E as <-. destruct k as [|k]; [lia|]. cbn [loop app]. rewrite nth_error_app2, <- Li, Nat.sub_diag by lia. cbn [nth_error].
      rewrite !app_nil_r in *.
      destruct (@exists_last _ vals) as [vals' [v Ev]]; [intros ->; destruct before; cbn in *; [congruence|lia]|]. subst vals.
      destruct (@exists_last _ before) as [before' [b Eb]]; [auto|]. subst before.
      rewrite map_app. cbn [map]. rewrite !app_length in *. cbn [length] in *. rewrite combine_snoc by (rewrite map_length; lia).
      cbn [do_ops fold_left exec get]. replace (length before' + 1 - 1) with (length vals') by lia.
      rewrite map_app, nth_error_app2, map_length, Nat.sub_diag by (rewrite map_length; lia). cbn. apply ev_end.
    - cbv zeta in E. destruct (length (link_args (c_deps m) before) =? length (c_deps m)) eqn:Q; [|discriminate].
      destruct (link_calls (before ++ [m]) ms) as [l'|] eqn:E'; [|discriminate]. injection E as <-.
      destruct k as [|k]; [lia|]. cbn [loop]. rewrite nth_error_app2, <- Li, Nat.sub_diag by lia. cbn [app nth_error].
      pose proof O as [N [D P]].
      assert (F : Forall2 (fun d v => exists i m, v = Local i /\ nth_error before i = Some m /\ c_path m = d) (c_deps m) (link_args (c_deps m) before)).
      { apply link_args_spec.
        - intros x Hx. apply P. apply in_or_app. auto.
        - apply (P m). apply in_or_app. right. left. auto.
        - apply (D before m ms eq_refl). }
      assert (H : holds before vals (S (length ms)) (map Some vals ++ repeat None (length (m :: ms)))) by (split; auto).
      destruct (holds_gets _ _ _ _ (map module_func (before ++ m :: ms)) [] _ _ H F) as [ys [Gs Fs]].
      cbn [do_ops fold_left exec get]. rewrite Gs.
      assert (Gf : nth_error (map module_func (before ++ m :: ms)) (length instrs) = Some (module_func m)).
      { apply map_nth_error. rewrite nth_error_app2, Li, Nat.sub_diag by lia. reflexivity. }
      assert (Lt : length instrs <? length (map Some vals ++ repeat None (length (m :: ms))) = true).
      { apply Nat.ltb_lt. rewrite app_length, map_length, repeat_length. cbn. lia. }
      rewrite Gf, Lt. destruct (callf s (module_func m) ys) as [o s1] eqn:Cl. destruct o as [v|g zs| | |].
      + unfold put. rewrite Lt. apply (ev_next callf m ms _ s ys v s1); auto.
        specialize (IH (before ++ [m]) (instrs ++ [([], ICall (Static (length before)) (link_args (c_deps m) before) (length before))]) (vals ++ [v]) l' s1 k).
        rewrite <- !app_assoc in IH. cbn [app] in IH. rewrite !app_length in IH. cbn [length] in IH. rewrite map_app in IH. cbn [map] in IH.
        rewrite combine_snoc in IH by (rewrite map_length; lia).
        replace (length (before ++ m :: ms)) with (length before + (1 + length ms)) by (rewrite app_length; cbn; lia).
        change (1 + length ms) with (S (length ms)).
        replace (set_nth (length instrs) (Some v) (map Some vals ++ repeat None (length (m :: ms)))) with (map Some (vals ++ [v]) ++ repeat None (length ms)).
        2:{ cbn [length]. replace (length instrs) with (length (map Some vals)) by (rewrite map_length; lia). rewrite set_nth_fill, map_app, <- app_assoc. reflexivity. }
        rewrite Li. replace (S (length before)) with (length before + 1) by lia. apply IH; auto; try lia; cbn in K; lia.
      + exfalso. eapply no_tail; eauto.
      + apply (ev_stop callf m ms _ s ys Abort s1); auto. discriminate.
      + apply (ev_stop callf m ms _ s ys Crash s1); auto. discriminate.
      + apply (ev_stop callf m ms _ s ys Timeout s1); auto. discriminate.
  Qed.

  Lemma evaluates_functional : forall ms env s r r', NoDup (map fst env ++ map c_path ms) ->
    evaluates callf ms env s r -> evaluates callf ms env s r' -> r = r'.
  Proof.
    intros ms env s r r' N E. revert r' N. induction E as [m ms env s args v s1 r F C E IH|m ms env s args o s1 F C Nv|env p v s]; intros r' N E'.
    - assert (Ne : NoDup (map fst env)) by (clear -N; revert N; generalize (map fst env); intros l N; induction l; [constructor|]; inversion N; subst; constructor; [|auto]; intros X; apply H1; apply in_or_app; auto).
      inversion E' as [m0 ms0 env0 s0 args' v' s1' r0 F' C' E0|m0 ms0 env0 s0 args' o' s1' F' C' Nv'|]; subst.
      + rewrite (args_unique _ _ _ _ Ne F' F) in C'. rewrite C in C'. injection C' as <- <-. apply IH; auto.
        rewrite map_app. cbn. rewrite <- app_assoc. exact N.
      + rewrite (args_unique _ _ _ _ Ne F' F) in C'. rewrite C in C'. injection C' as <- <-. exfalso. apply (Nv' v). auto.
    - assert (Ne : NoDup (map fst env)) by (clear -N; revert N; generalize (map fst env); intros l N; induction l; [constructor|]; inversion N; subst; constructor; [|auto]; intros X; apply H1; apply in_or_app; auto).
      inversion E' as [m0 ms0 env0 s0 args' v' s1' r0 F' C' E0|m0 ms0 env0 s0 args' o' s1' F' C' Nv'|]; subst.
      + rewrite (args_unique _ _ _ _ Ne F' F) in C'. exfalso. apply (Nv v'). congruence.
      + rewrite (args_unique _ _ _ _ Ne F' F) in C'. congruence.
    - remember (env ++ [(p, v)]) as e eqn:Ee. remember (@nil cmodule) as ms eqn:Em. destruct E' as [| |env0 p0 v0 s0]; try discriminate. apply app_inj_tail in Ee. destruct Ee as [_ Eq]. injection Eq as _ <-. reflexivity.
  Qed.
End run.

(** ** C32 *)

(** Linking a program whose modules are in order succeeds; running the function it makes
    evaluates the modules in that order, each called with the values of those it names, and
    returns the value of the last one; if the call of a module does not return a value, that
    is the end of it. *)
Theorem linked_program_runs : forall main_id ms, ordered ms -> ms <> [] ->
  exists c, link_code main_id ms = Some c /\ code_num_args c = 0 /\
    forall n blk s, evaluates (icall n) ms [] s (interpret (icall n) c blk (map module_func ms) [] s).
Proof.
  intros main_id ms O Ne. unfold link_code. destruct (link_calls_total ms [] O) as [l [E L]]. rewrite E. eexists. split; [reflexivity|]. split; [reflexivity|].
  intros n blk s. unfold interpret. cbn [code_instrs code_num_locals].
  pose proof (loop_link (icall n)) as Lk.
  specialize (Lk ltac:(intros s0 f xs g ys s' Q; pose proof (proj1 (FuncProps.call_balanced code interpret CodeProps.interpret_good n) s0 f xs) as Bl; unfold icall in Q; rewrite Q in Bl; exact Bl)).
  specialize (Lk blk ms [] [] [] l s (length (l ++ [([], IReturn (Local (length ms - 1)))]))).
  cbn [app map length combine] in Lk. apply Lk; auto. rewrite app_length. cbn. lia.
Qed.

(** The same for a call of the program with FbleCall. *)
Lemma linked_call_at : forall main_id blk ms c, ordered ms -> ms <> [] -> link_code main_id ms = Some c ->
  forall n s r, evaluates (icall n) ms [] (push_frame (log (PEnter blk) s)) r ->
  icall (S n) s (VFunc 0 c blk (map module_func ms)) [] = (let '(o, s1) := r in
                        let '(o', s2) := match o with Ret _ | Abort => pop_with o s1 | _ => r end in (o', log PExit s2)).
Proof.
  intros main_id blk ms c0 O Ne E n s r Ev.
  destruct (linked_program_runs main_id ms O Ne) as [c [Ec [Na R]]]. rewrite Ec in E. injection E as <-.
  unfold icall. rewrite FuncProps.call_S. cbn [strict_value strict_fuel num_args_of block_of length Nat.ltb Nat.leb skipn run_fn].
  assert (St : strict_value (refs s) (VFunc 0 c blk (map module_func ms)) = SVal (VFunc 0 c blk (map module_func ms))) by (unfold strict_value; destruct (length (refs s)); reflexivity).
  rewrite St. cbn [num_args_of block_of length Nat.ltb Nat.leb skipn run_fn firstn].
  assert (NT : forall s f xs g ys s', icall n s f xs <> (Tail g ys, s')).
  { intros s0 f xs g ys s' Q. pose proof (proj1 (FuncProps.call_balanced code interpret CodeProps.interpret_good n) s0 f xs) as Bl. unfold icall in Q. rewrite Q in Bl. exact Bl. }
  assert (Eq : interpret (icall n) c blk (map module_func ms) [] (push_frame (log (PEnter blk) s)) = r).
  { apply (evaluates_functional (icall n) ms [] (push_frame (log (PEnter blk) s))); [exact (proj1 O)|apply R|exact Ev]. }
  unfold icall in Eq. rewrite Eq. destruct r as [o s1]. destruct o; auto.
  exfalso. clear -Ev NT. 
  assert (X : forall ms env s0 o s', evaluates (icall n) ms env s0 (o, s') -> forall g ys, o <> Tail g ys).
  { clear -NT. intros ms env s0 o s' Ev. remember (o, s') as r. induction Ev; subst; auto.
    - injection Heqr as -> ->. intros g ys ->. eapply NT; eauto.
    - injection Heqr as <- <-. discriminate. }
  eapply X; eauto.
Qed.
Theorem linked_program_call : forall main_id ms f, ordered ms -> ms <> [] -> link_interpreted main_id ms = Some f ->
  forall n s r, evaluates (icall n) ms [] (push_frame (log (PEnter 0) s)) r ->
  icall (S n) s f [] = (let '(o, s1) := r in
                        let '(o', s2) := match o with Ret _ | Abort => pop_with o s1 | _ => r end in (o', log PExit s2)).
Proof.
  intros main_id ms f O Ne E. unfold link_interpreted in E. destruct (link_code main_id ms) as [c|] eqn:Ec; [|discriminate]. injection E as <-.
  eapply linked_call_at; eauto.
Qed.

(** ** Programs made of generated modules *)

Lemma gmodule_ind' (P : gmodule -> Prop) (H : forall p deps c b, Forall P deps -> P (GModule p deps c b)) : forall g, P g.
Proof.
  fix IH 1. intros [p deps c b]. apply H. induction deps as [|d deps IHd]; constructor; [apply IH|exact IHd].
Qed.

(** [h] is [g] or a dependency of a dependency ... of [g]. *)
Inductive reaches : gmodule -> gmodule -> Prop :=
| re_self : forall g, reaches g g
| re_dep : forall g d h, In d (g_deps g) -> reaches d h -> reaches g h.

Lemma reaches_trans : forall a b c, reaches a b -> reaches b c -> reaches a c.
Proof. intros a b c Ha Hh. induction Ha as [x|x y z I Ha IHa]; auto. apply (re_dep x y); auto. Qed.

(** A path is the path of one module only. *)
Definition one_module_per_path (g : gmodule) : Prop :=
  forall a b, reaches g a -> reaches g b -> g_path a = g_path b -> a = b.
Definition paths_ok (g : gmodule) : Prop := forall a, reaches g a -> path_ok (g_path a).

Fixpoint gsize (g : gmodule) : nat := let 'GModule _ deps _ _ := g in S (list_sum (map gsize deps)).
Lemma gsize_dep : forall g d, In d (g_deps g) -> gsize d < gsize g.
Proof.
  intros [p deps c b] d I. cbn [g_deps] in I. cbn [gsize]. induction deps as [|x deps IH]; [destruct I|]. cbn [map].
  change (list_sum (gsize x :: map gsize deps)) with (gsize x + list_sum (map gsize deps)). destruct I as [->|I]; [lia|]. specialize (IH I). lia.
Qed.
Lemma gsize_reaches : forall g h, reaches g h -> gsize h <= gsize g.
Proof. induction 1 as [|g d h I _ IH]; [lia|]. pose proof (gsize_dep g d I). lia. Qed.

Fixpoint load_all (loaded : list gmodule) (deps : list gmodule) : list gmodule :=
  match deps with
  | [] => loaded
  | d :: r => load_all (load_generated loaded d) r
  end.
Lemma load_generated_eq : forall loaded g, load_generated loaded g =
  if existsb (fun m => path_eqb (g_path m) (g_path g)) loaded then loaded else load_all loaded (g_deps g) ++ [g].
Proof.
  intros loaded [p deps c b]. cbn [load_generated g_path g_deps]. destruct (existsb _ loaded); auto.
Qed.

(** What holds of the modules loaded so far. *)
Definition gordered (l : list gmodule) : Prop :=
  NoDup (map g_path l) /\ (forall a m b, l = a ++ m :: b -> forall d, In d (g_deps m) -> In d a).

Lemma gordered_snoc : forall l g, gordered l -> ~ In (g_path g) (map g_path l) -> (forall d, In d (g_deps g) -> In d l) -> gordered (l ++ [g]).
Proof.
  intros l g [N D] I G. split.
  - rewrite map_app. cbn. apply NoDup_rev in N. rewrite <- (rev_involutive (map g_path l ++ [g_path g])). apply NoDup_rev. rewrite rev_app_distr. cbn. constructor; auto. rewrite <- in_rev. auto.
  - intros a m b E d Id. destruct (exists_last (l := m :: b)) as [b' [x Eb]]; [discriminate|]. rewrite Eb in E. rewrite app_assoc in E. apply app_inj_tail in E. destruct E as [E <-].
    destruct b' as [|m' b'].
    + cbn in Eb. injection Eb as -> ->. rewrite app_nil_r in E. subst a. auto.
    + cbn in Eb. injection Eb as <- ->. apply (D a m b' E d Id).
Qed.

Lemma load_generated_spec : forall u, one_module_per_path u -> paths_ok u ->
  forall g, reaches u g -> forall loaded, gordered loaded -> (forall h, In h loaded -> reaches u h) ->
  gordered (load_generated loaded g) /\ In g (load_generated loaded g) /\
  (forall h, In h loaded -> In h (load_generated loaded g)) /\
  (forall h, In h (load_generated loaded g) -> In h loaded \/ reaches g h).
Proof.
  intros u One Pok. induction g as [p deps c b IH] using gmodule_ind'. intros R loaded O L.
  rewrite load_generated_eq. set (g := GModule p deps c b) in *.
  destruct (existsb (fun m => path_eqb (g_path m) (g_path g)) loaded) eqn:E.
  - apply existsb_exists in E. destruct E as [m [Im Em]]. apply path_eqb_eq in Em; [|apply Pok; auto|apply Pok; auto].
    assert (m = g) by (apply One; auto). subst m. auto.
  - assert (A : forall ds l, (forall d, In d ds -> In d deps) -> gordered l -> (forall h, In h l -> reaches u h) ->
      gordered (load_all l ds) /\ (forall d, In d ds -> In d (load_all l ds)) /\ (forall h, In h l -> In h (load_all l ds)) /\
      (forall h, In h (load_all l ds) -> In h l \/ exists d, In d deps /\ reaches d h)).
    { induction ds as [|d ds IHd]; intros l Sub Ol Ll; cbn [load_all].
      - split; auto. split; [intros d []|]. auto.
      - assert (Id : In d deps) by (apply Sub; left; auto). rewrite Forall_forall in IH.
        assert (Tr : forall a h, reaches u a -> reaches a h -> reaches u h).
        { intros a h. apply reaches_trans. }
        assert (Rd : reaches u d) by (apply (Tr g); auto; apply (re_dep g d); [exact Id|constructor]).
        destruct (IH d Id Rd l Ol Ll) as [O1 [I1 [K1 M1]]].
        destruct (IHd (load_generated l d)) as [O2 [I2 [K2 M2]]]; auto.
        + intros x Hx. apply Sub. right. auto.
        + intros h Hh. destruct (M1 h Hh) as [X|X]; auto. apply (Tr d); auto.
        + split; auto. split; [intros x [<-|Hx]; auto|]. split; auto.
          intros h Hh. destruct (M2 h Hh) as [X|X]; [|right; exact X]. destruct (M1 h X) as [Y|Y]; auto. right. exists d. auto. }
    destruct (A deps loaded (fun d X => X) O L) as [O1 [I1 [K1 M1]]]. change (g_deps g) with deps.
    split; [|split; [|split]].
    + apply gordered_snoc; auto. intros I. apply in_map_iff in I. destruct I as [h [Eh Ih]]. destruct (M1 h Ih) as [X|[d [Id X]]].
      * assert (Y : existsb (fun m => path_eqb (g_path m) (g_path g)) loaded = true); [|congruence].
        apply existsb_exists. exists h. split; auto. apply path_eqb_eq; auto; apply Pok; auto.
      * pose proof (gsize_dep g d Id) as S1. pose proof (gsize_reaches d h X) as S2.
        assert (Tr : forall a h, reaches u a -> reaches a h -> reaches u h).
        { intros a z. apply reaches_trans. }
        assert (h = g). { apply One; auto. apply (Tr g); auto. apply (re_dep g d); auto. }
        subst h. lia.
    + apply in_or_app. right. left. auto.
    + intros h Hh. apply in_or_app. auto.
    + intros h Hh. apply in_app_or in Hh. destruct Hh as [Hh|[<-|[]]]; [|right; constructor]. destruct (M1 h Hh) as [X|[d [Id X]]]; auto.
      right. apply (re_dep g d); auto.
Qed.

(** The modules of a program of generated modules: exactly those the main module refers to,
    each once, each after those it refers to; the main module is last. *)
Theorem generated_modules_in_order : forall g, one_module_per_path g -> paths_ok g ->
  NoDup (map g_path (load_generated [] g)) /\
  (forall a m b, load_generated [] g = a ++ m :: b -> forall d, In d (g_deps m) -> In d a) /\
  (forall h, In h (load_generated [] g) <-> reaches g h) /\
  exists l, load_generated [] g = l ++ [g].
Proof.
  intros g One Pok. destruct (load_generated_spec g One Pok g (re_self g) []) as [[N D] [I [_ M]]].
  - split; [constructor|]. intros a m b E. destruct a; discriminate.
  - intros h [].
  - split; auto. split; auto. split.
    + intros h. split; [intros H; destruct (M h H) as [[]|]; auto|]. intros R.
      assert (T : forall r x, reaches r x -> In r (load_generated [] g) -> In x (load_generated [] g)).
      { intros r x Rx. induction Rx as [|a d y Id Ry IHy]; auto. intros I0. apply IHy. apply in_split in I0. destruct I0 as [p [q E]]. rewrite E. apply in_or_app. left. apply (D p a q E d Id). }
      apply (T g); auto.
    + rewrite load_generated_eq. cbn. eauto.
Qed.

(** C32 for generated modules: the program made of them evaluates them in that order.  (The
    assertions of LinkGenerated: modules have no statics and one parameter for each
    dependency.) *)
Theorem generated_program_runs : forall main_id g, one_module_per_path g -> paths_ok g ->
  (forall h, reaches g h -> code_num_statics (c_code (g_module h)) = 0 /\ code_num_args (c_code (g_module h)) = length (g_deps h)) ->
  let ms := map g_module (load_generated [] g) in
  exists c, link_generated main_id g = Some (VFunc 0 c main_id (map module_func ms)) /\ ordered ms /\
    forall n blk s, evaluates (icall n) ms [] s (interpret (icall n) c blk (map module_func ms) [] s).
Proof.
  intros main_id g One Pok Ok ms. destruct (generated_modules_in_order g One Pok) as [N [D [M [l E]]]].
  assert (Gp : forall h, c_path (g_module h) = g_path h) by (intros []; reflexivity).
  assert (Gd : forall h, c_deps (g_module h) = map g_path (g_deps h)) by (intros []; reflexivity).
  assert (O : ordered ms).
  { subst ms. split; [|split].
    - rewrite map_map. rewrite (map_ext _ g_path) by auto. auto.
    - intros a m b Q d Id. apply map_eq_app in Q. destruct Q as [a' [r [Q [<- Q2]]]]. apply map_eq_cons in Q2. destruct Q2 as [m' [b' [-> [<- <-]]]].
      rewrite map_map, (map_ext _ g_path) by auto. rewrite Gd in Id. apply in_map_iff in Id. destruct Id as [x [<- Ix]]. apply in_map. apply (D a' m' b' Q x Ix).
    - intros m I. apply in_map_iff in I. destruct I as [h [<- I]]. apply M in I. split; [rewrite Gp; auto|].
      rewrite Gd. apply Forall_forall. intros p Ip. apply in_map_iff in Ip. destruct Ip as [x [<- Ix]]. apply Pok.
      clear -I Ix. induction I as [h|a d h Id R IH]; [apply (re_dep h x); auto; constructor|apply (re_dep a d); auto]. }
  assert (Ne : ms <> []) by (subst ms; rewrite E, map_app; intros X; destruct (map g_module l); discriminate).
  destruct (linked_program_runs main_id ms O Ne) as [c [Ec [_ R]]]. exists c. split; [|auto].
  unfold link_generated. cbv zeta.
  assert (A : forallb (fun g => (code_num_statics (c_code (g_module g)) =? 0) && (length (g_deps g) =? code_num_args (c_code (g_module g)))) (load_generated [] g) = true).
  { apply forallb_forall. intros h I. apply M in I. destruct (Ok h I) as [-> ->]. rewrite !Nat.eqb_refl. reflexivity. }
  rewrite A. change (map g_module (load_generated [] g)) with ms. rewrite Ec. subst ms. rewrite map_map. reflexivity.
Qed.

(** ** Loaded programs *)

(** The compiled modules of a loaded program (lib/compile.c FbleCompileProgram keeps the
    paths, dependencies and order) are in order, so the theorems above are about all
    programs that load. *)
Theorem loaded_programs_link : forall access parse_file search_path main fuel l files ms main_id,
  (forall f q, In q (snd (parse_file f)) -> path_ok q) -> path_ok main ->
  load access parse_file search_path fuel main = Done (Some l) files ->
  map c_path ms = map m_path l -> map c_deps ms = map m_deps l ->
  exists c, link_code main_id ms = Some c /\
    (exists ms' m, ms = ms' ++ [m] /\ c_path m = main) /\
    forall n blk s, evaluates (icall n) ms [] s (interpret (icall n) c blk (map module_func ms) [] s).
Proof.
  intros access parse_file search_path main fuel l files ms main_id Hp Hm Ld Ep Ed.
  destruct (LoadProps.loaded_program_in_order access parse_file search_path Hp main Hm fuel l files Ld) as [N [T [D [[l' [m [El Em]]] [Nd _]]]]].
  assert (Pdep : forall p ds, LoadProps.depends access parse_file search_path p = Some ds -> Forall path_ok ds).
  { intros p ds. unfold LoadProps.depends. destruct (LoadProps.source access search_path p) as [f|]; [|discriminate].
    pose proof (Hp f) as Hf. destruct (parse_file f) as [ok dd]. destruct ok; [|discriminate]. intros E. injection E as <-.
    apply Forall_forall. intros q Hq. apply Hf. auto. }
  assert (Pok : forall p, LoadProps.needed access parse_file search_path main p -> path_ok p).
  { intros p H. apply Operators_Properties.clos_rt_rtn1 in H. destruct H as [|y z [ds [Q I]] _]; auto.
    pose proof (Pdep _ _ Q) as F. rewrite Forall_forall in F. auto. }
  assert (Nth : forall i c, nth_error ms i = Some c -> exists x, nth_error l i = Some x /\ m_path x = c_path c /\ m_deps x = c_deps c).
  { intros i c Hc. pose proof (map_nth_error c_path _ _ Hc) as A. pose proof (map_nth_error c_deps _ _ Hc) as B. rewrite Ep in A. rewrite Ed in B.
    rewrite nth_error_map in A, B. destruct (nth_error l i) as [x|]; [|discriminate]. cbn in A, B. exists x. split; auto. split; congruence. }
  assert (O : ordered ms).
  { split; [rewrite Ep; exact N|]. split.
    - intros a c b E d Id. assert (Hc : nth_error ms (length a) = Some c) by (subst ms; rewrite nth_error_app2, Nat.sub_diag by lia; reflexivity).
      destruct (Nth _ _ Hc) as [x [Hx [Px Dx]]]. apply nth_error_split in Hx. destruct Hx as [l1 [l2 [E1 L1]]].
      rewrite <- Dx in Id. pose proof (T l1 x l2 E1 d Id) as I. unfold LoadProps.paths in I.
      replace (map c_path a) with (map m_path l1); auto.
      assert (Fn : forall (p q : list path), firstn (length p) (p ++ q) = p) by (intros p q; rewrite firstn_app, Nat.sub_diag, firstn_all; cbn; apply app_nil_r).
      rewrite <- (Fn (map c_path a) (map c_path (c :: b))), <- (Fn (map m_path l1) (map m_path (x :: l2))), <- !map_app, <- E, <- E1, Ep, !map_length, L1. reflexivity.
    - intros c Hc. apply In_nth_error in Hc. destruct Hc as [i Hc]. destruct (Nth _ _ Hc) as [x [Hx [Px Dx]]]. apply nth_error_In in Hx.
      rewrite <- Px, <- Dx. split; [apply Pok, Nd; unfold LoadProps.paths; apply in_map; auto|]. apply (Pdep _ _ (D x Hx)). }
  assert (Ms : exists ms' c, ms = ms' ++ [c] /\ c_path c = main).
  { destruct (@exists_last _ ms) as [ms' [c Ec]]; [intros ->; subst l; rewrite map_app in Ep; cbn in Ep; destruct (map m_path l'); discriminate|].
    exists ms', c. split; auto. subst ms l. rewrite !map_app in Ep. cbn in Ep. apply app_inj_tail in Ep. destruct Ep as [_ Q]. congruence. }
  destruct (linked_program_runs main_id ms O) as [c [Ec [_ R]]].
  { destruct Ms as [ms' [x [-> _]]]. destruct ms'; discriminate. }
  exists c. auto.
Qed.

(** ** An example: /Main% takes the values of /B% and /A%, and /B% takes that of /A%. *)
Definition nA : path := [mk_name [65%Z] Normal].
Definition nB : path := [mk_name [66%Z] Normal].
Definition nMain : path := [mk_name [77%Z] Normal].
Definition codeA : code := Code 0 0 1 0 [([], IStruct [] 0); ([], IReturn (Local 0))].
Definition codeB : code := Code 1 0 1 0 [([], IUnion 3 (Arg 0) 0); ([], IReturn (Local 0))].
Definition codeM : code := Code 2 0 1 0 [([], IStruct [Arg 0; Arg 1] 0); ([], IReturn (Local 0))].
Definition ex_ms : list cmodule := [mk_cmodule nA [] codeA 1; mk_cmodule nB [nA] codeB 2; mk_cmodule nMain [nB; nA] codeM 3].
Definition gA := GModule nA [] codeA 1.
Definition gB := GModule nB [gA] codeB 2.
Definition gM := GModule nMain [gB; gA] codeM 3.

Example ex_ordered : ordered ex_ms.
Proof.
  assert (K : forall z, (0 < z < 256)%Z -> path_ok [mk_name [z] Normal]).
  { intros z H. constructor; [|constructor]. repeat constructor; cbn; lia. }
  split; [|split].
  - repeat constructor; cbn; intuition discriminate.
  - intros a m b E d I. destruct a as [|a1 [|a2 [|a3 [|a4 a]]]]; cbn in E; try discriminate; injection E; intros; subst; cbn in *; intuition.
  - intros m [<-|[<-|[<-|[]]]]; cbn; split; repeat constructor; cbn; lia.
Qed.
Example ex_runs : exists f, link_interpreted 0 ex_ms = Some f /\
  fst (icall 9 (mk_st [] 0 []) f []) = Ret (VStruct [VUnion 3 (VStruct []); VStruct []]).
Proof. eexists. split; reflexivity. Qed.
Example ex_generated : map g_module (load_generated [] gM) = ex_ms.
Proof. reflexivity. Qed.
Example ex_one : one_module_per_path gM /\ paths_ok gM.
Proof.
  assert (A : forall h, reaches gA h -> h = gA) by (intros h H; inversion H as [|g d z I]; subst; [auto|destruct I]).
  assert (B : forall h, reaches gB h -> h = gB \/ h = gA) by (intros h H; inversion H as [|g d z I H']; subst; [auto|destruct I as [ <- |[] ]; auto]).
  assert (R : forall h, reaches gM h -> h = gM \/ h = gB \/ h = gA).
  { intros h H. inversion H as [|g d z I H']; subst; [auto|]. destruct I as [<-|[<-|[]]]; auto. }
  split.
  - intros a b Ha Hb. apply R in Ha. apply R in Hb. destruct Ha as [ -> | [ -> | -> ] ], Hb as [ -> | [ -> | -> ] ]; auto; discriminate.
  - intros a Ha. apply R in Ha. destruct Ha as [ -> | [ -> | -> ] ]; repeat constructor; cbn; lia.
Qed.
Example ex_generated_arity : forall h, reaches gM h ->
  code_num_statics (c_code (g_module h)) = 0 /\ code_num_args (c_code (g_module h)) = length (g_deps h).
Proof.
  intros h H. apply (proj1 (proj2 (proj2 (generated_modules_in_order gM (proj1 ex_one) (proj2 ex_one))))) in H.
  destruct H as [ <- | [ <- | [ <- | [] ] ] ]; auto.
Qed.
