(** * C30, C31: loading programs. *)
From Coq Require Import ZArith List Bool Lia Relations Permutation Wf_nat.
From Verif Require Import PathModel PathProps LoadModel.
Import ListNotations.

Section spec.
  Context (access : str -> bool) (parse_file : str -> bool * list path) (search_path : list str).

  (** Specification: the dependencies of a module, if it can be loaded: the first file
      found on the search path is there and parses. *)
  Definition source (p : path) : option str := find access search_path p.
  Definition depends (p : path) : option (list path) :=
    match source p with
    | Some f => let '(ok, deps) := parse_file f in if ok then Some deps else None
    | None => None
    end.
  Definition dep (p q : path) : Prop := exists deps, depends p = Some deps /\ In q deps.
  (** [q] is [p] or needed by it. *)
  Definition needed : path -> path -> Prop := clos_refl_trans path dep.
  Definition needed_strictly : path -> path -> Prop := clos_trans path dep.

  (** Something is wrong with the program: a module it needs cannot be loaded or depends
      on itself. *)
  Definition bad (main : path) : Prop :=
    exists p, needed main p /\ (depends p = None \/ needed_strictly p p).

  (** Paths read by the parser are strings of non-NUL bytes. *)
  Context (Hparse : forall f q, In q (snd (parse_file f)) -> path_ok q).
  Context (main : path) (Hmain : path_ok main).

  Notation step := (step access parse_file search_path).
  Notation enter := (enter access parse_file search_path).
  Notation run := (run access parse_file search_path).
  Notation load := (load access parse_file search_path).

  Definition paths (l : list module) : list path := map m_path l.
  Definition smods (s : lstate) : list module := map e_module (stack s).

  Lemma path_eqb_spec a b : path_ok a -> path_ok b -> (path_eqb a b = true <-> a = b).
  Proof.
    intros Ha Hb. unfold path_eqb. destruct (module_paths_equal_exact a b Ha Hb) as [r [E H]]. rewrite E. exact H.
  Qed.

  (** [l] lists each module after its dependencies. *)
  Definition dependency_order (l : list module) : Prop :=
    forall l1 m l2, l = l1 ++ m :: l2 -> forall d, In d (m_deps m) -> In d (paths l1).

  (** The entries of the stack are a chain of dependencies down to the main module. *)
  Fixpoint chain (st : list entry) : Prop :=
    match st with
    | [] => True
    | [e] => m_path (e_module e) = main
    | e :: ((e' :: _) as r) =>
      m_value (e_module e') = true /\ nth_error (m_deps (e_module e')) (deps_loaded e') = Some (m_path (e_module e)) /\ chain r
    end.

  Definition mod_ok (m : module) : Prop :=
    path_ok (m_path m) /\ Forall path_ok (m_deps m) /\
    if m_value m then depends (m_path m) = Some (m_deps m) else depends (m_path m) = None.

  Definition file_of (m : module) : list str := match source (m_path m) with Some f => [f] | None => [] end.

  Record inv (s : lstate) : Prop := {
    i_chain : chain (stack s);
    i_mods : Forall mod_ok (smods s ++ modules s);
    i_val : forall m, In m (smods s ++ modules s) -> m_value m = false -> error s = true;
    i_top : forall e, In e (stack s) -> (deps_loaded e <= length (m_deps (e_module e)))%nat /\
              (m_value (e_module e) = false -> deps_loaded e = length (m_deps (e_module e)));
    i_need : forall m, In m (smods s ++ modules s) -> needed main (m_path m);
    i_nodup : NoDup (paths (smods s ++ modules s));
    i_err : error s = true -> bad main;
    i_loaded : error s = false -> forall e, In e (stack s) ->
                 forall d, In d (firstn (deps_loaded e) (m_deps (e_module e))) -> In d (paths (modules s));
    i_topo : error s = false -> dependency_order (modules s);
    i_files : Permutation (build_deps s) (flat_map file_of (smods s ++ modules s)) }.

  Lemma topo_snoc l m : dependency_order l -> (forall d, In d (m_deps m) -> In d (paths l)) -> dependency_order (l ++ [m]).
  Proof.
    intros T H l1 x l2 E d Hd. destruct l2 as [|y l2] using rev_ind.
    - apply app_inj_tail in E. destruct E as [<- <-]. auto.
    - clear IHl2. replace (l1 ++ x :: l2 ++ [y]) with ((l1 ++ x :: l2) ++ [y]) in E by (rewrite <- app_assoc; reflexivity).
      apply app_inj_tail in E. destruct E as [-> <-]. eapply T; eauto.
  Qed.

  Lemma nth_error_firstn_S {A} (l : list A) n x : nth_error l n = Some x -> firstn (S n) l = firstn n l ++ [x].
  Proof.
    revert n. induction l as [|y l IH]; intros [|n] E; cbn in *; try discriminate.
    - congruence.
    - f_equal. apply IH; auto.
  Qed.

  Lemma chain_tail e st : st <> [] -> chain (e :: st) -> chain st.
  Proof. destruct st as [|e' st]; [congruence|]. cbn. tauto. Qed.

  Lemma chain_top e e' st n : m_path (e_module e') = m_path (e_module e) -> chain (e :: st) -> chain (mk_entry (e_module e') n :: st).
  Proof. intros E. destruct st as [|e2 st]; cbn; rewrite E; auto. Qed.

  (** Every entry of the stack leads to the top one. *)
  Lemma chain_needs st : chain st -> (forall e, In e st -> mod_ok (e_module e)) ->
    match st with [] => True | t :: _ => forall e, In e st -> needed (m_path (e_module e)) (m_path (e_module t)) end.
  Proof.
    induction st as [|t st IH]; intros C M; [exact I|]. intros e [<-|He]; [apply rt_refl|].
    destruct st as [|t' st]; [destruct He|].
    assert (C' : chain (t' :: st)) by (eapply chain_tail; [|exact C]; discriminate).
    specialize (IH C' (fun e He => M e (or_intror He)) e He).
    destruct C as [Cv [Cn _]]. eapply rt_trans; [exact IH|]. apply rt_step.
    exists (m_deps (e_module t')). split.
    - destruct (M t' (or_intror (or_introl eq_refl))) as [_ [_ H]]. rewrite Cv in H. exact H.
    - eapply nth_error_In; eauto.
  Qed.

  Definition main_last (s : lstate) : Prop := stack s = [] -> exists l m, modules s = l ++ [m] /\ m_path m = main.

  Lemma enter_inv s ref : inv s -> path_ok ref -> needed main ref -> ~ In ref (paths (smods s ++ modules s)) ->
    match stack s with
    | [] => ref = main
    | e :: _ => m_value (e_module e) = true /\ nth_error (m_deps (e_module e)) (deps_loaded e) = Some ref
    end -> inv (enter ref s).
  Proof.
    intros I Ok Nd Fr Top.
    assert (G : forall deps (ok : bool) k bd err',
      (if ok then depends ref = Some deps else depends ref = None) -> Forall path_ok deps ->
      k = (if ok then 0 else length deps)%nat -> err' = (if ok then error s else true) ->
      Permutation bd (file_of (mk_module ref deps ok) ++ build_deps s) ->
      inv (mk_l (mk_entry (mk_module ref deps ok) k :: stack s) (modules s) err' bd)).
    { intros deps ok k bd err' D F -> -> Pm. constructor; unfold smods in *; cbn [stack modules error build_deps map e_module app deps_loaded].
      - destruct (stack s) as [|e st] eqn:Es; cbn; [exact Top|]. destruct Top as [T1 T2]. split; [auto|]. split; [auto|].
        pose proof (i_chain s I) as C. rewrite Es in C. exact C.
      - constructor; [|apply (i_mods s I)]. split; [exact Ok|]. split; [exact F|]. exact D.
      - intros m [<-|Hm] Hv; [cbn in Hv; rewrite Hv; reflexivity|]. destruct ok; auto. eapply (i_val s I); eauto.
      - intros e [<-|He]; [|apply (i_top s I); auto]. cbn. destruct ok; split; try lia; try discriminate.
      - intros m [<-|Hm]; [exact Nd|apply (i_need s I); auto].
      - cbn. constructor; [exact Fr|apply (i_nodup s I)].
      - destruct ok; [apply (i_err s I)|]. intros _. exists ref. split; [exact Nd|left; exact D].
      - destruct ok; [|discriminate]. intros Er e [<-|He]; [cbn; tauto|]. apply (i_loaded s I Er); auto.
      - destruct ok; [|discriminate]. apply (i_topo s I).
      - cbn [flat_map]. rewrite Pm. apply Permutation_app_head. apply (i_files s I). }
    unfold LoadModel.enter. fold (source ref). unfold depends in G. destruct (source ref) as [f|] eqn:Ef.
    - pose proof (fun q => Hparse f q) as Hp. destruct (parse_file f) as [ok deps] eqn:Ep. cbn in Hp.
      apply G.
      + destruct ok; reflexivity.
      + apply Forall_forall. exact Hp.
      + reflexivity.
      + reflexivity.
      + unfold file_of. cbn [m_path]. rewrite Ef. apply Permutation_app_comm.
    - apply (G [] false); auto. unfold file_of. cbn [m_path]. rewrite Ef. reflexivity.
  Qed.

  Lemma perm_mid {A} (a : A) (l m : list A) : Permutation ((a :: l) ++ m) (l ++ m ++ [a]).
  Proof. cbn [app]. rewrite app_assoc. apply Permutation_cons_append. Qed.

  Lemma flat_map_perm {A B} (f : A -> list B) l l' : Permutation l l' -> Permutation (flat_map f l) (flat_map f l').
  Proof.
    intros P. induction P; cbn; auto.
    - apply Permutation_app_head; auto.
    - rewrite !app_assoc. apply Permutation_app_tail, Permutation_app_comm.
    - etransitivity; eauto.
  Qed.

  Lemma deps_ok s e d : inv s -> In e (stack s) -> In d (m_deps (e_module e)) -> path_ok d.
  Proof.
    intros I He Hd. pose proof (i_mods s I) as M. rewrite Forall_forall in M.
    destruct (M (e_module e)) as [_ [F _]]; [apply in_or_app; left; apply in_map; auto|].
    rewrite Forall_forall in F. auto.
  Qed.

  Lemma step_inv s : inv s -> stack s <> [] -> exists s', step s = Some s' /\ inv s' /\ main_last s'.
  Proof.
    intros I Hs. unfold LoadModel.step. destruct (stack s) as [|e tail] eqn:Es; [congruence|].
    pose proof (i_top s I e) as Tp. rewrite Es in Tp. specialize (Tp (or_introl eq_refl)). destruct Tp as [Tp1 Tp2].
    pose proof (i_chain s I) as C. rewrite Es in C.
    pose proof (i_mods s I) as M. pose proof M as MF. rewrite Forall_forall in MF. unfold smods in M, MF. rewrite Es in M, MF. cbn [map] in M, MF.
    assert (Ms : forall x, In x (e :: tail) -> mod_ok (e_module x)).
    { intros x Hx. apply MF. apply in_or_app. left. apply (in_map e_module (e :: tail)) in Hx. exact Hx. }
    destruct (Nat.eqb_spec (deps_loaded e) (length (m_deps (e_module e)))) as [El|El].
    - (* the module is complete *)
      eexists. split; [reflexivity|]. split.
      + assert (P : Permutation (smods s ++ modules s) (map e_module tail ++ modules s ++ [e_module e])).
        { unfold smods. rewrite Es. cbn [map]. apply perm_mid. }
        assert (Pin : forall m, In m (map e_module tail ++ modules s ++ [e_module e]) -> In m (smods s ++ modules s)).
        { intros m. apply Permutation_in. symmetry. exact P. }
        constructor; unfold smods; cbn [stack modules error build_deps].
        * destruct tail as [|e' tail]; [exact Logic.I|]. eapply chain_tail; [|exact C]. discriminate.
        * apply Forall_forall. intros m Hm. apply Pin in Hm. pose proof (i_mods s I) as M'. rewrite Forall_forall in M'. auto.
        * intros m Hm. apply (i_val s I). auto.
        * intros x Hx. apply (i_top s I). rewrite Es. right; auto.
        * intros m Hm. apply (i_need s I). auto.
        * eapply Permutation_NoDup; [|apply (i_nodup s I)]. apply Permutation_map. exact P.
        * apply (i_err s I).
        * intros Er x Hx d Hd. unfold paths. rewrite map_app. apply in_or_app. left.
          eapply (i_loaded s I Er); [rewrite Es; right; exact Hx|exact Hd].
        * intros Er. apply topo_snoc; [apply (i_topo s I Er)|]. intros d Hd.
          eapply (i_loaded s I Er e); [rewrite Es; left; auto|]. rewrite El, firstn_all. exact Hd.
        * rewrite (i_files s I). apply flat_map_perm. exact P.
      + intros Ht. cbn [stack modules] in *. subst tail. cbn in C. eauto.
    - destruct (nth_error (m_deps (e_module e)) (deps_loaded e)) as [ref|] eqn:En; [|apply nth_error_None in En; lia].
      assert (Ev : m_value (e_module e) = true).
      { destruct (m_value (e_module e)) eqn:Ev; [reflexivity|]. exfalso. apply El. apply Tp2. reflexivity. }
      assert (Hin : In ref (m_deps (e_module e))) by (eapply nth_error_In; eauto).
      assert (Rok : path_ok ref) by (apply (deps_ok s e ref I); [rewrite Es; left; auto|exact Hin]).
      assert (Dep : dep (m_path (e_module e)) ref).
      { exists (m_deps (e_module e)). split; auto. destruct (Ms e (or_introl eq_refl)) as [_ [_ H]]. rewrite Ev in H. exact H. }
      assert (Ne : needed main (m_path (e_module e))).
      { apply (i_need s I). unfold smods. rewrite Es. left. auto. }
      assert (Nr : needed main ref) by (eapply rt_trans; [exact Ne|apply rt_step; exact Dep]).
      assert (Upd : forall k err', (deps_loaded e <= k <= length (m_deps (e_module e)))%nat ->
        (err' = true -> bad main) -> (error s = true -> err' = true) ->
        (err' = false -> forall d, In d (firstn k (m_deps (e_module e))) -> In d (paths (modules s))) ->
        inv (mk_l (mk_entry (e_module e) k :: tail) (modules s) err' (build_deps s))).
      { intros k err' Hk He Hm Hl. constructor; unfold smods; cbn [stack modules error build_deps map e_module app].
        * eapply chain_top; [|exact C]. reflexivity.
        * exact M.
        * intros m Hi Hv. apply Hm. eapply (i_val s I); eauto. unfold smods. rewrite Es. exact Hi.
        * intros x [<-|Hx]; [cbn; split; [lia|congruence]|]. apply (i_top s I). rewrite Es. right; auto.
        * intros m Hi. apply (i_need s I). unfold smods. rewrite Es. exact Hi.
        * pose proof (i_nodup s I) as N. unfold smods in N. rewrite Es in N. exact N.
        * exact He.
        * intros Er x [<-|Hx]; [cbn; auto|]. assert (Er' : error s = false) by (destruct (error s); auto; rewrite Hm in Er; auto; discriminate).
          apply (i_loaded s I Er'). rewrite Es. right; auto.
        * intros Er. apply (i_topo s I). destruct (error s); auto. rewrite Hm in Er; auto; discriminate.
        * pose proof (i_files s I) as F. unfold smods in F. rewrite Es in F. exact F. }
      assert (Eqm : forall m, In m (smods s ++ modules s) -> (path_eqb ref (m_path m) = true <-> ref = m_path m)).
      { intros m Hm. apply path_eqb_spec; auto. pose proof (i_mods s I) as M'. rewrite Forall_forall in M'. apply M'; auto. }
      destruct (existsb (fun m => path_eqb ref (m_path m)) (modules s)) eqn:Ex1.
      + apply existsb_exists in Ex1. destruct Ex1 as [m [Hm Em]]. apply Eqm in Em; [|apply in_or_app; auto].
        eexists. split; [reflexivity|]. split; [|intros Q; discriminate Q].
        apply Upd; [lia|apply (i_err s I)|auto|]. intros Er d Hd. rewrite (nth_error_firstn_S _ _ _ En) in Hd.
        apply in_app_or in Hd. destruct Hd as [Hd|[<-|[]]].
        * eapply (i_loaded s I Er e); [rewrite Es; left; auto|exact Hd].
        * rewrite Em. apply in_map. exact Hm.
      + destruct (existsb (fun x => path_eqb ref (m_path (e_module x))) (e :: tail)) eqn:Ex2.
        * apply existsb_exists in Ex2. destruct Ex2 as [x [Hx Exx]].
          apply Eqm in Exx; [|apply in_or_app; left; unfold smods; rewrite Es; apply in_map; exact Hx].
          eexists. split; [reflexivity|]. split; [|intros Q; discriminate Q].
          apply Upd; [lia| |auto|discriminate]. intros _. exists ref. split; [exact Nr|]. right.
          pose proof (chain_needs (e :: tail) C Ms x Hx) as Cn. rewrite <- Exx in Cn.
          apply clos_rt_t with (y := m_path (e_module e)); [exact Cn|apply t_step; exact Dep].
        * eexists. split; [reflexivity|]. split.
          -- apply enter_inv; auto.
             ++ intros Q. unfold paths in Q. apply in_map_iff in Q. destruct Q as [m [Em Hm]]. pose proof Hm as Hm'. apply in_app_or in Hm.
                assert (Eq : path_eqb ref (m_path m) = true) by (apply Eqm; auto).
                destruct Hm as [Hm|Hm].
                ** unfold smods in Hm. rewrite Es in Hm. apply in_map_iff in Hm. destruct Hm as [x [Ex Hx]]. subst m.
                   assert (existsb (fun x => path_eqb ref (m_path (e_module x))) (e :: tail) = true) by (apply existsb_exists; eauto). congruence.
                ** assert (existsb (fun m => path_eqb ref (m_path m)) (modules s) = true) by (apply existsb_exists; eauto). congruence.
             ++ rewrite Es. auto.
          -- intros Q. unfold LoadModel.enter in Q. destruct (find access search_path ref) as [f|]; [destruct (parse_file f)|]; discriminate.
  Qed.

  Lemma start_inv : source main <> None -> inv (enter main (mk_l [] [] false [])) /\ main_last (enter main (mk_l [] [] false [])).
  Proof.
    intros Hf. split.
    - apply enter_inv; cbn; auto.
      + constructor; cbn; try tauto; try discriminate; try constructor; try (intros; tauto).
        intros _ l1 m l2 E. destruct l1; discriminate.
      + apply rt_refl.
    - intros Q. unfold LoadModel.enter in Q. destruct (find access search_path main) as [f|]; [destruct (parse_file f)|]; discriminate.
  Qed.

  Lemma run_inv fuel : forall s, inv s -> main_last s ->
    match run fuel s with
    | Running s' => inv s' /\ main_last s'
    | Done r files => exists s', inv s' /\ main_last s' /\ stack s' = [] /\ r = (if error s' then None else Some (modules s')) /\ files = build_deps s'
    | Crash => False
    end.
  Proof.
    induction fuel as [|f IH]; intros s I L; cbn [LoadModel.run]; destruct (stack s) as [|e tail] eqn:Es.
    - exists s. auto.
    - auto.
    - exists s. auto.
    - destruct (step_inv s I) as [s' [E [I' L']]]; [congruence|]. rewrite E. apply IH; auto.
  Qed.

  (** Loading never reads out of bounds, however long it runs. *)
  Theorem load_defined fuel : load fuel main <> Crash.
  Proof.
    unfold LoadModel.load. destruct (find access search_path main) as [f|] eqn:Ef; [|discriminate].
    destruct start_inv as [I L]; [unfold source; congruence|].
    pose proof (run_inv fuel _ I L) as H. intros Q. rewrite Q in H. exact H.
  Qed.

  (** In a dependency order nothing depends on itself. *)
  Definition good_modules (l : list module) : Prop :=
    NoDup (paths l) /\ dependency_order l /\ forall m, In m l -> depends (m_path m) = Some (m_deps m).

  Lemma order_closed l : good_modules l -> forall p q, In p (paths l) -> needed p q -> In q (paths l).
  Proof.
    intros [N [T D]] p q Hp H. apply clos_rt_rt1n in H. induction H as [p|p r q Hd H IH]; auto.
    apply IH. destruct Hd as [deps [Ed Hr]]. unfold paths in Hp. apply in_map_iff in Hp. destruct Hp as [m [<- Hm]].
    rewrite (D m Hm) in Ed. injection Ed as <-. apply in_split in Hm. destruct Hm as [l1 [l2 ->]].
    unfold paths. rewrite map_app. apply in_or_app. left. eapply T; eauto.
  Qed.

  (** Before [p] in the order. *)
  Lemma order_before l : good_modules l -> forall p q, needed_strictly p q -> In p (paths l) ->
    exists l1 m l2, l = l1 ++ m :: l2 /\ m_path m = p /\ In q (paths l1).
  Proof.
    intros G. pose proof G as [N [T D]]. intros p q H. apply clos_trans_t1n in H. induction H as [p q Hd|p r q Hd H IH]; intros Hp.
    - destruct Hd as [deps [Ed Hr]]. unfold paths in Hp. apply in_map_iff in Hp. destruct Hp as [m [<- Hm]].
      rewrite (D m Hm) in Ed. injection Ed as <-. apply in_split in Hm. destruct Hm as [l1 [l2 ->]].
      exists l1, m, l2. split; [reflexivity|]. split; [reflexivity|]. eapply T; eauto.
    - assert (Hp' := Hp). destruct Hd as [deps [Ed Hr]]. unfold paths in Hp. apply in_map_iff in Hp. destruct Hp as [m [<- Hm]].
      rewrite (D m Hm) in Ed. injection Ed as <-. apply in_split in Hm. destruct Hm as [l1 [l2 El]].
      assert (Hr1 : In r (paths l1)) by (eapply T; eauto).
      destruct IH as [k1 [n [k2 [Ek [En Hq]]]]].
      { rewrite El. unfold paths. rewrite map_app. apply in_or_app. auto. }
      exists l1, m, l2. split; [exact El|]. split; [reflexivity|].
      (* n is within l1, so everything before n is *)
      unfold paths in Hr1. apply in_map_iff in Hr1. destruct Hr1 as [n' [En' Hn']]. apply in_split in Hn'. destruct Hn' as [j1 [j2 El1]].
      assert (E2 : k1 ++ n :: k2 = j1 ++ n' :: (j2 ++ m :: l2)).
      { rewrite <- Ek, El, El1, <- app_assoc. reflexivity. }
      assert (k1 = j1).
      { clear -E2 En En' N Ek. subst l. assert (N1 : NoDup (paths (k1 ++ n :: k2))) by exact N. clear N.
        revert j1 E2 N1. induction k1 as [|a k1 IH]; intros [|b j1] E2 N1; auto; cbn in *.
        - injection E2 as -> E2. exfalso. rewrite E2 in N1. apply NoDup_cons_iff in N1. destruct N1 as [N1 _]. apply N1.
          unfold paths. rewrite map_app. apply in_or_app. right. left. congruence.
        - injection E2 as -> E2. exfalso. apply NoDup_cons_iff in N1. destruct N1 as [N1 _]. apply N1.
          unfold paths. rewrite map_app. apply in_or_app. right. left. congruence.
        - injection E2 as -> E2. f_equal. apply IH; auto. apply NoDup_cons_iff in N1. tauto. }
      subst k1. rewrite El1. unfold paths. rewrite map_app. apply in_or_app. left. exact Hq.
  Qed.

  Lemma order_acyclic l : good_modules l -> forall p, In p (paths l) -> ~ needed_strictly p p.
  Proof.
    intros G p Hp H. destruct (order_before l G p p H Hp) as [l1 [m [l2 [E [Em Hq]]]]].
    destruct G as [N _]. rewrite E in N. unfold paths in N. rewrite map_app in N. cbn in N.
    apply NoDup_remove_2 in N. apply N. apply in_or_app. left. rewrite Em. exact Hq.
  Qed.

  Lemma done_good fuel l files : load fuel main = Done (Some l) files ->
    good_modules l /\ (exists l' m, l = l' ++ [m] /\ m_path m = main) /\
    (forall m, In m l -> needed main (m_path m) /\ m_value m = true) /\ Permutation files (flat_map file_of l).
  Proof.
    unfold LoadModel.load. destruct (find access search_path main) as [f|] eqn:Ef; [|discriminate].
    destruct start_inv as [I L]; [unfold source; congruence|].
    pose proof (run_inv fuel _ I L) as H. intros Q. rewrite Q in H.
    destruct H as [s [Is [Ls [Ss [Er Fl]]]]]. destruct (error s) eqn:Ee; [discriminate|]. injection Er as ->.
    assert (Ms : smods s = []) by (unfold smods; rewrite Ss; reflexivity).
    assert (V : forall m, In m (modules s) -> m_value m = true).
    { intros m Hm. destruct (m_value m) eqn:Ev; auto. pose proof (i_val s Is m) as Q1. rewrite Ms in Q1. specialize (Q1 Hm Ev). congruence. }
    split; [split; [|split]|].
    - pose proof (i_nodup s Is) as N. rewrite Ms in N. exact N.
    - apply (i_topo s Is Ee).
    - intros m Hm. pose proof (i_mods s Is) as M. rewrite Ms in M. cbn in M. rewrite Forall_forall in M.
      destruct (M m Hm) as [_ [_ D]]. rewrite (V m Hm) in D. exact D.
    - split; [apply Ls; auto|]. split.
      + intros m Hm. split; [|auto]. apply (i_need s Is). rewrite Ms. exact Hm.
      + rewrite Fl. pose proof (i_files s Is) as F. rewrite Ms in F. exact F.
  Qed.

  (** C30: the modules of a loaded program: each once, after all it depends on, with the
      dependencies its source names; the requested module is last; exactly the modules it
      needs are listed; the build dependencies are exactly their source files. *)
  Theorem loaded_program_in_order fuel l files : load fuel main = Done (Some l) files ->
    NoDup (paths l) /\ dependency_order l /\
    (forall m, In m l -> depends (m_path m) = Some (m_deps m)) /\
    (exists l' m, l = l' ++ [m] /\ m_path m = main) /\
    (forall p, In p (paths l) <-> needed main p) /\
    (exists fs, map (fun m => source (m_path m)) l = map Some fs /\ Permutation files fs).
  Proof.
    intros H. destruct (done_good fuel l files H) as [G [Lm [Nd Fl]]]. pose proof G as [N [T D]].
    split; [exact N|]. split; [exact T|]. split; [exact D|]. split; [exact Lm|]. split.
    - intros p. split.
      + intros Hp. unfold paths in Hp. apply in_map_iff in Hp. destruct Hp as [m [<- Hm]]. apply Nd; auto.
      + intros Hn. eapply order_closed; [exact G| |exact Hn]. destruct Lm as [l' [m [-> <-]]].
        unfold paths. rewrite map_app. apply in_or_app. right. left. auto.
    - exists (flat_map file_of l). split; [|exact Fl]. clear -D. induction l as [|m l IH]; [reflexivity|]. cbn [map flat_map].
      rewrite map_app, IH by (intros x Hx; apply D; right; auto).
      assert (Dm := D m (or_introl eq_refl)). unfold depends in Dm. unfold file_of.
      destruct (source (m_path m)) as [f|]; [reflexivity|discriminate].
  Qed.

  (** C31, the outcome: NULL exactly for the programs that are bad. *)
  Theorem load_fails_exactly_for_bad fuel r files : load fuel main = Done r files ->
    (r = None <-> bad main).
  Proof.
    intros H. destruct r as [l|].
    - split; [discriminate|]. intros [p [Hn Hb]]. exfalso.
      destruct (done_good fuel l files H) as [G [Lm [Nd Fl]]].
      assert (Hp : In p (paths l)).
      { eapply order_closed; [exact G| |exact Hn]. destruct Lm as [l' [m [-> <-]]].
        unfold paths. rewrite map_app. apply in_or_app. right. left. auto. }
      destruct Hb as [Hb|Hb]; [|eapply order_acyclic; eauto].
      unfold paths in Hp. apply in_map_iff in Hp. destruct Hp as [m [<- Hm]]. destruct G as [_ [_ D]]. rewrite (D m Hm) in Hb. discriminate.
    - split; [intros _|reflexivity]. revert H. unfold LoadModel.load. destruct (find access search_path main) as [f|] eqn:Ef.
      + destruct start_inv as [I L]; [unfold source; congruence|].
        pose proof (run_inv fuel _ I L) as H. intros Q. rewrite Q in H.
        destruct H as [s [Is [Ls [Ss [Er Fl]]]]]. destruct (error s) eqn:Ee; [|discriminate]. apply (i_err s Is Ee).
      + intros _. exists main. split; [apply rt_refl|]. left. unfold depends, source. rewrite Ef. reflexivity.
  Qed.

  (** C31, termination: if the program needs finitely many modules, loading it ends. *)
  Context (U : list path) (HU : forall p, needed main p -> In p U).

  Definition rank (e : entry) : nat := (length (m_deps (e_module e)) - deps_loaded e)%nat.
  Definition sum (l : list nat) : nat := fold_right Nat.add 0%nat l.

  Lemma bound s : inv s -> (length (smods s ++ modules s) <= length U)%nat.
  Proof.
    intros I. rewrite <- (map_length m_path). apply NoDup_incl_length; [apply (i_nodup s I)|].
    intros p Hp. apply in_map_iff in Hp. destruct Hp as [m [<- Hm]]. apply HU, (i_need s I); auto.
  Qed.

  Lemma run_ends : forall n k s, inv s -> main_last s ->
    (length U - length (smods s ++ modules s) <= n)%nat ->
    (sum (map rank (stack s)) + length (stack s) <= k)%nat ->
    exists fuel r files, run fuel s = Done r files.
  Proof.
    induction n as [n IHn] using lt_wf_ind. induction k as [k IHk] using lt_wf_ind. intros s I L Hn Hk.
    destruct (stack s) as [|e tail] eqn:Es.
    - exists 0%nat. cbn [LoadModel.run]. rewrite Es. eauto.
    - destruct (step_inv s I) as [s' [E [I' L']]]; [congruence|].
      assert (R : exists fuel r files, run fuel s' = Done r files).
      { pose proof (bound s I) as B. pose proof (bound s' I') as B'.
        assert (Hlen : length (smods s) = S (length tail)) by (unfold smods; rewrite Es; cbn; rewrite map_length; auto).
        rewrite !app_length in *. cbn [map rank sum fold_right length] in Hk. fold (sum (map rank tail)) in Hk.
        unfold LoadModel.step in E. rewrite Es in E.
        pose proof (i_top s I e) as Tp. rewrite Es in Tp. specialize (Tp (or_introl eq_refl)). destruct Tp as [Tp1 Tp2].
        destruct (Nat.eqb_spec (deps_loaded e) (length (m_deps (e_module e)))) as [El|El].
        - injection E as <-. eapply (IHk (sum (map rank tail) + length tail)%nat); [lia|exact I'|exact L'| |cbn [stack]; lia].
          unfold smods. cbn [stack modules]. rewrite !app_length, map_length. cbn [length]. lia.
        - destruct (nth_error (m_deps (e_module e)) (deps_loaded e)) as [ref|] eqn:En; [|discriminate].
          destruct (existsb (fun m => path_eqb ref (m_path m)) (modules s)).
          + injection E as <-. apply (IHk (rank e - 1 + sum (map rank tail) + S (length tail))%nat);
              [unfold rank in *; lia|exact I'|exact L'| |].
            * unfold smods in *. cbn [stack modules map]. rewrite app_length. cbn [length]. rewrite map_length. lia.
            * cbn [stack map sum fold_right length]. fold (sum (map rank tail)). unfold rank in *. cbn [deps_loaded e_module]. lia.
          + destruct (existsb (fun x => path_eqb ref (m_path (e_module x))) (e :: tail)).
            * injection E as <-. apply (IHk (sum (map rank tail) + S (length tail))%nat);
                [unfold rank in *; lia|exact I'|exact L'| |].
              -- unfold smods in *. cbn [stack modules map]. rewrite app_length. cbn [length]. rewrite map_length. lia.
              -- cbn [stack map sum fold_right length]. fold (sum (map rank tail)). unfold rank in *. cbn [deps_loaded e_module]. lia.
            * injection E as <-.
              assert (Hl : length (smods (enter ref s)) = S (length (smods s)) /\ modules (enter ref s) = modules s).
              { unfold LoadModel.enter, smods. destruct (find access search_path ref) as [f|]; [destruct (parse_file f)|]; cbn; auto. }
              destruct Hl as [Hl1 Hl2]. rewrite Hl1, Hl2 in *.
              eapply (IHn (length U - (S (length (smods s)) + length (modules s)))%nat).
              -- lia.
              -- exact I'.
              -- exact L'.
              -- rewrite app_length, Hl1, Hl2. lia.
              -- reflexivity. }
      destruct R as [fuel [r [files R]]]. exists (S fuel), r, files. cbn [LoadModel.run]. rewrite Es, E. exact R.
  Qed.

  Theorem load_terminates : exists fuel r files, load fuel main = Done r files.
  Proof.
    unfold LoadModel.load. destruct (find access search_path main) as [f|] eqn:Ef; [|exists 0%nat; eauto].
    destruct start_inv as [I L]; [unfold source; congruence|].
    eapply run_ends; [exact I|exact L|reflexivity|reflexivity].
  Qed.
End spec.

(** ** C43: looking up files *)

Lemma filename_len_eq p : forall k, fold_left (fun len n => (len + (1 + length (n_str n)))%nat) p k = (k + length (flat_map (fun n => slash :: n_str n) p))%nat.
Proof.
  induction p as [|n p IH]; intros k; cbn [fold_left flat_map]; [cbn; lia|].
  rewrite IH. cbn [app length]. rewrite app_length. lia.
Qed.

(** The array for the file name holds exactly the text and its NUL. *)
Theorem filename_fits root p : filename_len root p = S (length (filename root p)).
Proof. unfold filename_len, filename. rewrite filename_len_eq, !app_length. lia. Qed.

(** Different module paths are looked for in different files of a root directory (as long
    as they are looked for at all). *)
Definition no_slash (p : path) : Prop := Forall (fun n => ~ In slash (n_str n)) p.

Lemma component_inj a b ra rb : ~ In slash a -> ~ In slash b ->
  (ra = [] \/ exists r, ra = slash :: r) -> (rb = [] \/ exists r, rb = slash :: r) ->
  a ++ ra = b ++ rb -> a = b /\ ra = rb.
Proof.
  revert b. induction a as [|x a IH]; intros b Ha Hb Ra Rb E; destruct b as [|y b]; cbn in E.
  - auto.
  - destruct Ra as [-> | [r ->]]; [discriminate|]. injection E as <- _. exfalso. apply Hb. left. auto.
  - destruct Rb as [-> | [r ->]]; [discriminate|]. injection E as -> _. exfalso. apply Ha. left. auto.
  - injection E as -> E. destruct (IH b) as [-> ->]; auto.
    + intros Q. apply Ha. right. auto.
    + intros Q. apply Hb. right. auto.
Qed.

Lemma components_inj p q : no_slash p -> no_slash q -> Forall (fun n => n_space n = Normal) p -> Forall (fun n => n_space n = Normal) q ->
  flat_map (fun n => slash :: n_str n) p = flat_map (fun n => slash :: n_str n) q -> p = q.
Proof.
  assert (Sh : forall p : path, flat_map (fun n => slash :: n_str n) p = [] \/ exists r, flat_map (fun n => slash :: n_str n) p = slash :: r).
  { intros [|n p']; cbn; eauto. }
  revert q. induction p as [|n p IH]; intros [|m q] Hp Hq Sp Sq E; cbn in E; try discriminate; auto.
  injection E as E. inversion Hp; inversion Hq; inversion Sp; inversion Sq; subst.
  destruct (component_inj _ _ _ _ H1 H5 (Sh p) (Sh q) E) as [E1 E2]. f_equal; [|apply IH; auto].
  destruct n as [a sa], m as [b sb]. cbn in *. congruence.
Qed.

Theorem lookup_files_distinct access root p q f :
  Forall (fun n => n_space n = Normal) p -> Forall (fun n => n_space n = Normal) q ->
  find_at access root p = Some f -> find_at access root q = Some f -> p = q.
Proof.
  intros Sp Sq Ep Eq. unfold find_at in *.
  assert (NS : forall p, existsb (fun n => existsb (Z.eqb slash) (n_str n)) p = false -> no_slash p).
  { intros p' H. apply Forall_forall. intros n Hn Hs.
    assert (existsb (fun n => existsb (Z.eqb slash) (n_str n)) p' = true); [|congruence].
    apply existsb_exists. exists n. split; auto. apply existsb_exists. exists slash. split; [auto|apply Z.eqb_refl]. }
  destruct (existsb _ p) eqn:E1; [discriminate|]. destruct (existsb _ q) eqn:E2; [discriminate|].
  destruct (access (filename root p)); [|discriminate]. destruct (access (filename root q)); [|discriminate].
  injection Ep as <-. injection Eq as E. unfold filename in E. apply app_inv_head in E. apply app_inv_tail in E.
  apply components_inj; auto.
Qed.

(** The first root directory with the module wins. *)
Theorem find_first access sp p f : find access sp p = Some f <->
  exists before root after, sp = before ++ root :: after /\ find_at access root p = Some f /\
    forall r, In r before -> find_at access r p = None.
Proof.
  induction sp as [|r0 sp IH]; cbn [find].
  - split; [discriminate|]. intros [b [r [a [E _]]]]. destruct b; discriminate.
  - destruct (find_at access r0 p) as [f0|] eqn:E0.
    + split.
      * intros [= <-]. exists [], r0, sp. repeat split; auto. intros r [].
      * intros [[|b0 b] [r [a [E [Ef Hb]]]]]; cbn in E; injection E as <- ->; [congruence|].
        rewrite Hb in E0 by (left; auto). discriminate.
    + rewrite IH. split.
      * intros [b [r [a [-> [Ef Hb]]]]]. exists (r0 :: b), r, a. repeat split; auto. intros x [<-|Hx]; auto.
      * intros [[|b0 b] [r [a [E [Ef Hb]]]]]; cbn in E; injection E as <- ->; [congruence|].
        exists b, r, a. repeat split; auto. intros x Hx. apply Hb. right; auto.
Qed.

(** Specification: the text of a list of directories separated by colons. *)
Fixpoint join (ds : list str) : str :=
  match ds with [] => [] | [d] => d | d :: r => d ++ colon :: join r end.

Definition first_in (f : str -> option str) (ds : list str) : option str :=
  fold_right (fun d r => match f d with Some x => Some x | None => r end) None ds.

(** FbleFindPackage looks in the directories of FBLE_PACKAGE_PATH, in order, then in the
    default directory.  A single colon at the end is ignored. *)
Lemma find_in_path_spec access package : forall rest dir, ~ In colon dir ->
  exists ds, Forall (fun d => ~ In colon d) ds /\ ds <> [] /\
    (rev dir ++ rest = join ds \/ rev dir ++ rest = join ds ++ [colon]) /\
    find_in_package_path access package dir rest = first_in (find_package_at access package) ds.
Proof.
  induction rest as [|c r IH]; intros dir Hd; cbn [find_in_package_path].
  - exists [rev dir]. repeat split.
    + constructor; [|constructor]. rewrite <- in_rev. auto.
    + discriminate.
    + left. cbn. apply app_nil_r.
    + cbn. destruct (find_package_at access package (rev dir)); reflexivity.
  - destruct (Z.eqb_spec c colon) as [->|Hc].
    + destruct r as [|c' r].
      * exists [rev dir]. split; [constructor; [|constructor]; rewrite <- in_rev; auto|].
        split; [discriminate|]. split; [right; reflexivity|]. cbn. destruct (find_package_at access package (rev dir)); reflexivity.
      * destruct (IH []) as [ds [H1 [H2 [H3 H4]]]]; [intros []|]. cbn [rev app] in H3.
        exists (rev dir :: ds). split; [constructor; [rewrite <- in_rev; auto|auto]|]. split; [discriminate|]. split.
        -- assert (J : join (rev dir :: ds) = rev dir ++ colon :: join ds) by (destruct ds; [congruence|reflexivity]).
           rewrite J. destruct H3 as [H3|H3]; rewrite H3; [left; reflexivity|right].
           rewrite <- app_assoc. reflexivity.
        -- cbn [first_in fold_right]. destruct (find_package_at access package (rev dir)); [reflexivity|]. exact H4.
    + destruct (IH (c :: dir)) as [ds [H1 [H2 [H3 H4]]]].
      { intros [Q|Q]; auto. }
      exists ds. split; auto. split; auto. split; auto. cbn [rev] in H3. rewrite <- app_assoc in H3. exact H3.
Qed.

Theorem find_package_first access package env default : exists ds,
  Forall (fun d => ~ In colon d) ds /\ ds <> [] /\ (env = join ds \/ env = join ds ++ [colon]) /\
  find_package access package (Some env) default = first_in (find_package_at access package) (ds ++ [default]).
Proof.
  destruct (find_in_path_spec access package env []) as [ds [H1 [H2 [H3 H4]]]]; [intros []|].
  exists ds. repeat split; auto. unfold find_package. rewrite H4. unfold first_in. rewrite fold_right_app. cbn.
  assert (G : forall o, match fold_right (fun d r => match find_package_at access package d with Some x => Some x | None => r end) None ds with
                 | Some f => Some f | None => o end
     = fold_right (fun d r => match find_package_at access package d with Some x => Some x | None => r end) o ds).
  { intros o. clear. induction ds as [|d ds IH]; cbn; [reflexivity|]. destruct (find_package_at access package d); auto. }
  rewrite G. destruct (find_package_at access package default); reflexivity.
Qed.

(** An example: A needs B and C, both need D; and a program with a cycle. *)
Definition nm (c : Z) : path := [mk_name [c] Normal].
Definition dir : str := [46%Z].
Definition ex_access (f : str) : bool := true.
Definition ex_parse (deps : Z -> list path) (f : str) : bool * list path :=
  (true, deps (nth 2 f 0%Z)).
Definition diamond (c : Z) : list path :=
  if (c =? 65)%Z then [nm 66; nm 67] else if (c =? 66)%Z then [nm 68] else if (c =? 67)%Z then [nm 68] else [].
Definition cyclic (c : Z) : list path := if (c =? 65)%Z then [nm 66] else [nm 65].

Example diamond_loads : exists l files, load ex_access (ex_parse diamond) [dir] 20 (nm 65) = Done (Some l) files /\
  paths l = [nm 68; nm 66; nm 67; nm 65].
Proof. eexists. eexists. split; [reflexivity|reflexivity]. Qed.
Example cycle_rejected : exists files, load ex_access (ex_parse cyclic) [dir] 20 (nm 65) = Done None files.
Proof. eexists. reflexivity. Qed.
Example example_hypotheses : (forall f q, In q (snd (ex_parse diamond f)) -> path_ok q) /\ path_ok (nm 65) /\
  exists U, forall p, needed ex_access (ex_parse diamond) [dir] (nm 65) p -> In p U.
Proof.
  assert (D : forall c q, In q (diamond c) -> q = nm 66 \/ q = nm 67 \/ q = nm 68).
  { intros c q. unfold diamond. destruct (c =? 65)%Z; [cbn; intuition|]. destruct (c =? 66)%Z; [cbn; intuition|].
    destruct (c =? 67)%Z; cbn; intuition. }
  assert (Ok : forall c, (0 < c < 256)%Z -> path_ok (nm c)) by (intros c Hc; repeat constructor; cbn; tauto).
  split; [|split].
  - intros f q H. cbn in H. apply D in H. destruct H as [-> | [-> | ->]]; apply Ok; lia.
  - apply Ok; lia.
  - exists [nm 65; nm 66; nm 67; nm 68]. intros p H. apply clos_rt_rtn1 in H. induction H as [|p q Hd H IH]; [left; auto|].
    destruct Hd as [deps [E Hq]]. unfold depends in E. destruct (source ex_access [dir] p) as [f|]; [|discriminate].
    cbn in E. injection E as <-. apply D in Hq. destruct Hq as [-> | [-> | ->]]; cbn; auto.
Qed.
