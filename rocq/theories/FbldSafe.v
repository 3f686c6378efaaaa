(** * The commands of the fbld evaluator use memory correctly: lemmas. *)
From Coq Require Import ZArith List Arith Lia Bool Permutation.
From Verif Require Import FbldModel FbldMem.
Import ListNotations.
Local Open Scope list_scope.
Notation length := List.length.

(** ** Growing: what was NULL may have been filled in *)
Definition wopt (p q : option nat) : Prop := p = None \/ p = q.
Lemma wopt_refl : forall p, wopt p p. Proof. right. auto. Qed.
Lemma wopts_refl : forall l, Forall2 wopt l l. Proof. intros l. induction l; constructor; auto. apply wopt_refl. Qed.
Lemma wopt_trans : forall p q t, wopt p q -> wopt q t -> wopt p t.
Proof. unfold wopt. intuition congruence. Qed.
Lemma wopts_trans : forall l m k, Forall2 wopt l m -> Forall2 wopt m k -> Forall2 wopt l k.
Proof. intros l m k A. revert k. induction A; intros k B; inversion B; subst; constructor; eauto using wopt_trans. Qed.
Lemma wopts_in : forall l m a, Forall2 wopt l m -> In (Some a) l -> In (Some a) m.
Proof.
  intros l m a F. induction F as [|x y l m W F IH]; intros I; [destruct I|]. destruct I as [->|I]; [|right; auto].
  destruct W as [W|W]; [discriminate|left; auto].
Qed.
Definition gnode (n n' : node) : Prop := n_tag n' = n_tag n /\ n_text n' = n_text n /\ Forall2 wopt (n_kids n) (n_kids n').
Definition genv (n n' : enode) : Prop := e_name n' = e_name n /\ e_args n' = e_args n /\ e_next n' = e_next n /\ wopt (e_body n) (e_body n').
Record grow (h h' : heap) : Prop := {
  g_nm : nm h <= nm h'; g_ne : ne h <= ne h';
  g_m : forall a n', a < nm h -> mh h' a = Some n' -> exists n, mh h a = Some n /\ gnode n n';
  g_e : forall e n', e < ne h -> eh h' e = Some n' -> exists n, eh h e = Some n /\ genv n n' }.
Lemma refs_eq : forall l m, Forall2 ref_opt l m -> l = m.
Proof. intros l m F. induction F; auto. unfold ref_opt in *. congruence. Qed.
Lemma sub_grow : forall h h', sub h h' -> grow h h'.
Proof.
  intros h h' [A B C D]. constructor; auto.
  - intros a n' L H. destruct (C a n' L H) as [n [H' [E1 [E2 E3]]]]. exists n. split; auto. apply refs_eq in E3. repeat split; auto. rewrite E3. apply wopts_refl.
  - intros a n' L H. destruct (D a n' L H) as [n [H' [E1 [E2 [E3 E4]]]]]. exists n. split; auto. unfold ref_opt in E4. repeat split; auto. rewrite E4. apply wopt_refl.
Qed.
Lemma grow_refl : forall h, grow h h. Proof. intros h. apply sub_grow, sub_refl. Qed.
Lemma grow_trans : forall a b c, grow a b -> grow b c -> grow a c.
Proof.
  intros a b c [A1 A2 A3 A4] [B1 B2 B3 B4]. constructor; try lia.
  - intros x n L H. destruct (B3 x n ltac:(lia) H) as [n1 [H1 [E1 [E2 E3]]]]. destruct (A3 x n1 L H1) as [n0 [H0 [F1 [F2 F3]]]].
    exists n0. split; auto. repeat split; try congruence. eapply wopts_trans; eauto.
  - intros x n L H. destruct (B4 x n ltac:(lia) H) as [n1 [H1 [E1 [E2 [E3 E4]]]]]. destruct (A4 x n1 L H1) as [n0 [H0 [F1 [F2 [F3 F4]]]]].
    exists n0. split; auto. repeat split; try congruence. eapply wopt_trans; eauto.
Qed.

(** ** What is reachable from the markups [ms] and the environments [es] *)
Inductive eheld (h : heap) (es : list (option nat)) : nat -> Prop :=
| eh_root e : In (Some e) es -> eheld h es e
| eh_next e n e' : eheld h es e -> eh h e = Some n -> e_next n = Some e' -> eheld h es e'.
Inductive held (h : heap) (ms es : list (option nat)) : nat -> Prop :=
| h_root a : In (Some a) ms -> held h ms es a
| h_kid a n b : held h ms es a -> mh h a = Some n -> In (Some b) (n_kids n) -> held h ms es b
| h_body e n b : eheld h es e -> eh h e = Some n -> e_body n = Some b -> held h ms es b.

Definition covers (r : nat -> nat) (l : list (option nat)) : Prop := forall a, In (Some a) l -> 0 < r a.
Lemma eheld_live : forall h r re es e, inv h r re -> covers re es -> eheld h es e -> exists n, eh h e = Some n.
Proof. intros h r re es e I C H. induction H; [eapply elive_r; eauto|eapply live_next; eauto]. Qed.
Lemma held_live : forall h r re ms es a, inv h r re -> covers r ms -> covers re es -> held h ms es a -> exists n, mh h a = Some n.
Proof.
  intros h r re ms es a I C D H. induction H; [eapply live_r; eauto|eapply live_kid; eauto|].
  eapply live_body; eauto.
Qed.
Lemma eheld_grow : forall h h' r re r' re' es es' e, inv h r re -> inv h' r' re' -> covers re es -> covers re' es' -> grow h h' ->
  (forall e, In (Some e) es -> In (Some e) es') -> eheld h es e -> eheld h' es' e.
Proof.
  intros h h' r re r' re' es es' e I J C D G W H. induction H as [e H|e n e' H IH Hn N]; [apply eh_root; auto|].
  destruct (eheld_live _ _ _ _ _ J D IH) as [n' Hn']. destruct (i_e _ _ _ I _ _ Hn) as [L _].
  destruct (g_e _ _ G e n' L Hn') as [n0 [H0 [_ [_ [E _]]]]]. rewrite Hn in H0. injection H0 as <-. eapply eh_next; eauto. congruence.
Qed.
Lemma held_grow : forall h h' r re r' re' ms ms' es es' a, inv h r re -> inv h' r' re' ->
  covers r ms -> covers re es -> covers r' ms' -> covers re' es' -> grow h h' ->
  (forall a, In (Some a) ms -> In (Some a) ms') -> (forall e, In (Some e) es -> In (Some e) es') -> held h ms es a -> held h' ms' es' a.
Proof.
  intros h h' r re r' re' ms ms' es es' a I J C D C' D' G W W' H. induction H as [a H|a n b H IH Hn N|e n b H Hn N]; [apply h_root; auto| |].
  - destruct (held_live _ _ _ _ _ _ J C' D' IH) as [n' Hn']. destruct (i_m _ _ _ I _ _ Hn) as [L _].
    destruct (g_m _ _ G a n' L Hn') as [n0 [H0 [_ [_ E]]]]. rewrite Hn in H0. injection H0 as <-. eapply h_kid; eauto. eapply wopts_in; eauto.
  - pose proof (eheld_grow _ _ _ _ _ _ _ _ _ I J D D' G W' H) as K.
    destruct (eheld_live _ _ _ _ _ J D' K) as [n' Hn']. destruct (i_e _ _ _ I _ _ Hn) as [L _].
    destruct (g_e _ _ G e n' L Hn') as [n0 [H0 [_ [_ [_ E]]]]]. rewrite Hn in H0. injection H0 as <-. eapply h_body; eauto.
    destruct E as [E|E]; congruence.
Qed.

(** ** Commands *)
Definition size (k : kind) : nat :=
  match k with KEval | KError | KHead | KTail => 1 | KPlain => 2 | KLet => 3 | KDefine | KIf => 4 end.
Definition has_env (k : kind) : bool := match k with KError | KHead | KTail => false | _ => true end.
Definition shaped (k : kind) (ms : list (option nat)) (env : option nat) : Prop := length ms = size k /\ (has_env k = false -> env = None).
Definition marks (k : list cmd) : list (option nat) := flat_map c_marks k.
Definition envs (k : list cmd) : list (option nat) := map c_env k.

(** [d] can be assigned to as long as the commands [k] are there ... *)
Definition anchor (h : heap) (p : option nat) (k : list cmd) (d : dest) : Prop :=
  match d with
  | DKid a _ => held h (p :: marks k) (envs k) a
  | DBody e => eheld h (envs k) e
  | DResult | DField _ _ => True
  end.
(** ... and is NULL. *)
Definition hole (h : heap) (p : option nat) (k : list cmd) (d : dest) : Prop :=
  match d with
  | DResult => p = None
  | DField id i => exists c, In c k /\ c_id c = id /\ nth_error (c_marks c) i = Some None
  | DKid a i => exists n, mh h a = Some n /\ nth_error (n_kids n) i = Some None
  | DBody e => exists n, eh h e = Some n /\ e_body n = None
  end.
Definition good (h : heap) (p : option nat) (k : list cmd) (d : dest) : Prop := anchor h p k d /\ hole h p k d.
Fixpoint stack_good (h : heap) (p : option nat) (k : list cmd) : Prop :=
  match k with [] => True | c :: r => good h p r (c_dest c) /\ stack_good h p r end.

Definition frame (c c' : cmd) : Prop :=
  c_id c' = c_id c /\ c_dest c' = c_dest c /\ c_kind c' = c_kind c /\ c_env c' = c_env c /\ Forall2 wopt (c_marks c) (c_marks c').
Lemma frame_refl : forall c, frame c c. Proof. intros c. repeat split; auto. apply wopts_refl. Qed.
Lemma frames_refl : forall k, Forall2 frame k k. Proof. intros k. induction k; constructor; auto. apply frame_refl. Qed.
Lemma frame_trans : forall a b c, frame a b -> frame b c -> frame a c.
Proof. intros a b c [A1 [A2 [A3 [A4 A5]]]] [B1 [B2 [B3 [B4 B5]]]]. repeat split; try congruence. eapply wopts_trans; eauto. Qed.
Lemma frames_trans : forall l m k, Forall2 frame l m -> Forall2 frame m k -> Forall2 frame l k.
Proof. intros l m k A. revert k. induction A; intros k B; inversion B; subst; constructor; eauto using frame_trans. Qed.
Lemma frames_marks : forall k k' a, Forall2 frame k k' -> In (Some a) (marks k) -> In (Some a) (marks k').
Proof.
  intros k k' a F. induction F as [|c c' k k' [_ [_ [_ [_ W]]]] F IH]; cbn; auto. rewrite !in_app_iff. intros [I|I]; auto. left. eapply wopts_in; eauto.
Qed.
Lemma frames_envs : forall k k', Forall2 frame k k' -> envs k' = envs k.
Proof. unfold envs. intros k k' F. induction F as [|c c' k k' [_ [_ [_ [E _]]]] F IH]; cbn; auto. congruence. Qed.
Lemma frames_ids : forall k k', Forall2 frame k k' -> map c_id k' = map c_id k.
Proof. intros k k' F. induction F as [|c c' k k' [E _] F IH]; cbn; auto. congruence. Qed.
Lemma frames_dests : forall k k', Forall2 frame k k' -> map c_dest k' = map c_dest k.
Proof. intros k k' F. induction F as [|c c' k k' [_ [E _]] F IH]; cbn; auto. congruence. Qed.

(** ** States: the references of the stack, the result, the markups [lr] and environments [le]
    that the command at hand has, and others; [ds] are destinations not yet on the stack. *)
Section Others.
Variables r0 re0 : nat -> nat.

Definition mroots (s : st) (lr : list (option nat)) (a : nat) : nat := cnt a (marks (stack s)) + one a (res s) + cnt a lr + r0 a.
Definition eroots (s : st) (le : list (option nat)) (e : nat) : nat := cnt e (envs (stack s)) + cnt e le + re0 e.
Record wf (s : st) (lr le : list (option nat)) (ds : list dest) : Prop := {
  w_inv : inv (hp s) (mroots s lr) (eroots s le);
  w_ids : NoDup (map c_id (stack s));
  w_nc : forall c, In c (stack s) -> c_id c < nc s;
  w_shape : forall c, In c (stack s) -> shaped (c_kind c) (c_marks c) (c_env c);
  w_good : stack_good (hp s) (res s) (stack s);
  w_ds : Forall (good (hp s) (res s) (stack s)) ds;
  w_nodup : NoDup (ds ++ map c_dest (stack s)) }.

Definition keeps (s s' : st) : Prop := sub (hp s) (hp s') /\ stack s' = stack s /\ nc s' = nc s /\ err s' = err s /\ res s' = res s.
Lemma keeps_refl : forall s, keeps s s. Proof. intros s. split; [apply sub_refl|auto]. Qed.
Lemma keeps_trans : forall a b c, keeps a b -> keeps b c -> keeps a c.
Proof. intros a b c [A1 [A2 [A3 [A4 A5]]]] [B1 [B2 [B3 [B4 B5]]]]. split; [eapply sub_trans; eauto|]. repeat split; congruence. Qed.

Lemma covers_m : forall s lr k, (forall c, In c k -> In c (stack s)) -> covers (mroots s lr) (res s :: marks k).
Proof.
  intros s lr k W a [E|I]; unfold mroots.
  - rewrite E, one_same. lia.
  - unfold marks in I. apply in_flat_map in I. destruct I as [c [I J]]. enough (0 < cnt a (marks (stack s))) by lia.
    apply cnt_in. unfold marks. apply in_flat_map. exists c. auto.
Qed.
Lemma covers_e : forall s le k, (forall c, In c k -> In c (stack s)) -> covers (eroots s le) (envs k).
Proof.
  intros s le k W a I; unfold eroots. unfold envs in I. apply in_map_iff in I. destruct I as [c [E I]]. enough (0 < cnt a (envs (stack s))) by lia.
  apply cnt_in. rewrite <- E. unfold envs. apply in_map. auto.
Qed.

(** Growing of a whole state. *)
Lemma anchor_grow : forall s s' lr le lr' le' k k' d, inv (hp s) (mroots s lr) (eroots s le) -> inv (hp s') (mroots s' lr') (eroots s' le') ->
  grow (hp s) (hp s') -> wopt (res s) (res s') -> Forall2 frame k k' -> (forall c, In c k -> In c (stack s)) -> (forall c, In c k' -> In c (stack s')) ->
  anchor (hp s) (res s) k d -> anchor (hp s') (res s') k' d.
Proof.
  intros s s' lr le lr' le' k k' d I J G P F S1 S2 A. destruct d as [|id i|a i|e]; cbn in *; auto.
  - eapply held_grow; [exact I|exact J| | | | |exact G| | |exact A].
    + apply covers_m; auto.
    + apply covers_e; auto.
    + apply covers_m; auto.
    + apply covers_e; auto.
    + intros b [E|B]; [left|right; eapply frames_marks; eauto]. destruct P; congruence.
    + rewrite (frames_envs _ _ F). auto.
  - eapply eheld_grow; [exact I|exact J| | |exact G| |exact A].
    + apply covers_e; auto.
    + apply covers_e; auto.
    + rewrite (frames_envs _ _ F). auto.
Qed.
Lemma sub_kids : forall h h' a n n', sub h h' -> a < nm h -> mh h a = Some n -> mh h' a = Some n' -> n_kids n' = n_kids n.
Proof.
  intros h h' a n n' B L H H'. destruct (s_m _ _ B a n' L H') as [n0 [H0 [_ [_ E]]]]. rewrite H in H0. injection H0 as <-. symmetry. apply refs_eq. exact E.
Qed.
Lemma sub_body : forall h h' a n n', sub h h' -> a < ne h -> eh h a = Some n -> eh h' a = Some n' -> e_body n' = e_body n.
Proof.
  intros h h' a n n' B L H H'. destruct (s_e _ _ B a n' L H') as [n0 [H0 [_ [_ [_ E]]]]]. rewrite H in H0. injection H0 as <-. symmetry. exact E.
Qed.
Lemma good_sub : forall s h' lr le lr' le' k d, inv (hp s) (mroots s lr) (eroots s le) -> inv h' (mroots s lr') (eroots s le') ->
  sub (hp s) h' -> (forall c, In c k -> In c (stack s)) -> good (hp s) (res s) k d -> good h' (res s) k d.
Proof.
  intros s h' lr le lr' le' k d I J B S [A H].
  assert (J' : inv (hp (with_heap s h')) (mroots (with_heap s h') lr') (eroots (with_heap s h') le')) by exact J.
  assert (A' : anchor h' (res s) k d).
  { eapply (anchor_grow s (with_heap s h')); eauto; [apply sub_grow; auto|apply wopt_refl|apply frames_refl]. }
  split; auto. destruct d as [|id i|a i|e]; cbn in *; auto.
  - destruct (held_live h' _ _ _ _ _ J (covers_m s lr' k S) (covers_e s le' k S) A') as [n' H'].
    destruct H as [n [H N]]. exists n'. split; auto. destruct (i_m _ _ _ I _ _ H) as [L _]. rewrite (sub_kids _ _ _ _ _ B L H H'). auto.
  - destruct (eheld_live h' _ _ _ _ J (covers_e s le' k S) A') as [n' H'].
    destruct H as [n [H N]]. exists n'. split; auto. destruct (i_e _ _ _ I _ _ H) as [L _]. rewrite (sub_body _ _ _ _ _ B L H H'). auto.
Qed.
Lemma stack_good_sub : forall s h' lr le lr' le' k, inv (hp s) (mroots s lr) (eroots s le) -> inv h' (mroots s lr') (eroots s le') ->
  sub (hp s) h' -> (forall c, In c k -> In c (stack s)) -> stack_good (hp s) (res s) k -> stack_good h' (res s) k.
Proof.
  intros s h' lr le lr' le' k I J B. induction k as [|c k IH]; intros S G; cbn in *; auto. destruct G as [G1 G2]. split; [|apply IH; auto].
  eapply good_sub; eauto.
Qed.
(** A change of the heap. *)
Lemma wf_heap : forall s h' lr le lr' le' ds, wf s lr le ds -> inv h' (mroots s lr') (eroots s le') -> sub (hp s) h' -> wf (with_heap s h') lr' le' ds.
Proof.
  intros s h' lr le lr' le' ds [I A B C D E F] J S. constructor; auto; cbn.
  - eapply stack_good_sub; eauto.
  - apply Forall_forall. intros d Id. rewrite Forall_forall in E. eapply good_sub; eauto.
Qed.
Lemma keeps_heap : forall s h', sub (hp s) h' -> keeps s (with_heap s h').
Proof. intros s h' B. split; auto. Qed.
Lemma wf_swap : forall s lr le lr' le' ds, wf s lr le ds -> (forall a, cnt a lr = cnt a lr') -> (forall a, cnt a le = cnt a le') -> wf s lr' le' ds.
Proof.
  intros s lr le lr' le' ds [I A B C D E F] H H'. constructor; auto. eapply inv_ext; [exact I| |]; intros a; unfold mroots, eroots; rewrite ?H, ?H'; auto.
Qed.
Lemma wf_drop : forall s lr le d ds, wf s lr le (d :: ds) -> wf s lr le ds.
Proof. intros s lr le d ds [I A B C D E F]. constructor; auto; [inversion E; auto|inversion F; auto]. Qed.
Lemma wf_err : forall s lr le ds, wf s lr le ds -> wf (with_err s) lr le ds.
Proof. intros s lr le ds [I A B C D E F]. constructor; auto. Qed.
Lemma wf_live : forall s lr le ds p, wf s lr le ds -> In p lr -> live (hp s) p.
Proof. intros s lr le ds [a|] W I; cbn; auto. eapply live_r; [apply (w_inv _ _ _ _ W)|]. unfold mroots. pose proof (cnt_in a lr I). lia. Qed.
Lemma wf_elive : forall s lr le ds p, wf s lr le ds -> In p le -> elive (hp s) p.
Proof. intros s lr le ds [a|] W I; cbn; auto. eapply elive_r; [apply (w_inv _ _ _ _ W)|]. unfold eroots. pose proof (cnt_in a le I). lia. Qed.

Lemma free_m_ok : forall f s p lr le ds, wf s (p :: lr) le ds -> post timeout (free_m f s p) (fun s' => wf s' lr le ds /\ keeps s s').
Proof.
  intros f s p lr le ds W. unfold free_m. eapply post_bind; [apply free_ok|].
  - eapply inv_ext; [exact (w_inv _ _ _ _ W)| |]; auto. intros a. unfold add, mroots. cbn [cnt]. instantiate (1 := mroots s lr). unfold mroots. lia.
  - cbn. intros h' [I [B _]]. split; [eapply wf_heap; eauto|apply keeps_heap; auto].
Qed.
Lemma free_ms_ok : forall f ps s lr le ds, wf s (ps ++ lr) le ds -> post timeout (free_ms f s ps) (fun s' => wf s' lr le ds /\ keeps s s').
Proof.
  intros f ps. induction ps as [|p ps IH]; intros s lr le ds W; cbn; [split; auto; apply keeps_refl|].
  eapply post_bind; [apply free_m_ok; exact W|]. intros s1 [W1 S1]. eapply post_weak; [apply IH; exact W1|auto|]. intros s2 [W2 S2]. split; auto. eapply keeps_trans; eauto.
Qed.
Lemma free_e_ok : forall f s p lr le ds, wf s lr (p :: le) ds -> post timeout (free_e f s p) (fun s' => wf s' lr le ds /\ keeps s s').
Proof.
  intros f s p lr le ds W. unfold free_e. eapply post_bind; [apply free_env_ok|].
  - eapply inv_ext; [exact (w_inv _ _ _ _ W)| |]; auto. intros a. unfold add, eroots. cbn [cnt]. instantiate (1 := eroots s le). unfold eroots. lia.
  - cbn. intros h' [I B]. split; [eapply wf_heap; eauto|apply keeps_heap; auto].
Qed.
Lemma wf_copy : forall s p lr le ds, wf s lr le ds -> live (hp s) p -> post never (copy (hp s) p) (fun h => wf (with_heap s h) (p :: lr) le ds /\ sub (hp s) h /\ alike (hp s) h).
Proof.
  intros s p lr le ds W L. eapply post_weak; [apply (copy_ok _ _ _ p (w_inv _ _ _ _ W) L)|auto|]. intros h [I [B A]]. split; auto.
  eapply wf_heap; eauto. eapply inv_ext; [exact I| |]; auto. intros a. unfold add, mroots. cbn [cnt]. lia.
Qed.
Lemma wf_copy_all : forall s ps lr le ds, wf s lr le ds -> (forall p, In p ps -> live (hp s) p) -> post never (copy_all (hp s) ps) (fun h => wf (with_heap s h) (ps ++ lr) le ds /\ sub (hp s) h /\ alike (hp s) h).
Proof.
  intros s ps lr le ds W L. eapply post_weak; [apply (copy_all_ok ps _ _ _ (w_inv _ _ _ _ W) L)|auto|]. intros h [I [B A]]. split; auto.
  eapply wf_heap; eauto. eapply inv_ext; [exact I| |]; auto. intros a. unfold adds, mroots. rewrite cnt_app. lia.
Qed.
Lemma wf_copy_env : forall s p lr le ds, wf s lr le ds -> elive (hp s) p -> post never (copy_env (hp s) p) (fun h => wf (with_heap s h) lr (p :: le) ds /\ sub (hp s) h /\ alike (hp s) h).
Proof.
  intros s p lr le ds W L. eapply post_weak; [apply (copy_env_ok _ _ _ p (w_inv _ _ _ _ W) L)|auto|]. intros h [I [B A]]. split; auto.
  eapply wf_heap; eauto. eapply inv_ext; [exact I| |]; auto. intros a. unfold add, eroots. cbn [cnt]. lia.
Qed.
Lemma wf_new_node : forall s x lr le ds, wf s (n_kids x ++ lr) le ds -> n_rc x = 1 ->
  wf (with_heap s (fst (new_node (hp s) x))) (Some (nm (hp s)) :: lr) le ds.
Proof.
  intros s x lr le ds W RC. eapply wf_heap; [exact W| |apply sub_new].
  eapply inv_ext; [apply (new_node_ok (hp s) (mroots s lr) (eroots s le) x); auto| |]; auto.
  - eapply inv_ext; [apply (w_inv _ _ _ _ W)| |]; auto. intros a. unfold adds, mroots. rewrite cnt_app. lia.
  - intros a. unfold add, mroots. cbn [cnt]. lia.
Qed.
Lemma wf_new_env : forall s x lr le ds, wf s (e_body x :: lr) (e_next x :: le) ds -> e_rc x = 1 ->
  wf (with_heap s (fst (new_env (hp s) x))) lr (Some (ne (hp s)) :: le) ds.
Proof.
  intros s x lr le ds W RC. eapply wf_heap; [exact W| |apply sub_enew].
  eapply inv_ext; [apply (new_env_ok (hp s) (mroots s lr) (eroots s le) x); auto| |]; auto.
  - eapply inv_ext; [apply (w_inv _ _ _ _ W)| |]; auto; intros a; unfold add, mroots, eroots; cbn [cnt]; lia.
  - intros a. unfold add, eroots. cbn [cnt]. lia.
Qed.

(** ** Pop and push *)
Lemma wf_pop : forall s c rest, stack s = c :: rest -> wf s [] [] [] -> wf (with_stack s rest) (c_marks c) [c_env c] [c_dest c].
Proof.
  intros s c rest E [I A B C D F G]. rewrite E in *. cbn in A, D, G. inversion A; subst. destruct D as [D1 D2].
  constructor; cbn; auto.
  - eapply inv_ext; [exact I| |]; intros a; unfold mroots, eroots, marks, envs; rewrite E; cbn; rewrite ?cnt_app; lia.
  - intros d Id. apply B. right. auto.
  - intros d Id. apply C. right. auto.
Qed.
Lemma anchor_more : forall h p k c d, anchor h p k d -> anchor h p (c :: k) d.
Proof.
  assert (E : forall h k c e, eheld h (envs k) e -> eheld h (envs (c :: k)) e).
  { intros h k c e H. induction H; [apply eh_root; right; auto|eapply eh_next; eauto]. }
  intros h p k c d A. destruct d as [|id i|a i|e]; cbn in *; auto.
  - induction A as [a H|a n b H IH Hn N|e n b H Hn N].
    + apply h_root. destruct H as [H|H]; [left; auto|right]. apply in_or_app. auto.
    + eapply h_kid; eauto.
    + eapply h_body; [|eassumption|eassumption]. apply (E h k c). auto.
Qed.
Lemma good_more : forall h p k c d, good h p k d -> good h p (c :: k) d.
Proof.
  intros h p k c d [A H]. split; [apply anchor_more; auto|]. destruct d as [|id i|a i|e]; cbn in *; auto.
  destruct H as [c' [I H]]. exists c'. auto.
Qed.
Lemma hole_old : forall s lr le ds id i, wf s lr le ds -> nc s <= id -> ~ hole (hp s) (res s) (stack s) (DField id i).
Proof. intros s lr le ds id i W L [c [I [E _]]]. apply (w_nc _ _ _ _ W) in I. lia. Qed.
Lemma stack_good_in : forall h p k c, stack_good h p k -> In c k -> good h p k (c_dest c).
Proof.
  intros h p k c. induction k as [|c' k IH]; intros G I; [destruct I|]. cbn in G. destruct G as [G1 G2]. apply good_more. destruct I as [->|I]; auto.
Qed.
Lemma wf_push : forall s d k ms env lr le ds is, wf s (ms ++ lr) (env :: le) (d :: ds) -> shaped k ms env ->
  NoDup is -> (forall i, In i is -> nth_error ms i = Some None) ->
  wf (push s d k ms env) lr le (map (DField (nc s)) is ++ ds).
Proof.
  intros s d k ms env lr le ds is W L N H. pose proof W as [I A B C D E F]. inversion E; subst. inversion F; subst.
  constructor; cbn [push hp stack nc res err].
  - eapply inv_ext; [exact I| |]; intros a; unfold mroots, eroots, marks, envs; cbn; rewrite ?cnt_app; lia.
  - cbn. constructor; auto. intros J. apply in_map_iff in J. destruct J as [c [Ec Ic]]. apply B in Ic. lia.
  - intros c [<-|J]; cbn; [lia|]. apply B in J. lia.
  - intros c [<-|J]; cbn; auto.
  - cbn. split; auto.
  - apply Forall_app. split; apply Forall_forall; intros x Ix.
    + apply in_map_iff in Ix. destruct Ix as [i [<- Ii]]. split; cbn; auto. eexists. split; [left; reflexivity|]. cbn. auto.
    + apply good_more. rewrite Forall_forall in H3. auto.
  - assert (OLD : forall i, ~ In (DField (nc s) i) (d :: ds ++ map c_dest (stack s))).
    { intros i J. apply (hole_old s _ _ _ (nc s) i W (le_n _)). destruct J as [->|J]; [destruct H2; auto|]. apply in_app_or in J. destruct J as [J|J].
      - rewrite Forall_forall in H3. apply H3. auto.
      - apply in_map_iff in J. destruct J as [c [Ec Ic]]. pose proof (stack_good_in _ _ _ _ D Ic) as G. rewrite Ec in G. apply G. }
    cbn [map c_dest]. rewrite <- app_assoc.
    assert (P : Permutation (d :: ds ++ map c_dest (stack s)) (ds ++ d :: map c_dest (stack s))) by apply Permutation_middle.
    assert (Q : NoDup (ds ++ d :: map c_dest (stack s))) by (eapply Permutation_NoDup; [exact P|constructor; auto]).
    assert (O2 : forall i, ~ In (DField (nc s) i) (ds ++ d :: map c_dest (stack s))) by (intros i J; apply (OLD i); eapply Permutation_in; [apply Permutation_sym; exact P|exact J]).
    clear -N Q O2. induction N as [|i is Ni N IH]; cbn; auto. constructor; auto. intros J. apply in_app_or in J. destruct J as [J|J]; [|apply (O2 i J)].
    apply in_map_iff in J. destruct J as [j [Ej Ij]]. injection Ej as ->. contradiction.
Qed.

(** ** Assignments *)
Definition evolve (s s' : st) (k k' : list cmd) : Prop :=
  grow (hp s) (hp s') /\ wopt (res s) (res s') /\ Forall2 frame k k'.
Definition got (s : st) (d : dest) (p : option nat) : Prop :=
  match d with
  | DResult => res s = p
  | DField id i => exists c, In c (stack s) /\ c_id c = id /\ nth_error (c_marks c) i = Some p
  | DKid a i => exists n, mh (hp s) a = Some n /\ nth_error (n_kids n) i = Some p
  | DBody e => exists n, eh (hp s) e = Some n /\ e_body n = p
  end.

Lemma set_nth_spec : forall (l : list (option nat)) i p, nth_error l i = Some None ->
  exists l', set_nth l i p = Some l' /\ Forall2 wopt l l' /\ length l' = length l /\ (forall a, cnt a l' = cnt a l + one a p) /\
    nth_error l' i = Some p /\ (forall j, j <> i -> nth_error l' j = nth_error l j).
Proof.
  induction l as [|x l IH]; intros [|i] p H; cbn in H; try discriminate.
  - injection H as ->. exists (p :: l). cbn. split; [auto|]. split; [constructor; [left; auto|apply wopts_refl]|]. split; [auto|]. split; [intros; lia|]. split; auto.
    intros [|j] N; [lia|auto].
  - destruct (IH i p H) as [l' [E [F [L [C [N1 N2]]]]]]. exists (x :: l'). cbn. rewrite E. split; auto. split; [constructor; auto; apply wopt_refl|]. split; [lia|].
    split; [intros a; rewrite C; lia|]. split; auto. intros [|j] N; auto. apply N2. lia.
Qed.
Definition frx (d : dest) (c c' : cmd) : Prop := frame c c' /\ forall j, d <> DField (c_id c) j -> nth_error (c_marks c') j = nth_error (c_marks c) j.
Lemma frx_refl : forall d k, Forall2 (frx d) k k. Proof. intros d k. induction k; constructor; auto. split; auto. apply frame_refl. Qed.
Lemma frx_frame : forall d k k', Forall2 (frx d) k k' -> Forall2 frame k k'.
Proof. intros d k k' F. induction F as [|? ? ? ? [? _]]; constructor; auto. Qed.
Lemma set_field_spec : forall k c id i p, NoDup (map c_id k) -> In c k -> c_id c = id -> nth_error (c_marks c) i = Some None ->
  exists k', set_field k id i p = Some k' /\ Forall2 (frx (DField id i)) k k' /\ (forall a, cnt a (marks k') = cnt a (marks k) + one a p) /\
    (exists c', In c' k' /\ c_id c' = id /\ nth_error (c_marks c') i = Some p).
Proof.
  induction k as [|c0 k IH]; intros c id i p N I E H; [destruct I|]. cbn. inversion N; subst. destruct (Nat.eqb_spec (c_id c0) (c_id c)) as [Q|Q].
  - assert (c0 = c) as ->. { destruct I as [I|I]; auto. exfalso. apply H2. rewrite Q. apply in_map. auto. }
    destruct (set_nth_spec _ _ p H) as [m [E [F [L [C [N1 N2]]]]]]. rewrite E. eexists. split; [reflexivity|]. split; [|split].
    + constructor; [|apply frx_refl]. split; [repeat split; auto|]. cbn. intros j J. apply N2. congruence.
    + intros a. unfold marks. cbn. rewrite !cnt_app, C. lia.
    + eexists. split; [left; reflexivity|]. cbn. auto.
  - destruct I as [->|I]; [contradiction|]. destruct (IH c (c_id c) i p H3 I eq_refl H) as [k' [E [F [C [c' [I' E']]]]]]. rewrite E. eexists. split; [reflexivity|].
    split; [|split].
    + constructor; auto. split; [apply frame_refl|auto].
    + intros a. unfold marks in *. cbn. rewrite !cnt_app, C. lia.
    + exists c'. split; [right; auto|auto].
Qed.

Record others (s s' : st) (d : dest) : Prop := {
  o_res : d <> DResult -> res s' = res s;
  o_kid : forall a n j, d <> DKid a j -> mh (hp s) a = Some n -> nth_error (n_kids n) j = Some None -> exists n', mh (hp s') a = Some n' /\ nth_error (n_kids n') j = Some None;
  o_body : forall e n, d <> DBody e -> eh (hp s) e = Some n -> e_body n = None -> exists n', eh (hp s') e = Some n' /\ e_body n' = None }.
Lemma hole_others : forall s s' d k k' d', others s s' d -> Forall2 (frx d) k k' -> d <> d' -> hole (hp s) (res s) k d' -> hole (hp s') (res s') k' d'.
Proof.
  intros s s' d k k' d' [O1 O2 O3] F N H. destruct d' as [|id i|a i|e]; cbn in *.
  - rewrite O1; auto.
  - destruct H as [c [I [E H]]]. induction F as [|c0 c' k k' [[Fi _] Fn] F IH]; [destruct I|]. destruct I as [->|I].
    + exists c'. split; [left; auto|]. split; [congruence|]. rewrite Fn; auto. rewrite E. exact N.
    + destruct (IH I) as [c2 [I2 H2]]. exists c2. split; [right; auto|auto].
  - destruct H as [n [H K]]. eapply O2; eauto.
  - destruct H as [n [H K]]. eapply O3; eauto.
Qed.
Lemma frx_in : forall d k k' c', Forall2 (frx d) k k' -> In c' k' -> exists c, In c k /\ frame c c'.
Proof.
  intros d k k' c' F. induction F as [|c0 c1 k k' [Fr _] F IH]; intros I; [destruct I|]. destruct I as [<-|I]; [exists c0; split; [left; auto|auto]|].
  destruct (IH I) as [c [I' F']]. exists c. split; [right; auto|auto].
Qed.
Lemma wf_others : forall s s' lr le lr' le' d ds, wf s lr le (d :: ds) -> inv (hp s') (mroots s' lr') (eroots s' le') ->
  grow (hp s) (hp s') -> wopt (res s) (res s') -> Forall2 (frx d) (stack s) (stack s') -> nc s' = nc s -> others s s' d -> wf s' lr' le' ds.
Proof.
  intros s s' lr le lr' le' d ds [I A B C D E F] J G P FR NC O. inversion F; subst. inversion E; subst. pose proof (frx_frame _ _ _ FR) as FF.
  assert (GG : forall k k' d', Forall2 (frx d) k k' -> (forall c, In c k -> In c (stack s)) -> (forall c, In c k' -> In c (stack s')) -> d <> d' ->
     good (hp s) (res s) k d' -> good (hp s') (res s') k' d').
  { intros k k' d' F1 S1 S2 N [A1 H]. split; [|eapply hole_others; eauto]. eapply anchor_grow; [exact I|exact J|exact G|exact P|eapply frx_frame; exact F1|exact S1|exact S2|exact A1]. }
  constructor; auto.
  - rewrite (frames_ids _ _ FF). auto.
  - intros c Ic. destruct (frx_in _ _ _ _ FR Ic) as [c0 [I0 [Ei _]]]. rewrite Ei, NC. auto.
  - intros c Ic. destruct (frx_in _ _ _ _ FR Ic) as [c0 [I0 [_ [_ [Ek [Ee W]]]]]]. destruct (C c0 I0) as [C1 C2]. rewrite Ek, Ee. split; auto. rewrite <- C1. symmetry. clear -W. induction W; cbn; auto.
  - assert (K : forall k k', Forall2 (frx d) k k' -> (forall c, In c k -> In c (stack s)) -> (forall c, In c k' -> In c (stack s')) -> stack_good (hp s) (res s) k -> stack_good (hp s') (res s') k').
    { intros k k' F1. induction F1 as [|c c' k k' Fc F1 IH]; intros S1 S2 G1; cbn; auto. cbn in G1. destruct G1 as [G1 G2]. split.
      - destruct Fc as [[_ [Ed _]] _]. rewrite Ed. eapply GG; eauto; [intros; apply S1; right; auto|intros; apply S2; right; auto|].
        intros ->. apply H1. apply in_or_app. right. apply in_map. apply S1. left. auto.
      - apply IH; auto; intros; [apply S1|apply S2]; right; auto. }
    apply (K _ _ FR); auto.
  - apply Forall_forall. intros d' Id. rewrite Forall_forall in H4. eapply GG; eauto. intros ->. apply H1. apply in_or_app. auto.
  - rewrite (frames_dests _ _ FF). auto.
Qed.
Lemma grow_kid : forall h a n ks, mh h a = Some n -> Forall2 wopt (n_kids n) ks -> grow h (set_node h a (Some (mk_node (n_tag n) (n_text n) ks (n_rc n)))).
Proof.
  intros h a n ks H W. constructor; auto.
  - intros b n' L K. cbn in K. unfold upd in K. destruct (Nat.eqb_spec b a) as [->|N].
    + injection K as <-. exists n. split; auto. repeat split; auto.
    + exists n'. split; auto. repeat split; auto. apply wopts_refl.
  - intros b n' L K. exists n'. split; auto. repeat split; auto. apply wopt_refl.
Qed.
Lemma grow_body : forall h a n p, eh h a = Some n -> e_body n = None -> grow h (set_env h a (Some (mk_env (e_rc n) (e_name n) (e_args n) p (e_next n)))).
Proof.
  intros h a n p H W. constructor; auto.
  - intros b n' L K. exists n'. split; auto. repeat split; auto. apply wopts_refl.
  - intros b n' L K. cbn in K. unfold upd in K. destruct (Nat.eqb_spec b a) as [->|N].
    + injection K as <-. exists n. split; auto. repeat split; auto. left. auto.
    + exists n'. split; auto. repeat split; auto. apply wopt_refl.
Qed.
Lemma store_ok : forall s d p lr le ds, wf s (p :: lr) le (d :: ds) ->
  post never (store s d p) (fun s' => wf s' lr le ds /\ evolve s s' (stack s) (stack s') /\ got s' d p /\ nc s' = nc s /\ err s' = err s /\
    anchor (hp s') (res s') (stack s') d /\ others s s' d).
Proof.
  intros s d p lr le ds W. pose proof (w_inv _ _ _ _ W) as I. pose proof (w_ds _ _ _ _ W) as D. inversion D as [|d0 ds0 [An Ho] D2]; subst.
  assert (FIN : forall s', inv (hp s') (mroots s' lr) (eroots s' le) -> grow (hp s) (hp s') -> wopt (res s) (res s') -> Forall2 (frx d) (stack s) (stack s') ->
     nc s' = nc s -> others s s' d -> err s' = err s -> got s' d p ->
     wf s' lr le ds /\ evolve s s' (stack s) (stack s') /\ got s' d p /\ nc s' = nc s /\ err s' = err s /\ anchor (hp s') (res s') (stack s') d /\ others s s' d).
  { intros s' J G P F N O E Go. split; [eapply wf_others; eauto|]. split; [split; [auto|split; [auto|eapply frx_frame; eauto]]|]. split; auto. split; auto. split; auto.
    split; auto. eapply anchor_grow; [exact I|exact J|exact G|exact P|eapply frx_frame; eauto|auto|auto|exact An]. }
  destruct d as [|id i|a i|e]; cbn in *.
  - apply FIN; cbn; auto.
    + eapply inv_ext; [exact I| |]; intros a; unfold mroots, eroots; cbn [stack res cnt]; rewrite ?Ho; cbn [one]; lia.
    + apply grow_refl.
    + left. auto.
    + apply frx_refl.
    + constructor; cbn; try contradiction; intros; eauto.
  - destruct Ho as [c [Ic [Ec Hc]]]. destruct (set_field_spec _ _ _ _ p (w_ids _ _ _ _ W) Ic Ec Hc) as [k' [E [F [C G]]]]. rewrite E. apply FIN; cbn; auto.
    + eapply inv_ext; [exact I| |]; intros a; unfold mroots, eroots; cbn [stack res cnt with_stack]; [rewrite C; lia|rewrite (frames_envs _ _ (frx_frame _ _ _ F)); lia].
    + apply grow_refl.
    + apply wopt_refl.
    + constructor; cbn; intros; eauto.
  - destruct Ho as [n [Hn Hi]]. unfold node_at. rewrite Hn. cbn. destruct (set_nth_spec _ _ p Hi) as [ks [E [F [L [C [N1 N2]]]]]]. rewrite E. cbn.
    destruct (i_m _ _ _ I _ _ Hn) as [La [Pa Qa]].
    pose proof (fun b => mref_set_node (hp s) a (Some (mk_node (n_tag n) (n_text n) ks (n_rc n))) b La) as M. unfold kids_of in M. rewrite Hn in M. cbn [n_kids] in M.
    apply FIN; cbn [hp with_heap res stack nc err]; auto.
    + constructor.
      * intros b m Hb. cbn in Hb. unfold upd in Hb. specialize (M b). rewrite C in M. destruct (Nat.eqb_spec b a) as [->|N].
        -- injection Hb as <-. cbn [n_rc nm set_node]. unfold mroots in *. cbn [cnt] in Qa. cbn [stack res with_heap]. lia.
        -- destruct (i_m _ _ _ I _ _ Hb) as [Lb [Pb Qb]]. cbn [nm set_node]. unfold mroots in *. cbn [cnt] in Qb. cbn [stack res with_heap]. lia.
      * intros b Hb. cbn in Hb. unfold upd in Hb. specialize (M b). rewrite C in M. destruct (Nat.eqb_spec b a) as [->|N]; [discriminate|].
        pose proof (i_no _ _ _ I _ Hb) as Qb. unfold mroots in *. cbn [cnt] in Qb. cbn [stack res with_heap]. lia.
      * intros b m Hb. rewrite eref_set_node. apply (i_e _ _ _ I _ _ Hb).
      * intros b Hb. rewrite eref_set_node. apply (i_eno _ _ _ I _ Hb).
      * apply (i_next _ _ _ I).
    + apply grow_kid; auto.
    + apply wopt_refl.
    + apply frx_refl.
    + constructor; cbn; intros; eauto. unfold upd. destruct (Nat.eqb_spec a0 a) as [Eb|N]; [|eauto]. subst. rewrite Hn in H0. injection H0 as <-.
      eexists. split; [reflexivity|]. cbn. rewrite N2; [auto|congruence].
    + cbn. unfold upd. rewrite Nat.eqb_refl. eexists. split; [reflexivity|]. auto.
  - destruct Ho as [n [Hn Hi]]. unfold env_at. rewrite Hn. cbn. destruct (i_e _ _ _ I _ _ Hn) as [La [Pa Qa]].
    pose proof (fun b => mref_set_env (hp s) e (Some (mk_env (e_rc n) (e_name n) (e_args n) p (e_next n))) b La) as M. unfold body_of in M. rewrite Hn in M. rewrite Hi in M. cbn [e_body one] in M.
    pose proof (fun b => eref_set_env (hp s) e (Some (mk_env (e_rc n) (e_name n) (e_args n) p (e_next n))) b La) as M'. unfold next_of in M'. rewrite Hn in M'. cbn [e_next] in M'.
    apply FIN; cbn [hp with_heap res stack nc err]; auto.
    + constructor.
      * intros b m Hb. destruct (i_m _ _ _ I _ _ Hb) as [Lb [Pb Qb]]. specialize (M b). cbn [nm set_env]. unfold mroots in *. cbn [cnt] in Qb. cbn [stack res with_heap]. lia.
      * intros b Hb. pose proof (i_no _ _ _ I _ Hb) as Qb. specialize (M b). unfold mroots in *. cbn [cnt] in Qb. cbn [stack res with_heap]. lia.
      * intros b m Hb. cbn in Hb. unfold upd in Hb. specialize (M' b). destruct (Nat.eqb_spec b e) as [->|N].
        -- injection Hb as <-. cbn [e_rc ne set_env]. unfold eroots in *. cbn [stack res with_heap]. lia.
        -- destruct (i_e _ _ _ I _ _ Hb) as [Lb [Pb Qb]]. cbn [ne set_env]. unfold eroots in *. cbn [stack res with_heap]. lia.
      * intros b Hb. cbn in Hb. unfold upd in Hb. specialize (M' b). destruct (Nat.eqb_spec b e) as [Eb|N]; [discriminate|].
        pose proof (i_eno _ _ _ I _ Hb) as Qb. unfold eroots in *. cbn [stack res with_heap]. lia.
      * intros b m e' Hb Ne. cbn in Hb. unfold upd in Hb. destruct (Nat.eqb_spec b e) as [->|N].
        -- injection Hb as <-. cbn in Ne. eapply (i_next _ _ _ I); eauto.
        -- eapply (i_next _ _ _ I); eauto.
    + apply grow_body; auto.
    + apply wopt_refl.
    + apply frx_refl.
    + constructor; cbn; intros; eauto. unfold upd. destruct (Nat.eqb_spec e0 e) as [Eb|N]; [congruence|eauto].
    + cbn. unfold upd. rewrite Nat.eqb_refl. eexists. split; [reflexivity|]. auto.
Qed.

(** ** Evaluations pushed *)
Record pushes (s s' : st) (k : list cmd) : Prop := {
  p_sub : sub (hp s) (hp s'); p_alike : alike (hp s) (hp s'); p_stack : stack s' = k ++ stack s; p_nc : nc s' = nc s + length k; p_err : err s' = err s; p_res : res s' = res s }.
Lemma pushes_trans : forall a b c k k', pushes a b k -> pushes b c k' -> pushes a c (k' ++ k).
Proof.
  intros a b c k k' [A1 A2 A3 A4 A5 A6] [B1 B2 B3 B4 B5 B6]. constructor; try congruence.
  - eapply sub_trans; eauto.
  - eapply alike_trans; eauto.
  - rewrite B3, A3. apply app_assoc.
  - rewrite B4, A4, app_length. lia.
Qed.
Lemma push_eval_ok : forall s env m d lr le ds, wf s lr le (d :: ds) -> elive (hp s) env -> live (hp s) m ->
  post never (push_eval s env m d) (fun s' => wf s' lr le ds /\ pushes s s' [mk_cmd (nc s) d KEval [m] env]).
Proof.
  intros s env m d lr le ds W Le Lm. unfold push_eval. eapply post_bind; [apply (wf_copy_env s env lr le _ W Le)|]. intros h1 [W1 [B1 A1]].
  eapply post_bind; [apply (wf_copy (with_heap s h1) m lr _ _ W1); eapply alike_live; eauto|]. intros h2 [W2 [B2 A2]]. cbn [post].
  split; [|constructor; cbn; auto; [eapply sub_trans; eauto|eapply alike_trans; eauto|lia]].
  apply (wf_push (with_heap s h2) d KEval [m] env lr le ds []); auto; [split; [auto|discriminate]|constructor|intros i []].
Qed.
Fixpoint pushed (id : nat) (env : option nat) (ds : list dest) (args : list (option nat)) : list cmd :=
  match ds, args with d :: ds', m :: r => mk_cmd id d KEval [m] env :: pushed (S id) env ds' r | _, _ => [] end.
Lemma pushes_refl : forall s, pushes s s [].
Proof. intros s. constructor; cbn; auto. apply sub_refl. apply alike_refl. Qed.
Lemma push_evals_ok : forall args ds1 s env lr le ds, wf s lr le (ds1 ++ ds) -> length ds1 = length args -> elive (hp s) env -> (forall m, In m args -> live (hp s) m) ->
  post never (push_evals s env ds1 args) (fun s' => wf s' lr le ds /\ pushes s s' (rev (pushed (nc s) env ds1 args))).
Proof.
  induction args as [|m args IH]; intros [|d ds1] s env lr le ds W L Le Lm; cbn in L; try discriminate.
  - cbn. split; auto. apply pushes_refl.
  - cbn [push_evals pushed rev]. eapply post_bind; [apply (push_eval_ok s env m d lr le (ds1 ++ ds) W Le); apply Lm; left; auto|].
    intros s1 [W1 P1]. eapply post_weak; [apply (IH ds1 s1 env lr le ds W1)|auto|].
    + lia.
    + eapply alike_elive; [apply (p_alike _ _ _ P1)|auto].
    + intros q Q. eapply alike_live; [apply (p_alike _ _ _ P1)|]. apply Lm. right. auto.
    + intros s2 [W2 P2]. split; auto. rewrite (p_nc _ _ _ P1) in P2. cbn [length] in P2. rewrite Nat.add_1_r in P2. eapply pushes_trans; eauto.
Qed.

(** ** More destinations *)
Lemma dests_good : forall s lr le ds d, wf s lr le ds -> In d (ds ++ map c_dest (stack s)) -> good (hp s) (res s) (stack s) d.
Proof.
  intros s lr le ds d W I. apply in_app_or in I. destruct I as [I|I].
  - pose proof (w_ds _ _ _ _ W) as D. rewrite Forall_forall in D. auto.
  - apply in_map_iff in I. destruct I as [c [<- I]]. eapply stack_good_in; eauto. apply (w_good _ _ _ _ W).
Qed.
Lemma wf_more : forall s lr le ts ds, wf s lr le ds -> Forall (good (hp s) (res s) (stack s)) ts -> NoDup ts -> (forall t, In t ts -> ~ In t (ds ++ map c_dest (stack s))) -> wf s lr le (ts ++ ds).
Proof.
  intros s lr le ts ds [I A B C D E F] G N X. constructor; auto; [apply Forall_app; auto|]. rewrite <- app_assoc.
  clear -F N X. induction N as [|t ts Nt N IH]; cbn; auto. constructor; [|apply IH; intros; apply X; right; auto].
  intros J. apply in_app_or in J. destruct J as [J|J]; [contradiction|]. apply (X t); auto. left. auto.
Qed.
Lemma nodup_map : forall {A B} (f : A -> B) l, (forall x y, f x = f y -> x = y) -> NoDup l -> NoDup (map f l).
Proof.
  intros A B f l F N. induction N as [|x l X N IH]; cbn; constructor; auto. intros I. apply in_map_iff in I. destruct I as [y [E I]]. apply F in E. subst. contradiction.
Qed.
Lemma got_held : forall s d q, got s d (Some q) -> anchor (hp s) (res s) (stack s) d -> held (hp s) (res s :: marks (stack s)) (envs (stack s)) q.
Proof.
  intros s d q G A. destruct d as [|id i|a i|e]; cbn in *.
  - apply h_root. left. auto.
  - destruct G as [c [I [E H]]]. apply h_root. right. unfold marks. apply in_flat_map. exists c. split; auto. eapply nth_error_In; eauto.
  - destruct G as [n [H K]]. eapply h_kid; eauto. eapply nth_error_In; eauto.
  - destruct G as [n [H K]]. eapply h_body; eauto.
Qed.
Definition hollow (n : nat) : node := mk_node TSequence [] (repeat None n) 1.
Lemma nth_repeat_none : forall n i, i < n -> nth_error (repeat (@None nat) n) i = Some None.
Proof. induction n as [|n IH]; intros [|i] L; cbn; try lia; auto. apply IH. lia. Qed.
Lemma new_seq_ok : forall s d n lr le ds, wf s lr le (d :: ds) ->
  post never (store (with_heap s (fst (new_node (hp s) (hollow n)))) d (Some (nm (hp s))))
    (fun s' => wf s' lr le (map (DKid (nm (hp s))) (seq 0 n) ++ ds) /\ evolve s s' (stack s) (stack s') /\ got s' d (Some (nm (hp s))) /\ nc s' = nc s /\ err s' = err s /\
      anchor (hp s') (res s') (stack s') d /\ (exists x, mh (hp s') (nm (hp s)) = Some x /\ n_tag x = TSequence /\ length (n_kids x) = n) /\ (d <> DResult -> res s' = res s)).
Proof.
  intros s d n lr le ds W. set (q := nm (hp s)).
  assert (NQ : forall i, ~ In (DKid q i) ((d :: ds) ++ map c_dest (stack s))).
  { intros i I. pose proof (dests_good s _ _ _ _ W I) as [_ [x [H _]]]. destruct (i_m _ _ _ (w_inv _ _ _ _ W) _ _ H) as [L _]. unfold q in L. lia. }
  assert (W1 : wf (with_heap s (fst (new_node (hp s) (hollow n)))) (Some q :: lr) le (d :: ds)).
  { apply wf_new_node; auto. cbn [n_kids hollow]. eapply wf_swap; [exact W| |]; auto. intros a. rewrite cnt_app, cnt_repeat. auto. }
  eapply post_weak; [apply store_ok; exact W1|auto|]. intros s' [W2 [[G [P F]] [Go [N [E [An O]]]]]].
  assert (Q0 : mh (fst (new_node (hp s) (hollow n))) q = Some (hollow n)) by (cbn; unfold upd, q; rewrite Nat.eqb_refl; auto).
  assert (HQ : forall i, i < n -> exists x, mh (hp s') q = Some x /\ nth_error (n_kids x) i = Some None).
  { intros i L. apply (o_kid _ _ _ O q (hollow n) i); [|exact Q0|cbn; apply nth_repeat_none; auto]. intros ->. apply (NQ i). left. auto. }
  pose proof (got_held _ _ _ Go An) as HH.
  split; [|split; [split; [eapply grow_trans; [apply sub_grow, sub_new|exact G]|auto]|split; [auto|split; [auto|split; [auto|split; [auto|split; [|apply (o_res _ _ _ O)]]]]]]].
  - apply wf_more; auto.
    + apply Forall_forall. intros t It. apply in_map_iff in It. destruct It as [i [<- Ii]]. apply in_seq in Ii. split; cbn; auto. apply HQ. lia.
    + apply nodup_map; [congruence|apply seq_NoDup].
    + intros t It. apply in_map_iff in It. destruct It as [i [<- Ii]]. rewrite (frames_dests _ _ F). intros J. apply (NQ i). right. exact J.
  - destruct (held_live _ _ _ _ _ _ (w_inv _ _ _ _ W2) (covers_m s' lr _ (fun c I => I)) (covers_e s' le _ (fun c I => I)) HH) as [x Hx]. exists x. split; auto.
    destruct (g_m _ _ G q x ltac:(cbn; unfold q; lia) Hx) as [x0 [H0 [E1 [_ E2]]]]. cbn [hp with_heap] in H0. rewrite Q0 in H0. injection H0 as <-. split; auto.
    cbn in E2. clear -E2. assert (L : length (repeat (@None nat) n) = length (n_kids x)) by (induction E2; cbn; auto). rewrite repeat_length in L. auto.
Qed.

(** ** The environment of a call *)
Inductive chain (h : heap) : option nat -> list nat -> list text -> option nat -> Prop :=
| chain_nil p : chain h p [] [] p
| chain_cons p e x es ps last n : eh h e = Some n -> e_name n = x -> e_args n = None -> e_next n = p -> chain h (Some e) es ps last -> chain h p (e :: es) (x :: ps) last.
Lemma chain_held : forall h p es ps last, chain h p es ps last -> forall l, In last l -> (forall e, p = Some e -> eheld h l e) /\ (forall e, In e es -> eheld h l e).
Proof.
  intros h p es ps last C. induction C as [p|p e x es ps last n H N A Nx C IH]; intros l I.
  - split; [intros e ->; apply eh_root; auto|intros e []].
  - destruct (IH l I) as [H1 H2]. assert (He : eheld h l e) by auto. split; [|intros e' [<-|I']; auto].
    intros e' ->. eapply eh_next; eauto.
Qed.
Lemma env_chain_ok : forall ps s next lr le ds, wf s lr (next :: le) ds ->
  exists h last es, env_chain (hp s) next ps = (h, last, es) /\ wf (with_heap s h) lr (last :: le) ds /\ sub (hp s) h /\ keep (hp s) h /\
    chain h next es ps last /\ NoDup es /\ (forall e, In e es -> ne (hp s) <= e /\ exists n, eh h e = Some n /\ e_body n = None).
Proof.
  induction ps as [|x ps IH]; intros s next lr le ds W; cbn [env_chain].
  - exists (hp s), next, []. split; auto. split; [|split; [apply sub_refl|split; [apply keep_refl|split; [constructor|split; [constructor|intros e []]]]]].
    destruct W. constructor; auto.
  - set (x0 := mk_env 1 x None None next).
    assert (W1 : wf (with_heap s (fst (new_env (hp s) x0))) lr (Some (ne (hp s)) :: le) ds).
    { apply wf_new_env; auto. cbn [e_body e_next x0]. eapply wf_swap; [exact W| |]; auto. }
    destruct (IH _ _ _ _ _ W1) as [h [last [es [E [W2 [B [K [C [N Q]]]]]]]]]. cbn [hp with_heap] in *.
    exists h, last, (ne (hp s) :: es). unfold new_env at 1. change (fst (new_env (hp s) x0)) with (mk_heap (mh (hp s)) (nm (hp s)) (upd (eh (hp s)) (ne (hp s)) (Some x0)) (S (ne (hp s)))) in *.
    cbn beta iota zeta. fold x0. rewrite E. split; auto. split; [exact W2|].
    split; [eapply sub_trans; [apply (sub_enew (hp s) x0)|exact B]|].
    assert (H0 : eh (mk_heap (mh (hp s)) (nm (hp s)) (upd (eh (hp s)) (ne (hp s)) (Some x0)) (S (ne (hp s)))) (ne (hp s)) = Some x0) by (cbn; unfold upd; rewrite Nat.eqb_refl; auto).
    destruct K as [K1 K2]. destruct (K2 _ _ H0) as [n [Hn [N1 [N2 [N3 N4]]]]].
    split; [|split; [|split]].
    + split; [exact K1|]. intros e m He. apply K2. cbn. unfold upd. destruct (Nat.eqb_spec e (ne (hp s))) as [Ee|]; auto.
      destruct (i_e _ _ _ (w_inv _ _ _ _ W) _ _ He). lia.
    + econstructor; eauto.
    + constructor; auto. intros I. apply Q in I. cbn in I. lia.
    + intros e [<-|I].
      * split; auto. exists n. split; auto.
      * apply Q in I. cbn in I. split; [lia|tauto].
Qed.
Lemma wf_bodies : forall s lr le ds es p ps last, wf s lr le ds -> chain (hp s) p es ps last -> In last (envs (stack s)) -> NoDup es ->
  (forall e, In e es -> (exists n, eh (hp s) e = Some n /\ e_body n = None) /\ ~ In (DBody e) (ds ++ map c_dest (stack s))) -> wf s lr le (map DBody es ++ ds).
Proof.
  intros s lr le ds es p ps last W C I N Q. destruct (chain_held _ _ _ _ _ C _ I) as [_ H]. apply wf_more; auto.
  - apply Forall_forall. intros t It. apply in_map_iff in It. destruct It as [e [<- Ie]]. split; cbn; [auto|apply Q; auto].
  - apply nodup_map; [congruence|auto].
  - intros t It. apply in_map_iff in It. destruct It as [e [<- Ie]]. apply Q. auto.
Qed.

(** ** Steps *)
Definition unsafe (w : stop) : Prop := w = Timeout \/ w = NullDeref \/ w = AssertFail.
Definition mono (s s' : st) : Prop := grow (hp s) (hp s') /\ (err s = true -> err s' = true).
Lemma mono_refl : forall s, mono s s. Proof. intros s. split; auto. apply grow_refl. Qed.
Lemma mono_trans : forall a b c, mono a b -> mono b c -> mono a c.
Proof. intros a b c [A1 A2] [B1 B2]. split; auto. eapply grow_trans; eauto. Qed.
Lemma keeps_mono : forall s s', keeps s s' -> mono s s'.
Proof. intros s s' [B [_ [_ [E _]]]]. split; [apply sub_grow; auto|congruence]. Qed.
Lemma pushes_mono : forall s s' k, pushes s s' k -> mono s s'.
Proof. intros s s' k [B _ _ _ E _]. split; [apply sub_grow; auto|congruence]. Qed.

Lemma never_unsafe : forall w, never w -> unsafe w. Proof. intros w []. Qed.
Lemma timeout_unsafe : forall w, timeout w -> unsafe w. Proof. left. auto. Qed.
Lemma reading_unsafe : forall w, reading w -> unsafe w. Proof. unfold reading, unsafe. tauto. Qed.
Lemma nulls_unsafe : forall w, nulls w -> unsafe w. Proof. unfold nulls, unsafe. tauto. Qed.
Hint Resolve never_unsafe timeout_unsafe reading_unsafe nulls_unsafe : uns.
Lemma use : forall {A B} W (x : out A) (k : A -> out B) (P : A -> Prop) (Q : B -> Prop), post W x P -> (forall w, W w -> unsafe w) -> (forall a, P a -> post unsafe (k a) Q) -> post unsafe (bind x k) Q.
Proof. intros A B W x k P Q H L K. eapply post_bind; [eapply post_weak; [exact H|exact L|intros a Pa; exact Pa]|exact K]. Qed.
Lemma fin : forall {A} W (x : out A) (P Q : A -> Prop), post W x P -> (forall w, W w -> unsafe w) -> (forall a, P a -> Q a) -> post unsafe x Q.
Proof. intros. eapply post_weak; eauto. Qed.

Lemma free_both_ok : forall f s m env, wf s [m] [env] [] -> post unsafe (bind (free_e f s env) (fun s1 => free_m f s1 m)) (fun s' => wf s' [] [] [] /\ mono s s').
Proof.
  intros f s m env W. eapply use; [apply free_e_ok; exact W|auto with uns|]. intros s1 [W1 S1].
  eapply fin; [apply free_m_ok; exact W1|auto with uns|]. intros s2 [W2 S2]. split; auto. apply keeps_mono. eapply keeps_trans; eauto.
Qed.
Lemma eheld_same : forall s s' lr le lr' le' e, wf s lr le [] -> wf s' lr' le' [] -> grow (hp s) (hp s') -> stack s' = stack s ->
  eheld (hp s) (envs (stack s)) e -> eheld (hp s') (envs (stack s')) e.
Proof.
  intros s s' lr le lr' le' e W W' G E H. rewrite E. eapply eheld_grow; [apply (w_inv _ _ _ _ W)|apply (w_inv _ _ _ _ W')| | |exact G| |exact H].
  - apply covers_e; auto.
  - apply covers_e; auto. rewrite E. auto.
  - auto.
Qed.
Lemma pick_in : forall l is p, In p (pick l is) -> p = None \/ In p l.
Proof.
  intros l is p I. unfold pick in I. apply in_map_iff in I. destruct I as [i [<- _]]. destruct (nth_in_or_default i l None); auto.
Qed.
Lemma nth_none_app : forall n l i, i < n -> nth_error (repeat (@None nat) n ++ l) i = Some None.
Proof. intros n l i L. rewrite nth_error_app1; [apply nth_repeat_none; auto|rewrite repeat_length; auto]. Qed.

Lemma builtins_size : forall x b, find_builtin x = Some b -> b_eval b + length (b_keep b) = size (b_kind b) /\ b_eval b <= b_args b /\ has_env (b_kind b) = b_env b.
Proof.
  intros x b. unfold find_builtin, builtins. cbn [find fst].
  repeat (match goal with |- context [text_eqb x ?t] => destruct (text_eqb x t) end; [intros E; injection E as <-; cbn; split; [auto|split; [lia|auto]]|]).
  discriminate.
Qed.

Lemma step_eval_ok : forall f s c m, wf s [m] [c_env c] [c_dest c] -> post unsafe (step_eval f s c m) (fun s' => wf s' [] [] [] /\ mono s s').
Proof.
  intros f s c m W. unfold step_eval. destruct m as [a|].
  2:{ destruct (err s); [|right; right; reflexivity]. eapply fin; [apply free_e_ok|auto with uns|].
      - apply (wf_swap s [None] [c_env c] [] [c_env c] []); [eapply wf_drop; exact W| |]; auto.
      - intros s' [W1 S1]. split; auto. apply keeps_mono; auto. }
  destruct (wf_live _ _ _ _ (Some a) W (or_introl eq_refl)) as [n Hn]. unfold node_at. rewrite Hn. cbn [bind].
  pose proof (wf_elive _ _ _ _ (c_env c) W (or_introl eq_refl)) as Le.
  assert (LK : forall k, In k (n_kids n) -> live (hp s) k).
  { intros [k|] Ik; cbn; auto. eapply live_kid; [apply (w_inv _ _ _ _ W)|exact Hn|exact Ik]. }
  assert (FAIL : post unsafe (bind (free_e f (with_err s) (c_env c)) (fun s1 => free_m f s1 (Some a))) (fun s' => wf s' [] [] [] /\ mono s s')).
  { eapply fin; [apply free_both_ok; apply wf_err; eapply wf_drop; exact W|auto|]. intros s' [W' [G E]]. split; auto. split; auto. }
  destruct (n_tag n).
  - eapply use; [apply store_ok; exact W|auto with uns|]. intros s1 [W1 [[G _] [_ [_ [E _]]]]].
    eapply fin; [apply free_e_ok; exact W1|auto with uns|]. intros s2 [W2 S2]. split; auto. eapply mono_trans; [split; [exact G|congruence]|apply keeps_mono; auto].
  - eapply use; [eapply find_env_ok; [apply (w_inv _ _ _ _ W)|exact Le]|auto with uns|]. intros [[e en]|] He.
    + destruct (negb _) eqn:NE; [exact FAIL|]. destruct (e_args en) as [params|].
      * apply negb_false_iff, Nat.eqb_eq in NE.
        eapply use; [apply (wf_copy_env s (Some e) _ _ _ W); exists en; auto|auto with uns|]. intros h [W1 [B1 A1]].
        destruct (env_chain_ok params _ _ _ _ _ W1) as [h1 [last [es [E [W2 [B2 [K2 [C [N Q]]]]]]]]]. cbn [hp with_heap] in E. rewrite E. cbn [bind].
        set (s2 := with_heap s h1). change (with_heap (with_heap s h) h1) with s2 in W2.
        assert (W3 : wf (push s2 (c_dest c) KEval [None] last) [Some a] [c_env c] (map (DField (nc s2)) [0] ++ [])).
        { apply (wf_push s2 (c_dest c) KEval [None] last); auto.
          - eapply wf_swap; [exact W2| |]; auto.
          - split; [auto|discriminate].
          - constructor; auto. constructor.
          - intros i [<-|[]]. auto. }
        rewrite app_nil_r in W3. set (s3 := push s2 (c_dest c) KEval [None] last) in *.
        assert (LEN : length es = length (n_kids n)). { rewrite NE. clear -C. induction C; cbn; auto. }
        assert (W4 : wf s3 [Some a] [c_env c] (map DBody es ++ [DField (nc s) 0])).
        { eapply wf_bodies; [exact W3|exact C|left; reflexivity|exact N|]. intros e' I'. destruct (Q e' I') as [L' [n' [H1 H2]]]. split; [exists n'; auto|].
          intros J. cbn [map app] in J. destruct J as [J|J]; [discriminate|]. cbn [stack s3 push map c_dest] in J.
          assert (J' : In (DBody e') ([c_dest c] ++ map c_dest (stack s))) by exact J.
          apply (dests_good s _ _ _ _ W) in J'. destruct J' as [_ [n0 [H0 _]]].
          destruct (i_e _ _ _ (w_inv _ _ _ _ W) _ _ H0) as [L0 _]. cbn [hp with_heap] in L'. destruct B1 as [_ B1 _ _]. lia. }
        eapply use; [eapply (push_evals_ok (n_kids n) (map DBody es) s3 (c_env c) _ _ _ W4)|auto with uns|].
        -- rewrite map_length. auto.
        -- apply (wf_elive _ _ _ _ _ W4). left. auto.
        -- intros k Ik. change (hp s3) with h1. eapply keep_live; [exact K2|]. eapply alike_live; [exact A1|]. auto.
        -- intros s4 [W5 P5]. eapply use; [apply free_e_ok; exact W5|auto with uns|]. intros s5 [W6 S6].
           eapply use; [apply free_m_ok; exact W6|auto with uns|]. intros s6 [W7 S7].
           pose proof (keeps_trans _ _ _ S6 S7) as S8. clear S6 S7 W6.
           assert (HE : eheld (hp s6) (envs (stack s6)) e).
           { eapply eheld_grow; [apply (w_inv _ _ _ _ W4)|apply (w_inv _ _ _ _ W7)|apply (covers_e s3 _ (stack s3)); auto|apply (covers_e s6 _ (stack s6)); auto| | |].
             - eapply grow_trans; [apply sub_grow, (p_sub _ _ _ P5)|apply sub_grow; apply S8].
             - intros e' I'. destruct S8 as [_ [E8 _]]. rewrite E8, (p_stack _ _ _ P5). unfold envs. rewrite map_app. apply in_or_app. right. exact I'.
             - destruct (chain_held _ _ _ _ _ C (envs (stack s3)) (or_introl eq_refl)) as [H _]. apply H. auto. }
           destruct (eheld_live _ _ _ _ _ (w_inv _ _ _ _ W7) (covers_e s6 _ (stack s6) (fun c I => I)) HE) as [en' Hen]. unfold env_at. rewrite Hen. cbn [bind].
           eapply use; [apply (wf_copy s6 (e_body en') _ _ _ W7)|auto with uns|].
           ++ destruct (e_body en') as [b|] eqn:Eb; cbn; auto. eapply live_body; [apply (w_inv _ _ _ _ W7)|exact Hen|exact Eb].
           ++ intros h6 [W8 [B8 _]]. eapply fin; [apply store_ok; exact W8|auto with uns|]. intros s7 [W9 [[G9 _] [_ [_ [E9 _]]]]]. split; auto.
              destruct S8 as [S8 [_ [_ [S8e _]]]]. cbn [hp with_heap err] in *. split.
              ** eapply grow_trans; [apply sub_grow; exact B1|]. eapply grow_trans; [apply sub_grow; exact B2|]. eapply grow_trans; [apply sub_grow, (p_sub _ _ _ P5)|].
                 eapply grow_trans; [apply sub_grow; exact S8|]. eapply grow_trans; [apply sub_grow; exact B8|exact G9].
              ** intros X. rewrite E9. cbn. rewrite S8e, (p_err _ _ _ P5). exact X.
      * eapply use; [apply (wf_copy s (e_body en) _ _ _ W)|auto with uns|].
        { destruct (e_body en) as [b|] eqn:Eb; cbn; auto. eapply live_body; [apply (w_inv _ _ _ _ W)|exact He|exact Eb]. }
        intros h [W1 [B1 _]]. eapply use; [apply store_ok; exact W1|auto with uns|]. intros s1 [W2 [[G2 _] [_ [_ [E2 _]]]]].
        eapply fin; [apply free_both_ok; exact W2|auto|]. intros s' [W' M']. split; auto. eapply mono_trans; [|exact M']. split; [|cbn in *; congruence].
        eapply grow_trans; [apply sub_grow; exact B1|exact G2].
    + destruct (find_builtin (n_text n)) as [b|] eqn:FB.
      * destruct (Nat.eqb_spec (length (n_kids n)) (b_args b)) as [NA|]; [|exact FAIL]. destruct (builtins_size _ _ FB) as [BS [BA BK]].
        set (keep := pick (n_kids n) (b_keep b)). set (env := if b_env b then c_env c else None).
        eapply use; [apply (wf_copy_all s keep _ _ _ W)|auto with uns|].
        { intros p Ip. apply pick_in in Ip. destruct Ip as [->|Ip]; [exact Logic.I|auto]. }
        intros h [W1 [B1 A1]]. eapply use; [apply (wf_copy_env _ env _ _ _ W1)|auto with uns|].
        { unfold env. destruct (b_env b); [|exact Logic.I]. eapply alike_elive; eauto. }
        intros h1 [W2 [B2 A2]]. set (s2 := with_heap s h1). change (with_heap (with_heap s h) h1) with s2 in W2.
        assert (W3 : wf (push s2 (c_dest c) (b_kind b) (repeat None (b_eval b) ++ keep) env) [Some a] [c_env c] (map (DField (nc s2)) (seq 0 (b_eval b)) ++ [])).
        { apply (wf_push s2 (c_dest c) (b_kind b) _ env); auto.
          - eapply wf_swap; [exact W2| |]; auto. intros x. rewrite !cnt_app, cnt_repeat. cbn [cnt]. lia.
          - split; [rewrite app_length, repeat_length; unfold keep, pick; rewrite map_length; exact BS|]. rewrite BK. unfold env. intros ->. auto.
          - apply seq_NoDup.
          - intros i Ii. apply in_seq in Ii. apply nth_none_app. lia. }
        set (s3 := push s2 (c_dest c) (b_kind b) (repeat None (b_eval b) ++ keep) env) in *. change (nc s2) with (nc s) in W3.
        eapply use; [apply (push_evals_ok (firstn (b_eval b) (n_kids n)) _ s3 (c_env c) _ _ _ W3)|auto with uns|].
        -- rewrite map_length, seq_length, firstn_length. lia.
        -- apply (wf_elive _ _ _ _ _ W3). left. auto.
        -- intros k Ik. change (hp s3) with h1. eapply alike_live; [exact A2|]. eapply alike_live; [exact A1|]. apply LK. rewrite <- (firstn_skipn (b_eval b) (n_kids n)). apply in_or_app. auto.
        -- intros s4 [W4 P4]. eapply fin; [apply free_both_ok; exact W4|auto|]. intros s' [W' M']. split; auto. eapply mono_trans; [|exact M'].
           eapply mono_trans; [|eapply pushes_mono; exact P4]. split; auto. apply sub_grow. eapply sub_trans; eauto.
      * destruct (text_eqb (n_text n) _).
        -- destruct (n_kids n) as [|k [|? ?]]; try exact FAIL.
           assert (W3 : wf (push s (c_dest c) KEval [None] (c_env c)) [Some a] [] (map (DField (nc s)) [0] ++ [])).
           { apply (wf_push s (c_dest c) KEval [None] (c_env c)).
             - eapply wf_swap; [exact W| |]; auto.
             - split; [auto|discriminate].
             - constructor; auto. constructor.
             - intros i [<-|[]]. auto. }
           eapply use; [apply (push_eval_ok _ (c_env c) k _ _ _ _ W3)|auto with uns|].
           ++ exact Le.
           ++ apply LK. left. auto.
           ++ intros s4 [W4 P4]. eapply fin; [apply free_m_ok; exact W4|auto with uns|]. intros s' [W' M']. split; auto. eapply mono_trans; [|apply keeps_mono; exact M'].
              apply (pushes_mono _ _ _ P4).
        -- eapply use; [apply store_ok; exact W|auto with uns|]. intros s1 [W1 [[G _] [_ [_ [E _]]]]].
           eapply fin; [apply free_e_ok; exact W1|auto with uns|]. intros s2 [W2 S2]. split; auto. eapply mono_trans; [split; [exact G|congruence]|apply keeps_mono; auto].
  - assert (HO : map (fun _ : option nat => @None nat) (n_kids n) = repeat None (length (n_kids n))) by (clear; induction (n_kids n); cbn; congruence).
    rewrite HO. change (mk_node TSequence [] (repeat None (length (n_kids n))) 1) with (hollow (length (n_kids n))). rewrite (surjective_pairing (new_node _ _)). cbn [bind].
    change (snd (new_node (hp s) (hollow (length (n_kids n))))) with (nm (hp s)).
    eapply use; [apply new_seq_ok; exact W|auto with uns|]. intros s1 [W1 [[G [P F]] [Go [N [E [An [HX _]]]]]]].
    eapply use; [apply (push_evals_ok (n_kids n) _ s1 (c_env c) _ _ _ W1)|auto with uns|].
    + rewrite map_length, seq_length. auto.
    + apply (wf_elive _ _ _ _ _ W1). left. auto.
    + intros [k|] Ik; [|exact Logic.I]. destruct (wf_live _ _ _ _ (Some a) W1 (or_introl eq_refl)) as [n1 H1].
      destruct (i_m _ _ _ (w_inv _ _ _ _ W) _ _ Hn) as [L _]. destruct (g_m _ _ G a n1 L H1) as [n0 [H0 [_ [_ W0]]]]. rewrite Hn in H0. injection H0 as <-.
      eapply live_kid; [apply (w_inv _ _ _ _ W1)|exact H1|]. eapply wopts_in; eauto.
    + intros s2 [W2 P2]. eapply use; [apply free_m_ok; exact W2|auto with uns|]. intros s3 [W3 S3].
      eapply fin; [apply free_e_ok; exact W3|auto with uns|]. intros s4 [W4 S4]. split; auto.
      eapply mono_trans; [split; [exact G|congruence]|]. eapply mono_trans; [eapply pushes_mono; exact P2|]. eapply mono_trans; apply keeps_mono; eauto.
Qed.

Lemma step_ok : forall f s, wf s [] [] [] -> post unsafe (step f s) (fun s' => wf s' [] [] [] /\ mono s s').
Proof.
  intros f s W. unfold step. destruct (stack s) as [|c rest] eqn:ES; [cbn; split; [auto|apply mono_refl]|].
  pose proof (wf_pop s c rest ES W) as W0. destruct (w_shape _ _ _ _ W c) as [LM EN]; [rewrite ES; left; auto|].
  set (s0 := with_stack s rest) in *.
  assert (MONO : forall s', mono s0 s' -> mono s s') by auto.
  enough (X : post unsafe
    (let fail := bind (free_ms f (with_err s0) (c_marks c)) (fun s1 => free_e f s1 (c_env c)) in
     match c_kind c, c_marks c with
     | KEval, [m] => step_eval f s0 c m
     | KDefine, [name; args; def; body] =>
      bind (text_of f (hp s0) name) (fun x =>
      match x with
      | None => fail
      | Some nm =>
        bind (free_m f s0 name) (fun s1 =>
        bind (text_of f (hp s1) args) (fun y =>
        match y with
        | None => bind (free_ms f (with_err s1) [args; def; body]) (fun s2 => free_e f s2 (c_env c))
        | Some t =>
          bind (free_m f s1 args) (fun s2 =>
          let '(h, e) := new_env (hp s2) (mk_env 1 nm (Some (split_args t [])) def (c_env c)) in
          bind (push_eval (with_heap s2 h) (Some e) body (c_dest c)) (fun s3 =>
          bind (free_e f s3 (Some e)) (fun s4 => free_m f s4 body)))
        end))
      end)
    | KLet, [name; def; body] =>
      bind (text_of f (hp s0) name) (fun x =>
      match x with
      | None => fail
      | Some nm =>
        bind (free_m f s0 name) (fun s1 =>
        let '(h, e) := new_env (hp s1) (mk_env 1 nm None def (c_env c)) in
        bind (push_eval (with_heap s1 h) (Some e) body (c_dest c)) (fun s2 =>
        bind (free_e f s2 (Some e)) (fun s3 => free_m f s3 body)))
      end)
    | KIf, [a; b; if_eq; if_ne] =>
      bind (eq f (hp s0) a b) (fun '(h, r) =>
      bind (match r with
               | Some e => push_eval (with_heap s0 h) (c_env c) (if e then if_eq else if_ne) (c_dest c)
               | None => Ok (with_err (with_heap s0 h))
               end) (fun s1 =>
      bind (free_ms f s1 (c_marks c)) (fun s2 => free_e f s2 (c_env c))))
    | KError, [msg] =>
      bind (text_of f (hp s0) msg) (fun x => free_m f (with_err s0) msg)
    | KHead, [a] =>
      bind (head_of f (hp s0) a) (fun x =>
      match x with
      | None => free_m f (with_err s0) a
      | Some None => store s0 (c_dest c) a
      | Some (Some ch) =>
        let '(h, q) := new_plain (hp s0) [ch] in
        bind (store (with_heap s0 h) (c_dest c) (Some q)) (fun s1 => free_m f s1 a)
      end)
    | KTail, [a] =>
      bind (tail_of f (hp s0) a) (fun '(h, x) =>
      match x with
      | None => bind (store (with_err (with_heap s0 h)) (c_dest c) None) (fun s1 => free_m f s1 a)
      | Some None => store (with_heap s0 h) (c_dest c) a
      | Some (Some q) => bind (store (with_heap s0 h) (c_dest c) (Some q)) (fun s1 => free_m f s1 a)
      end)
    | KPlain, [g; body] =>
      bind (text_of f (hp s0) g) (fun x =>
      match x with
      | None => fail
      | Some t =>
        bind (map_plain f t (hp s0) body) (fun '(h, q) =>
        bind (free_ms f (with_heap s0 h) [g; body]) (fun s1 =>
        bind (push_eval s1 (c_env c) (Some q) (c_dest c)) (fun s2 =>
        bind (free_m f s2 (Some q)) (fun s3 => free_e f s3 (c_env c)))))
      end)
    | _, _ => Stop Dangling
    end) (fun s' => wf s' [] [] [] /\ mono s0 s')) by exact X.
  cbv zeta.
  assert (FAIL : forall s1 ms ds, wf s1 ms [c_env c] ds -> ds = [] -> post unsafe (bind (free_ms f (with_err s1) ms) (fun s1 => free_e f s1 (c_env c))) (fun s' => wf s' [] [] [] /\ mono s1 s')).
  { intros s1 ms ds W1 ->. eapply use; [apply free_ms_ok; apply wf_err; rewrite app_nil_r; exact W1|auto with uns|]. intros s2 [W2 S2].
    eapply fin; [apply free_e_ok; exact W2|auto with uns|]. intros s3 [W3 S3]. split; auto.
    destruct (keeps_mono _ _ (keeps_trans _ _ _ S2 S3)) as [G E]. split; auto. }
  pose proof (wf_drop _ _ _ _ _ W0) as WD.
  destruct (c_kind c) eqn:EK; cbn [size has_env] in LM, EN; destruct (c_marks c) as [|m1 [|m2 [|m3 [|m4 [|m5 ms]]]]] eqn:EM; try discriminate.
  - apply step_eval_ok. exact W0.
  - (* define *)
    eapply use; [eapply text_of_ok; [apply (w_inv _ _ _ _ W0)|apply (wf_live _ _ _ _ _ W0); left; auto]|auto with uns|]. intros [nm|] _; [|eapply FAIL; eauto].
    eapply use; [apply free_m_ok; exact W0|auto with uns|]. intros s1 [W1 S1].
    eapply use; [eapply text_of_ok; [apply (w_inv _ _ _ _ W1)|apply (wf_live _ _ _ _ _ W1); left; auto]|auto with uns|]. intros [t|] _.
    2:{ eapply fin; [eapply FAIL; [eapply wf_drop; exact W1|auto]|auto|]. intros s' [W' M']. split; auto. eapply mono_trans; [apply keeps_mono; exact S1|exact M']. }
    eapply use; [apply free_m_ok; exact W1|auto with uns|]. intros s2 [W2 S2].
    rewrite (surjective_pairing (new_env _ _)). cbn [snd new_env].
    pose proof (wf_new_env s2 (mk_env 1 nm (Some (split_args t [])) m3 (c_env c)) [m4] [] _ W2 eq_refl) as W3.
    eapply use; [eapply push_eval_ok; [exact W3|apply (wf_elive _ _ _ _ _ W3); left; auto|apply (wf_live _ _ _ _ _ W3); left; auto]|auto with uns|]. intros s3 [W4 P4].
    eapply fin; [apply free_both_ok; exact W4|auto|]. intros s' [W' M']. split; auto.
    eapply mono_trans; [apply keeps_mono; exact S1|]. eapply mono_trans; [apply keeps_mono; exact S2|]. eapply mono_trans; [|exact M'].
    eapply mono_trans; [|eapply pushes_mono; exact P4]. split; auto. apply sub_grow, sub_enew.
  - (* let *)
    eapply use; [eapply text_of_ok; [apply (w_inv _ _ _ _ W0)|apply (wf_live _ _ _ _ _ W0); left; auto]|auto with uns|]. intros [nm|] _; [|eapply FAIL; eauto].
    eapply use; [apply free_m_ok; exact W0|auto with uns|]. intros s2 [W2 S2].
    rewrite (surjective_pairing (new_env _ _)). cbn [snd new_env].
    pose proof (wf_new_env s2 (mk_env 1 nm None m2 (c_env c)) [m3] [] _ W2 eq_refl) as W3.
    eapply use; [eapply push_eval_ok; [exact W3|apply (wf_elive _ _ _ _ _ W3); left; auto|apply (wf_live _ _ _ _ _ W3); left; auto]|auto with uns|]. intros s3 [W4 P4].
    eapply fin; [apply free_both_ok; exact W4|auto|]. intros s' [W' M']. split; auto.
    eapply mono_trans; [apply keeps_mono; exact S2|]. eapply mono_trans; [|exact M'].
    eapply mono_trans; [|eapply pushes_mono; exact P4]. split; auto. apply sub_grow, sub_enew.
  - (* if *)
    eapply use; [eapply eq_ok; [apply (w_inv _ _ _ _ W0)|apply (wf_live _ _ _ _ _ W0); cbn; auto|apply (wf_live _ _ _ _ _ W0); cbn; auto]|auto with uns|]. intros [h r] [I1 B1]. cbn [fst] in *.
    pose proof (wf_heap _ _ _ _ _ _ _ W0 I1 B1) as W1.
    eapply use with (W := never) (P := fun s1 => wf s1 [m1; m2; m3; m4] [c_env c] [] /\ mono s0 s1).
    + destruct r as [e|].
      * eapply post_weak; [eapply push_eval_ok; [exact W1|apply (wf_elive _ _ _ _ _ W1); left; auto|apply (wf_live _ _ _ _ _ W1); destruct e; cbn; auto]|auto|].
        intros s1 [W2 P2]. split; auto. eapply mono_trans; [|eapply pushes_mono; exact P2]. split; auto. apply sub_grow. exact B1.
      * cbn. split; [apply wf_err; eapply wf_drop; exact W1|]. split; auto. apply sub_grow. exact B1.
    + auto with uns.
    + intros s1 [W2 M2]. eapply use; [apply free_ms_ok; rewrite app_nil_r; exact W2|auto with uns|]. intros s2 [W3 S3].
      eapply fin; [apply free_e_ok; exact W3|auto with uns|]. intros s3 [W4 S4]. split; auto. eapply mono_trans; [exact M2|]. apply keeps_mono. eapply keeps_trans; eauto.
  - (* error *)
    rewrite (EN eq_refl) in *. eapply use; [eapply text_of_ok; [apply (w_inv _ _ _ _ W0)|apply (wf_live _ _ _ _ _ W0); left; auto]|auto with uns|]. intros x _.
    eapply fin; [apply free_m_ok; apply wf_err; exact WD|auto with uns|]. intros s' [W' S']. split; [eapply wf_swap; [exact W'| |]; auto|].
    destruct (keeps_mono _ _ S') as [G E]. split; auto.
  - (* head *)
    rewrite (EN eq_refl) in *. assert (W1 : wf s0 [m1] [] [c_dest c]) by (eapply wf_swap; [exact W0| |]; auto).
    eapply use; [eapply head_of_ok; [apply (w_inv _ _ _ _ W0)|apply (wf_live _ _ _ _ _ W0); left; auto]|auto with uns|]. intros [[ch|]|] _.
    + rewrite (surjective_pairing (new_plain _ _)). change (snd (new_plain (hp s0) [ch])) with (nm (hp s0)).
      pose proof (wf_new_node s0 (mk_node TPlain [ch] [] 1) [m1] [] _ W1 eq_refl) as W2.
      eapply use; [apply store_ok; exact W2|auto with uns|]. intros s1 [W3 [[G _] [_ [_ [E _]]]]].
      eapply fin; [apply free_m_ok; exact W3|auto with uns|]. intros s2 [W4 S4]. split; auto. eapply mono_trans; [|apply keeps_mono; exact S4].
      split; [eapply grow_trans; [apply sub_grow, sub_new|exact G]|intros X; rewrite E; exact X].
    + eapply fin; [apply store_ok; exact W1|auto with uns|]. intros s1 [W3 [[G _] [_ [_ [E _]]]]]. split; auto. split; [exact G|intros X; rewrite E; exact X].
    + eapply fin; [apply free_m_ok; apply wf_err; eapply wf_drop; exact W1|auto with uns|]. intros s' [W' S']. split; auto.
      destruct (keeps_mono _ _ S') as [G E]. split; auto.
  - (* tail *)
    rewrite (EN eq_refl) in *. assert (W1 : wf s0 [m1] [] [c_dest c]) by (eapply wf_swap; [exact W0| |]; auto).
    eapply use; [eapply tail_of_ok; [apply (w_inv _ _ _ _ W1)|apply (wf_live _ _ _ _ _ W1); left; auto]|auto with uns|]. intros [h [[q|]|]] [K [B J]]; cbn [fst snd] in *.
    + assert (W2 : wf (with_heap s0 h) [Some q; m1] [] [c_dest c]).
      { eapply wf_heap; [exact W1| |exact B]. eapply inv_ext; [exact J| |]; auto. intros a. unfold add, mroots. cbn [cnt]. lia. }
      eapply use; [apply store_ok; exact W2|auto with uns|]. intros s1 [W3 [[G _] [_ [_ [E _]]]]].
      eapply fin; [apply free_m_ok; exact W3|auto with uns|]. intros s2 [W4 S4]. split; auto. eapply mono_trans; [|apply keeps_mono; exact S4].
      split; [eapply grow_trans; [apply sub_grow; exact B|exact G]|intros X; rewrite E; exact X].
    + subst h. assert (W2 : wf (with_heap s0 (hp s0)) [m1] [] [c_dest c]) by (destruct W1; constructor; auto).
      eapply fin; [apply store_ok; exact W2|auto with uns|]. intros s1 [W3 [[G _] [_ [_ [E _]]]]]. split; auto. split; [exact G|intros X; rewrite E; exact X].
    + subst h. assert (W2 : wf (with_err (with_heap s0 (hp s0))) [None; m1] [] [c_dest c]).
      { apply wf_err. apply (wf_swap _ [m1] [] [None; m1] []); auto. }
      eapply use; [apply store_ok; exact W2|auto with uns|]. intros s1 [W3 [[G _] [_ [_ [E _]]]]].
      eapply fin; [apply free_m_ok; exact W3|auto with uns|]. intros s2 [W4 S4]. split; auto. eapply mono_trans; [|apply keeps_mono; exact S4].
      split; [exact G|]. rewrite E. auto.
  - (* plain *)
    eapply use; [eapply text_of_ok; [apply (w_inv _ _ _ _ W0)|apply (wf_live _ _ _ _ _ W0); left; auto]|auto with uns|]. intros [t|] _; [|eapply FAIL; eauto].
    eapply use; [eapply map_plain_ok; [apply (w_inv _ _ _ _ W0)|apply (wf_live _ _ _ _ _ W0); cbn; auto]|auto with uns|]. intros [h q] [K [B J]]; cbn [fst snd] in *.
    assert (W1 : wf (with_heap s0 h) ([m1; m2] ++ [Some q]) [c_env c] [c_dest c]).
    { eapply wf_heap; [exact W0| |exact B]. eapply inv_ext; [exact J| |]; auto. intros a. unfold add, mroots. rewrite cnt_app. cbn [cnt]. lia. }
    eapply use; [apply free_ms_ok; exact W1|auto with uns|]. intros s1 [W2 S2].
    eapply use; [eapply push_eval_ok; [exact W2|apply (wf_elive _ _ _ _ _ W2); left; auto|apply (wf_live _ _ _ _ _ W2); left; auto]|auto with uns|]. intros s2 [W3 P3].
    eapply use; [apply free_m_ok; exact W3|auto with uns|]. intros s3 [W4 S4].
    eapply fin; [apply free_e_ok; exact W4|auto with uns|]. intros s4 [W5 S5]. split; auto.
    eapply mono_trans; [|eapply mono_trans; [eapply pushes_mono; exact P3|apply keeps_mono; eapply keeps_trans; eauto]].
    eapply mono_trans; [|apply keeps_mono; exact S2]. split; auto. apply sub_grow. exact B.
Qed.
Lemma run_ok : forall f n s, wf s [] [] [] -> post unsafe (run f n s) (fun s' => wf s' [] [] [] /\ mono s s' /\ stack s' = []).
Proof.
  intros f. induction n as [|n IH]; intros s W; cbn [run]; destruct (stack s) eqn:E; try (cbn; split; [auto|split; [apply mono_refl|auto]]; fail).
  - left. auto.
  - eapply use; [apply step_ok; exact W|auto|]. intros s1 [W1 M1]. eapply fin; [apply IH; exact W1|auto|]. intros s2 [W2 [M2 E2]]. split; auto. split; auto. eapply mono_trans; eauto.
Qed.
Lemma start_ok : forall h m, inv h r0 re0 -> live h m -> post never (start h m) (fun s => wf s [] [] [] /\ grow h (hp s) /\ err s = false /\ stack s = [mk_cmd 0 DResult KEval [m] None] /\ res s = None /\ alike h (hp s)).
Proof.
  intros h m I L. unfold start.
  assert (W : wf (mk_st h [] 0 false None) [] [] [DResult]).
  { constructor; cbn; auto.
    - constructor.
    - intros c [].
    - intros c [].
    - constructor; [|constructor]. split; cbn; auto.
    - constructor; [intros []|constructor]. }
  eapply post_weak; [eapply push_eval_ok; [exact W|exact Logic.I|exact L]|auto|]. intros s [W1 P1]. split; auto.
  split; [apply sub_grow, (p_sub _ _ _ P1)|]. split; [apply (p_err _ _ _ P1)|]. split; [apply (p_stack _ _ _ P1)|]. split; [apply (p_res _ _ _ P1)|apply (p_alike _ _ _ P1)].
Qed.
End Others.
