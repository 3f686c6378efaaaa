(** * What the operations on fbld documents do: lemmas. *)
From Coq Require Import ZArith String Ascii List Arith Lia Bool.
From Verif Require Import FbldModel FbldSpec FbldMem FbldSafe.
Import ListNotations.
Local Open Scope list_scope.
Notation length := List.length.
Notation "'do' p <- x ; k" := (FbldModel.bind x (fun p => k)) (at level 200, p pattern, x at level 100, k at level 200).

(** ** Results with enough fuel *)
Definition tot {A} (x : nat -> out A) (P : A -> Prop) : Prop := exists a f0, (forall f, f0 <= f -> x f = Ok a) /\ P a.
Definition stops {A} (x : nat -> out A) (w : stop) : Prop := exists f0, forall f, f0 <= f -> x f = Stop w.
Lemma tot_ret : forall {A} (a : A) (P : A -> Prop), P a -> tot (fun _ => Ok a) P.
Proof. intros A a P H. exists a, 0. auto. Qed.
Lemma tot_const : forall {A} (x : out A) (P : A -> Prop), post never x P -> tot (fun _ => x) P.
Proof. intros A [a|w] P H; [|destruct H]. exists a, 0. auto. Qed.
Lemma tot_bind : forall {A B} (x : nat -> out A) (k : nat -> A -> out B) (P : A -> Prop) (Q : B -> Prop),
  tot x P -> (forall a, P a -> tot (fun f => k f a) Q) -> tot (fun f => FbldModel.bind (x f) (k f)) Q.
Proof.
  intros A B x k P Q [a [f0 [H Pa]]] K. destruct (K a Pa) as [b [f1 [H1 Qb]]]. exists b, (f0 + f1). split; auto.
  intros f L. rewrite H by lia. cbn. apply H1. lia.
Qed.
Lemma tot_weak : forall {A} (x : nat -> out A) (P Q : A -> Prop), tot x P -> (forall a, P a -> Q a) -> tot x Q.
Proof. intros A x P Q [a [f0 [H Pa]]] K. exists a, f0. auto. Qed.
Lemma tot_S : forall {A} (x : nat -> out A) (P : A -> Prop), tot (fun f => x (S f)) P -> tot x P.
Proof. intros A x P [a [f0 [H Pa]]]. exists a, (S f0). split; auto. intros [|f] L; [lia|]. apply H. lia. Qed.
Lemma tot_post : forall {A} W (x : nat -> out A) (P Q : A -> Prop), tot x P -> (forall f, post W (x f) Q) -> tot x (fun a => P a /\ Q a).
Proof. intros A W x P Q [a [f0 [H Pa]]] K. exists a, f0. split; auto. split; auto. specialize (K f0). rewrite H in K; auto. Qed.
Lemma tot_ext : forall {A} (x y : nat -> out A) (P : A -> Prop), tot x P -> (forall f, x f = y f) -> tot y P.
Proof. intros A x y P [a [f0 [H Pa]]] K. exists a, f0. split; auto. intros f L. rewrite <- K. auto. Qed.
Lemma stops_bind : forall {A B} (x : nat -> out A) (k : nat -> A -> out B) w, stops x w -> stops (fun f => FbldModel.bind (x f) (k f)) w.
Proof. intros A B x k w [f0 H]. exists f0. intros f L. rewrite H; auto. Qed.
Lemma tot_stops : forall {A B} (x : nat -> out A) (k : nat -> A -> out B) w P, tot x P -> (forall a, P a -> stops (fun f => k f a) w) -> stops (fun f => FbldModel.bind (x f) (k f)) w.
Proof. intros A B x k w P [a [f0 [H Pa]]] K. destruct (K a Pa) as [f1 H1]. exists (f0 + f1). intros f L. rewrite H by lia. cbn. apply H1. lia. Qed.
Lemma stops_S : forall {A} (x : nat -> out A) w, stops (fun f => x (S f)) w -> stops x w.
Proof. intros A x w [f0 H]. exists (S f0). intros [|f] L; [lia|]. apply H. lia. Qed.

(** ** Documents *)
Lemma doc_ind2 : forall P : doc -> Prop, (forall t, P (Plain t)) -> (forall x ds, Forall P ds -> P (Command x ds)) -> (forall ds, Forall P ds -> P (Sequence ds)) -> forall d, P d.
Proof.
  intros P H1 H2 H3. fix IH 1. intros [t|x ds|ds]; [apply H1|apply H2|apply H3]; induction ds as [|d ds K]; constructor; auto.
Qed.
Lemma inv_plain : forall h p t, holds h p (Plain t) -> exists a ks r, p = Some a /\ mh h a = Some (mk_node TPlain t ks r).
Proof. intros h p t H. inversion H; subst. eauto. Qed.
Lemma inv_command : forall h p x ds, holds h p (Command x ds) -> exists a ks r, p = Some a /\ mh h a = Some (mk_node TCommand x ks r) /\ Forall2 (holds h) ks ds.
Proof. intros h p x ds H. inversion H; subst. eauto 10. Qed.
Lemma inv_sequence : forall h p ds, holds h p (Sequence ds) -> exists a t ks r, p = Some a /\ mh h a = Some (mk_node TSequence t ks r) /\ Forall2 (holds h) ks ds.
Proof. intros h p ds H. inversion H; subst. eauto 10. Qed.
Lemma holds_live : forall h p d, holds h p d -> live h p.
Proof. intros h p d H. inversion H; subst; cbn; eauto. Qed.
Lemma wopts_holds : forall h ks ks' ds, Forall2 (holds h) ks ds -> Forall2 wopt ks ks' -> ks' = ks.
Proof.
  intros h ks ks' ds F. revert ks'. induction F as [|k d ks ds H F IH]; intros ks' W; inversion W; subst; auto. f_equal; auto.
  destruct H2 as [->|]; auto. inversion H.
Qed.
Lemma holds_grow : forall d h h' r re r' re' p, holds h p d -> grow h h' -> inv h r re -> inv h' r' re' -> live h' p -> holds h' p d.
Proof.
  intros d. induction d as [t|x ds IH|ds IH] using doc_ind2; intros h h' r re r' re' p H G I J L;
    [apply inv_plain in H; destruct H as [a [ks [rc [-> Ha]]]]|apply inv_command in H; destruct H as [a [ks [rc [-> [Ha F]]]]]|apply inv_sequence in H; destruct H as [a [tx0 [ks [rc [-> [Ha F]]]]]]];
    destruct L as [n' Hn']; destruct (i_m _ _ _ I _ _ Ha) as [La _]; destruct (g_m _ _ G _ _ La Hn') as [n [Hn [E1 [E2 E3]]]];
    rewrite Ha in Hn; injection Hn as <-; cbn in E1, E2, E3; destruct n' as [tg tx ks' rc']; cbn in E1, E2, E3; subst.
  - econstructor; eauto.
  - pose proof (wopts_holds _ _ _ _ F E3) as Q. subst ks'. econstructor; eauto.
    assert (LK : forall k, In k ks -> live h' k) by (intros [k|] Ik; cbn; auto; eapply live_kid; eauto).
    clear - IH F LK G I J. induction F as [|k d ks ds K F IHF]; constructor; inversion IH; subst.
    + eapply H1; eauto. apply LK. left. auto.
    + apply IHF; auto. intros; apply LK; right; auto.
  - pose proof (wopts_holds _ _ _ _ F E3) as Q. subst ks'. econstructor; eauto.
    assert (LK : forall k, In k ks -> live h' k) by (intros [k|] Ik; cbn; auto; eapply live_kid; eauto).
    clear - IH F LK G I J. induction F as [|k d ks ds K F IHF]; constructor; inversion IH; subst.
    + eapply H1; eauto. apply LK. left. auto.
    + apply IHF; auto. intros; apply LK; right; auto.
Qed.
Lemma holds_keep : forall d h h' p, keep h h' -> holds h p d -> holds h' p d.
Proof.
  intros d. induction d as [t|x ds IH|ds IH] using doc_ind2; intros h h' p K H;
    [apply inv_plain in H; destruct H as [a [ks [rc [-> Ha]]]]|apply inv_command in H; destruct H as [a [ks [rc [-> [Ha F]]]]]|apply inv_sequence in H; destruct H as [a [tx0 [ks [rc [-> [Ha F]]]]]]];
    destruct (proj1 K _ _ Ha) as [[tg tx ks' rc'] [Hn [E1 [E2 E3]]]]; cbn in E1, E2, E3; subst; econstructor; eauto.
  - clear - IH F K. induction F as [|k d ks ds Kd F IHF]; constructor; inversion IH; subst; eauto.
  - clear - IH F K. induction F as [|k d ks ds Kd F IHF]; constructor; inversion IH; subst; eauto.
Qed.
Lemma holds_all_keep : forall ds h h' ks, keep h h' -> Forall2 (holds h) ks ds -> Forall2 (holds h') ks ds.
Proof. intros ds h h' ks K F. induction F; constructor; eauto using holds_keep. Qed.

(** ** Freeing comes to an end *)
Definition rcs (h : heap) : nat := sum (nm h) (fun a => match mh h a with Some n => n_rc n | None => 0 end).
Lemma rcs_set : forall h a n x, mh h a = Some n -> a < nm h -> rcs (set_node h a x) + n_rc n = rcs h + match x with Some m => n_rc m | None => 0 end.
Proof.
  intros h a n x H L. unfold rcs. cbn [nm set_node].
  pose proof (sum_change (nm h) (fun c => match mh h c with Some n => n_rc n | None => 0 end) (fun c => match mh (set_node h a x) c with Some n => n_rc n | None => 0 end) a L) as E.
  cbn beta in E. rewrite H in E.
  assert (Q : match mh (set_node h a x) a with Some n => n_rc n | None => 0 end = match x with Some m => n_rc m | None => 0 end).
  { cbn. unfold upd. rewrite Nat.eqb_refl. auto. }
  rewrite Q in E. rewrite <- E; [auto|]. intros c N. cbn. unfold upd. destruct (Nat.eqb_spec c a); [contradiction|auto].
Qed.
Lemma free_list_tot : forall k ws h r re, rcs h <= k -> inv h (adds ws r) re -> tot (fun f => free_list f h ws) (fun _ => True).
Proof.
  induction k as [k IHk] using lt_wf_ind. induction ws as [|[a|] ws IH]; intros h r re L I; apply tot_S; cbn [free_list].
  - apply tot_ret. exact Logic.I.
  - destruct (live_r _ _ _ a I) as [n H]; [unfold adds; cbn; rewrite Nat.eqb_refl; lia|]. unfold node_at. rewrite H. cbn.
    destruct (i_m _ _ _ I a n H) as [La [P Q]].
    pose proof (fun f => free_list_ok (S f) (Some a :: ws) h r re I) as OK. cbn [free_list] in OK. unfold node_at in OK. rewrite H in OK. cbn in OK.
    destruct (n_rc n) as [|[|j]] eqn:RC; [lia| |].
    + (* freed *)
      pose proof (rcs_set h a n None H La) as R. rewrite RC in R.
      assert (I' : inv (set_node h a None) (adds (n_kids n ++ ws) r) re).
      { unfold adds in Q. cbn [cnt] in Q. rewrite one_same in Q.
        assert (M : forall b, mref (set_node h a None) b + cnt b (n_kids n) = mref h b).
        { intros b. pose proof (mref_set_node h a None b La) as E. unfold kids_of in E. rewrite H in E. cbn [cnt] in E. lia. }
        constructor.
        - intros b m E. cbn in E. unfold upd in E. destruct (Nat.eqb_spec b a) as [Eb|N]; [discriminate|].
          destruct (i_m _ _ _ I b m E) as [L' [P' Q']]. split; [exact L'|split; [exact P'|]]. unfold adds in *. cbn [cnt] in Q'. rewrite one_eq in Q'.
          destruct (Nat.eqb_spec a b); [congruence|]. rewrite cnt_app. specialize (M b). lia.
        - intros b E. cbn in E. unfold upd in E. specialize (M b). unfold adds. rewrite cnt_app. destruct (Nat.eqb_spec b a) as [->|N]; [lia|].
          pose proof (i_no _ _ _ I b E) as Z. unfold adds in Z. cbn [cnt] in Z. lia.
        - intros e m E. rewrite eref_set_node. apply (i_e _ _ _ I e m E).
        - intros e E. rewrite eref_set_node. apply (i_eno _ _ _ I e E).
        - apply (i_next _ _ _ I). }
      apply (IHk (rcs (set_node h a None)) ltac:(lia) (n_kids n ++ ws) _ r re (le_n _) I').
    + pose proof (rcs_set h a n (Some (with_rc n (S j))) H La) as R. rewrite RC in R. cbn [n_rc with_rc] in R.
      assert (I' : inv (set_node h a (Some (with_rc n (S j)))) (adds ws r) re).
      { unfold adds in Q. cbn [cnt] in Q. rewrite one_same in Q. apply inv_set_rc with (adds (Some a :: ws) r); auto; [lia| |]; unfold adds; cbn [cnt]; intros.
        - rewrite one_eq. destruct (Nat.eqb_spec a b); [congruence|lia].
        - rewrite one_same. lia. }
      apply (IHk (rcs (set_node h a (Some (with_rc n (S j))))) ltac:(lia) ws _ r re (le_n _) I').
  - apply (IH h r re L). eapply inv_ext; [exact I| |]; auto.
Qed.
Lemma free_tot : forall p h r re, inv h (add p r) re -> tot (fun f => free f h p) (fun h' => inv h' r re /\ sub h h').
Proof.
  intros p h r re I. eapply tot_weak; [eapply tot_post; [eapply free_list_tot with (r := r) (re := re); [apply le_n|]|intros f; apply free_ok; exact I]|].
  - eapply inv_ext; [exact I| |]; auto. intros a. unfold add, adds. cbn. lia.
  - intros h' [_ [J [B _]]]. auto.
Qed.
Lemma free_env_tot : forall k p h r re, match p with Some e => e < k | None => True end -> inv h r (add p re) -> tot (fun f => free_env f h p) (fun _ => True).
Proof.
  induction k as [k IHk] using lt_wf_ind. intros [e|] h r re L I; apply tot_S; cbn [free_env]; [|apply tot_ret; exact Logic.I].
  destruct (elive_r _ _ _ e I) as [n H]; [unfold add; rewrite one_same; lia|]. unfold env_at. rewrite H. cbn [FbldModel.bind].
  destruct (i_e _ _ _ I e n H) as [Le [P Q]]. destruct (e_rc n) as [|[|j]] eqn:RC; [lia| |apply tot_ret; exact Logic.I].
  unfold add in Q. rewrite one_same in Q.
  assert (I' : inv (set_env h e None) (add (e_body n) r) (add (e_next n) re)).
  { assert (M : forall b, mref (set_env h e None) b + one b (e_body n) = mref h b).
    { intros b. pose proof (mref_set_env h e None b Le) as E. unfold body_of in E. rewrite H in E. cbn [one] in E. lia. }
    assert (M' : forall b, eref (set_env h e None) b + one b (e_next n) = eref h b).
    { intros b. pose proof (eref_set_env h e None b Le) as E. unfold next_of in E. rewrite H in E. cbn [one] in E. lia. }
    constructor.
    - intros b m E. destruct (i_m _ _ _ I b m E) as [L' [P' Q']]. specialize (M b). unfold add. cbn [nm set_env]. lia.
    - intros b E. pose proof (i_no _ _ _ I b E). specialize (M b). unfold add. lia.
    - intros b m E. cbn in E. unfold upd in E. destruct (Nat.eqb_spec b e) as [Eb|N]; [discriminate|].
      destruct (i_e _ _ _ I b m E) as [L' [P' Q']]. split; [exact L'|split; [exact P'|]]. unfold add in *. rewrite one_eq in Q'.
      destruct (Nat.eqb_spec e b); [congruence|]. specialize (M' b). lia.
    - intros b E. cbn in E. unfold upd in E. specialize (M' b). unfold add. destruct (Nat.eqb_spec b e) as [->|N]; [lia|].
      pose proof (i_eno _ _ _ I b E) as Z. unfold add in Z. lia.
    - intros b m e' E. cbn in E. unfold upd in E. destruct (b =? e); [discriminate|]. apply (i_next _ _ _ I b m e' E). }
  eapply tot_bind; [apply free_tot; exact I'|]. intros h1 [I1 _]. destruct (e_next n) as [e'|] eqn:EN.
  - eapply (IHk e ltac:(lia) (Some e')); [|exact I1]. cbn. eapply (i_next _ _ _ I); eauto.
  - apply (IHk e ltac:(lia) None h1 r re); auto.
Qed.

(** ** Heads and tails *)
Definition head (l : list item) : option (option Z) := match l with [] => Some None | Char c :: _ => Some (Some c) | Cmd _ :: _ => None end.
Lemma head_app : forall l m, head (l ++ m) = match head l with Some None => head m | x => x end.
Proof. intros [|[c|x] l] m; auto. Qed.
Lemma head_of_tot : forall d h p, holds h p d -> tot (fun f => head_of f h p) (fun x => x = head (items d)).
Proof.
  intros d. induction d as [t|x ds IH|ds IH] using doc_ind2; intros h p H;
    [apply inv_plain in H; destruct H as [a [ks [rc [-> Ha]]]]|apply inv_command in H; destruct H as [a [ks [rc [-> [Ha F]]]]]|apply inv_sequence in H; destruct H as [a [tx0 [ks [rc [-> [Ha F]]]]]]];
    apply tot_S; cbn [head_of]; unfold node_at; rewrite Ha; cbn [FbldModel.bind n_tag n_text n_kids].
  - apply tot_ret. destruct t; auto.
  - apply tot_ret. auto.
  - clear Ha. induction F as [|k d ks ds K F IHF]; [apply tot_ret; auto|]. inversion IH; subst. 
    cbn [head_each]. eapply tot_bind; [apply H1; exact K|]. intros y ->. cbn [items flat_map]. rewrite head_app. destruct (head (items d)) as [[c|]|]; [apply tot_ret; auto|apply IHF; auto|apply tot_ret; auto].
Qed.

Definition tails (d : doc) (y : heap * option (option nat)) : Prop :=
  match head (items d) with
  | None => snd y = None
  | Some None => snd y = Some None
  | Some (Some _) => exists q w, snd y = Some (Some q) /\ drop d = Some w /\ holds (fst y) (Some q) w
  end.
Fixpoint drops (l : list doc) : option doc :=
  match l with [] => None | x :: r => match drop x with Some y => Some (match r with [] => y | _ => Sequence (y :: r) end) | None => drops r end end.
Lemma drop_seq : forall ds, drop (Sequence ds) = drops ds.
Proof. intros ds. cbn. induction ds as [|x r IH]; cbn; auto; rewrite IH; auto. Qed.
Lemma drop_nil : forall d, items d = [] -> drop d = None.
Proof.
  intros d. induction d as [t|x ds IH|ds IH] using doc_ind2; intros E; auto.
  - destruct t; auto. discriminate.
  - rewrite drop_seq. cbn [items] in E. induction ds as [|d ds IHd]; auto. inversion IH; subst. cbn [flat_map] in E. apply app_eq_nil in E. destruct E as [E1 E2].
    cbn [drops]. rewrite H1; auto.
Qed.
Lemma drop_char : forall d c l, items d = Char c :: l -> exists w, drop d = Some w /\ items w = l.
Proof.
  intros d. induction d as [t|x ds IH|ds IH] using doc_ind2; intros c l E.
  - destruct t; [discriminate|]. cbn in E. injection E as -> E. eexists. split; [reflexivity|auto].
  - discriminate.
  - rewrite drop_seq. cbn [items] in E. induction ds as [|d ds IHd]; [discriminate|]. inversion IH; subst. cbn [flat_map] in E. cbn [drops].
    destruct (items d) as [|i l0] eqn:Ei.
    + rewrite (drop_nil d Ei). auto.
    + cbn in E. injection E as -> E. destruct (H1 c l0 eq_refl) as [w [Ew Iw]]. rewrite Ew. eexists. split; [reflexivity|]. destruct ds; cbn in *; rewrite ?app_nil_r in *; congruence.
Qed.
Lemma head_char : forall l c, head l = Some (Some c) -> exists m, l = Char c :: m.
Proof. intros [|[x|x] l] c E; cbn in E; try discriminate. injection E as ->. eauto. Qed.

Lemma live_holds : forall h ks ds, Forall2 (holds h) ks ds -> forall k, In k ks -> live h k.
Proof.
  intros h ks ds F. induction F as [|k0 d ks ds K F IH]; intros k I; [destruct I|]. destruct I as [<-|I]; [eapply holds_live; eauto|auto].
Qed.
Lemma tail_of_tot : forall d h r re p, inv h r re -> holds h p d -> tot (fun f => tail_of f h p) (tails d).
Proof.
  intros d. induction d as [t|x ds IH|ds IH] using doc_ind2; intros h r re p I H;
    [apply inv_plain in H; destruct H as [a [ks [rc [-> Ha]]]]|apply inv_command in H; destruct H as [a [ks [rc [-> [Ha F]]]]]|apply inv_sequence in H; destruct H as [a [tx0 [ks [rc [-> [Ha F]]]]]]];
    apply tot_S; cbn [tail_of]; unfold deref, node_at; rewrite Ha; cbn [FbldModel.bind n_tag n_text n_kids].
  - destruct t as [|c t]; apply tot_ret; cbn; auto. eexists _, _. split; [reflexivity|]. split; [reflexivity|]. cbn. econstructor. cbn. unfold upd. rewrite Nat.eqb_refl. reflexivity.
  - apply tot_ret. cbn. auto.
  - assert (LK : forall k, In k ks -> live h k) by (apply (live_holds _ _ _ F)).
    clear Ha. unfold tails. rewrite drop_seq. cbn [items]. induction F as [|k d ks ds K F IHF]; [apply tot_ret; cbn; auto|]. inversion IH; subst.
    cbn [tail_each]. eapply tot_bind.
    + eapply tot_post; [eapply H1; eauto|]. intros f. eapply tail_of_ok; [exact I|apply LK; left; auto].
    + intros [h' y] [T [Kp [B J]]]. cbn [fst snd] in *. unfold tails in T. cbn [fst snd] in T. cbn [flat_map drops]. rewrite head_app.
      destruct (head (items d)) as [[c|]|] eqn:Eh.
      * destruct T as [q [w [Ey [Ew Hw]]]]. subst y. rewrite Ew. inversion F; subst.
        -- apply tot_ret. cbn. eauto.
        -- eapply tot_bind; [apply tot_const; eapply copy_all_ok; [exact J|]|].
           ++ intros p Ip. eapply keep_live; [exact Kp|]. apply LK. right. auto.
           ++ intros h2 [J2 [B2 A2]]. apply tot_ret. cbn [fst snd]. eexists _, _. split; [reflexivity|]. split; [reflexivity|].
              match goal with |- holds ?hh _ _ => assert (KN : keep h2 hh) by (apply (keep_new h2 _ _ _ J2)) end.
              econstructor; [cbn; unfold upd; rewrite Nat.eqb_refl; reflexivity|].
              constructor.
              ** eapply holds_keep; [exact KN|]. eapply holds_keep; [apply alike_keep; exact A2|exact Hw].
              ** eapply holds_all_keep; [exact KN|]. eapply holds_all_keep; [apply alike_keep; exact A2|]. eapply holds_all_keep; [exact Kp|]. constructor; auto.
      * subst y. cbn in J. assert (ED : drop d = None). { apply drop_nil. destruct (items d) as [|[?|?] ?]; auto; discriminate. }
        rewrite ED. apply IHF; auto. intros q Iq. apply LK. right. auto.
      * subst y. apply tot_ret. auto.
Qed.

(** ** Equality *)
Lemma same_head : forall a b, same a b =
  match head a with None => None | Some ca => match head b with None => None | Some cb =>
    match ca, cb with None, None => Some true | Some x, Some y => if (x =? y)%Z then same (tl a) (tl b) else Some false | _, _ => Some false end end end.
Proof. intros [|[x|x] a] [|[y|y] b]; auto. Qed.
Lemma eq_loop_tot : forall k h a b da db r re, length (items da) <= k -> inv h (add a (add b r)) re -> holds h a da -> holds h b db ->
  tot (fun f => eq_loop f h a b) (fun y => snd y = same (items da) (items db)).
Proof.
  induction k as [k IHk] using lt_wf_ind. intros h a b da db r re L I Ha Hb. apply tot_S. cbn [eq_loop].
  assert (FIN : forall x, x = same (items da) (items db) -> tot (fun f => FbldModel.bind (free f h a) (fun h1 => FbldModel.bind (free f h1 b) (fun h2 => Ok (h2, x)))) (fun y : heap * option bool => snd y = same (items da) (items db))).
  { intros x ->. eapply tot_bind; [eapply free_tot; exact I|]. intros h1 [I1 _]. eapply tot_bind; [eapply free_tot; exact I1|]. intros h2 _. apply tot_ret. auto. }
  pose proof (holds_live _ _ _ Ha) as La. pose proof (holds_live _ _ _ Hb) as Lb. rewrite same_head in *.
  eapply tot_bind; [apply head_of_tot; exact Ha|]. intros ca ->. destruct (head (items da)) as [ca|] eqn:EA; [|apply FIN; auto].
  eapply tot_bind; [apply head_of_tot; exact Hb|]. intros cb ->. destruct (head (items db)) as [cb|] eqn:EB; [|apply FIN; auto].
  destruct ca as [x|], cb as [y|]; try (apply FIN; auto; fail). destruct (x =? y)%Z; [|apply FIN; auto].
  apply head_char in EA. apply head_char in EB. destruct EA as [ma EA], EB as [mb EB]. rewrite EA, EB in *. cbn [tl] in *.
  eapply tot_bind; [eapply tot_post; [eapply tail_of_tot; [exact I|exact Ha]|intros f; apply tail_of_ok; [exact I|exact La]]|].
  intros [h1 z] [T [K1 [B1 I1]]]. unfold tails in T. rewrite EA in T. cbn [head fst snd] in *. destruct T as [na [wa [-> [Da Ta]]]].
  eapply tot_bind; [eapply tot_post; [eapply tail_of_tot; [exact I1|eapply holds_keep; [exact K1|exact Hb]]|intros f; apply tail_of_ok; [exact I1|eapply keep_live; eauto]]|].
  intros [h2 z] [T [K2 [B2 I2]]]. unfold tails in T. rewrite EB in T. cbn [head fst snd] in *. destruct T as [nb [wb [-> [Db Tb]]]].
  assert (I3 : inv h2 (add a (add b (add (Some na) (add (Some nb) r)))) re) by (eapply inv_ext; [exact I2| |]; auto; intros c; unfold add; lia).
  eapply tot_bind; [eapply free_tot; exact I3|]. intros h3 [I4 B3]. eapply tot_bind; [eapply free_tot; exact I4|]. intros h4 [I5 B4].
  destruct (drop_char _ _ _ EA) as [wa' [Ea Ia]]. destruct (drop_char _ _ _ EB) as [wb' [Eb Ib]]. rewrite Da in Ea. injection Ea as <-. rewrite Db in Eb. injection Eb as <-.
  rewrite <- Ia, <- Ib. eapply (IHk (length ma)); [cbn in L; lia|rewrite Ia; apply le_n|exact I5| |].
  - eapply holds_grow; [eapply holds_keep; [exact K2|exact Ta]|apply sub_grow; eapply sub_trans; [exact B3|exact B4]|exact I3|exact I5|eapply live_add; exact I5].
  - eapply holds_grow; [exact Tb|apply sub_grow; eapply sub_trans; [exact B3|exact B4]|exact I3|exact I5|eapply live_add; apply add_swap; exact I5].
Qed.
Lemma eq_tot : forall h a b da db r re, inv h r re -> holds h a da -> holds h b db -> tot (fun f => eq f h a b) (fun y => snd y = same (items da) (items db)).
Proof.
  intros h a b da db r re I Ha Hb. unfold eq. eapply tot_bind; [apply tot_const; apply copy_ok; [exact I|eapply holds_live; eauto]|]. intros h1 [I1 [B1 A1]].
  eapply tot_bind; [apply tot_const; apply (copy_ok h1 _ _ b I1); eapply alike_live; [exact A1|eapply holds_live; eauto]|]. intros h2 [I2 [B2 A2]].
  assert (K : keep h h2) by (apply alike_keep; eapply alike_trans; eauto).
  eapply eq_loop_tot; [apply le_n|apply add_swap; exact I2|eapply holds_keep; eauto|eapply holds_keep; eauto].
Qed.

(** ** \@plain *)
Lemma map_plain_tot : forall g d h r re p, inv h r re -> holds h p d -> tot (fun f => map_plain f g h p) (fun y => holds (fst y) (Some (snd y)) (apply_plain g d)).
Proof.
  intros g d. induction d as [t|x ds IH|ds IH] using doc_ind2; intros h r re p I H; pose proof (holds_live _ _ _ H) as L; pose proof H as H0;
    [apply inv_plain in H; destruct H as [a [ks [rc [-> Ha]]]]|apply inv_command in H; destruct H as [a [ks [rc [-> [Ha F]]]]]|apply inv_sequence in H; destruct H as [a [tx0 [ks [rc [-> [Ha F]]]]]]];
    apply tot_S; cbn [map_plain]; unfold deref, node_at; rewrite Ha; cbn [FbldModel.bind n_tag n_text n_kids].
  - eapply tot_bind; [apply tot_const; apply copy_ok; [exact I|exact L]|]. intros h1 [I1 [B1 A1]]. apply tot_ret. cbn [new_node fst snd apply_plain].
    econstructor; [cbn; unfold upd; rewrite Nat.eqb_refl; reflexivity|]. constructor; [|constructor].
    eapply holds_keep; [apply (keep_new h1 _ _ _ I1)|]. eapply holds_keep; [apply alike_keep; exact A1|exact H0].
  - eapply tot_bind; [apply tot_const; apply copy_ok; [exact I|exact L]|]. intros h1 [I1 [B1 A1]]. apply tot_ret. cbn [fst snd apply_plain].
    eapply holds_keep; [apply alike_keep; exact A1|exact H0].
  - pose proof (live_holds _ _ _ F) as LK. clear Ha H0 L.
    eapply tot_bind with (P := fun y => keep h (fst y) /\ Forall2 (holds (fst y)) (snd y) (map (apply_plain g) ds) /\ exists r', inv (fst y) r' re).
    + revert h r I LK F. revert ks. induction IH as [|d ds Hd IH IHds]; intros ks h r I LK F; inversion F as [|k0 d0 ks0 ds0 Hk Fk]; subst; cbn [map_each].
      * apply tot_ret. split; [apply keep_refl|]. split; [constructor|eauto].
      * eapply tot_bind; [eapply tot_post; [eapply Hd; [exact I|exact Hk]|intros f; apply map_plain_ok; [exact I|eapply holds_live; eauto]]|].
        intros [h1 q] [T [K1 [B1 I1]]]. cbn [fst snd] in *.
        eapply tot_bind; [eapply (IHds _ h1 _ I1); [intros k Ik; eapply keep_live; [exact K1|]; apply LK; right; auto|eapply holds_all_keep; eauto]|].
        intros [h2 l] [K2 [F2 J2]]. cbn [fst snd] in *. apply tot_ret. cbn [fst snd map]. split; [eapply keep_trans; eauto|]. split; auto. constructor; auto. eapply holds_keep; eauto.
    + intros [h1 l] [K1 [F1 [r' J1]]]. cbn [fst snd] in *. apply tot_ret. cbn [new_node fst snd apply_plain].
      econstructor; [cbn; unfold upd; rewrite Nat.eqb_refl; reflexivity|]. eapply holds_all_keep; [|exact F1]. apply (keep_new h1 _ _ _ J1).
Qed.

(** ** Text *)
Definition feed1 (t : text) (b : option buf) : out buf :=
  match b with
  | None => Ok (mk_buf t (length t + 1) 0)
  | Some b =>
    let src := length t in
    let len := length (b_text b) in
    do b <- (if b_cap b <=? src then
               let size := len + b_cap b in
               let nsize := 2 * (len + src) in
               if src <? nsize - size then Ok (mk_buf (b_text b) nsize (nsize - size)) else Stop AssertFail
             else Ok b);
    if len + src + 1 <=? b_alloc b then Ok (mk_buf (b_text b ++ t) (b_alloc b) (b_cap b - src)) else Stop Overflow
  end.
Fixpoint feed (l : list (option text)) (b : option buf) : out (option (option buf)) :=
  match l with
  | [] => Ok (Some b)
  | None :: _ => Ok None
  | Some t :: r => do b' <- feed1 t b; feed r (Some b')
  end.
Lemma feed_app : forall l m b, feed (l ++ m) b = FbldModel.bind (feed l b) (fun x => match x with None => Ok None | Some b' => feed m b' end).
Proof.
  induction l as [|[t|] l IH]; intros m b; cbn [app feed]; auto. destruct (feed1 t b) as [b'|w]; cbn [FbldModel.bind]; auto.
Qed.
Lemma text_acc_feed : forall d h p, holds h p d -> exists f0, forall f, f0 <= f -> forall b, text_acc f h p b = feed (pieces d) b.
Proof.
  intros d. induction d as [t|x ds IH|ds IH] using doc_ind2; intros h p H;
    [apply inv_plain in H; destruct H as [a [ks [rc [-> Ha]]]]|apply inv_command in H; destruct H as [a [ks [rc [-> [Ha F]]]]]|apply inv_sequence in H; destruct H as [a [tx0 [ks [rc [-> [Ha F]]]]]]].
  - exists 1. intros [|f] L b; [lia|]. cbn [text_acc]. unfold node_at. rewrite Ha. cbn [FbldModel.bind n_tag n_text n_kids pieces feed].
    destruct b as [b|]; cbn [feed1]; [|reflexivity]. cbv zeta.
    match goal with |- FbldModel.bind ?x _ = _ => destruct x as [b0|w]; cbn [FbldModel.bind]; auto end.
    match goal with |- (if ?x then _ else _) = _ => destruct x; auto end.
  - exists 1. intros [|f] L b; [lia|]. cbn [text_acc]. unfold node_at. rewrite Ha. reflexivity.
  - assert (K : exists f0, forall f, f0 <= f -> forall b, text_each (text_acc f h) ks b = feed (flat_map pieces ds) b).
    { clear Ha. induction F as [|k d ks ds K F IHF]; [exists 0; auto|]. inversion IH; subst. destruct (H1 h k K) as [f0 E0]. destruct (IHF H2) as [f1 E1].
      exists (f0 + f1). intros f L b. cbn [text_each flat_map]. rewrite feed_app, E0 by lia. destruct (feed (pieces d) b) as [[b'|]|w]; cbn [FbldModel.bind]; auto. apply E1. lia. }
    destruct K as [f0 E]. exists (S f0). intros [|f] L b; [lia|]. cbn [text_acc]. unfold node_at. rewrite Ha. cbn [FbldModel.bind n_tag n_text n_kids pieces]. apply E. lia.
Qed.
Definition roomy (b : buf) : Prop := 0 < length (b_text b) /\ length (b_text b) + 1 <= b_alloc b /\ (b_cap b = 0 \/ length (b_text b) + b_cap b <= b_alloc b).
Lemma feed1_roomy : forall t b, roomy b -> exists b', feed1 t (Some b) = Ok b' /\ b_text b' = b_text b ++ t /\ roomy b'.
Proof.
  intros t b [A [B C]]. cbn [feed1]. cbv zeta. destruct (Nat.leb_spec (b_cap b) (length t)) as [Q|Q].
  - match goal with |- context [if ?x <? ?y then _ else _] => assert (E : (x <? y) = true) by (apply Nat.ltb_lt; lia); rewrite E end. cbn [FbldModel.bind b_alloc b_text b_cap].
    match goal with |- context [if ?x <=? ?y then _ else _] => assert (E' : (x <=? y) = true) by (apply Nat.leb_le; lia); rewrite E' end.
    eexists. split; [reflexivity|]. cbn [b_text]. split; auto. unfold roomy. cbn. rewrite app_length. lia.
  - cbn [FbldModel.bind].
    match goal with |- context [if ?x <=? ?y then _ else _] => assert (E' : (x <=? y) = true) by (apply Nat.leb_le; lia); rewrite E' end.
    eexists. split; [reflexivity|]. cbn [b_text]. split; auto. unfold roomy. cbn. rewrite app_length. lia.
Qed.
Lemma feed_roomy : forall l b, roomy b -> match join l with Some t => exists b', feed l (Some b) = Ok (Some (Some b')) /\ b_text b' = b_text b ++ t | None => feed l (Some b) = Ok None end.
Proof.
  induction l as [|[t|] l IH]; intros b R; cbn [join feed]; auto.
  - exists b. rewrite app_nil_r. auto.
  - destruct (feed1_roomy t b R) as [b1 [E [T R1]]]. rewrite E. cbn [FbldModel.bind]. specialize (IH b1 R1). destruct (join l) as [x|]; auto.
    destruct IH as [b' [E' T']]. exists b'. split; auto. rewrite T', T, app_assoc. auto.
Qed.
Definition finish (x : option (option buf)) : option text := match x with None => None | Some None => Some [] | Some (Some b) => Some (b_text b) end.
Lemma feed_start : forall d,
  match string_of d with
  | Value t => exists x, feed (pieces d) None = Ok x /\ finish x = Some t
  | Error => feed (pieces d) None = Ok None
  | Assert => feed (pieces d) None = Stop AssertFail
  | Deep => False
  end.
Proof.
  intros d. unfold string_of. destruct (pieces d) as [|[t1|] l]; cbn [join feed]; [eexists; split; reflexivity| |auto].
  destruct t1 as [|c t1].
  - destruct l as [|[t2|] l]; cbn [join feed feed1 FbldModel.bind]; [eexists; split; [reflexivity|]; reflexivity| |auto].
    destruct t2 as [|c t2]; [reflexivity|]. cbv zeta. cbn [b_cap b_text length b_alloc].
    match goal with |- context [if ?x <? ?y then _ else _] => assert (E : (x <? y) = true) by (apply Nat.ltb_lt; lia); rewrite E end.
    change (0 <=? S (length t2)) with true. cbn [FbldModel.bind b_alloc b_text b_cap].
    match goal with |- context [if ?x <=? ?y then _ else _] => assert (E' : (x <=? y) = true) by (apply Nat.leb_le; lia); rewrite E' end.
    cbn [FbldModel.bind].
    match goal with |- context [feed l (Some ?b)] => assert (R : roomy b) by (unfold roomy; cbn; lia); pose proof (feed_roomy l b R) as FR end.
    destruct (join l) as [x|]; [|exact FR]. destruct FR as [b' [F T]]. eexists. split; [exact F|]. cbn [finish]. rewrite T. auto.
  - cbn [feed1 FbldModel.bind].
    match goal with |- context [feed l (Some ?b)] => assert (R : roomy b) by (unfold roomy; cbn; lia); pose proof (feed_roomy l b R) as FR end.
    destruct (join l) as [x|]; [|exact FR]. destruct FR as [b' [F T]]. eexists. split; [exact F|]. cbn [finish]. rewrite T. auto.
Qed.
Lemma text_of_tot : forall d h p, holds h p d ->
  match string_of d with
  | Value t => tot (fun f => text_of f h p) (fun x => x = Some t)
  | Error => tot (fun f => text_of f h p) (fun x => x = None)
  | Assert => stops (fun f => text_of f h p) AssertFail
  | Deep => False
  end.
Proof.
  intros d h p H. destruct (text_acc_feed d h p H) as [f0 E]. pose proof (feed_start d) as Fs. destruct (string_of d) as [t| | |]; auto.
  - destruct Fs as [x [E1 E2]]. exists (Some t), f0. split; auto. intros f L. unfold text_of. rewrite E, E1 by auto. cbn [FbldModel.bind]. destruct x as [[b|]|]; cbn [finish] in E2; try discriminate; injection E2 as <-; reflexivity.
  - exists None, f0. split; auto. intros f L. unfold text_of. rewrite E, Fs by auto. auto.
  - exists f0. intros f L. unfold text_of. rewrite E, Fs by auto. auto.
Qed.
