(** * The profile report (C26). *)
From Coq Require Import ZArith List Bool Lia Sorting.Sorted Permutation.
From Verif Require Import ProfileModel ProfileSpec ProfileStack ProfileProps ProfileThread ProfileRun.
Import ListNotations.
Local Open Scope list_scope.

(** ** Sorting: r is l in order of time, ties as in l. *)
Definition in_order (o : order) (a b : calldata) : Prop :=
  match o with ASCENDING => (cd_time a <= cd_time b)%Z | DESCENDING => (cd_time b <= cd_time a)%Z end.
Definition at_time (t : Z) (l : list calldata) : list calldata := filter (fun d => Z.eqb (cd_time d) t) l.
Definition stably_sorted (o : order) (l r : list calldata) : Prop :=
  Permutation l r /\ StronglySorted (in_order o) r /\ forall t, at_time t r = at_time t l.

Lemma first_ok_iff : forall o a b, first_ok o a b = true <-> in_order o a b.
Proof. intros. destruct o; simpl; apply Z.leb_le. Qed.

Lemma in_order_trans : forall o a b c, in_order o a b -> in_order o b c -> in_order o a c.
Proof. intros. destruct o; simpl in *; lia. Qed.
Lemma in_order_total : forall o a b, first_ok o a b = false -> in_order o b a /\ cd_time a <> cd_time b.
Proof. intros. destruct o; simpl in *; apply Z.leb_gt in H; lia. Qed.

Lemma merge_cons : forall o x r1 y r2, merge o (x :: r1) (y :: r2) =
  if first_ok o x y then x :: merge o r1 (y :: r2) else y :: merge o (x :: r1) r2.
Proof. reflexivity. Qed.
Lemma merge_nil_r : forall o l, merge o l [] = l.
Proof. destruct l; reflexivity. Qed.

Lemma merge_perm : forall o a b, Permutation (a ++ b) (merge o a b).
Proof.
  induction a as [|x a IHa]; [reflexivity|]. induction b as [|y b IHb].
  - rewrite merge_nil_r, List.app_nil_r. reflexivity.
  - rewrite merge_cons. destruct (first_ok o x y).
    + simpl. constructor. apply IHa.
    + rewrite <- IHb. symmetry. apply Permutation_middle.
Qed.

Lemma merge_sorted : forall o a b, StronglySorted (in_order o) a -> StronglySorted (in_order o) b -> StronglySorted (in_order o) (merge o a b).
Proof.
  induction a as [|x a IHa]; [auto|]. induction b as [|y b IHb]; intros SA SB.
  - rewrite merge_nil_r. auto.
  - rewrite merge_cons. inversion SA as [|? ? SA' FA]; subst. inversion SB as [|? ? SB' FB]; subst.
    destruct (first_ok o x y) eqn:F.
    + constructor; auto. apply first_ok_iff in F.
      eapply Permutation_Forall; [apply merge_perm|]. apply Forall_app; split; auto. constructor; auto.
      eapply Forall_impl; [|exact FB]. intros. eapply in_order_trans; eauto.
    + constructor; auto. apply in_order_total in F. destruct F as [F _].
      eapply Permutation_Forall; [apply merge_perm|]. simpl. constructor; auto. apply Forall_app; split; auto.
      eapply Forall_impl; [|exact FA]. intros. eapply in_order_trans; eauto.
Qed.

Lemma at_time_app : forall t a b, at_time t (a ++ b) = at_time t a ++ at_time t b.
Proof. intros. apply filter_app. Qed.

Lemma at_time_cons : forall t x l, at_time t (x :: l) = if (cd_time x =? t)%Z then x :: at_time t l else at_time t l.
Proof. reflexivity. Qed.

Lemma merge_stable : forall o a b t, StronglySorted (in_order o) a -> StronglySorted (in_order o) b ->
  at_time t (merge o a b) = at_time t a ++ at_time t b.
Proof.
  induction a as [|x a IHa]; [reflexivity|]. induction b as [|y b IHb]; intros t SA SB.
  - rewrite merge_nil_r. simpl. rewrite List.app_nil_r. reflexivity.
  - rewrite merge_cons. inversion SA as [|? ? SA' FA]; subst. inversion SB as [|? ? SB' FB]; subst.
    destruct (first_ok o x y) eqn:F.
    + rewrite !(at_time_cons t x), IHa; auto. destruct (cd_time x =? t)%Z; reflexivity.
    + rewrite !(at_time_cons t y), IHb; auto.
      destruct (Z.eqb_spec (cd_time y) t) as [E|E]; auto.
      (* everything in x :: a comes strictly after y *)
      assert (NIL : at_time t (x :: a) = []).
      { apply in_order_total in F. destruct F as [F1 F2].
        assert (G : Forall (fun d => cd_time d <> t) (x :: a)).
        { constructor; [congruence|]. eapply Forall_impl; [|exact FA]. intros d D. destruct o; simpl in *; lia. }
        clear - G. induction G; simpl; auto. apply Z.eqb_neq in H. rewrite H. auto. }
      rewrite NIL. reflexivity.
Qed.

Lemma merge_sort_ok : forall fuel o ip a b, length a < fuel -> length b = length a ->
  exists a' b', merge_sort fuel o ip a b = Some (a', b') /\ length a' = length a /\ length b' = length b /\
    stably_sorted o a (if ip then a' else b').
Proof.
  induction fuel as [|fuel IH]; intros o ip a b L LB; [lia|].
  assert (BASE : forall x, stably_sorted o [x] [x]).
  { intro. split; [reflexivity|]. split; [repeat constructor|reflexivity]. }
  destruct a as [|x [|y a]]; cbn [merge_sort].
  - destruct b; [|discriminate]. exists [], []. split; [auto|]. split; [auto|]. split; [auto|]. destruct ip; (split; [reflexivity|split; [constructor|reflexivity]]).
  - destruct b as [|z [|]]; try discriminate. destruct ip.
    + exists [x], [z]. auto.
    + exists [x], [x]. auto.
  - set (l := x :: y :: a) in *. cbv zeta. set (h := Nat.div2 (length l)).
    assert (H : 1 <= h /\ h < length l).
    { unfold h, l. cbn [length Nat.div2]. pose proof (Nat.div2_decr (length a) (length a) ltac:(lia)). lia. }
    assert (L1 : length (firstn h l) = h) by (apply firstn_length_le; lia).
    assert (L2 : length (skipn h l) = length l - h) by apply skipn_length.
    destruct (IH o (negb ip) (firstn h l) (firstn h b)) as (a1 & b1 & E1 & LA1 & LB1 & (P1 & S1 & T1)).
    { lia. } { rewrite L1. apply firstn_length_le. lia. }
    destruct (IH o (negb ip) (skipn h l) (skipn h b)) as (a2 & b2 & E2 & LA2 & LB2 & (P2 & S2 & T2)).
    { lia. } { rewrite !skipn_length. lia. }
    rewrite E1. cbn [bind]. rewrite E2. cbn [bind].
    assert (LF : length (firstn h b) = h) by (apply firstn_length_le; lia).
    assert (LK : length (skipn h b) = length l - h) by (rewrite skipn_length; lia).
    assert (GEN : forall s1 s2, Permutation (firstn h l) s1 -> StronglySorted (in_order o) s1 -> (forall t, at_time t s1 = at_time t (firstn h l)) ->
        Permutation (skipn h l) s2 -> StronglySorted (in_order o) s2 -> (forall t, at_time t s2 = at_time t (skipn h l)) ->
        stably_sorted o l (merge o s1 s2) /\ length (merge o s1 s2) = length l).
    { intros s1 s2 Q1 Q2 Q3 Q4 Q5 Q6.
      assert (PP : Permutation l (merge o s1 s2)).
      { rewrite <- (firstn_skipn h l) at 1. rewrite Q1, Q4. apply merge_perm. }
      split; [split; [auto|split; [apply merge_sorted; auto|]]|].
      - intro t. rewrite merge_stable; auto. rewrite Q3, Q6, <- at_time_app, firstn_skipn. auto.
      - symmetry. apply Permutation_length. auto. }
    destruct ip; cbn [negb] in *.
    + destruct (GEN _ _ P1 S1 T1 P2 S2 T2) as [G1 G2].
      exists (merge o b1 b2), (b1 ++ b2). split; [reflexivity|]. split; [auto|]. split; [|auto]. rewrite app_length. lia.
    + destruct (GEN _ _ P1 S1 T1 P2 S2 T2) as [G1 G2].
      exists (a1 ++ a2), (merge o a1 a2). split; [reflexivity|]. split; [rewrite app_length; lia|]. split; [lia|auto].
Qed.

(** Sorting with any scratch array sorts the data, stably. *)
Theorem sort_ok : forall o data scratch, length scratch = length data ->
  exists r, sort o data scratch = Some r /\ stably_sorted o data r.
Proof.
  intros o data scratch L. unfold sort.
  destruct (merge_sort_ok (S (length data)) o true data scratch) as (a & b & E & _ & _ & G); [lia|auto|].
  rewrite E. cbn [bind fst]. eauto.
Qed.

(** There is only one such order, so the scratch array makes no difference. *)
Lemma stably_sorted_unique : forall o l r r', stably_sorted o l r -> stably_sorted o l r' -> r = r'.
Proof.
  intros o l r r' (P & St & T) (P' & St' & T').
  assert (TT : forall t, at_time t r = at_time t r') by (intro; rewrite T, T'; auto).
  assert (PP : Permutation r r') by (rewrite <- P; auto). clear P P' T T' l.
  revert r' St' TT PP. induction St as [|x r St IH F]; intros r' St' TT PP.
  - apply Permutation_nil in PP. auto.
  - destruct r' as [|y r']. { symmetry in PP. apply Permutation_nil in PP. discriminate. }
    inversion St' as [|? ? St'' F']; subst.
    assert (TE : cd_time x = cd_time y).
    { assert (I1 : In y (x :: r)) by (apply (Permutation_in y (Permutation_sym PP)); simpl; auto).
      assert (I2 : In x (y :: r')) by (apply (Permutation_in x PP); simpl; auto).
      rewrite Forall_forall in F, F'. destruct I1 as [->|I1]; auto. destruct I2 as [->|I2]; auto.
      specialize (F _ I1). specialize (F' _ I2). destruct o; simpl in *; lia. }
    pose proof (TT (cd_time x)) as Q. unfold at_time in Q. cbn [filter] in Q. rewrite <- TE, Z.eqb_refl in Q.
    inversion Q; subst y. f_equal. apply IH; auto.
    + intro t. specialize (TT t). unfold at_time in TT |- *. cbn [filter] in TT. destruct (cd_time x =? t)%Z; [inversion TT|]; auto.
    + eapply Permutation_cons_inv; eauto.
Qed.

Theorem sort_scratch : forall o data s s', length s = length data -> length s' = length data -> sort o data s = sort o data s'.
Proof.
  intros o data s s' L L'. destruct (sort_ok o data s L) as (r & E & G). destruct (sort_ok o data s' L') as (r' & E' & G').
  rewrite E, E'. f_equal. eapply stably_sorted_unique; eauto.
Qed.

(** ** The report. *)

(** What is known about a block, as the report sees it. *)
Definition by_time (p : profile) (b : nat) : calldata := CD b (count_of p b) (time_of p b).
Definition by_self (p : profile) (b : nat) : calldata := CD b 0 (self_of p b).
(** The records of the calls into b. *)
Definition callers (p : profile) (b : nat) : list calldata :=
  flat_map (fun a => match call_of p a b with Some d => [CD a (cd_count d) (cd_time d)] | None => [] end) (seq 0 (size p)).

Definition block_line (p : profile) (c : calldata) : line := Line true (cd_count c) (cd_time c) (Some (self_of p (cd_id c))) (cd_id c).
Definition call_line (c : calldata) : line := Line false (cd_count c) (cd_time c) None (cd_id c).

(** The entry of the call graph for a block: the callers by ascending time, the block, the
    callees by descending time; nothing for a block that was not executed. *)
Definition entry_for (p : profile) (c : calldata) (e : list line) : Prop :=
  if (0 <? count_of p (cd_id c))%Z then
    exists above below, stably_sorted ASCENDING (callers p (cd_id c)) above /\ stably_sorted DESCENDING (records p (cd_id c)) below /\
      e = map call_line above ++ block_line p c :: map call_line below
  else e = [].

Definition sum (l : list Z) : Z := fold_right Z.add 0%Z l.

Record good_report (p : profile) (r : report) : Prop := GOOD {
  gr_blocks : r_blocks r = size p;
  gr_covered : r_covered r = length (filter (fun b => (0 <? count_of p b)%Z) (seq 0 (size p)));
  gr_total : r_total r = w64 (sum (map (self_of p) (seq 0 (size p))));
  gr_names : r_locations r = map bp_name (blocks p);
  gr_flat : exists l, stably_sorted DESCENDING (map (by_time p) (seq 0 (size p))) l /\ r_flat r = map (block_line p) l /\
              Forall2 (entry_for p) l (r_graph r);
  gr_self : exists l, stably_sorted DESCENDING (map (by_self p) (seq 0 (size p))) l /\ r_self r = map (fun c => (cd_time c, cd_id c)) l }.

Lemma load_ok : forall p xs, (forall x, In x xs -> exists d, nth_error (cds p) x = Some d) ->
  load p xs = Some (flat_map (fun i => match nth_error (cds p) i with Some d => [d] | None => [] end) xs).
Proof.
  induction xs as [|x xs IH]; simpl; intros; auto. destruct (H x (or_introl eq_refl)) as (d & D). rewrite D. cbn [bind].
  rewrite IH by (intros; apply H; auto). reflexivity.
Qed.

Lemma load_records : forall p a b, wf p -> nth_error (blocks p) a = Some b -> load p (bp_callees b) = Some (records p a).
Proof.
  intros p a b W N. rewrite records_callees. unfold callees. rewrite N. apply load_ok. intros x I.
  destruct (wf_in _ W a x) as (d & D & _); eauto. unfold callees. rewrite N. auto.
Qed.

Lemma records_in : forall p a d, wf p -> In d (records p a) -> call_of p a (cd_id d) = Some d /\ cd_id d < size p.
Proof.
  intros p a d W I. rewrite records_callees in I. apply in_flat_map in I. destruct I as (x & I & J).
  destruct (wf_in _ W _ _ I) as (f & F & L). rewrite F in J. destruct J as [->|[]]. split; auto.
  apply call_of_iff; auto. eauto.
Qed.

Lemma records_filter : forall p a b, wf p ->
  filter (fun d => Nat.eqb (cd_id d) b) (records p a) = match call_of p a b with Some d => [d] | None => [] end.
Proof.
  intros p a b W.
  assert (ND : NoDup (map cd_id (records p a))).
  { rewrite records_callees. pose proof (wf_sorted _ W a) as St.
    assert (V : forall y, In y (callees p a) -> exists f, nth_error (cds p) y = Some f).
    { intros y Y. destruct (wf_in _ W _ _ Y) as (f & F & _). eauto. }
    induction St as [|x l St IH F]; simpl; [constructor|]. destruct (V x (or_introl eq_refl)) as (d & D). rewrite D. simpl.
    constructor; [|apply IH; intros; apply V; simpl; auto].
    intro I. apply in_map_iff in I. destruct I as (e & E & I). apply in_flat_map in I. destruct I as (y & Y & I).
    rewrite Forall_forall in F. specialize (F _ Y). unfold idof in F. rewrite D in F.
    destruct (nth_error (cds p) y); [|contradiction]. destruct I as [->|[]]. lia. }
  unfold call_of. induction (records p a) as [|d l IH]; simpl; auto. inversion ND; subst.
  destruct (Nat.eqb_spec (cd_id d) b).
  - f_equal. assert (Z : forall e, In e l -> (cd_id e =? b) = false).
    { intros f I. apply Nat.eqb_neq. intro. apply H1. apply in_map_iff. exists f. split; congruence. }
    clear - Z. induction l; simpl; auto. rewrite Z by (simpl; auto). apply IHl. intros; apply Z; simpl; auto.
  - apply IH; auto.
Qed.

Lemma add_callers_ok : forall i l cs, (forall d, In d l -> cd_id d < length cs) ->
  exists cs', add_callers i l cs = Some cs' /\ length cs' = length cs /\
    forall b, nth b cs' [] = nth b cs [] ++ map (fun d => CD i (cd_count d) (cd_time d)) (filter (fun d => Nat.eqb (cd_id d) b) l).
Proof.
  induction l as [|d l IH]; intros cs V; simpl.
  - exists cs. split; [auto|]. split; [auto|]. intro. rewrite List.app_nil_r. auto.
  - destruct (nth_lt _ cs (cd_id d)) as (v & N); [apply V; simpl; auto|]. rewrite N. cbn [bind].
    destruct (IH (upd cs (cd_id d) (v ++ [CD i (cd_count d) (cd_time d)]))) as (cs' & E & L & Q).
    { intros. rewrite upd_length. apply V; simpl; auto. }
    exists cs'. split; [auto|]. split; [rewrite L, upd_length; auto|]. intro b. rewrite Q.
    destruct (Nat.eqb_spec (cd_id d) b).
    + subst b. rewrite (nth_error_nth (upd cs (cd_id d) (v ++ [CD i (cd_count d) (cd_time d)])) _ [] (nth_upd_same _ _ _ _ (nth_some_lt _ _ _ _ N))).
      rewrite (nth_error_nth _ _ [] N), <- app_assoc. reflexivity.
    + f_equal. rewrite <- !nth_default_eq. unfold nth_default. rewrite nth_upd_other; auto.
Qed.

Definition callers_upto (p : profile) (i b : nat) : list calldata :=
  flat_map (fun a => match call_of p a b with Some d => [CD a (cd_count d) (cd_time d)] | None => [] end) (seq 0 i).

Lemma collect_ok : forall p bs i t, wf p -> skipn i (blocks p) = bs -> i <= size p ->
  t_calls t = map (by_time p) (seq 0 i) -> t_selfs t = map (by_self p) (seq 0 i) ->
  t_covered t = length (filter (fun b => (0 <? count_of p b)%Z) (seq 0 i)) ->
  t_total t = w64 (sum (map (self_of p) (seq 0 i))) ->
  length (t_callers t) = size p -> (forall b, b < size p -> nth b (t_callers t) [] = callers_upto p i b) ->
  exists t', collect p i bs t = Some t' /\
    t_calls t' = map (by_time p) (seq 0 (size p)) /\ t_selfs t' = map (by_self p) (seq 0 (size p)) /\
    t_covered t' = length (filter (fun b => (0 <? count_of p b)%Z) (seq 0 (size p))) /\
    t_total t' = w64 (sum (map (self_of p) (seq 0 (size p)))) /\
    length (t_callers t') = size p /\ (forall b, b < size p -> nth b (t_callers t') [] = callers p b).
Proof.
  intros p bs. induction bs as [|b bs IH]; intros i t W SK LE A1 A2 A3 A4 A5 A6.
  - assert (i = size p). { apply (f_equal (@length _)) in SK. rewrite skipn_length in SK. simpl in SK. unfold size in *. lia. }
    subst i. exists t. simpl. repeat (split; [auto; fail|]). auto.
  - assert (N : nth_error (blocks p) i = Some b).
    { rewrite <- (firstn_skipn i (blocks p)), SK. rewrite nth_error_app2 by (rewrite firstn_length; lia).
      rewrite firstn_length_le by auto. rewrite Nat.sub_diag. reflexivity. }
    assert (LT : i < size p) by (eapply nth_some_lt; eauto).
    cbn [collect]. rewrite (load_records p i b W N). cbn [bind].
    destruct (add_callers_ok i (records p i) (t_callers t)) as (cs' & E & L & Q).
    { intros d I. rewrite A5. apply (records_in p i d W I). }
    rewrite E. cbn [bind].
    assert (SB : self_of p i = bp_self b) by (unfold self_of; rewrite N; auto).
    assert (CB : count_of p i = bp_count b) by (unfold count_of; rewrite N; auto).
    assert (TB : time_of p i = bp_time b) by (unfold time_of; rewrite N; auto).
    apply IH; auto; cbn [t_calls t_selfs t_covered t_total t_callers].
    + clear -SK. revert i SK. induction (blocks p) as [|z l IHl]; intros i SK; [rewrite skipn_nil in SK; discriminate|].
      destruct i as [|i]; simpl in SK |- *; [congruence|]. apply IHl in SK. exact SK.
    + rewrite seq_S, map_app, A1. simpl. unfold by_time at 3. rewrite CB, TB. reflexivity.
    + rewrite seq_S, map_app, A2. simpl. unfold by_self at 3. rewrite SB. reflexivity.
    + rewrite seq_S, filter_app, app_length, A3. simpl. rewrite CB. destruct (0 <? bp_count b)%Z; simpl; lia.
    + rewrite seq_S, map_app, A4, w64_add. f_equal. cbn [map Nat.add]. rewrite SB.
      generalize (map (self_of p) (seq 0 i)). induction l as [|z l IHl]; simpl in *; lia.
    + rewrite L. auto.
    + intros c LC. rewrite Q, (A6 c LC). unfold callers_upto. rewrite seq_S, flat_map_app. simpl. f_equal.
      rewrite records_filter by auto. destruct (call_of p i c); simpl; auto.
Qed.

Lemma print_call_ok : forall p c, cd_id c < size p ->
  print_call p true c = Some (block_line p c) /\ print_call p false c = Some (call_line c).
Proof.
  intros p c L. unfold print_call. destruct (nth_lt _ _ _ L) as (b & N). rewrite N. cbn [bind].
  unfold block_line, call_line, self_of. rewrite N. auto.
Qed.

Lemma print_calls_ok : forall p l, (forall c, In c l -> cd_id c < size p) ->
  print_calls p true l = Some (map (block_line p) l) /\ print_calls p false l = Some (map call_line l).
Proof.
  induction l as [|c l IH]; intros V; simpl; auto.
  destruct (print_call_ok p c (V c (or_introl eq_refl))) as [A B].
  destruct IH as [C D]; [intros; apply V; simpl; auto|]. rewrite A, B. cbn [bind]. rewrite C, D. auto.
Qed.

Lemma stably_sorted_in : forall o l r, stably_sorted o l r -> forall c, In c r -> In c l.
Proof. intros o l r (P & _) c I. eapply Permutation_in; [apply Permutation_sym; eauto|auto]. Qed.

Lemma callers_in : forall p b c, In c (callers p b) -> cd_id c < size p.
Proof.
  intros p b c I. unfold callers in I. apply in_flat_map in I. destruct I as (a & I & J). apply in_seq in I.
  destruct (call_of p a b); [|contradiction]. destruct J as [<-|[]]. simpl. lia.
Qed.

Lemma graph_entry_ok : forall p cs c, wf p -> cd_id c < size p -> length cs = size p ->
  nth (cd_id c) cs [] = callers p (cd_id c) -> exists e, graph_entry p cs c = Some e /\ entry_for p c e.
Proof.
  intros p cs c W L LC NC. unfold graph_entry. cbv zeta. destruct (nth_lt _ _ _ L) as (b & N). rewrite N. cbn [bind].
  assert (CB : count_of p (cd_id c) = bp_count b) by (unfold count_of; rewrite N; auto).
  unfold entry_for. rewrite CB. destruct (0 <? bp_count b)%Z; [|eauto].
  destruct (nth_lt _ cs (cd_id c)) as (v & NV); [lia|]. rewrite NV. cbn [bind].
  assert (v = callers p (cd_id c)) by (rewrite <- NC; symmetry; apply nth_error_nth; auto). subst v.
  destruct (sort_ok ASCENDING (callers p (cd_id c)) (callers p (cd_id c)) eq_refl) as (above & E1 & G1).
  rewrite E1. cbn [bind].
  rewrite (proj2 (print_calls_ok p above (fun d I => callers_in _ _ _ (stably_sorted_in _ _ _ G1 d I)))). cbn [bind].
  rewrite (proj1 (print_call_ok p c L)). cbn [bind].
  rewrite (load_records p _ b W N). cbn [bind].
  destruct (sort_ok DESCENDING (records p (cd_id c)) (records p (cd_id c)) eq_refl) as (below & E2 & G2).
  rewrite E2. cbn [bind].
  rewrite (proj2 (print_calls_ok p below (fun d I => proj2 (records_in _ _ _ W (stably_sorted_in _ _ _ G2 d I))))). cbn [bind].
  eexists. split; [reflexivity|]. exists above, below. auto.
Qed.

Lemma graph_ok : forall p cs l, wf p -> length cs = size p -> (forall b, b < size p -> nth b cs [] = callers p b) ->
  (forall c, In c l -> cd_id c < size p) -> exists g, graph p cs l = Some g /\ Forall2 (entry_for p) l g.
Proof.
  induction l as [|c l IH]; intros W LC NC V; simpl.
  - exists []. auto.
  - destruct (graph_entry_ok p cs c W (V c (or_introl eq_refl)) LC (NC _ (V c (or_introl eq_refl)))) as (e & E & G).
    destruct IH as (g & E' & G'); auto. { intros; apply V; simpl; auto. }
    rewrite E. cbn [bind]. rewrite E'. cbn [bind]. eexists; split; [reflexivity|]. constructor; auto.
Qed.

(** Every profile gets its report, and the report lists every block once by time and once
    by self time, in descending order with ties in the order of the blocks, and, for every
    executed block, all its callers and all its callees. *)
Theorem report_ok : forall p, wf p -> exists r, generate_report p = Some r /\ good_report p r.
Proof.
  intros p W. unfold generate_report.
  destruct (collect_ok p (blocks p) 0 (Totals [] [] 0 0 (repeat [] (length (blocks p)))) W) as (t & E & A1 & A2 & A3 & A4 & A5 & A6);
    cbn [t_calls t_selfs t_covered t_total t_callers]; auto; try lia.
  { apply repeat_length. }
  { intros. rewrite nth_repeat_lt; auto. }
  rewrite E. cbn [bind].
  destruct (sort_ok DESCENDING (t_calls t) (t_calls t) eq_refl) as (calls & E1 & G1).
  destruct (sort_ok DESCENDING (t_selfs t) (t_selfs t) eq_refl) as (selfs & E2 & G2).
  rewrite E1. cbn [bind]. rewrite E2. cbn [bind].
  assert (V : forall c, In c calls -> cd_id c < size p).
  { intros c I. apply (stably_sorted_in _ _ _ G1) in I. rewrite A1 in I. apply in_map_iff in I. destruct I as (b & <- & I).
    apply in_seq in I. simpl. lia. }
  rewrite (proj1 (print_calls_ok p calls V)). cbn [bind].
  destruct (graph_ok p (t_callers t) calls W A5 A6 V) as (g & E3 & G3). rewrite E3. cbn [bind].
  eexists; split; [reflexivity|]. rewrite A1 in G1. rewrite A2 in G2.
  constructor; cbn [r_blocks r_covered r_total r_locations r_flat r_self r_graph]; auto; eauto.
Qed.

(** The report of the example: the flat profile in descending order of time, the ties of the
    self time profile in block order. *)
Example example_report : exists p1 th1 q th r,
  new_thread (new_profile true) 7 = Some (p1, th1) /\ run p1 th1 example_history = Some (q, th) /\ generate_report q = Some r /\
  map l_id (r_flat r) = [0; 1; 2; 3] /\ r_self r = [(100000%Z, 0); (10010%Z, 2); (1000%Z, 3); (101%Z, 1)] /\
  nth 1 (r_graph r) [] =
    [Line false 1 1100 None 2; Line false 1 11111 None 0; Line true 2 11111 (Some 101%Z) 1;
     Line false 1 11110 None 2; Line false 1 1000 None 3].
Proof.
  do 5 eexists. split; [vm_compute; reflexivity|]. split; [vm_compute; reflexivity|]. split; [vm_compute; reflexivity|].
  repeat split; vm_compute; reflexivity.
Qed.
