(** * C08, C09: the managed stack. *)
From Coq Require Import ZArith List Bool Lia Permutation.
From Verif Require Import StackModel.
Import ListNotations.
Local Open Scope Z_scope.
Local Arguments Z.add : simpl never.
Local Arguments Z.sub : simpl never.
Local Arguments Z.mul : simpl never.
Local Arguments chunk_size : simpl never.
Local Arguments chunk_header : simpl never.
Local Arguments frame_size : simpl never.

(** ** Specification *)

(** What a client does; every operation comes with the address malloc would return. *)
Inductive op := New (size : Z) | Push (merge : bool) | Pop | Compact (merge : bool).

Definition exec (m : Z) (h : heap) (o : op) : option heap :=
  match o with
  | New n => Some (fst (new_value m h n))
  | Push b => Some (push m h b)
  | Pop => pop h
  | Compact b => compact m h b
  end.

Definition disjoint (a s b t : Z) : Prop := a + s <= b \/ b + t <= a.

(** malloc returns a block that overlaps no block obtained before (freed only when the
    heap is destroyed). *)
Definition malloc_ok (m : Z) (h : heap) : Prop :=
  forall b, In b (mallocs h) -> disjoint m chunk_size b chunk_size.

(** Sizes the allocator can handle: all objects but structs and functions with more than
    some 65500 fields. *)
Definition size_ok (o : op) : Prop :=
  match o with New n => 0 < n /\ chunk_header + 2 * n <= chunk_size | _ => True end.

Inductive reached (init : Z -> heap) (C : op -> Prop) : heap -> Prop :=
| reached_new a : reached init C (init a)
| reached_step h m o h' : reached init C h -> malloc_ok m h -> C o -> exec m h o = Some h' ->
    reached init C h'.

(** All memory in use: the frames themselves and the objects of active frames. *)
Definition frame_blocks (f : frame) : list (Z * Z) := (addr f, frame_size) :: objs f.
Definition blocks (h : heap) : list (Z * Z) := flat_map frame_blocks (tops h :: callers h).

Definition in_bounds (h : heap) : Prop :=
  forall a n, In (a, n) (blocks h) -> exists b, In b (mallocs h) /\ b <= a /\ a + n <= b + chunk_size.

Definition all_disjoint (l : list (Z * Z)) : Prop :=
  ForallOrdPairs (fun x y => disjoint (fst x) (snd x) (fst y) (snd y)) l.

(** ** Invariant *)

Definition blocks_of (fs : list frame) : list (Z * Z) := flat_map frame_blocks fs.
Definition chunks_of (fs : list frame) : list Z := flat_map (fun f => ch_list (chunks f)) fs.

Definition inside (x : Z * Z) (b : Z) : Prop := b <= fst x /\ fst x + snd x <= b + chunk_size.

(** For the top frame of every suffix of the frame stack. *)
Fixpoint wf (st : Z) (fs : list frame) : Prop :=
  match fs with
  | [] => True
  | f :: older =>
    (forall x, In x (blocks_of fs) ->
       0 <= snd x /\ (exists b, In b (st :: chunks_of fs) /\ inside x b) /\
       disjoint (fst x) (snd x) (ftop f) (fmax f - ftop f)) /\
    all_disjoint (blocks_of fs) /\
    (exists b, In b (st :: chunks_of fs) /\ b < ftop f /\ ftop f <= fmax f /\ fmax f = b + chunk_size) /\
    match older with
    | [] => True
    | c :: _ => addr f + frame_size = ftop c /\ ch_end (chunks f) = TNull
    end /\
    wf st older
  end.

Definition inv (h : heap) : Prop :=
  wf (stack h) (tops h :: callers h) /\
  Permutation (mallocs h) (stack h :: chunks_of (tops h :: callers h) ++ spare h) /\
  ForallOrdPairs (fun a b => disjoint a chunk_size b chunk_size) (mallocs h).

Lemma fop_perm {A} (R : A -> A -> Prop) (Sym : forall a b, R a b -> R b a) l l' :
  Permutation l l' -> ForallOrdPairs R l -> ForallOrdPairs R l'.
Proof.
  induction 1 as [|x l l' P IH|x y l|l1 l2 l3 P1 IH1 P2 IH2]; intros H; auto.
  - inversion H as [|? ? H1 H2]; subst. constructor; auto.
    apply Forall_forall. intros y Hy. rewrite Forall_forall in H1. apply H1.
    eapply Permutation_in; [apply Permutation_sym; exact P|exact Hy].
  - inversion H as [|? ? H1 H2]; subst. inversion H2 as [|? ? H3 H4]; subst.
    inversion H1; subst. constructor; [constructor; auto|]. constructor; auto.
Qed.

Lemma fop_app {A} (R : A -> A -> Prop) l l' : ForallOrdPairs R (l ++ l') ->
  forall a b, In a l -> In b l' -> R a b.
Proof.
  induction l as [|x l IH]; intros H a b Ha Hb; [destruct Ha|].
  cbn in H. inversion H as [|? ? H1 H2]; subst. destruct Ha as [<-|Ha]; [|eauto].
  rewrite Forall_forall in H1. apply H1. apply in_or_app; auto.
Qed.

Lemma disjoint_sym a s b t : disjoint a s b t -> disjoint b t a s.
Proof. unfold disjoint. tauto. Qed.

Lemma fop_map_perm l l' : Permutation l l' -> all_disjoint l -> all_disjoint l'.
Proof. apply fop_perm. intros a b. apply disjoint_sym. Qed.

Lemma regions_perm l l' : Permutation l l' ->
  ForallOrdPairs (fun a b => disjoint a chunk_size b chunk_size) l ->
  ForallOrdPairs (fun a b => disjoint a chunk_size b chunk_size) l'.
Proof. apply fop_perm. intros a b. apply disjoint_sym. Qed.

(** Two blocks inside disjoint regions are disjoint. *)
Lemma inside_disjoint x b y c : 0 <= snd x -> 0 <= snd y -> inside x b -> inside y c ->
  disjoint b chunk_size c chunk_size -> disjoint (fst x) (snd x) (fst y) (snd y).
Proof. unfold inside, disjoint. lia. Qed.

Lemma blocks_of_cons f fs x : In x (blocks_of (f :: fs)) <-> In x (frame_blocks f) \/ In x (blocks_of fs).
Proof. unfold blocks_of. cbn [flat_map]. apply in_app_iff. Qed.

Lemma init_wf a e : inv (mk_heap a (mk_frame a 0 (a + frame_size) (chunk_size + a) (mk_chain [] e) []) [] [] [a]).
Proof.
  unfold inv. cbn. unfold frame_size, chunk_size. split; [|split].
  - split; [|split; [|split; [|split; auto]]].
    + intros x [<-|[]]. cbn. split; [lia|]. split; [exists a; unfold inside, chunk_size; cbn; split; auto; lia|].
      unfold disjoint. lia.
    + repeat constructor.
    + exists a. split; auto. lia.
  - apply Permutation_refl.
  - repeat constructor.
Qed.

Lemma stack_alloc_inv m h size : inv h -> malloc_ok m h ->
  0 < size -> chunk_header + 2 * size <= chunk_size ->
  forall h1 r, stack_alloc m h size = (h1, r) ->
  inv h1 /\ stack h1 = stack h /\ callers h1 = callers h /\ r + size = ftop (tops h1) /\
  addr (tops h1) = addr (tops h) /\ merges (tops h1) = merges (tops h) /\ objs (tops h1) = objs (tops h) /\
  ch_end (chunks (tops h1)) = ch_end (chunks (tops h)) /\
  (exists b, In b (stack h1 :: chunks_of (tops h1 :: callers h1)) /\ inside (r, size) b) /\
  (forall x, In x (blocks h1) -> disjoint (fst x) (snd x) r size).
Proof.
  intros [W [P F]] M Hs Hc h1 r E. unfold stack_alloc in E.
  destruct (fmax (tops h) <? ftop (tops h) + size) eqn:Ef.
  - (* a new chunk *)
    assert (exists c sp ms,
      match spare h with [] => (m, [], m :: mallocs h) | c :: r => (c, r, mallocs h) end = (c, sp, ms) /\
      Permutation ms (stack h :: (c :: chunks_of (tops h :: callers h)) ++ sp) /\
      ForallOrdPairs (fun a b => disjoint a chunk_size b chunk_size) ms) as [c [sp [ms [Ec [Pc Fc]]]]].
    { destruct (spare h) as [|c sp] eqn:Es.
      - exists m, [], (m :: mallocs h). split; [reflexivity|]. split.
        + rewrite app_nil_r in *. eapply Permutation_trans; [apply perm_skip; exact P|]. apply perm_swap.
        + constructor; auto. apply Forall_forall. exact M.
      - exists c, sp, (mallocs h). split; [reflexivity|]. split; [|exact F].
        eapply Permutation_trans; [exact P|]. apply perm_skip. cbn. apply Permutation_sym, Permutation_middle. }
    rewrite Ec in E. injection E as <- <-. cbn [stack callers tops spare mallocs ftop fmax addr merges objs chunks ch_end ch_list].
    assert (D : forall b, In b (stack h :: chunks_of (tops h :: callers h)) -> disjoint b chunk_size c chunk_size).
    { intros b Hb. pose proof (regions_perm _ _ Pc Fc) as Q.
      assert (Q2 : ForallOrdPairs (fun a b => disjoint a chunk_size b chunk_size) (c :: (stack h :: chunks_of (tops h :: callers h)) ++ sp)).
      { eapply regions_perm; [|exact Q]. cbn. apply perm_swap. }
      inversion Q2 as [|? ? Q3 _]; subst. rewrite Forall_forall in Q3. apply disjoint_sym, Q3.
      destruct Hb as [<-|Hb]; [left; reflexivity|right]. apply in_or_app; left; exact Hb. }
    assert (Hin : forall b, In b (stack h :: chunks_of (tops h :: callers h)) ->
       In b (stack h :: chunks_of (mk_frame (addr (tops h)) (merges (tops h))
         (size + (c + chunk_header) + size) (chunk_size + c)
         (mk_chain (c :: ch_list (chunks (tops h))) (ch_end (chunks (tops h)))) (objs (tops h)) :: callers h))).
    { intros b [<-|Hb]; [left; reflexivity|right]. cbn. right. exact Hb. }
    destruct W as [W1 [W2 [W3 [W4 W5]]]].
    assert (Out : forall x, In x (blocks_of (tops h :: callers h)) -> forall p s, 0 <= s ->
       c <= p -> p + s <= c + chunk_size -> disjoint (fst x) (snd x) p s).
    { intros x Hx p s Hs0 Hp1 Hp2. destruct (W1 x Hx) as [X1 [[b [X2 X3]] _]].
      apply (inside_disjoint x b (p, s) c); auto. split; cbn; lia. }
    unfold inv. cbn [stack callers tops spare mallocs].
    split; [split; [|split]|].
    + cbn [wf]. cbn [ftop fmax chunks addr ch_end]. split; [|split; [|split; [|split]]]; auto.
      * intros x Hx. change (In x (blocks_of (tops h :: callers h))) in Hx.
        destruct (W1 x Hx) as [X1 [[b [X2 X3]] _]]. split; [exact X1|]. split; [exists b; auto|].
        apply Out; auto; unfold chunk_header in *; lia.
      * exists c. split; [right; left; reflexivity|]. unfold chunk_header in *. lia.
    + exact Pc.
    + exact Fc.
    + split; [reflexivity|]. split; [reflexivity|]. split; [lia|]. do 4 (split; [reflexivity|]).
      split.
      * exists c. split; [right; left; reflexivity|]. unfold inside, chunk_header in *; cbn. lia.
      * intros x Hx. apply Out; auto; unfold chunk_header in *; lia.
  - injection E as <- <-. apply Z.ltb_ge in Ef. destruct W as [W1 [W2 [W3 [W4 W5]]]].
    cbn [stack callers tops spare mallocs ftop fmax addr merges objs chunks ch_end ch_list].
    split; [split; [|split]|].
    + cbn [wf]. cbn [ftop fmax chunks addr ch_end stack tops callers]. split; [|split; [|split; [|split]]]; auto.
      * intros x Hx. change (In x (blocks_of (tops h :: callers h))) in Hx.
        destruct (W1 x Hx) as [X1 [X2 X3]]. split; [exact X1|]. split; [exact X2|]. unfold disjoint in *. lia.
      * destruct W3 as [b [B1 [B2 [B3 B4]]]]. exists b. split; [exact B1|]. lia.
    + exact P.
    + exact F.
    + split; [reflexivity|]. split; [reflexivity|]. split; [lia|]. do 4 (split; [reflexivity|]).
      split.
      * destruct W3 as [b [B1 [B2 [B3 B4]]]]. exists b. split; [exact B1|]. unfold inside; cbn. lia.
      * intros x Hx. destruct (W1 x Hx) as [X1 [X2 X3]]. unfold disjoint in *. lia.
Qed.

Lemma new_value_inv m h size h' r : inv h -> malloc_ok m h ->
  0 < size -> chunk_header + 2 * size <= chunk_size ->
  new_value m h size = (h', r) -> inv h'.
Proof.
  intros I M Hs Hc E. unfold new_value in E.
  destruct (stack_alloc m h size) as [h1 r1] eqn:Ea. injection E as <- <-.
  destruct (stack_alloc_inv _ _ _ I M Hs Hc _ _ Ea) as [[W [P F]] [_ [_ [A1 [_ [_ [_ [_ [A2 A3]]]]]]]]].
  split; [|split; [exact P|exact F]].
  cbn [stack callers tops]. destruct W as [W1 [W2 [W3 [W4 W5]]]].
  cbn [wf ftop fmax addr chunks]. split; [|split; [|split; [|split]]]; auto.
  - intros x Hx. apply blocks_of_cons in Hx. cbn [frame_blocks addr objs] in Hx.
    assert (Hx' : x = (r1, size) \/ In x (blocks_of (tops h1 :: callers h1))).
    { destruct Hx as [[<-|[<-|Hx]]|Hx]; auto; right; apply blocks_of_cons; cbn; auto. }
    destruct Hx' as [->|Hx']; [|apply W1; auto]. cbn [fst snd]. split; [lia|]. split; [exact A2|].
    unfold disjoint. lia.
  - eapply fop_map_perm with (l := (r1, size) :: blocks_of (tops h1 :: callers h1)).
    + cbn. apply perm_swap.
    + constructor; auto. apply Forall_forall. intros x Hx. apply disjoint_sym. apply A3. exact Hx.
Qed.

Lemma push_inv m h b : inv h -> malloc_ok m h -> inv (push m h b).
Proof.
  intros I M. unfold push. destruct b.
  - destruct I as [W [P F]]. split; [|split; [exact P|exact F]]. exact W.
  - destruct (stack_alloc m h frame_size) as [h1 r] eqn:Ea.
    destruct (stack_alloc_inv _ _ frame_size I M) with (h1 := h1) (r := r) as [[W [P F]] [E0 [E1 [A1 [_ [_ [_ [_ [A2 A3]]]]]]]]];
      [unfold frame_size; lia|unfold frame_size, chunk_header, chunk_size; lia|exact Ea|].
    split; [|split; [exact P|exact F]].
    cbn [stack callers tops]. cbn [wf]. cbn [ftop fmax addr chunks ch_end].
    destruct W as [W1 [W2 [W3 [W4 W5]]]].
    split; [|split; [|split; [|split]]].
    + intros x Hx. apply blocks_of_cons in Hx. cbn [frame_blocks addr objs] in Hx.
      destruct Hx as [[<-|[]]|Hx].
      * cbn [fst snd]. split; [unfold frame_size; lia|]. split; [exact A2|]. left. cbn [fst snd].
 cbn [addr]. lia.
      * destruct (W1 x Hx) as [X1 [X2 X3]]. rewrite A1. auto.
    + cbn. constructor; [|exact W2]. apply Forall_forall. intros x Hx. apply disjoint_sym. apply A3. exact Hx.
    + rewrite A1. exact W3.
    + auto.
    + split; [exact W1|]. split; [exact W2|]. split; [exact W3|]. split; [exact W4|exact W5].
Qed.

Lemma give_back_perm l sp : Permutation (give_back l sp) (l ++ sp).
Proof. unfold give_back. apply Permutation_app_tail. apply Permutation_sym, Permutation_rev. Qed.

Lemma pop_inv h h' : inv h -> pop h = Some h' -> inv h'.
Proof.
  intros [W [P F]] E. unfold pop in E. destruct (merges (tops h)) as [|n].
  - destruct (callers h) as [|c cs] eqn:Ec; [discriminate|].
    destruct (ch_end (chunks (tops h))); [|discriminate]. injection E as <-.
    unfold inv. cbn [stack tops callers spare mallocs]. split; [|split; [|exact F]].
    + apply W.
    + eapply Permutation_trans; [exact P|]. apply perm_skip.
      change (chunks_of (tops h :: c :: cs)) with (ch_list (chunks (tops h)) ++ chunks_of (c :: cs)).
      rewrite <- app_assoc. 
      eapply Permutation_trans; [apply Permutation_app_comm|]. rewrite <- app_assoc.
      apply Permutation_app_head. eapply Permutation_trans; [apply Permutation_app_comm|].
      apply Permutation_sym, give_back_perm.
  - injection E as <-. split; [exact W|split; [exact P|exact F]].
Qed.

Lemma compact_inv m h b h' : inv h -> malloc_ok m h -> compact m h b = Some h' -> inv h'.
Proof.
  intros I M E. unfold compact in E. destruct b; [injection E as <-; exact I|].
  destruct (merges (tops h)) as [|n].
  - destruct (callers h) as [|c cs] eqn:Ec; [discriminate|].
    destruct (ch_end (chunks (tops h))); [|discriminate]. injection E as <-.
    destruct I as [W [P F]]. rewrite Ec in *. destruct W as [W1 [W2 [W3 [[W4 W4'] W5]]]].
    assert (W5' := W5). destruct W5' as [V1 [V2 [V3 _]]].
    unfold inv. cbn [stack tops callers spare mallocs]. split; [|split; [|exact F]].
    + cbn [wf]. cbn [ftop fmax addr chunks ch_end]. split; [|split; [|split; [|split]]].
      * intros x Hx. apply blocks_of_cons in Hx. cbn [frame_blocks addr objs] in Hx.
        destruct Hx as [[<-|[]]|Hx].
        -- destruct (W1 (addr (tops h), frame_size)) as [X1 [[b [X2 X3]] _]]; [apply blocks_of_cons; left; left; reflexivity|].
           split; [exact X1|]. split; [|cbn; unfold disjoint; lia].
           (* the frame is in the caller's memory, as its end is the caller's top *)
           destruct V3 as [b' [Y1 [Y2 [Y3 Y4]]]].
           destruct X2 as [<-|X2]; [exists (stack h); split; [left; reflexivity|exact X3]|].
           change (chunks_of (tops h :: c :: cs)) with (ch_list (chunks (tops h)) ++ chunks_of (c :: cs)) in X2.
           apply in_app_or in X2. destruct X2 as [X2|X2]; [|exists b; split; [right; exact X2|exact X3]].
           exfalso.
           assert (Q : disjoint b chunk_size b' chunk_size).
           { pose proof (regions_perm _ _ P F) as Q.
             change (chunks_of (tops h :: c :: cs)) with (ch_list (chunks (tops h)) ++ chunks_of (c :: cs)) in Q.
             destruct Y1 as [<-|Y1].
             - inversion Q as [|? ? Q1 _]; subst. rewrite Forall_forall in Q1. apply disjoint_sym, Q1.
               apply in_or_app; left; apply in_or_app; left; exact X2.
             - inversion Q as [|? ? _ Q1]; subst. rewrite <- app_assoc in Q1.
               apply (fop_app (fun a b => disjoint a chunk_size b chunk_size) _ _ Q1); [exact X2|]. apply in_or_app; left; exact Y1. }
           unfold inside, disjoint in *. cbn [fst snd] in *. unfold frame_size, chunk_size in *.
           lia.
        -- destruct (V1 x Hx) as [X1 [X2 X3]]. rewrite W4. auto.
      * cbn. cbn in W2. inversion W2 as [|? ? Q1 Q2]; subst. constructor; [|exact V2].
        apply Forall_forall. intros x Hx. rewrite Forall_forall in Q1. apply Q1. apply in_or_app; right; exact Hx.
      * rewrite W4. exact V3.
      * auto.
      * exact W5.
    + eapply Permutation_trans; [exact P|]. apply perm_skip.
      change (chunks_of (tops h :: c :: cs)) with (ch_list (chunks (tops h)) ++ chunks_of (c :: cs)).
      cbn [chunks_of flat_map chunks ch_list app]. rewrite <- app_assoc. 
      eapply Permutation_trans; [apply Permutation_app_comm|]. rewrite <- app_assoc.
      apply Permutation_app_head. eapply Permutation_trans; [apply Permutation_app_comm|].
      apply Permutation_sym, give_back_perm.
  - remember (mk_heap (stack h) (mk_frame (addr (tops h)) n (ftop (tops h)) (fmax (tops h)) (chunks (tops h)) (objs (tops h)))
      (callers h) (spare h) (mallocs h)) as h2 eqn:Eh.
    assert (E' : h' = push m h2 false) by congruence. rewrite E'. apply push_inv.
    + subst h2. destruct I as [W [P F]]. split; [exact W|split; [exact P|exact F]].
    + subst h2. exact M.
Qed.

(** ** C08 *)

Lemma exec_inv m h o h' : inv h -> malloc_ok m h -> size_ok o -> exec m h o = Some h' -> inv h'.
Proof.
  intros I M S E. destruct o as [n|b| |b]; cbn [exec size_ok] in *.
  - injection E as <-. destruct (new_value m h n) as [h1 r] eqn:En. eapply new_value_inv; eauto; tauto.
  - injection E as <-. apply push_inv; auto.
  - eapply pop_inv; eauto.
  - eapply compact_inv; eauto.
Qed.

Lemma reached_inv init h : (init = new_heap \/ init = new_heap_init) -> reached init size_ok h -> inv h.
Proof.
  intros Hi R. induction R as [a|h m o h' R IH M S E].
  - destruct Hi as [->| ->]; apply init_wf.
  - eapply exec_inv; eauto.
Qed.

(** Every frame and every object of an active frame lies inside one block obtained from
    malloc, for every history whose objects are not huge. *)
Theorem stack_blocks_in_bounds_partial h : reached new_heap size_ok h -> in_bounds h.
Proof.
  intros R. destruct (reached_inv _ _ (or_introl eq_refl) R) as [W [P _]].
  intros a n Hx. destruct W as [W1 _]. destruct (W1 _ Hx) as [_ [[b [B1 B2]] _]].
  exists b. split; [|exact B2]. eapply Permutation_in; [apply Permutation_sym; exact P|].
  destruct B1 as [<-|B1]; [left; reflexivity|right]. apply in_or_app; left; exact B1.
Qed.

(** ... and no two of them overlap. *)
Theorem stack_blocks_disjoint_partial h : reached new_heap size_ok h -> all_disjoint (blocks h).
Proof.
  intros R. destruct (reached_inv _ _ (or_introl eq_refl) R) as [[_ [W2 _]] _]. exact W2.
Qed.

(** The block handed out for a new object is the one recorded. *)
Theorem new_value_returns_its_block m h n : 
  In (snd (new_value m h n), n) (blocks (fst (new_value m h n))).
Proof.
  unfold new_value. destruct (stack_alloc m h n) as [h1 r]. cbn. right. left. reflexivity.
Qed.

(** Popping and compacting are never stuck except on the base frame, so the frames that
    these histories quantify over are all the frames. *)
Theorem pop_defined_partial h : reached new_heap size_ok h ->
  (pop h = None <-> merges (tops h) = 0%nat /\ callers h = []).
Proof.
  intros R. destruct (reached_inv _ _ (or_introl eq_refl) R) as [W _].
  unfold pop. destruct (merges (tops h)) as [|k]; [|split; [discriminate|intros [? _]; discriminate]].
  destruct (callers h) as [|c cs] eqn:Ec; [tauto|].
  destruct W as [_ [_ [_ [[_ W4] _]]]]. rewrite W4. split; [discriminate|intros [_ ?]; discriminate].
Qed.

(** Without the bound on object sizes the property fails: a struct whose object takes
    600000 bytes (about 75000 fields) is written beyond the end of its chunk. *)
Definition big : Z := 600000.
Theorem stack_blocks_in_bounds_refuted : exists h, reached new_heap (fun o => match o with New n => 0 < n /\ n <= chunk_size - chunk_header | _ => True end) h /\ ~ in_bounds h.
Proof.
  set (h0 := new_heap 0).
  assert (M : forall h, mallocs h = [0] -> malloc_ok 1048576 h).
  { intros h E b Hb. rewrite E in Hb. destruct Hb as [<-|[]]. right. unfold chunk_size. lia. }
  exists (fst (new_value 1048576 (fst (new_value 1048576 h0 big)) big)). split.
  - apply (reached_step _ _ (fst (new_value 1048576 h0 big)) 1048576 (New big));
      [|apply M; vm_compute; reflexivity|split; unfold big, chunk_size, chunk_header; lia|reflexivity].
    apply (reached_step _ _ h0 1048576 (New big));
      [apply reached_new|apply M; vm_compute; reflexivity|split; unfold big, chunk_size, chunk_header; lia|reflexivity].
  - intros B. specialize (B (1048576 + 8 + big) big). destruct B as [b [B1 [B2 B3]]].
    + vm_compute. tauto.
    + assert (Hm : mallocs (fst (new_value 1048576 (fst (new_value 1048576 h0 big)) big)) = [1048576; 0]) by (vm_compute; reflexivity).
      rewrite Hm in B1. unfold big, chunk_size in *. destruct B1 as [<-|[<-|[]]]; lia.
Qed.

(** ** C09: the base frame's chunk list is never initialised. *)
Lemma base_uninit h : reached new_heap (fun _ => True) h ->
  exists fs f, tops h :: callers h = fs ++ [f] /\ ch_end (chunks f) = TUninit.
Proof.
  intros R. induction R as [a|h m o h' R IH M _ E].
  - exists [], (tops (new_heap a)). split; reflexivity.
  - assert (Top : forall h2, callers h2 = callers h -> ch_end (chunks (tops h2)) = ch_end (chunks (tops h)) ->
              exists fs f, tops h2 :: callers h2 = fs ++ [f] /\ ch_end (chunks f) = TUninit).
    { intros h2 E1 E2. destruct IH as [fs [f [Ef Eu]]]. destruct fs as [|g fs].
      - cbn in Ef. injection Ef as E3 E4. exists [], (tops h2). split; [rewrite E1, E4; reflexivity|congruence].
      - cbn in Ef. injection Ef as E3 E4. exists (tops h2 :: fs), f. split; [rewrite E1, E4; reflexivity|exact Eu]. }
    assert (SA : forall n h1 r, stack_alloc m h n = (h1, r) -> callers h1 = callers h /\ ch_end (chunks (tops h1)) = ch_end (chunks (tops h))).
    { intros n h1 r Es. unfold stack_alloc in Es. destruct (_ <? _); [destruct (spare h)|]; injection Es as <- <-; cbn; auto. }
    assert (PU : forall h2, callers h2 = callers h -> ch_end (chunks (tops h2)) = ch_end (chunks (tops h)) ->
       forall h3 r, stack_alloc m h2 frame_size = (h3, r) -> exists fs f, tops h3 :: callers h3 = fs ++ [f] /\ ch_end (chunks f) = TUninit).
    { intros h2 E1 E2 h3 r Es. apply Top.
      - rewrite <- E1. unfold stack_alloc in Es. destruct (_ <? _); [destruct (spare h2)|]; injection Es as <- <-; reflexivity.
      - rewrite <- E2. unfold stack_alloc in Es. destruct (_ <? _); [destruct (spare h2)|]; injection Es as <- <-; reflexivity. }
    assert (PUSH : forall h2, callers h2 = callers h -> ch_end (chunks (tops h2)) = ch_end (chunks (tops h)) ->
       exists fs f, tops (push m h2 false) :: callers (push m h2 false) = fs ++ [f] /\ ch_end (chunks f) = TUninit).
    { intros h2 E1 E2. unfold push. destruct (stack_alloc m h2 frame_size) as [h3 r] eqn:Es.
      destruct (PU h2 E1 E2 _ _ Es) as [fs [f [Ef Eu]]]. cbn [tops callers]. rewrite Ef. eexists (_ :: fs), f. split; [reflexivity|exact Eu]. }
    destruct o as [n|b| |b]; cbn [exec] in E.
    + injection E as <-. unfold new_value. destruct (stack_alloc m h n) as [h1 r] eqn:Es.
      destruct (SA _ _ _ Es) as [A1 A2]. apply Top; cbn; auto.
    + injection E as <-. destruct b; [apply Top; reflexivity|apply PUSH; reflexivity].
    + unfold pop in E. destruct (merges (tops h)).
      * destruct (callers h) as [|c cs] eqn:Ec; [discriminate|].
        destruct (ch_end (chunks (tops h))) eqn:Ee; [|discriminate]. injection E as <-. cbn.
        destruct IH as [fs [f [Ef Eu]]]. destruct fs as [|g fs]; [discriminate|].
        cbn in Ef. injection Ef as _ Ef. exists fs, f. auto.
      * injection E as <-. apply Top; reflexivity.
    + unfold compact in E. destruct b; [injection E as <-; apply Top; reflexivity|].
      destruct (merges (tops h)).
      * destruct (callers h) as [|c cs] eqn:Ec; [discriminate|].
        destruct (ch_end (chunks (tops h))) eqn:Ee; [|discriminate]. injection E as <-. apply Top; cbn; auto.
      * injection E as <-. apply PUSH; reflexivity.
Qed.

Lemma free_frames_uninit fs f : ch_end (chunks f) = TUninit -> free_frames (fs ++ [f]) = None.
Proof.
  intros E. induction fs as [|g fs IH]; cbn [app free_frames]; [rewrite E; reflexivity|].
  rewrite IH. destruct (ch_end (chunks g)); reflexivity.
Qed.

(** Destroying a heap, after any history at all, follows an uninitialised pointer. *)
Theorem heap_init_complete_refuted h : reached new_heap (fun _ => True) h -> free_heap h = None.
Proof.
  intros R. destruct (base_uninit h R) as [fs [f [Ef Eu]]]. unfold free_heap. rewrite Ef.
  rewrite free_frames_uninit; auto.
Qed.

Lemma reached_weaken init (C D : op -> Prop) h : (forall o, C o -> D o) -> reached init C h -> reached init D h.
Proof. intros S R. induction R; [constructor|econstructor; eauto]. Qed.

(** With the missing initialisation added, destroying the heap frees every block of stack
    memory exactly once, in every history. *)
Lemma init_ends h : reached new_heap_init (fun _ => True) h ->
  Forall (fun f => ch_end (chunks f) = TNull) (tops h :: callers h).
Proof.
  intros R. induction R as [a|h m o h' R IH M _ E]; [repeat constructor|].
  inversion IH as [|? ? T1 T2]; subst.
  assert (SA : forall n h2 h1 r, ch_end (chunks (tops h2)) = TNull -> stack_alloc m h2 n = (h1, r) -> callers h1 = callers h2 /\ ch_end (chunks (tops h1)) = TNull).
  { intros n h2 h1 r E0 Es. unfold stack_alloc in Es. destruct (_ <? _); [destruct (spare h2)|]; injection Es as <- <-; cbn; auto. }
  assert (PUSH : forall h2, callers h2 = callers h -> ch_end (chunks (tops h2)) = TNull ->
     Forall (fun f => ch_end (chunks f) = TNull) (tops (push m h2 false) :: callers (push m h2 false))).
  { intros h2 E1 E2. unfold push. destruct (stack_alloc m h2 frame_size) as [h3 r] eqn:Es.
    destruct (SA _ _ _ _ E2 Es) as [A1 A2]. cbn. rewrite A1, E1. constructor; [reflexivity|]. constructor; auto. }
  destruct o as [n|b| |b]; cbn [exec] in E.
  - injection E as <-. unfold new_value. destruct (stack_alloc m h n) as [h1 r] eqn:Es.
    destruct (SA _ _ _ _ T1 Es) as [A1 A2]. cbn. rewrite A1. constructor; auto.
  - injection E as <-. destruct b; [constructor; auto|apply PUSH; auto].
  - unfold pop in E. destruct (merges (tops h)).
    + destruct (callers h) as [|c cs] eqn:Ec; [discriminate|]. rewrite T1 in E. injection E as <-. exact T2.
    + injection E as <-. constructor; auto.
  - unfold compact in E. destruct b; [injection E as <-; constructor; auto|].
    destruct (merges (tops h)).
    + destruct (callers h) as [|c cs] eqn:Ec; [discriminate|]. rewrite T1 in E. injection E as <-. constructor; auto.
    + injection E as <-. apply PUSH; auto.
Qed.

Lemma free_frames_all fs : Forall (fun f => ch_end (chunks f) = TNull) fs -> free_frames fs = Some (chunks_of fs).
Proof. induction 1 as [|f fs H _ IH]; [reflexivity|]. cbn [free_frames]. rewrite H, IH. reflexivity. Qed.

Theorem stack_memory_released_once_repaired h : reached new_heap_init size_ok h ->
  exists l, free_heap h = Some l /\ Permutation l (mallocs h) /\ NoDup l.
Proof.
  intros R. destruct (reached_inv _ _ (or_intror eq_refl) R) as [_ [P F]].
  assert (A := init_ends h (reached_weaken _ _ (fun _ => True) _ (fun _ _ => Logic.I) R)).
  unfold free_heap. rewrite (free_frames_all _ A). eexists. split; [reflexivity|].
  assert (Q : Permutation (chunks_of (tops h :: callers h) ++ stack h :: spare h) (mallocs h)).
  { eapply Permutation_trans; [apply Permutation_sym, Permutation_middle|]. apply Permutation_sym; exact P. }
  split; [exact Q|]. eapply Permutation_NoDup; [apply Permutation_sym; exact Q|].
  clear -F. induction F as [|a l H F IH]; constructor; auto.
  intros Ha. rewrite Forall_forall in H. specialize (H _ Ha). unfold disjoint, chunk_size in H. lia.
Qed.

(** Non-vacuity: a history with a frame that overflows into a second chunk, a merged
    frame, and a pop that recycles the chunk. *)
Example busy : exists h, reached new_heap size_ok h /\ length (mallocs h) = 2%nat /\ length (spare h) = 1%nat /\
  length (objs (tops h)) = 2%nat.
Proof.
  assert (M0 : forall h, mallocs h = [0] -> malloc_ok 1048576 h).
  { intros h E b Hb. rewrite E in Hb. destruct Hb as [<-|[]]. right. unfold chunk_size. lia. }
  assert (M1 : forall h, mallocs h = [1048576; 0] -> malloc_ok 2097152 h).
  { intros h E b Hb. rewrite E in Hb. unfold disjoint, chunk_size. destruct Hb as [<-|[<-|[]]]; right; lia. }
  set (s := 500000).
  assert (Hs : size_ok (New s)) by (cbn; unfold s, chunk_header, chunk_size; lia).
  assert (R1 : reached new_heap size_ok (push 1048576 (fst (new_value 1048576 (new_heap 0) s)) false)).
  { apply (reached_step _ _ (fst (new_value 1048576 (new_heap 0) s)) 1048576 (Push false)); [|apply M0; vm_compute; reflexivity|exact Logic.I|reflexivity].
    apply (reached_step _ _ (new_heap 0) 1048576 (New s)); [apply reached_new|apply M0; vm_compute; reflexivity|exact Hs|reflexivity]. }
  set (h1 := push _ _ _) in R1.
  assert (R2 : reached new_heap size_ok (fst (new_value 1048576 (fst (new_value 1048576 h1 s)) s))).
  { apply (reached_step _ _ (fst (new_value 1048576 h1 s)) 1048576 (New s)); [|apply M0; vm_compute; reflexivity|exact Hs|reflexivity].
    apply (reached_step _ _ h1 1048576 (New s)); [exact R1|apply M0; vm_compute; reflexivity|exact Hs|reflexivity]. }
  set (h2 := fst (new_value 1048576 (fst (new_value 1048576 h1 s)) s)) in R2.
  assert (E3 : exists h3, pop h2 = Some h3) by (vm_compute; eauto). destruct E3 as [h3 E3].
  exists (fst (new_value 2097152 h3 8)). split.
  - apply (reached_step _ _ h3 2097152 (New 8)); [|apply M1|cbn; unfold chunk_header, chunk_size; lia|reflexivity].
    + apply (reached_step _ _ h2 2097152 Pop); [exact R2|apply M1; vm_compute; reflexivity|exact Logic.I|exact E3].
    + vm_compute in E3. injection E3 as <-. reflexivity.
  - vm_compute in E3. injection E3 as <-. vm_compute. auto.
Qed.
