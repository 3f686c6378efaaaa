(** * The assembly generated for a function does what the interpreter does on its code. *)
From Coq Require Import ZArith List Arith Lia Bool.
From Verif Require Import PathModel LoadModel FuncModel CodeModel CodeProps CompileRel CompileCalls CompileStatic LinkModel GenModel GenRun FuncSim AsmModel AsmSearch.
Import ListNotations.

(** ** Words *)

Lemma stack_bytes_16 : forall n, (stack_bytes n mod 16 = 0)%Z.
Proof. intros n. unfold stack_bytes. rewrite Z.mul_comm. apply Z.mod_mul. lia. Qed.
Lemma stack_bytes_ge : forall n, (8 * Z.of_nat n <= stack_bytes n)%Z.
Proof. intros n. unfold stack_bytes. pose proof (Z.div_mod (Z.of_nat n + 1) 2). pose proof (Z.mod_pos_bound (Z.of_nat n + 1) 2). lia. Qed.

Lemma mod8 : forall a i, (a mod 16 = 0 -> (a + 8 * i) mod 8 = 0)%Z.
Proof.
  intros a i H. replace a with (2 * (a / 16) * 8)%Z by (pose proof (Z.div_mod a 16); lia).
  replace (2 * (a / 16) * 8 + 8 * i)%Z with ((2 * (a / 16) + i) * 8)%Z by lia. apply Z.mod_mul. lia.
Qed.
Lemma mod16_add : forall a b, (a mod 16 = 0 -> b mod 16 = 0 -> (a + b) mod 16 = 0)%Z.
Proof. intros a b A B. rewrite Z.add_mod, A, B by lia. reflexivity. Qed.
Lemma mod16_opp : forall a, (a mod 16 = 0 -> (- a) mod 16 = 0)%Z.
Proof. intros a A. apply Z.mod_opp_l_z; lia. Qed.

Lemma val_eqb_refl : forall v, val_eqb v v = true.
Proof.
  fix IH 1. intros v.
  assert (H : forall l, (fix vals_eqb (l m : list gval) : bool :=
    match l, m with [], [] => true | x :: l', y :: m' => val_eqb x y && vals_eqb l' m' | _, _ => false end) l l = true).
  { fix IHl 1. intros [|x l]; [reflexivity|]. cbn. rewrite IH, IHl. reflexivity. }
  assert (P : forall p, cpay_eqb p p = true).
  { intros [i f|c]; cbn; auto. rewrite Nat.eqb_refl. destruct (list_eq_dec Z.eq_dec f f); [reflexivity|congruence]. }
  destruct v; cbn [val_eqb]; rewrite ?Nat.eqb_refl, ?IH, ?H, ?P; reflexivity.
Qed.

Lemma store_args_length : forall r vs i, length (store_args r i vs) = 2 * length vs.
Proof. intros r vs. induction vs as [|v vs IH]; intros i; cbn [store_args length]; [reflexivity|]. rewrite IH. lia. Qed.

(** Registers a call does not preserve, used for intermediate results. *)
Definition temp (r : reg) : Prop := match r with X0 | X1 | X2 | X3 | X4 | X5 | X9 => True | _ => False end.

(** ** One function *)
Section sim.
  Variable prel : nat -> nat -> code -> cpay -> Prop.
  Variables (callM : cst -> cval -> list cval -> res code) (callG : gst -> gval -> list gval -> res cpay).
  Hypothesis Hcall : same_call prel callM callG.
  Variables (tu blk : nat) (ss xs : list cval) (ts ys : list gval).
  Hypothesis Hss : Forall2 (same_val prel) ss ts.
  Hypothesis Hxs : Forall2 (same_val prel) xs ys.
  Variable entry : Z.
  Hypothesis Hentry : (entry mod 16 = 0)%Z.
  Variables (file : list line) (nl : nat).
  Notation run := (run callG tu file blk ts ys entry).
  Notation step := (step callG tu file blk ts ys entry).
  Notation goes := (goes callG tu file blk ts ys entry).
  Notation ext := (ext callG tu file entry).
  Notation load := (load blk ts ys entry).
  Notation store := (store entry).

  (** SP in the body of the function: the start of its RunStackFrame. *)
  Definition sp : Z := (entry - stack_bytes nl - 64)%Z.
  Lemma sp_16 : (sp mod 16 = 0)%Z.
  Proof. unfold sp. pose proof (stack_bytes_16 nl). replace (entry - stack_bytes nl - 64)%Z with ((entry + - stack_bytes nl) + -64)%Z by lia. repeat apply mod16_add; auto. apply mod16_opp; auto. Qed.

  Definition saved : list (Z * reg) := [(0, FP); (8, LR); (16, RHeap); (24, RLocals); (32, RArgs); (40, RStatics); (48, RBlock); (56, RProfile)]%Z.

  (** The state of the machine in the body of the function, with SP at [cur]: the locals are
      those [l] of the interpreter. *)
  Record inv (cur : Z) (m : mach) (l : regs) : Prop := {
    i_sp : rf m SP = WStack cur;
    i_cur : (cur <= sp)%Z;
    i_16 : (cur mod 16 = 0)%Z;
    i_heap : rf m RHeap = WHeap;
    i_locals : rf m RLocals = WStack (sp + 64);
    i_args : rf m RArgs = WArgs;
    i_statics : rf m RStatics = WStatics;
    i_block : rf m RBlock = WInt (Z.of_nat blk);
    i_profile : rf m RProfile = WProf;
    i_saved : forall k r, In (k, r) saved -> mem m (sp + k)%Z = WCaller r;
    i_len : length l = nl;
    i_val : forall i x, nth_error l i = Some (Some x) -> exists y, mem m (sp + 64 + 8 * Z.of_nat i)%Z = WVal y /\ same_val prel x y }.

  Lemma inv_temp : forall cur m l r w, inv cur m l -> temp r -> inv cur (set_reg r w m) l.
  Proof.
    intros cur m l r w [] T. unfold set_reg, upd. constructor; cbn [rf mem]; auto; destruct r; cbn in *; try contradiction; auto.
  Qed.
  Lemma inv_flags : forall cur m l c, inv cur m l -> inv cur (set_flags c m) l.
  Proof. intros cur m l c []. constructor; auto. Qed.
  Lemma saved_pos : forall k r, In (k, r) saved -> (0 <= k <= 56)%Z.
  Proof. intros k r I. cbn in I. repeat (destruct I as [I|I]; [injection I; lia|]). destruct I. Qed.
  Lemma inv_clobber : forall cur m l w, inv cur m l -> inv cur (clobber w m) l.
  Proof.
    intros cur m l w []. constructor; cbn [clobber rf mem]; auto; rewrite i_sp0.
    - intros k r I. pose proof (saved_pos _ _ I). replace (sp + k <? cur)%Z with false by (symmetry; apply Z.ltb_ge; lia). auto.
    - intros i x E. destruct (i_val0 i x E) as [y [My V]]. exists y. split; auto.
      replace (sp + 64 + 8 * Z.of_nat i <? cur)%Z with false by (symmetry; apply Z.ltb_ge; lia). auto.
  Qed.
  (** Memory below the frame. *)
  Lemma inv_below : forall cur m l a w, inv cur m l -> (a < sp)%Z -> inv cur (set_mem a w m) l.
  Proof.
    intros cur m l a w [] L. constructor; cbn [set_mem rf mem]; auto.
    - intros k r I. pose proof (saved_pos _ _ I). replace (sp + k =? a)%Z with false by (symmetry; apply Z.eqb_neq; lia). auto.
    - intros i x E. destruct (i_val0 i x E) as [y [My V]]. exists y. split; auto.
      replace (sp + 64 + 8 * Z.of_nat i =? a)%Z with false by (symmetry; apply Z.eqb_neq; lia). auto.
  Qed.
  (** A local. *)
  Lemma inv_local : forall cur m l d w o, inv cur m l -> d < nl ->
    match o with Some x => exists y, w = WVal y /\ same_val prel x y | None => True end ->
    inv cur (set_mem (sp + 64 + zoff d) w m) (set_nth d o l).
  Proof.
    intros cur m l d w o [] L H. constructor; cbn [set_mem rf mem]; auto.
    - intros k r I. pose proof (saved_pos _ _ I). replace (sp + k =? sp + 64 + zoff d)%Z with false by (symmetry; apply Z.eqb_neq; lia). auto.
    - rewrite set_nth_length. auto.
    - intros i x E. rewrite nth_error_set_nth in E. destruct (Nat.eqb_spec i d) as [->|Ne].
      + rewrite Z.eqb_refl. replace (d <? length l) with true in E by (symmetry; apply Nat.ltb_lt; lia). injection E as ->. exact H.
      + replace (sp + 64 + 8 * Z.of_nat i =? sp + 64 + zoff d)%Z with false by (symmetry; apply Z.eqb_neq; lia). auto.
  Qed.
  Lemma inv_sp : forall cur cur' m l, inv cur m l -> (cur' <= sp)%Z -> (cur' mod 16 = 0)%Z -> inv cur' (set_reg SP (WStack cur') m) l.
  Proof. intros cur cur' m l [] L M. constructor; auto. Qed.

  (** ** Loads and stores *)

  Lemma load_stack : forall m a off, rf m SP = WStack a -> (a mod 16 = 0)%Z -> (0 <= off)%Z -> (off mod 8 = 0)%Z -> (a + off + 8 <= entry)%Z ->
    load m SP off = Some (mem m (a + off)%Z).
  Proof.
    intros m a off E M P M8 L. unfold AsmModel.load, base_ok, in_frame. rewrite E, M, Z.eqb_refl.
    replace (a <=? a + off)%Z with true by (symmetry; apply Z.leb_le; lia). replace (a + off + 8 <=? entry)%Z with true by (symmetry; apply Z.leb_le; lia).
    replace ((a + off) mod 8)%Z with 0%Z; [reflexivity|]. pose proof (Z.div_mod off 8). replace off with (8 * (off / 8))%Z by lia. symmetry. apply mod8. auto.
  Qed.
  Lemma store_stack : forall m w a off, rf m SP = WStack a -> (a mod 16 = 0)%Z -> (0 <= off)%Z -> (off mod 8 = 0)%Z -> (a + off + 8 <= entry)%Z ->
    store m w SP off = Some (set_mem (a + off) w m).
  Proof.
    intros m w a off E M P M8 L. unfold AsmModel.store, base_ok, in_frame. rewrite E, M, Z.eqb_refl.
    replace (a <=? a + off)%Z with true by (symmetry; apply Z.leb_le; lia). replace (a + off + 8 <=? entry)%Z with true by (symmetry; apply Z.leb_le; lia).
    replace ((a + off) mod 8)%Z with 0%Z; [reflexivity|]. pose proof (Z.div_mod off 8). replace off with (8 * (off / 8))%Z by lia. symmetry. apply mod8. auto.
  Qed.

  Lemma local_in : forall cur m l i, inv cur m l -> i < nl -> in_frame entry m (sp + 64 + zoff i) = true.
  Proof.
    intros cur m l i [] L. unfold in_frame. rewrite i_sp0. pose proof (stack_bytes_ge nl). unfold sp in *.
    rewrite !andb_true_iff, !Z.leb_le, Z.eqb_eq. split; [split; lia|]. apply mod8. apply mod16_add; [|reflexivity]. apply sp_16.
  Qed.

  Lemma elem_nth : forall (vs : list gval) i y, nth_error vs i = Some y -> elem vs (zoff i) = Some (WVal y).
  Proof.
    intros vs i y E. unfold elem. replace (0 <=? zoff i)%Z with true by (symmetry; apply Z.leb_le; lia).
    rewrite (Z.mul_comm 8), Z.mod_mul, Z.eqb_refl, Z.div_mul, Nat2Z.id, E by lia. reflexivity.
  Qed.

  (** Reading a variable. *)
  Lemma get_step : forall cur m l d v x s, inv cur m l -> get ss xs l v = Some x ->
    exists y, same_val prel x y /\ step (match get_var d v with Ins i => i | _ => Ret_ end) m s = SNext (set_reg d (WVal y) m) s.
  Proof.
    intros cur m l d v x s I E. destruct v as [i|i|i]; cbn [get get_var] in *.
    - pose proof (F2_nth_error _ _ _ Hss i) as H. rewrite E in H. destruct (nth_error ts i) as [y|] eqn:N; [|contradiction].
      exists y. split; auto. cbn [AsmModel.step]. unfold AsmModel.load. cbn [base_ok]. rewrite (i_statics _ _ _ I), (elem_nth _ _ _ N). reflexivity.
    - pose proof (F2_nth_error _ _ _ Hxs i) as H. rewrite E in H. destruct (nth_error ys i) as [y|] eqn:N; [|contradiction].
      exists y. split; auto. cbn [AsmModel.step]. unfold AsmModel.load. cbn [base_ok]. rewrite (i_args _ _ _ I), (elem_nth _ _ _ N). reflexivity.
    - destruct (nth_error l i) as [[v|]|] eqn:N; try discriminate. injection E as ->. destruct (i_val _ _ _ I i x N) as [y [My V]].
      exists y. split; auto. cbn [AsmModel.step]. unfold AsmModel.load. cbn [base_ok]. rewrite (i_locals _ _ _ I), (local_in _ _ _ _ I), My; [reflexivity|].
      rewrite <- (i_len _ _ _ I). apply nth_error_Some. congruence.
  Qed.
  Lemma get_goes : forall cur m l d v x s r, inv cur m l -> get ss xs l v = Some x ->
    exists y, same_val prel x y /\ goes 1 (get_var d v :: r) m s r (set_reg d (WVal y) m) s.
  Proof.
    intros cur m l d v x s r I E. destruct (get_step cur m l d v x s I E) as [y [V St]]. exists y. split; auto.
    unfold get_var in *. apply goes_ins. exact St.
  Qed.
  (** Reading it more than once. *)
  Lemma get_twice : forall cur m l v x, inv cur m l -> get ss xs l v = Some x ->
    exists y, same_val prel x y /\ forall cur' m', inv cur' m' l -> (forall a, (sp <= a)%Z -> mem m' a = mem m a) ->
      forall d s r, goes 1 (get_var d v :: r) m' s r (set_reg d (WVal y) m') s.
  Proof.
    intros cur m l v x I E. destruct v as [i|i|i]; cbn [get get_var] in *.
    - pose proof (F2_nth_error _ _ _ Hss i) as H. rewrite E in H. destruct (nth_error ts i) as [y|] eqn:N; [|contradiction].
      exists y. split; auto. intros cur' m' I' Em d s r; apply goes_ins; cbn [AsmModel.step]; unfold AsmModel.load; cbn [base_ok].
      rewrite (i_statics _ _ _ I'), (elem_nth _ _ _ N). reflexivity.
    - pose proof (F2_nth_error _ _ _ Hxs i) as H. rewrite E in H. destruct (nth_error ys i) as [y|] eqn:N; [|contradiction].
      exists y. split; auto. intros cur' m' I' Em d s r; apply goes_ins; cbn [AsmModel.step]; unfold AsmModel.load; cbn [base_ok].
      rewrite (i_args _ _ _ I'), (elem_nth _ _ _ N). reflexivity.
    - destruct (nth_error l i) as [[v|]|] eqn:N; try discriminate. injection E as ->. destruct (i_val _ _ _ I i x N) as [y [My V]].
      assert (Li : i < nl) by (rewrite <- (i_len _ _ _ I); apply nth_error_Some; congruence).
      exists y. split; auto. intros cur' m' I' Em d s r; apply goes_ins; cbn [AsmModel.step]; unfold AsmModel.load; cbn [base_ok].
      rewrite (i_locals _ _ _ I'), (local_in _ _ _ _ I'), Em, My; auto. lia.
  Qed.
  (** Writing a local. *)
  Lemma set_goes : forall cur m l d w s r rs, inv cur m l -> d < nl -> src m rs = w ->
    goes 1 (set_var rs d :: r) m s r (set_mem (sp + 64 + zoff d) w m) s.
  Proof.
    intros cur m l d w s r rs I L <-. apply goes_ins. cbn [AsmModel.step]. unfold AsmModel.store. cbn [base_ok].
    rewrite (i_locals _ _ _ I), (local_in _ _ _ _ I L). reflexivity.
  Qed.

  (** ** Arrays on the stack *)

  Lemma read_app : forall m n a vs, length vs = n -> (forall i v, nth_error vs i = Some v -> in_frame entry m (a + zoff i) = true /\ mem m (a + zoff i)%Z = WVal v) ->
    read_vals entry m a n = Some vs.
  Proof.
    intros m n. induction n as [|n IH]; intros a vs L H; destruct vs as [|v vs]; cbn in L; try discriminate; [reflexivity|]. cbn [read_vals].
    destruct (H 0 v eq_refl) as [I M]. replace (a + zoff 0)%Z with a in * by lia. rewrite I, M.
    rewrite (IH (a + 8)%Z vs); auto. intros i v' E. specialize (H (S i) v' E). replace (a + zoff (S i))%Z with (a + 8 + zoff i)%Z in H by lia. exact H.
  Qed.

  (** Storing the arguments [vs] from element [i] on; [n] is the number of elements. *)
  Lemma store_goes : forall n cur l r s rest, (cur + 8 * Z.of_nat n <= sp)%Z -> temp r -> forall vs zs i m, inv cur m l -> gets ss xs l vs = Some zs -> i + length vs <= n ->
    exists ws m', Forall2 (same_val prel) zs ws /\ goes (2 * length vs) (store_args r i vs ++ rest) m s rest m' s /\ inv cur m' l /\
      (forall r', r' <> r -> rf m' r' = rf m r') /\
      (forall j, j < i -> mem m' (cur + zoff j)%Z = mem m (cur + zoff j)%Z) /\
      (forall j w, nth_error ws j = Some w -> mem m' (cur + zoff (i + j))%Z = WVal w).
  Proof.
    intros n cur l r s rest Lc T. induction vs as [|v vs IH]; intros zs i m I E L.
    - cbn in E. injection E as <-. exists [], m. split; [constructor|]. split; [apply goes_refl|]. split; auto. split; auto. split; auto. intros [|j] w E; discriminate.
    - cbn [gets] in E. destruct (get ss xs l v) as [x|] eqn:G; [|discriminate]. destruct (gets ss xs l vs) as [zs'|] eqn:Gs; [|discriminate]. injection E as <-.
      cbn [length] in L. destruct (get_goes cur m l r v x s (Ins (Str r SP (zoff i)) :: store_args r (S i) vs ++ rest) I G) as [y [V G1]].
      assert (Lb : (cur + zoff i < sp)%Z) by lia.
      assert (I1 : inv cur (set_reg r (WVal y) m) l) by (apply inv_temp; auto).
      assert (G2 : goes 1 (Ins (Str r SP (zoff i)) :: store_args r (S i) vs ++ rest) (set_reg r (WVal y) m) s
                      (store_args r (S i) vs ++ rest) (set_mem (cur + zoff i) (WVal y) (set_reg r (WVal y) m)) s).
      { apply goes_ins. cbn [AsmModel.step]. rewrite (store_stack _ _ cur).
        - replace (src (set_reg r (WVal y) m) r) with (WVal y); [reflexivity|]. destruct r; cbn in T; try contradiction; reflexivity.
        - apply (i_sp _ _ _ I1).
        - apply (i_16 _ _ _ I1).
        - lia.
        - rewrite Z.mul_comm. apply Z.mod_mul. lia.
        - unfold sp in *. pose proof (stack_bytes_ge nl). lia. }
      destruct (IH zs' (S i) (set_mem (cur + zoff i) (WVal y) (set_reg r (WVal y) m)) (inv_below _ _ _ _ _ I1 Lb) eq_refl ltac:(lia)) as [ws [m' [F [G3 [I3 [Rr [Rb Rn]]]]]]].
      exists (y :: ws), m'. split; [constructor; auto|]. split.
      { cbn [store_args app length]. replace (2 * S (length vs)) with (1 + (1 + 2 * length vs)) by lia. eapply goes_trans; [exact G1|]. eapply goes_trans; [exact G2|exact G3]. }
      split; auto. split.
      { intros r' Ne. rewrite Rr by auto. cbn. unfold upd. destruct (reg_beq r' r) eqn:Q; auto. apply internal_reg_dec_bl in Q. contradiction. }
      split.
      { intros j Lj. rewrite Rb by lia. cbn [set_mem mem]. replace (cur + zoff j =? cur + zoff i)%Z with false by (symmetry; apply Z.eqb_neq; lia). reflexivity. }
      intros [|j] w E.
      + injection E as <-. rewrite Nat.add_0_r, Rb by lia. cbn [set_mem mem]. rewrite Z.eqb_refl. reflexivity.
      + replace (i + S j) with (S i + j) by lia. apply Rn. exact E.
  Qed.

  (** The whole: allocate, store, and what the runtime reads. *)
  Lemma alloc_goes : forall l r s rest vs zs m, temp r -> inv sp m l -> gets ss xs l vs = Some zs ->
    exists ws m', Forall2 (same_val prel) zs ws /\ length ws = length vs /\
      goes (1 + 2 * length vs) (Ins (SubI SP SP (stack_bytes (length vs))) :: store_args r 0 vs ++ rest) m s rest m' s /\
      inv (sp - stack_bytes (length vs)) m' l /\ (forall r', r' <> r -> r' <> SP -> rf m' r' = rf m r') /\
      (forall m'' , rf m'' SP = rf m' SP -> mem m'' = mem m' -> read_array entry m'' (rf m' SP) (Z.of_nat (length vs)) = Some ws).
  Proof.
    intros l r s rest vs zs m T I G. set (cur := (sp - stack_bytes (length vs))%Z).
    pose proof (stack_bytes_ge (length vs)) as Lb. pose proof (stack_bytes_16 (length vs)) as L16.
    assert (I1 : inv cur (set_reg SP (WStack cur) m) l).
    { eapply inv_sp; eauto; unfold cur; [lia|]. replace (sp - stack_bytes (length vs))%Z with (sp + - stack_bytes (length vs))%Z by lia. apply mod16_add; [apply sp_16|apply mod16_opp; auto]. }
    destruct (store_goes (length vs) cur l r s rest ltac:(unfold cur; lia) T vs zs 0 _ I1 G ltac:(lia)) as [ws [m' [F [G1 [I2 [Rr [_ Rn]]]]]]].
    exists ws, m'. split; auto. assert (Lw : length ws = length vs).
    { rewrite <- (F2_len _ _ _ F). clear -G. revert zs G. induction vs as [|v vs IH]; intros zs G; cbn in G; [injection G as <-; reflexivity|].
      destruct (get ss xs l v); [|discriminate]. destruct (gets ss xs l vs); [|discriminate]. injection G as <-. cbn. rewrite IH; auto. }
    split; auto. split.
    { eapply goes_trans; [|exact G1]. apply goes_ins. cbn [AsmModel.step]. rewrite (i_sp _ _ _ I). cbn [add_word].
      replace (sp + - stack_bytes (length vs))%Z with cur by (unfold cur; lia). reflexivity. }
    split; auto. split.
    { intros r' N1 N2. rewrite Rr by auto. cbn. unfold upd. destruct (reg_beq r' SP) eqn:Q; auto. apply internal_reg_dec_bl in Q. contradiction. }
    intros m'' Es Em. rewrite (i_sp _ _ _ I2). cbn [read_array]. replace (0 <=? Z.of_nat (length vs))%Z with true by (symmetry; apply Z.leb_le; lia). rewrite Nat2Z.id.
    apply read_app; auto. intros i v E. rewrite Em. rewrite (Rn i v E : mem m' (cur + zoff i)%Z = WVal v). split; auto.
    assert (Li : i < length vs) by (rewrite <- Lw; apply nth_error_Some; congruence).
    unfold in_frame. rewrite Es, (i_sp _ _ _ I2). rewrite !andb_true_iff, !Z.leb_le, Z.eqb_eq. pose proof (stack_bytes_ge nl). split; [split; [lia|]|].
    - unfold cur, sp. lia.
    - apply mod8. apply (i_16 _ _ _ I2).
  Qed.

  (** ** Calls of the runtime *)
  Lemma bl_goes : forall cur m l e s w s' r, inv cur m l -> ext e m s = XRet w s' -> goes 1 (Ins (Bl e) :: r) m s r (clobber w m) s'.
  Proof.
    intros cur m l e s w s' r I E. apply goes_ins. cbn [AsmModel.step base_ok]. rewrite (i_sp _ _ _ I), (i_16 _ _ _ I), Z.eqb_refl, E. reflexivity.
  Qed.
  Lemma bl_stop : forall cur m l e s o s' r k, inv cur m l -> ext e m s = XStop o s' -> run (S k) (Ins (Bl e) :: r) m s = (o, s').
  Proof.
    intros cur m l e s o s' r k I E. cbn [AsmModel.run AsmModel.step base_ok]. rewrite (i_sp _ _ _ I), (i_16 _ _ _ I), Z.eqb_refl, E. reflexivity.
  Qed.

  (** ** Leaving the function *)
  Variable f : nat.

  Definition finish (w : word) (s : gst) : gres :=
    match w with
    | WVal v => (Ret v, s)
    | WInt z => if (z =? 0)%Z then (Abort, s) else (Crash, s)
    | WTail g vs => (Tail g vs, s)
    | _ => (Crash, s)
    end.

  Lemma run_goes : forall n x m s x' m' s' K, goes n x m s x' m' s' -> n <= K -> run K x m s = run (K - n) x' m' s'.
  Proof. intros n x m s x' m' s' K G L. replace K with (n + (K - n)) at 1 by lia. apply G. Qed.

  Lemma exit_run : forall m l s r K, inv sp m l -> 7 <= K -> run K (epilogue f nl ++ r) m s = finish (rf m X0) s.
  Proof.
    intros m l s r K I L. pose proof (stack_bytes_ge nl) as Lb. pose proof sp_16 as S16.
    assert (Sv : forall k q, In (k, q) saved -> mem m (sp + k)%Z = WCaller q) by apply (i_saved _ _ _ I).
    pose proof (i_sp _ _ _ I) as Es.
    do 7 (destruct K as [|K]; [lia|]). unfold epilogue. cbn [app AsmModel.run].
    assert (Ld : forall m' off, rf m' SP = WStack sp -> mem m' = mem m -> (0 <= off <= 56)%Z -> (off mod 8 = 0)%Z -> load m' SP off = Some (mem m (sp + off)%Z)).
    { intros m' off E1 E2 R1 R2. rewrite (load_stack m' sp off), E2; auto; try lia. unfold sp. lia. }
    cbn [AsmModel.step]. rewrite !(Ld m) by (auto; try lia; reflexivity). cbn [AsmModel.step Z.add Pos.add Pos.succ Pos.add_carry].
    rewrite (Sv 16 RHeap)%Z, (Sv 24 RLocals)%Z by (cbn; tauto).
    set (m1 := set_reg RLocals (WCaller RLocals) (set_reg RHeap (WCaller RHeap) m)).
    rewrite !(Ld m1) by (auto; try lia; reflexivity). rewrite (Sv 32 RArgs)%Z, (Sv 40 RStatics)%Z by (cbn; tauto).
    set (m2 := set_reg RStatics (WCaller RStatics) (set_reg RArgs (WCaller RArgs) m1)). cbn [AsmModel.step Z.add Pos.add Pos.succ Pos.add_carry].
    rewrite !(Ld m2) by (auto; try lia; reflexivity). rewrite (Sv 48 RBlock)%Z, (Sv 56 RProfile)%Z by (cbn; tauto).
    set (m3 := set_reg RProfile (WCaller RProfile) (set_reg RBlock (WCaller RBlock) m2)). cbn [AsmModel.step].
    rewrite !(Ld m3) by (auto; try lia; reflexivity). rewrite (Sv 0 FP)%Z, (Sv 8 LR)%Z by (cbn; tauto).
    cbn [AsmModel.step]. unfold restored. subst m1 m2 m3. cbn -[stack_bytes sp]. rewrite Es. cbn [add_word].
    replace (sp + 64 + stack_bytes nl =? entry)%Z with true by (symmetry; apply Z.eqb_eq; unfold sp; lia). cbn -[stack_bytes sp].
    destruct (rf m X0); try reflexivity. cbn [finish]. destruct (z =? 0)%Z; reflexivity.
  Qed.

  Variable exit_pos : list line.
  Hypothesis Hexit : find_pos (LExit f) file = Some (epilogue f nl ++ exit_pos).

  (** An error message, then NULL is returned. *)
  Lemma abort_run : forall m l s mg r K, inv sp m l -> 17 <= K -> run K (do_abort f mg ++ r) m s = (Abort, s).
  Proof.
    intros m l s mg r K I L. do 10 (destruct K as [|K]; [lia|]). cbn [do_abort app AsmModel.run AsmModel.step AsmModel.load].
    unfold AsmModel.load at 1. cbn [base_ok rf set_reg upd reg_beq Z.eqb]. cbn [base_ok]. cbn.
    rewrite (i_sp _ _ _ I), (i_16 _ _ _ I). cbn [Z.eqb]. rewrite Hexit.
    rewrite (exit_run _ l); [reflexivity| |lia]. apply inv_temp; [|exact Logic.I].
    match goal with |- inv sp ?q l => change q with (mk_mach (rf q) (mem q) (fl q)) end.
    apply (inv_clobber sp (set_reg X5 (WAdr (GMsg mg)) (set_reg X4 (WInt 0) (set_reg X3 (WInt 0) (set_reg X2 (WAdr GLoc) (set_reg X1 (WAdr GFormat) (set_reg X0 WStderr (set_reg X0 (WAdr GStderr) m))))))) l WUndef).
    repeat (apply inv_temp; [|exact Logic.I]). exact I.
  Qed.

  (** ** Positions *)
  Hypothesis Hnd : NoDup (labels_of file).
  Variables (names : list str) (L : list (list prof_op * instr)).
  Notation tail := (epilogue f nl ++ exit_pos).
  Hypothesis Houts : exists Q R, file = Q ++ emit_outlines f 0 L ++ R.

  (** The lines from instruction [pc] on are [b]. *)
  Record at_pc (pc : nat) (P b : list line) : Prop := {
    a_emit : emit_body names f pc (skipn pc L) = Some b;
    a_file : file = P ++ b ++ tail }.
  (** What can be executed from there on. *)
  Definition pot (pc : nat) (b : list line) : nat := length b + length (emit_outlines f pc (skipn pc L)) + 7.

  Lemma outs_at : forall pc ops i, nth_error L pc = Some (ops, i) -> exists Q R, file = Q ++ emit_outline f pc ops i ++ R.
  Proof.
    intros pc ops i N. destruct Houts as [Q [R ->]].
    assert (H : forall l n, nth_error l pc = Some (ops, i) -> exists Q R, emit_outlines f n l = Q ++ emit_outline f (n + pc) ops i ++ R).
    { clear N. induction pc as [|pc IH]; intros [|[ops' i'] l] n E; cbn in E; try discriminate.
      - injection E as -> ->. exists [], (emit_outlines f (S n) l). rewrite Nat.add_0_r. reflexivity.
      - destruct (IH l (S n) E) as [Q' [R' E']]. exists (emit_outline f n ops' i' ++ Q'), R'. cbn [emit_outlines]. rewrite E', <- app_assoc. replace (n + S pc) with (S n + pc) by lia. reflexivity. }
    destruct (H L 0 N) as [Q' [R' E]]. rewrite E. exists (Q ++ Q'), (R' ++ R). rewrite <- !app_assoc. reflexivity.
  Qed.

  Lemma at_next : forall pc P b ops i, at_pc pc P b -> nth_error L pc = Some (ops, i) ->
    exists x b', emit_main names f pc i = Some x /\ b = Lab (LPc f pc) :: emit_prof f pc ops ++ x ++ b' /\
      at_pc (S pc) (P ++ Lab (LPc f pc) :: emit_prof f pc ops ++ x) b' /\
      pot pc b = 1 + length (emit_prof f pc ops) + length (outline_prof f pc ops) + length x + length (outline_err f pc i) + pot (S pc) b'.
  Proof.
    intros pc P b ops i [E F] N. unfold pot. rewrite (skipn_nth _ _ _ N) in *. cbn [emit_body emit_outlines] in *.
    destruct (emit_main names f pc i) as [x|]; [|discriminate]. destruct (emit_body names f (S pc) (skipn (S pc) L)) as [b'|] eqn:Eb; [|discriminate]. injection E as <-.
    exists x, b'. split; auto. split; auto. split.
    - constructor; auto. rewrite F. rewrite <- !app_assoc. cbn [app]. rewrite <- !app_assoc. reflexivity.
    - unfold emit_outline. cbn [length]. rewrite !app_length. lia.
  Qed.

  Lemma at_later : forall n pc P b, at_pc pc P b -> pc + n <= length L -> exists P' b', at_pc (pc + n) P' b' /\ pot (pc + n) b' <= pot pc b.
  Proof.
    induction n as [|n IH]; intros pc P b A Le.
    - rewrite Nat.add_0_r. exists P, b. auto.
    - destruct (nth_error L pc) as [[ops i]|] eqn:N; [|apply nth_error_None in N; lia].
      destruct (at_next _ _ _ _ _ A N) as [x [b' [_ [_ [A' Ep]]]]]. destruct (IH _ _ _ A') as [P2 [b2 [A2 L2]]]; [lia|].
      replace (pc + S n) with (S pc + n) by lia. exists P2, b2. split; auto. lia.
  Qed.
  Lemma at_target : forall pc t P b, at_pc pc P b -> pc <= t < length L -> exists P' b', at_pc t P' b' /\ find_pos (LPc f t) file = Some (b' ++ tail) /\ pot t b' <= pot pc b.
  Proof.
    intros pc t P b A R. destruct (at_later (t - pc) pc P b A) as [P' [b' [A' Lp]]]; [lia|]. replace (pc + (t - pc)) with t in * by lia.
    exists P', b'. split; auto. split; auto. destruct (nth_error L t) as [[ops i]|] eqn:N; [|apply nth_error_None in N; lia].
    destruct (at_next _ _ _ _ _ A' N) as [x [b2 [_ [-> _]]]]. eapply find_unique; [exact Hnd|apply (a_file _ _ _ A')|exact I].
  Qed.

  (** ** Profile operations *)
  Lemma ops_goes : forall ops m l s r, inv sp m l ->
    exists m', goes (length (flat_map emit_op ops)) (flat_map emit_op ops ++ r) m s r m' (fold_left (c_op blk) ops s) /\ inv sp m' l.
  Proof.
    induction ops as [|o ops IH]; intros m l s r I; [exists m; split; [apply goes_refl|auto]|]. cbn [flat_map fold_left]. rewrite app_length, <- app_assoc.
    assert (H : exists m1, goes (length (emit_op o)) (emit_op o ++ flat_map emit_op ops ++ r) m s (flat_map emit_op ops ++ r) m1 (c_op blk s o) /\ inv sp m1 l).
    { pose proof (i_profile _ _ _ I) as Ep. pose proof (i_block _ _ _ I) as Eb. destruct o; cbn [emit_op length app].
      - eexists. split.
        + eapply (goes_step _ _ _ _ _ _ _ 3); [reflexivity|]. eapply (goes_step _ _ _ _ _ _ _ 2); [reflexivity|]. eapply (goes_step _ _ _ _ _ _ _ 1); [reflexivity|].
          eapply bl_goes; [repeat (apply inv_temp; [|exact Logic.I]); exact I|]. cbn. rewrite Ep, Eb. cbn [add_word].
          replace (0 <=? Z.of_nat blk + Z.of_nat arg)%Z with true by (symmetry; apply Z.leb_le; lia).
          replace (Z.to_nat (Z.of_nat blk + Z.of_nat arg)) with (blk + arg) by lia. reflexivity.
        + apply inv_clobber. repeat (apply inv_temp; [|exact Logic.I]). exact I.
      - eexists. split.
        + eapply (goes_step _ _ _ _ _ _ _ 3); [reflexivity|]. eapply (goes_step _ _ _ _ _ _ _ 2); [reflexivity|]. eapply (goes_step _ _ _ _ _ _ _ 1); [reflexivity|].
          eapply bl_goes; [repeat (apply inv_temp; [|exact Logic.I]); exact I|]. cbn. rewrite Ep, Eb. cbn [add_word].
          replace (0 <=? Z.of_nat blk + Z.of_nat arg)%Z with true by (symmetry; apply Z.leb_le; lia).
          replace (Z.to_nat (Z.of_nat blk + Z.of_nat arg)) with (blk + arg) by lia. reflexivity.
        + apply inv_clobber. repeat (apply inv_temp; [|exact Logic.I]). exact I.
      - eexists. split.
        + eapply (goes_step _ _ _ _ _ _ _ 1); [reflexivity|].
          eapply bl_goes; [repeat (apply inv_temp; [|exact Logic.I]); exact I|]. cbn. rewrite Ep. reflexivity.
        + apply inv_clobber. repeat (apply inv_temp; [|exact Logic.I]). exact I.
      - eexists. split.
        + eapply (goes_step _ _ _ _ _ _ _ 2); [reflexivity|]. eapply (goes_step _ _ _ _ _ _ _ 1); [reflexivity|].
          eapply bl_goes; [repeat (apply inv_temp; [|exact Logic.I]); exact I|]. cbn. rewrite Ep.
          replace (0 <=? Z.of_nat arg)%Z with true by (symmetry; apply Z.leb_le; lia). rewrite Nat2Z.id. reflexivity.
        + apply inv_clobber. repeat (apply inv_temp; [|exact Logic.I]). exact I. }
    destruct H as [m1 [G1 I1]]. destruct (IH m1 l (c_op blk s o) r I1) as [m2 [G2 I2]]. exists m2. split; auto. eapply goes_trans; [exact G1|exact G2].
  Qed.

  Lemma prof_goes : forall pc ops i P x m l s, file = P ++ emit_prof f pc ops ++ x -> nth_error L pc = Some (ops, i) -> inv sp m l ->
    exists n m', n <= length (emit_prof f pc ops) + length (outline_prof f pc ops) /\ goes n (emit_prof f pc ops ++ x) m s x m' (fold_left (c_op blk) ops s) /\ inv sp m' l.
  Proof.
    intros pc ops i P x m l s Fi N I. destruct ops as [|o ops]; [exists 0, m; split; [lia|]; split; [apply goes_refl|auto]|].
    remember (o :: ops) as os eqn:Eo. assert (E1 : emit_prof f pc os = [Ins (Cbnz RProfile (LOut f pc OProfile)); Lab (LPp f pc)]) by (subst; reflexivity).
    assert (E2 : outline_prof f pc os = Lab (LOut f pc OProfile) :: flat_map emit_op os ++ [Ins (B (LPp f pc))]) by (subst; reflexivity). clear Eo.
    rewrite E1 in *. destruct (outs_at _ _ _ N) as [Q [R Fo]]. unfold emit_outline in Fo. rewrite E2 in *. cbn [app] in *.
    destruct (ops_goes os m l s (Ins (B (LPp f pc)) :: outline_err f pc i ++ R) I) as [m' [G I']].
    exists (1 + (1 + (length (flat_map emit_op os) + (1 + 1)))), m'. split; [cbn; rewrite app_length; cbn; lia|]. split; auto.
    eapply goes_trans; [eapply goes_jump; [cbn [AsmModel.step]; rewrite (i_profile _ _ _ I); reflexivity|eapply find_unique; [exact Hnd|exact Fo|exact Logic.I]]|].
    eapply goes_trans; [apply goes_lab|]. rewrite <- !app_assoc. cbn [app]. eapply goes_trans; [exact G|].
    eapply goes_trans; [|apply (goes_lab _ _ _ _ _ _ _ (LPp f pc))]. eapply goes_jump; [reflexivity|]. eapply find_unique; [exact Hnd| |exact Logic.I].
    rewrite Fi. instantiate (1 := P ++ [Ins (Cbnz RProfile (LOut f pc OProfile))]). rewrite <- app_assoc. reflexivity.
  Qed.

  (** ** Instructions *)
  Hypothesis Hsel : forall pc ops c n tgts d, nth_error L pc = Some (ops, ISelect c n tgts d) -> sorted_targets tgts.
  Hypothesis Hjump : forall pc ops i t, nth_error L pc = Some (ops, i) -> In t (jumps i) -> pc < t < length L.
  Hypothesis Hfun : forall pc ops d off c' scope g, nth_error L pc = Some (ops, IFunc d off c' scope) ->
    asm_symbol names (code_block c') = Some g -> code_num_statics c' = length scope /\ prel (code_num_args c') (code_num_statics c') c' (CFn tu g).

  Definition cont (k : nat) (r : step_res) : res code := match r with Next pc l s => loop callM blk ss xs k L pc l s | Stop o s => (o, s) end.

  (** An error of instruction [pc]. *)
  Lemma err_run : forall pc ops i kd mg A C m l s K, nth_error L pc = Some (ops, i) -> outline_err f pc i = A ++ Lab (LOut f pc kd) :: do_abort f mg ++ C ->
    inv sp m l -> 18 <= K -> exists r, find_pos (LOut f pc kd) file = Some r /\ run K r m s = (Abort, s).
  Proof.
    intros pc ops i kd mg A C m l s K N E I Le. destruct (outs_at _ _ _ N) as [Q [R Fo]]. unfold emit_outline in Fo. rewrite E in Fo.
    exists (Lab (LOut f pc kd) :: do_abort f mg ++ C ++ R). split.
    - eapply find_unique; [exact Hnd| |exact Logic.I]. rewrite Fo. instantiate (1 := Q ++ outline_prof f pc ops ++ A). rewrite <- !app_assoc. cbn [app]. rewrite <- !app_assoc. reflexivity.
    - destruct K as [|K]; [lia|]. cbn [AsmModel.run]. eapply abort_run; eauto. lia.
  Qed.

  Lemma dealloc_goes : forall n m l s r, inv (sp - stack_bytes n) m l -> goes 1 (Ins (AddI SP SP (stack_bytes n)) :: r) m s r (set_reg SP (WStack sp) m) s /\ inv sp (set_reg SP (WStack sp) m) l.
  Proof.
    intros n m l s r I. split; [|eapply inv_sp; eauto; [lia|apply sp_16]]. apply goes_ins. cbn [AsmModel.step]. rewrite (i_sp _ _ _ I). cbn [add_word].
    replace (sp - stack_bytes n + stack_bytes n)%Z with sp by lia. reflexivity.
  Qed.

  (** A conditional jump to an error of instruction [pc]. *)
  Lemma err_jump : forall i0 pc ops i kd mg A C m l s K rest, nth_error L pc = Some (ops, i) -> outline_err f pc i = A ++ Lab (LOut f pc kd) :: do_abort f mg ++ C ->
    inv sp m l -> step i0 m s = SJump (LOut f pc kd) m s -> 19 <= K -> run K (Ins i0 :: rest) m s = (Abort, s).
  Proof.
    intros i0 pc ops i kd mg A C m l s K rest N E I Sj Le. destruct K as [|K]; [lia|].
    destruct (err_run pc ops i kd mg A C m l s K N E I) as [r [Fr Rr]]; [lia|]. cbn [AsmModel.run]. rewrite Sj, Fr. exact Rr.
  Qed.

  (** The error of a wrong tag, which writes NULL first. *)
  Lemma err_bad : forall i0 pc ops i mg A C d m l s K rest, nth_error L pc = Some (ops, i) -> outline_err f pc i = A ++ Lab (LOut f pc OBadTag) :: set_var XZR d :: do_abort f mg ++ C ->
    inv sp m l -> d < nl -> step i0 m s = SJump (LOut f pc OBadTag) m s -> 20 <= K -> run K (Ins i0 :: rest) m s = (Abort, s).
  Proof.
    intros i0 pc ops i mg A C d m l s K rest N E I Ld Sj Le. destruct K as [|K]; [lia|].
    destruct (outs_at _ _ _ N) as [Q [R Fo]]. unfold emit_outline in Fo. rewrite E in Fo.
    assert (Fr : find_pos (LOut f pc OBadTag) file = Some (Lab (LOut f pc OBadTag) :: set_var XZR d :: do_abort f mg ++ C ++ R)).
    { eapply find_unique; [exact Hnd| |exact Logic.I]. rewrite Fo. instantiate (1 := Q ++ outline_prof f pc ops ++ A). rewrite <- !app_assoc. cbn [app]. rewrite <- !app_assoc. reflexivity. }
    cbn [AsmModel.run]. rewrite Sj, Fr. destruct K as [|K]; [lia|]. cbn [AsmModel.run].
    rewrite (run_goes 1 _ _ _ _ _ _ _ (set_goes sp m l d (WInt 0) s _ XZR I Ld eq_refl)) by lia.
    eapply (abort_run _ (set_nth d None l)); [|lia]. eapply inv_local; eauto.
  Qed.

  Section next.
    Variable k : nat.
    Hypothesis IHk : forall pc l m s t K P b, at_pc pc P b -> inv sp m l -> same_st prel s t ->
      pot pc b <= K -> same_res prel (loop callM blk ss xs k L pc l s) (run K (b ++ tail) m t).

    Lemma put_sim : forall pc dest x y l m s t K P b rs, at_pc (S pc) P b -> inv sp m l -> same_val prel x y -> same_st prel s t ->
      src m rs = WVal y -> S (pot (S pc) b) <= K ->
      same_res prel (cont k (put (S pc) dest x l s)) (run K (set_var rs dest :: b ++ tail) m t).
    Proof.
      intros pc dest x y l m s t K P b rs A I V St Sr Le. unfold put. destruct (dest <? length l) eqn:Ld; [|left; reflexivity].
      apply Nat.ltb_lt in Ld. rewrite (i_len _ _ _ I) in Ld. cbn [cont].
      rewrite (run_goes 1 _ _ _ _ _ _ K (set_goes sp m l dest (WVal y) t (b ++ tail) rs I Ld Sr)) by lia.
      eapply IHk; eauto; [|lia]. eapply inv_local; eauto.
    Qed.

    (** The end of an instruction with an array on the stack. *)
    Lemma array_put_sim : forall n pc dest x y l m s t K P b, at_pc (S pc) P b -> inv (sp - stack_bytes n) m l -> same_val prel x y -> same_st prel s t ->
      rf m X0 = WVal y -> S (S (pot (S pc) b)) <= K ->
      same_res prel (cont k (put (S pc) dest x l s)) (run K (set_var X0 dest :: Ins (AddI SP SP (stack_bytes n)) :: b ++ tail) m t).
    Proof.
      intros n pc dest x y l m s t K P b A I V St Sr Le. unfold put. destruct (dest <? length l) eqn:Ld; [|left; reflexivity].
      apply Nat.ltb_lt in Ld. rewrite (i_len _ _ _ I) in Ld. cbn [cont].
      rewrite (run_goes 1 _ _ _ _ _ _ K (set_goes _ m l dest (WVal y) t _ X0 I Ld Sr)) by lia.
      assert (I1 : inv (sp - stack_bytes n) (set_mem (sp + 64 + zoff dest) (WVal y) m) (set_nth dest (Some x) l)) by (eapply inv_local; eauto).
      destruct (dealloc_goes n _ _ t (b ++ tail) I1) as [G I2]. rewrite (run_goes 1 _ _ _ _ _ _ _ G) by lia. eapply IHk; eauto. lia.
    Qed.

    Ltac crash := left; reflexivity.
    Ltac temps := repeat (apply inv_temp; [|exact Logic.I]); auto.
    Ltac stp := eapply goes_step; [reflexivity|].

    Lemma exec_sim : forall pc ops i l m s t x b P P' K, nth_error L pc = Some (ops, i) -> emit_main names f pc i = Some x ->
      file = P ++ x ++ b ++ tail -> at_pc (S pc) P' b -> inv sp m l -> same_st prel s t ->
      length x + length (outline_err f pc i) + pot (S pc) b <= K ->
      same_res prel (cont k (exec callM blk ss xs i pc l s)) (run K (x ++ b ++ tail) m t).
    Proof.
      intros pc ops i l m s t x b P P' K N Ex Fi A I St Le.
      assert (P7 : 7 <= pot (S pc) b) by (unfold pot; lia).
      destruct i; cbn [emit_main] in Ex.
      - (* struct *) injection Ex as <-. cbn [exec]. destruct (gets ss xs l args) as [zs|] eqn:G; [|crash].
        cbn [app]. rewrite <- app_assoc. destruct (alloc_goes l X0 t ([Ins (MovR X0 RHeap); Ins (MovI X1 (Z.of_nat (length args))); Ins (MovR X2 SP); Ins (Bl ENewStruct);
          set_var X0 dest; Ins (AddI SP SP (stack_bytes (length args)))] ++ b ++ tail) args zs m Logic.I I G) as [ws [m1 [F [Lw [G1 [I1 [_ Rd]]]]]]].
        cbn [length] in Le. rewrite app_length, store_args_length in Le. cbn [length] in Le.
        rewrite (run_goes _ _ _ _ _ _ _ K G1) by lia. cbn [app].
        set (m2 := set_reg X2 (rf m1 SP) (set_reg X1 (WInt (Z.of_nat (length args))) (set_reg X0 WHeap m1))).
        assert (I2 : inv (sp - stack_bytes (length args)) m2 l) by (unfold m2; temps).
        assert (G2 : forall r, goes 4 (Ins (MovR X0 RHeap) :: Ins (MovI X1 (Z.of_nat (length args))) :: Ins (MovR X2 SP) :: Ins (Bl ENewStruct) :: r) m1 t r (clobber (WVal (VStruct ws)) m2) t).
        { intros r. stp. stp. stp. rewrite (i_heap _ _ _ I1 : src m1 RHeap = WHeap). eapply bl_goes; [exact I2|]. cbn. rewrite Rd by reflexivity. reflexivity. }
        rewrite (run_goes _ _ _ _ _ _ _ _ (G2 _)) by lia.
        eapply (array_put_sim (length args) pc dest (VStruct zs) (VStruct ws) l); eauto; [apply inv_clobber; auto|constructor; auto|lia].
      - (* union *) injection Ex as <-. cbn [exec app]. destruct (get ss xs l arg) as [z|] eqn:G; [|crash].
        set (m1 := set_reg X1 (WInt (Z.of_nat tag)) (set_reg X0 WHeap m)).
        assert (I1 : inv sp m1 l) by (unfold m1; temps).
        destruct (get_goes sp m1 l X2 arg z t (Ins (Bl ENewUnion) :: set_var X0 dest :: b ++ tail) I1 G) as [w [V G1]].
        assert (G2 : goes 2 (Ins (MovR X0 RHeap) :: Ins (MovI X1 (Z.of_nat tag)) :: get_var X2 arg :: Ins (Bl ENewUnion) :: set_var X0 dest :: b ++ tail) m t
                       (get_var X2 arg :: Ins (Bl ENewUnion) :: set_var X0 dest :: b ++ tail) m1 t).
        { stp. stp. rewrite (i_heap _ _ _ I : src m RHeap = WHeap). apply goes_refl. }
        cbn [length] in Le. rewrite (run_goes _ _ _ _ _ _ _ _ G2) by lia. rewrite (run_goes _ _ _ _ _ _ _ _ G1) by lia.
        assert (I2 : inv sp (set_reg X2 (WVal w) m1) l) by temps.
        assert (E : ext ENewUnion (set_reg X2 (WVal w) m1) t = XRet (WVal (VUnion tag w)) t).
        { cbn. replace (0 <=? Z.of_nat tag)%Z with true by (symmetry; apply Z.leb_le; lia). rewrite Nat2Z.id. reflexivity. }
        rewrite (run_goes _ _ _ _ _ _ _ _ (bl_goes _ _ _ _ _ _ _ _ I2 E)) by lia.
        eapply (put_sim pc dest (VUnion tag z) (VUnion tag w) l); eauto; [apply inv_clobber; auto|constructor; auto|lia].
      - (* access *) destruct is_struct; injection Ex as <-; cbn [exec app].
        + destruct (get ss xs l obj) as [z|] eqn:G; [|crash].
          destruct (get_goes sp m l X0 obj z t (Ins (MovI X1 (Z.of_nat tag)) :: Ins (Bl EStructField) :: set_var X0 dest :: Ins (Cbz X0 (LOut f pc OUndef)) :: b ++ tail) I G) as [w [V G1]].
          rewrite (run_goes _ _ _ _ _ _ _ _ G1) by (cbn [length] in Le; lia).
          set (m1 := set_reg X1 (WInt (Z.of_nat tag)) (set_reg X0 (WVal w) m)). assert (I1 : inv sp m1 l) by (unfold m1; temps).
          rewrite (run_goes 1 _ _ _ (Ins (Bl EStructField) :: set_var X0 dest :: Ins (Cbz X0 (LOut f pc OUndef)) :: b ++ tail) m1 t) by (first [cbn [length] in Le; lia|apply goes_ins; reflexivity]).
          cbn [length outline_err app do_abort] in Le.
          assert (Ee : ext EStructField m1 t = match strict_value (refs t) w with
            | SUndef => XRet (WInt 0) t
            | SVal (VStruct fs) => match nth_error fs tag with Some v => XRet (WVal v) t | None => XStop Crash t end
            | _ => XStop Crash t end).
          { cbn. replace (0 <=? Z.of_nat tag)%Z with true by (symmetry; apply Z.leb_le; lia). rewrite Nat2Z.id. reflexivity. }
          destruct (s_strict _ _ _ _ _ _ _ St V) as [u v Vu| |].
          * destruct Vu as [us vs Fu|? ? ? ?|? ? ? ? ? ? ? ?|? ? ? ? ? ? ? ?| |]; try crash.
            pose proof (F2_nth_error _ _ _ Fu tag) as H. destruct (nth_error us tag) as [u|], (nth_error vs tag) as [v|]; try contradiction; [|crash].
            rewrite (run_goes _ _ _ _ _ _ _ _ (bl_goes _ _ _ _ _ _ _ _ I1 Ee)) by lia. unfold put. destruct (dest <? length l) eqn:Ld; [|crash].
            apply Nat.ltb_lt in Ld. rewrite (i_len _ _ _ I) in Ld. cbn [cont].
            assert (I2 : inv sp (clobber (WVal v) m1) l) by (apply inv_clobber; auto).
            rewrite (run_goes 1 _ _ _ _ _ _ _ (set_goes sp _ l dest (WVal v) t _ X0 I2 Ld eq_refl)) by lia.
            rewrite (run_goes 1 _ _ _ (b ++ tail) (set_mem (sp + 64 + zoff dest) (WVal v) (clobber (WVal v) m1)) t) by (first [lia|apply goes_ins; reflexivity]).
            eapply IHk; eauto; [|lia]. eapply inv_local; eauto.
          * rewrite (run_goes _ _ _ _ _ _ _ _ (bl_goes _ _ _ _ _ _ _ _ I1 Ee)) by lia. unfold fail. destruct (dest <? length l) eqn:Ld; [|crash].
            apply Nat.ltb_lt in Ld. rewrite (i_len _ _ _ I) in Ld. cbn [cont].
            assert (I2 : inv sp (clobber (WInt 0) m1) l) by (apply inv_clobber; auto).
            rewrite (run_goes 1 _ _ _ _ _ _ _ (set_goes sp _ l dest (WInt 0) t _ X0 I2 Ld eq_refl)) by lia.
            assert (I3 : inv sp (set_mem (sp + 64 + zoff dest) (WInt 0) (clobber (WInt 0) m1)) (set_nth dest None l)) by (eapply inv_local; eauto; exact Logic.I).
            rewrite (err_jump (Cbz X0 (LOut f pc OUndef)) pc ops _ OUndef MStruct [] [] _ _ _ _ _ N ltac:(cbn [outline_err app]; rewrite app_nil_r; reflexivity) I3 eq_refl) by lia.
            right. split; [constructor|auto].
          * crash.
        + destruct (get ss xs l obj) as [z|] eqn:G; [|crash].
          destruct (get_goes sp m l X0 obj z t (Ins (MovI X1 (Z.of_nat tag)) :: Ins (Bl EUnionField) :: set_var X0 dest :: Ins (Cbz X0 (LOut f pc OUndef)) :: Ins (CmpI X0 2) :: Ins (Beq (LOut f pc OBadTag)) :: b ++ tail) I G) as [w [V G1]].
          rewrite (run_goes _ _ _ _ _ _ _ _ G1) by (cbn [length] in Le; lia).
          set (m1 := set_reg X1 (WInt (Z.of_nat tag)) (set_reg X0 (WVal w) m)). assert (I1 : inv sp m1 l) by (unfold m1; temps).
          rewrite (run_goes 1 _ _ _ (Ins (Bl EUnionField) :: set_var X0 dest :: Ins (Cbz X0 (LOut f pc OUndef)) :: Ins (CmpI X0 2) :: Ins (Beq (LOut f pc OBadTag)) :: b ++ tail) m1 t) by (first [cbn [length] in Le; lia|apply goes_ins; reflexivity]).
          cbn [length outline_err app do_abort] in Le.
          assert (Ee : ext EUnionField m1 t = match strict_value (refs t) w with
            | SUndef => XRet (WInt 0) t
            | SVal (VUnion u v) => XRet (if u =? tag then WVal v else WInt 2) t
            | _ => XStop Crash t end).
          { cbn. destruct (strict_value (refs t) w) as [[]| |]; auto. destruct (Nat.eqb_spec tag0 tag) as [->|Ne]; [rewrite Z.eqb_refl; reflexivity|].
            replace (Z.of_nat tag0 =? Z.of_nat tag)%Z with false by (symmetry; apply Z.eqb_neq; lia). reflexivity. }
          destruct (s_strict _ _ _ _ _ _ _ St V) as [u v Vu| |].
          * destruct Vu as [us vs Fu|ut ? uv Vv|? ? ? ? ? ? ? ?|? ? ? ? ? ? ? ?| |]; try crash.
            rewrite (run_goes _ _ _ _ _ _ _ _ (bl_goes _ _ _ _ _ _ _ _ I1 Ee)) by lia. destruct (ut =? tag).
            -- unfold put. destruct (dest <? length l) eqn:Ld; [|crash].
               apply Nat.ltb_lt in Ld. rewrite (i_len _ _ _ I) in Ld. cbn [cont].
               assert (I2 : inv sp (clobber (WVal uv) m1) l) by (apply inv_clobber; auto).
               rewrite (run_goes 1 _ _ _ _ _ _ _ (set_goes sp _ l dest (WVal uv) t _ X0 I2 Ld eq_refl)) by lia.
               rewrite (run_goes 3 _ _ _ (b ++ tail) (set_flags FDiffer (set_mem (sp + 64 + zoff dest) (WVal uv) (clobber (WVal uv) m1))) t) by (first [lia|stp; stp; stp; apply goes_refl]).
               eapply IHk; eauto; [|lia]. apply inv_flags. eapply inv_local; eauto.
            -- unfold fail. destruct (dest <? length l) eqn:Ld; [|crash].
               apply Nat.ltb_lt in Ld. rewrite (i_len _ _ _ I) in Ld. cbn [cont].
               assert (I2 : inv sp (clobber (WInt 2) m1) l) by (apply inv_clobber; auto).
               rewrite (run_goes 1 _ _ _ _ _ _ _ (set_goes sp _ l dest (WInt 2) t _ X0 I2 Ld eq_refl)) by lia.
               assert (I3 : inv sp (set_flags FEq (set_mem (sp + 64 + zoff dest) (WInt 2) (clobber (WInt 2) m1))) (set_nth dest None l)) by (apply inv_flags; eapply inv_local; eauto; exact Logic.I).
               rewrite (run_goes 2 _ _ _ (Ins (Beq (LOut f pc OBadTag)) :: b ++ tail) (set_flags FEq (set_mem (sp + 64 + zoff dest) (WInt 2) (clobber (WInt 2) m1))) t) by (first [lia|stp; stp; apply goes_refl]).
               rewrite (err_bad (Beq (LOut f pc OBadTag)) pc ops _ MWrong (Lab (LOut f pc OUndef) :: do_abort f MUnion) [] dest _ _ _ _ _ N ltac:(cbn [outline_err]; rewrite app_nil_r; reflexivity) I3 Ld eq_refl) by lia.
               right. split; [constructor|auto].
          * rewrite (run_goes _ _ _ _ _ _ _ _ (bl_goes _ _ _ _ _ _ _ _ I1 Ee)) by lia. unfold fail. destruct (dest <? length l) eqn:Ld; [|crash].
            apply Nat.ltb_lt in Ld. rewrite (i_len _ _ _ I) in Ld. cbn [cont].
            assert (I2 : inv sp (clobber (WInt 0) m1) l) by (apply inv_clobber; auto).
            rewrite (run_goes 1 _ _ _ _ _ _ _ (set_goes sp _ l dest (WInt 0) t _ X0 I2 Ld eq_refl)) by lia.
            assert (I3 : inv sp (set_mem (sp + 64 + zoff dest) (WInt 0) (clobber (WInt 0) m1)) (set_nth dest None l)) by (eapply inv_local; eauto; exact Logic.I).
            rewrite (err_jump (Cbz X0 (LOut f pc OUndef)) pc ops _ OUndef MUnion [] (Lab (LOut f pc OBadTag) :: set_var XZR dest :: do_abort f MWrong) _ _ _ _ _ N ltac:(cbn [outline_err app]; reflexivity) I3 eq_refl) by lia.
            right. split; [constructor|auto].
          * crash.
      - (* select *) destruct (emit_search (length targets) f pc 0 num_tags targets default 0) as [[x' lb]|] eqn:Es; [|discriminate]. injection Ex as <-. cbn [exec app].
        destruct (get ss xs l condition) as [z|] eqn:G; [|crash].
        destruct (get_goes sp m l X0 condition z t (Ins (Bl EUnionTag) :: Ins (CmpI X0 (-1)) :: Ins (Beq (LOut f pc OUndef)) :: x' ++ b ++ tail) I G) as [w [V G1]].
        cbn [app length] in Le. rewrite (run_goes _ _ _ _ _ _ _ _ G1) by lia.
        set (m1 := set_reg X0 (WVal w) m). assert (I1 : inv sp m1 l) by (unfold m1; temps).
        cbn [length outline_err app do_abort] in Le.
        assert (Ee : ext EUnionTag m1 t = match strict_value (refs t) w with
          | SUndef => XRet (WInt (-1)) t
          | SVal (VUnion u _) => XRet (WInt (Z.of_nat u)) t
          | _ => XStop Crash t end) by reflexivity.
        destruct (s_strict _ _ _ _ _ _ _ St V) as [u v Vu| |]; [| |crash].
        + destruct Vu as [us vs Fu|ut ? uv Vv|? ? ? ? ? ? ? ?|? ? ? ? ? ? ? ?| |]; try crash.
          destruct (select_target num_tags targets default ut) as [q|] eqn:Sq; [|crash].
          rewrite (run_goes _ _ _ _ _ _ _ _ (bl_goes _ _ _ _ _ _ _ _ I1 Ee)) by lia.
          assert (So : sorted_targets targets) by (eapply Hsel; eauto).
          assert (Lt : ut < num_tags). { unfold select_target in Sq. destruct targets; [discriminate|]. destruct (ut <? num_tags) eqn:Q; [|discriminate]. apply Nat.ltb_lt. auto. }
          assert (Tq : target_of targets default ut = q) by (symmetry; exact (select_assoc _ _ _ _ _ So Sq)).
          assert (Jq : pc < q < length L). { apply (Hjump pc ops _ q N). rewrite <- Tq. apply select_jumps. }
          destruct (at_target (S pc) q _ _ A) as [P2 [b2 [A2 [Fq Lq]]]]; [lia|].
          set (m2 := set_flags (compare (WInt (Z.of_nat ut)) (-1)) (clobber (WInt (Z.of_nat ut)) m1)).
          assert (Hc : compare (WInt (Z.of_nat ut)) (-1) = FLess). { cbn [compare]. replace (Z.of_nat ut =? -1)%Z with false by (symmetry; apply Z.eqb_neq; lia). reflexivity. }
          rewrite (run_goes 2 _ _ _ (x' ++ b ++ tail) m2 t).
          2: { apply (goes_step _ _ _ _ _ _ _ 1 _ _ _ _ m2 t); [reflexivity|]. apply goes_ins. cbn [AsmModel.step]. unfold m2. cbn [set_flags AsmModel.fl]. rewrite Hc. reflexivity. }
          2: lia.
          destruct (search_correct callG tu file blk ts ys entry (length targets) f pc ut default (b2 ++ tail) t 0 num_tags targets 0 x' lb
            (P ++ [get_var X0 condition; Ins (Bl EUnionTag); Ins (CmpI X0 (-1)); Ins (Beq (LOut f pc OUndef))]) (b ++ tail) m2) as [n [c [Ln G3]]]; auto; [lia| |rewrite Tq; exact Fq|].
          { rewrite Fi. cbn [app]. rewrite <- app_assoc. reflexivity. }
          rewrite (run_goes _ _ _ _ _ _ _ _ G3) by lia. cbn [cont]. eapply IHk; eauto; [|lia]. apply inv_flags. unfold m2. apply inv_flags. apply inv_clobber. auto.
        + rewrite (run_goes _ _ _ _ _ _ _ _ (bl_goes _ _ _ _ _ _ _ _ I1 Ee)) by lia.
          rewrite (run_goes 1 _ _ _ (Ins (Beq (LOut f pc OUndef)) :: x' ++ b ++ tail) (set_flags FEq (clobber (WInt (-1)) m1)) t) by (first [lia|apply goes_ins; reflexivity]).
          rewrite (err_jump (Beq (LOut f pc OUndef)) pc ops _ OUndef MSelect [] [] _ l _ _ _ N ltac:(cbn [outline_err app]; rewrite app_nil_r; reflexivity)); [|apply inv_flags, inv_clobber; auto|reflexivity|lia].
          cbn [cont]. right. split; [constructor|auto].
      - (* goto *) injection Ex as <-. cbn [exec app cont]. cbn [length] in Le.
        assert (Jq : pc < target < length L) by (apply (Hjump pc ops _ target N); cbn; auto).
        destruct (at_target (S pc) target _ _ A) as [P2 [b2 [A2 [Fq Lq]]]]; [lia|].
        rewrite (run_goes 1 _ _ _ (b2 ++ tail) m t) by (first [lia|eapply goes_jump; [reflexivity|exact Fq]]). eapply IHk; eauto. lia.
      - (* func *) destruct (asm_symbol names (code_block c)) as [g|] eqn:Sy; [|discriminate]. destruct (Hfun _ _ _ _ _ _ _ N Sy) as [Ns Pr].
        rewrite Ns, Nat.leb_refl, firstn_all in Ex. injection Ex as <-. cbn [exec]. destruct (gets ss xs l scope) as [zs|] eqn:G; [|crash].
        cbn [app]. rewrite <- app_assoc. cbn [length] in Le. rewrite app_length, store_args_length in Le. cbn [length] in Le.
        rewrite (run_goes 1 _ _ _ _ _ _ K (goes_data _ _ _ _ _ _ _ _ _ _ _ _)) by lia.
        destruct (alloc_goes l X0 t ([Ins (MovR X0 RHeap); Ins (Adr X1 (LExe f pc)); Ins (AddI X2 RBlock (Z.of_nat offset)); Ins (MovR X3 SP);
               Ins (Bl ENewFunc); set_var X0 dest; Ins (AddI SP SP (stack_bytes (length scope)))] ++ b ++ tail) scope zs m Logic.I I G) as [ws [m1 [F [Lw [G1 [I1 [_ Rd]]]]]]].
        rewrite (run_goes _ _ _ _ _ _ _ _ G1) by lia. cbn [app].
        set (m2 := set_reg X3 (rf m1 SP) (set_reg X2 (WInt (Z.of_nat blk + Z.of_nat offset)) (set_reg X1 (WAdr (LExe f pc)) (set_reg X0 WHeap m1)))).
        assert (I2 : inv (sp - stack_bytes (length scope)) m2 l) by (unfold m2; temps).
        assert (Fd : find_data (LExe f pc) file = Some (DExe (mk_exe (code_num_args c) (length scope) g))).
        { eapply (find_unique_data file P); [exact Hnd| |exact Logic.I]. rewrite Fi. cbn [app]. reflexivity. }
        assert (G2 : forall r, goes 5 (Ins (MovR X0 RHeap) :: Ins (Adr X1 (LExe f pc)) :: Ins (AddI X2 RBlock (Z.of_nat offset)) :: Ins (MovR X3 SP) :: Ins (Bl ENewFunc) :: r) m1 t r
           (clobber (WVal (VFunc (code_num_args c) (CFn tu g) (blk + offset) ws)) m2) t).
        { intros r. stp. rewrite (i_heap _ _ _ I1 : src m1 RHeap = WHeap). stp. eapply goes_step; [cbn [AsmModel.step set_reg rf upd reg_beq]; rewrite (i_block _ _ _ I1); cbn [add_word]; reflexivity|].
          stp. eapply bl_goes; [exact I2|].
          cbn. rewrite Fd. cbn [x_statics x_args x_run]. rewrite Rd by reflexivity. replace (0 <=? Z.of_nat blk + Z.of_nat offset)%Z with true by (symmetry; apply Z.leb_le; lia).
          replace (Z.to_nat (Z.of_nat blk + Z.of_nat offset)) with (blk + offset) by lia. reflexivity. }
        rewrite (run_goes _ _ _ _ _ _ _ _ (G2 _)) by lia.
        assert (Lz : length zs = length scope) by (rewrite (F2_len _ _ _ F); auto). rewrite Ns, Lz, Nat.leb_refl. rewrite <- Lz at 1. rewrite firstn_all.
        eapply (array_put_sim (length scope) pc dest _ (VFunc (code_num_args c) (CFn tu g) (blk + offset) ws) l); eauto; [apply inv_clobber; auto| |lia].
        constructor; auto. rewrite Lz, <- Ns. auto.
      - (* call *) injection Ex as <-. cbn [exec]. destruct (get ss xs l func) as [z|] eqn:Gf; [|crash]. destruct (gets ss xs l args) as [zs|] eqn:G; [|crash].
        cbn [app]. rewrite <- app_assoc. destruct (alloc_goes l X0 t ([Ins (MovR X0 RHeap); Ins (MovR X1 RProfile); get_var X2 func; Ins (MovI X3 (Z.of_nat (length args))); Ins (MovR X4 SP);
           Ins (Bl ECall); set_var X0 dest; Ins (AddI SP SP (stack_bytes (length args))); Ins (Cbz X0 (LOut f pc OAbort))] ++ b ++ tail) args zs m Logic.I I G) as [ws [m1 [F [Lw [G1 [I1 [_ Rd]]]]]]].
        cbn [length] in Le. rewrite app_length, store_args_length in Le. cbn [length outline_err do_abort] in Le.
        rewrite (run_goes _ _ _ _ _ _ _ K G1) by lia. cbn [app].
        set (m2 := set_reg X1 WProf (set_reg X0 WHeap m1)).
        assert (I2 : inv (sp - stack_bytes (length args)) m2 l) by (unfold m2; temps).
        rewrite (run_goes 2 _ _ _ (get_var X2 func :: Ins (MovI X3 (Z.of_nat (length args))) :: Ins (MovR X4 SP) ::
           Ins (Bl ECall) :: set_var X0 dest :: Ins (AddI SP SP (stack_bytes (length args))) :: Ins (Cbz X0 (LOut f pc OAbort)) :: b ++ tail) m2 t).
        2: { stp. stp. rewrite (i_heap _ _ _ I1 : src m1 RHeap = WHeap). rewrite (i_profile _ _ _ I1 : src (set_reg X0 WHeap m1) RProfile = WProf). apply goes_refl. }
        2: lia.
        destruct (get_goes _ m2 l X2 func z t (Ins (MovI X3 (Z.of_nat (length args))) :: Ins (MovR X4 SP) ::
           Ins (Bl ECall) :: set_var X0 dest :: Ins (AddI SP SP (stack_bytes (length args))) :: Ins (Cbz X0 (LOut f pc OAbort)) :: b ++ tail) I2 Gf) as [w [V G2]].
        rewrite (run_goes _ _ _ _ _ _ _ _ G2) by lia.
        set (m3 := set_reg X4 (rf m1 SP) (set_reg X3 (WInt (Z.of_nat (length args))) (set_reg X2 (WVal w) m2))).
        assert (I3 : inv (sp - stack_bytes (length args)) m3 l) by (unfold m3; temps).
        rewrite (run_goes 2 _ _ _ (Ins (Bl ECall) :: set_var X0 dest :: Ins (AddI SP SP (stack_bytes (length args))) :: Ins (Cbz X0 (LOut f pc OAbort)) :: b ++ tail) m3 t) by (first [lia|stp; stp; apply goes_refl]).
        destruct (dest <? length l) eqn:Ld; [|crash]. pose proof Ld as Ld'. apply Nat.ltb_lt in Ld'. rewrite (i_len _ _ _ I) in Ld'.
        assert (Ee : ext ECall m3 t = match callG t w ws with
          | (Ret v, s') => XRet (WVal v) s' | (Abort, s') => XRet (WInt 0) s' | (Tail _ _, s') => XStop Crash s' | (o, s') => XStop o s' end).
        { cbn. rewrite Rd by reflexivity. reflexivity. }
        pose proof (Hcall _ _ _ _ _ _ St V F) as Hc. destruct (callM s z zs) as [o s1], (callG t w ws) as [o' t1].
        destruct Hc as [Hc|[Ho Hst]]; cbn [fst snd] in *; [subst o; crash|]. destruct Ho as [u v Vuv|? ? ? ? ? ?| |]; try crash.
        + rewrite (run_goes _ _ _ _ _ _ _ _ (bl_goes _ _ _ _ _ _ _ _ I3 Ee)) by lia. unfold put. rewrite Ld. cbn [cont].
          assert (I4 : inv (sp - stack_bytes (length args)) (clobber (WVal v) m3) l) by (apply inv_clobber; auto).
          rewrite (run_goes 1 _ _ _ _ _ _ _ (set_goes _ _ l dest (WVal v) t1 _ X0 I4 Ld' eq_refl)) by lia.
          assert (I5 : inv (sp - stack_bytes (length args)) (set_mem (sp + 64 + zoff dest) (WVal v) (clobber (WVal v) m3)) (set_nth dest (Some u) l)) by (eapply inv_local; eauto).
          destruct (dealloc_goes _ _ _ t1 (Ins (Cbz X0 (LOut f pc OAbort)) :: b ++ tail) I5) as [G6 I6]. rewrite (run_goes 1 _ _ _ _ _ _ _ G6) by lia.
          rewrite (run_goes 1 _ _ _ (b ++ tail) (set_reg SP (WStack sp) (set_mem (sp + 64 + zoff dest) (WVal v) (clobber (WVal v) m3))) t1) by (first [lia|apply goes_ins; reflexivity]).
          eapply IHk; eauto. lia.
        + rewrite (run_goes _ _ _ _ _ _ _ _ (bl_goes _ _ _ _ _ _ _ _ I3 Ee)) by lia. cbn [cont].
          assert (I4 : inv (sp - stack_bytes (length args)) (clobber (WInt 0) m3) l) by (apply inv_clobber; auto).
          rewrite (run_goes 1 _ _ _ _ _ _ _ (set_goes _ _ l dest (WInt 0) t1 _ X0 I4 Ld' eq_refl)) by lia.
          assert (I5 : inv (sp - stack_bytes (length args)) (set_mem (sp + 64 + zoff dest) (WInt 0) (clobber (WInt 0) m3)) (set_nth dest None l)) by (eapply inv_local; eauto; exact Logic.I).
          destruct (dealloc_goes _ _ _ t1 (Ins (Cbz X0 (LOut f pc OAbort)) :: b ++ tail) I5) as [G6 I6]. rewrite (run_goes 1 _ _ _ _ _ _ _ G6) by lia.
          rewrite (err_jump (Cbz X0 (LOut f pc OAbort)) pc ops _ OAbort MCallee [] [] _ _ _ _ _ N ltac:(cbn [outline_err app]; rewrite app_nil_r; reflexivity) I6 eq_refl) by lia.
          right. split; [constructor|auto].
        + cbn [cont]. assert (Kp : exists K', K - (1 + 2 * length args) - 2 - 1 - 2 = S K') by (exists (K - (1 + 2 * length args) - 2 - 1 - 2 - 1); lia). destruct Kp as [K' ->].
          rewrite (bl_stop _ _ _ _ _ _ _ _ _ I3 Ee). right. split; [constructor|auto].
      - (* tail call *) injection Ex as <-. cbn [exec]. destruct (get ss xs l func) as [z|] eqn:Gf; [|crash]. cbn [app]. rewrite <- app_assoc.
        cbn [app length] in Le. rewrite app_length, store_args_length in Le. cbn [length outline_err do_abort app] in Le.
        destruct (get_twice sp m l func z I Gf) as [w [V Gw]].
        rewrite (run_goes _ _ _ _ _ _ _ _ (Gw sp m I (fun a _ => eq_refl) X0 t _)) by lia.
        set (m1 := set_reg X0 (WVal w) m) in *. assert (I1 : inv sp m1 l) by (unfold m1; temps).
        assert (Ee : ext EFuncFunction m1 t = match strict_value (refs t) w with
          | SUndef => XRet (WInt 0) t
          | SBad => XStop Crash t
          | SVal fn => match num_args_of fn with Some _ => XRet (WFn fn) t | None => XStop Crash t end end) by reflexivity.
        destruct (strict_value (refs t) w) as [fn| |] eqn:Sw; pose proof (s_strict _ _ _ _ _ _ _ St V) as Ss; rewrite Sw in Ss; inversion Ss as [u v Vu Q1 Q2| |]; subst.
        + rewrite (s_num_args _ _ _ _ _ Vu). destruct (num_args_of fn) as [na|]; [|crash]. destruct (gets ss xs l args) as [zs|] eqn:G; [|crash].
          rewrite (run_goes _ _ _ _ _ _ _ _ (bl_goes _ _ _ _ _ _ _ _ I1 Ee)) by lia.
          set (m2 := set_reg X0 WHeap (set_reg X1 (WFn fn) (clobber (WFn fn) m1))) in *.
          assert (I2 : inv sp m2 l) by (unfold m2; temps; apply inv_clobber; auto).
          assert (G2 : forall r, goes 3 (Ins (Cbz X0 (LOut f pc OUndef)) :: Ins (MovR X1 X0) :: Ins (MovR X0 RHeap) :: r) (clobber (WFn fn) m1) t r m2 t).
          { intros r. stp. stp. eapply goes_step; [|apply goes_refl]. cbn [AsmModel.step AsmModel.src set_reg rf upd reg_beq clobber]. rewrite (i_heap _ _ _ I1). reflexivity. }
          rewrite (run_goes _ _ _ _ _ _ _ _ (G2 _)) by lia.
          assert (Em : forall a, (sp <= a)%Z -> mem m2 a = mem m a).
          { intros a La. unfold m2, m1. cbn [clobber mem set_reg rf upd reg_beq]. rewrite (i_sp _ _ _ I). replace (a <? sp)%Z with false by (symmetry; apply Z.ltb_ge; lia). reflexivity. }
          rewrite (run_goes _ _ _ _ _ _ _ _ (Gw sp m2 I2 Em X2 t _)) by lia.
          assert (I3 : inv sp (set_reg X2 (WVal w) m2) l) by (apply inv_temp; [exact I2|exact Logic.I]).
          destruct (alloc_goes l X9 t ([Ins (MovI X3 (Z.of_nat (length args))); Ins (MovR X4 SP); Ins (Bl ETailCall);
             Ins (AddI SP SP (stack_bytes (length args))); Ins (B (LExit f))] ++ b ++ tail) args zs _ Logic.I I3 G) as [ws [m4 [F [Lw [G4 [I4 [Rr Rd]]]]]]].
          rewrite (run_goes _ _ _ _ _ _ _ _ G4) by lia. cbn [app].
          set (m5 := set_reg X4 (rf m4 SP) (set_reg X3 (WInt (Z.of_nat (length args))) m4)).
          assert (I5 : inv (sp - stack_bytes (length args)) m5 l) by (unfold m5; temps).
          rewrite (run_goes 2 _ _ _ (Ins (Bl ETailCall) :: Ins (AddI SP SP (stack_bytes (length args))) :: Ins (B (LExit f)) :: b ++ tail) m5 t) by (first [lia|stp; stp; apply goes_refl]).
          assert (Ee2 : ext ETailCall m5 t = XRet (WTail w ws) t).
          { unfold AsmModel.ext. replace (rf m5 X0) with WHeap by (unfold m5; cbn; rewrite Rr by discriminate; reflexivity).
            replace (rf m5 X1) with (WFn fn) by (unfold m5; cbn; rewrite Rr by discriminate; reflexivity).
            replace (rf m5 X2) with (WVal w) by (unfold m5; cbn; rewrite Rr by discriminate; reflexivity).
            replace (rf m5 X3) with (WInt (Z.of_nat (length args))) by reflexivity. replace (rf m5 X4) with (rf m4 SP) by reflexivity.
            rewrite Rd by reflexivity. rewrite Sw, val_eqb_refl. reflexivity. }
          rewrite (run_goes _ _ _ _ _ _ _ _ (bl_goes _ _ _ _ _ _ _ _ I5 Ee2)) by lia.
          assert (I6 : inv (sp - stack_bytes (length args)) (clobber (WTail w ws) m5) l) by (apply inv_clobber; auto).
          destruct (dealloc_goes _ _ _ t (Ins (B (LExit f)) :: b ++ tail) I6) as [G7 I7]. rewrite (run_goes 1 _ _ _ _ _ _ _ G7) by lia.
          rewrite (run_goes 1 _ _ _ tail (set_reg SP (WStack sp) (clobber (WTail w ws) m5)) t) by (first [lia|eapply goes_jump; [reflexivity|exact Hexit]]).
          rewrite (exit_run _ l) by (first [lia|exact I7]). cbn [cont finish]. right. split; [constructor; auto|auto].
        + rewrite (run_goes _ _ _ _ _ _ _ _ (bl_goes _ _ _ _ _ _ _ _ I1 Ee)) by lia.
          rewrite (err_jump (Cbz X0 (LOut f pc OUndef)) pc ops _ OUndef MFunction [] (Lab (LOut f pc OAbort) :: do_abort f MCallee) _ l _ _ _ N ltac:(cbn [outline_err app]; reflexivity)); [|apply inv_clobber; auto|reflexivity|lia].
          cbn [cont]. right. split; [constructor|auto].
        + crash.
      - (* copy *) injection Ex as <-. cbn [exec app]. cbn [length] in Le. destruct (get ss xs l source) as [z|] eqn:G; [|crash].
        destruct (get_goes sp m l X1 source z t (set_var X1 dest :: b ++ tail) I G) as [w [V G1]]. rewrite (run_goes _ _ _ _ _ _ _ _ G1) by lia.
        eapply (put_sim pc dest z w l); eauto; [temps|lia].
      - (* ref *) injection Ex as <-. cbn [exec app]. cbn [length] in Le. destruct (s_new_ref _ _ _ _ _ St) as [V S1].
        assert (Ee : ext ENewRef (set_reg X0 WHeap m) t = XRet (WVal (fst (new_ref t))) (snd (new_ref t))) by reflexivity.
        destruct (new_ref s) as [r1 s1], (new_ref t) as [r2 t1]. cbn [fst snd] in *.
        assert (I1 : inv sp (set_reg X0 WHeap m) l) by temps.
        rewrite (run_goes 1 _ _ _ (Ins (Bl ENewRef) :: set_var X0 dest :: b ++ tail) (set_reg X0 WHeap m) t).
        2: { apply goes_ins. cbn [AsmModel.step AsmModel.src]. rewrite (i_heap _ _ _ I). reflexivity. }
        2: lia.
        rewrite (run_goes _ _ _ _ _ _ _ _ (bl_goes _ _ _ _ _ _ _ _ I1 Ee)) by lia.
        eapply (put_sim pc dest r1 r2 l); eauto; [apply inv_clobber; auto|lia].
      - (* assign *) injection Ex as <-. cbn [exec app]. cbn [length outline_err do_abort] in Le.
        destruct (get ss xs l (Local ref)) as [z|] eqn:G; [|crash]. destruct (get ss xs l value) as [z2|] eqn:G2; [|crash].
        assert (I1 : inv sp (set_reg X0 WHeap m) l) by temps.
        rewrite (run_goes 1 _ _ _ (get_var X1 (Local ref) :: get_var X2 value :: Ins (Bl EAssignRef) :: Ins (Cbz X0 (LOut f pc OVacuous)) :: b ++ tail) (set_reg X0 WHeap m) t).
        2: { apply goes_ins. cbn [AsmModel.step AsmModel.src]. rewrite (i_heap _ _ _ I). reflexivity. }
        2: lia.
        destruct (get_goes sp _ l X1 (Local ref) z t (get_var X2 value :: Ins (Bl EAssignRef) :: Ins (Cbz X0 (LOut f pc OVacuous)) :: b ++ tail) I1 G) as [w [V H1]].
        rewrite (run_goes _ _ _ _ _ _ _ _ H1) by lia.
        assert (I2 : inv sp (set_reg X1 (WVal w) (set_reg X0 WHeap m)) l) by temps.
        destruct (get_goes sp _ l X2 value z2 t (Ins (Bl EAssignRef) :: Ins (Cbz X0 (LOut f pc OVacuous)) :: b ++ tail) I2 G2) as [w2 [V2 H2]].
        rewrite (run_goes _ _ _ _ _ _ _ _ H2) by lia.
        set (m3 := set_reg X2 (WVal w2) (set_reg X1 (WVal w) (set_reg X0 WHeap m))). assert (I3 : inv sp m3 l) by (unfold m3; temps).
        assert (Ee : ext EAssignRef m3 t = match assign_ref t w w2 with Some (Some s') => XRet (WInt 1) s' | Some None => XRet (WInt 0) t | None => XStop Crash t end) by reflexivity.
        pose proof (s_assign _ _ _ _ _ _ _ _ _ St V V2) as H.
        destruct (assign_ref s z z2) as [[s1|]|], (assign_ref t w w2) as [[t1|]|]; try contradiction; [| |crash].
        + rewrite (run_goes _ _ _ _ _ _ _ _ (bl_goes _ _ _ _ _ _ _ _ I3 Ee)) by lia. cbn [cont].
          rewrite (run_goes 1 _ _ _ (b ++ tail) (clobber (WInt 1) m3) t1) by (first [lia|apply goes_ins; reflexivity]). eapply IHk; eauto; [apply inv_clobber; auto|lia].
        + rewrite (run_goes _ _ _ _ _ _ _ _ (bl_goes _ _ _ _ _ _ _ _ I3 Ee)) by lia. cbn [cont].
          rewrite (err_jump (Cbz X0 (LOut f pc OVacuous)) pc ops _ OVacuous MVacuous [] [] _ l _ _ _ N ltac:(cbn [outline_err app]; rewrite app_nil_r; reflexivity)); [|apply inv_clobber; auto|reflexivity|lia].
          right. split; [constructor|auto].
      - (* return *) injection Ex as <-. cbn [exec app]. cbn [length] in Le. destruct (get ss xs l result) as [z|] eqn:G; [|crash].
        destruct (get_goes sp m l X0 result z t (Ins (B (LExit f)) :: b ++ tail) I G) as [w [V G1]]. rewrite (run_goes _ _ _ _ _ _ _ _ G1) by lia.
        rewrite (run_goes 1 _ _ _ tail (set_reg X0 (WVal w) m) t) by (first [lia|eapply goes_jump; [reflexivity|exact Hexit]]).
        rewrite (exit_run _ l) by (first [lia|temps]). cbn [cont finish]. right. split; [constructor; auto|auto].
      - (* type *) injection Ex as <-. cbn [exec app]. cbn [length] in Le.
        rewrite (run_goes 2 _ _ _ (set_var X0 dest :: b ++ tail) (set_reg X0 (WVal VType) (set_reg X0 (WAdr GTypeValue) m)) t) by (first [lia|stp; stp; apply goes_refl]).
        eapply (put_sim pc dest VType VType l); eauto; [temps|constructor|lia].
      - (* list *) injection Ex as <-. cbn [exec]. destruct (gets ss xs l args) as [zs|] eqn:G; [|crash].
        cbn [app]. rewrite <- app_assoc. destruct (alloc_goes l X9 t ([Ins (MovR X0 RHeap); Ins (MovI X1 (Z.of_nat (length args))); Ins (MovR X2 SP); Ins (Bl ENewList);
          set_var X0 dest; Ins (AddI SP SP (stack_bytes (length args)))] ++ b ++ tail) args zs m Logic.I I G) as [ws [m1 [F [Lw [G1 [I1 [_ Rd]]]]]]].
        cbn [length] in Le. rewrite app_length, store_args_length in Le. cbn [length] in Le.
        rewrite (run_goes _ _ _ _ _ _ _ K G1) by lia. cbn [app].
        set (m2 := set_reg X2 (rf m1 SP) (set_reg X1 (WInt (Z.of_nat (length args))) (set_reg X0 WHeap m1))).
        assert (I2 : inv (sp - stack_bytes (length args)) m2 l) by (unfold m2; temps).
        assert (G2 : forall r, goes 4 (Ins (MovR X0 RHeap) :: Ins (MovI X1 (Z.of_nat (length args))) :: Ins (MovR X2 SP) :: Ins (Bl ENewList) :: r) m1 t r (clobber (WVal (list_value ws)) m2) t).
        { intros r. stp. stp. stp. rewrite (i_heap _ _ _ I1 : src m1 RHeap = WHeap). eapply bl_goes; [exact I2|]. cbn. rewrite Rd by reflexivity. reflexivity. }
        rewrite (run_goes _ _ _ _ _ _ _ _ (G2 _)) by lia.
        eapply (array_put_sim (length args) pc dest (list_value zs) (list_value ws) l); eauto; [apply inv_clobber; auto|apply s_list; auto|lia].
      - (* literal *) injection Ex as <-. cbn [exec app]. cbn [length] in Le.
        rewrite (run_goes 1 _ _ _ _ _ _ K (goes_data _ _ _ _ _ _ _ _ _ _ _ _)) by lia.
        set (m1 := set_reg X2 (WAdr (LLetters f pc)) (set_reg X1 (WInt (Z.of_nat (length letters))) (set_reg X0 WHeap m))).
        assert (I1 : inv sp m1 l) by (unfold m1; temps).
        assert (Fd : find_data (LLetters f pc) file = Some (DLetters letters)).
        { eapply (find_unique_data file P); [exact Hnd| |exact Logic.I]. rewrite Fi. cbn [app]. reflexivity. }
        assert (G2 : forall r, goes 4 (Ins (MovR X0 RHeap) :: Ins (MovI X1 (Z.of_nat (length letters))) :: Ins (Adr X2 (LLetters f pc)) :: Ins (Bl ENewLiteral) :: r) m t r (clobber (WVal (literal_value letters)) m1) t).
        { intros r. stp. stp. stp. rewrite (i_heap _ _ _ I : src m RHeap = WHeap). eapply bl_goes; [exact I1|]. cbn. rewrite Fd, Z.leb_refl.
          replace (0 <=? Z.of_nat (length letters))%Z with true by (symmetry; apply Z.leb_le; lia). cbn [andb]. rewrite Nat2Z.id, firstn_all. reflexivity. }
        rewrite (run_goes _ _ _ _ _ _ _ _ (G2 _)) by lia.
        eapply (put_sim pc dest (literal_value letters) (literal_value letters) l); eauto; [apply inv_clobber; auto|apply s_literal|lia].
      - (* nop *) injection Ex as <-. cbn [exec cont app]. cbn [length] in Le. eapply IHk; eauto; lia.
    Qed.
  End next.

  Theorem loop_sim : forall k pc l m s t K P b, at_pc pc P b -> inv sp m l -> same_st prel s t ->
    pot pc b <= K -> same_res prel (loop callM blk ss xs k L pc l s) (run K (b ++ tail) m t).
  Proof.
    induction k as [|k IHk]; intros pc l m s t K P b A I St Le; [left; reflexivity|].
    cbn [loop]. destruct (nth_error L pc) as [[ops i]|] eqn:N; [|left; reflexivity].
    destruct (at_next _ _ _ _ _ A N) as [x [b' [Ex [Eb [A' Ep]]]]]. rewrite Ep in Le.
    pose proof (a_file _ _ _ A) as Fi. rewrite Eb in *. clear Ep.
    cbn [app]. rewrite <- !app_assoc.
    rewrite (run_goes 1 _ _ _ _ _ _ K (goes_lab _ _ _ _ _ _ _ _ _ _ _)) by lia.
    destruct (prof_goes pc ops i (P ++ [Lab (LPc f pc)]) (x ++ b' ++ tail) m l t) as [n [m' [Ln [G I']]]]; auto.
    { rewrite Fi. rewrite <- !app_assoc. cbn [app]. rewrite <- !app_assoc. reflexivity. }
    rewrite (run_goes _ _ _ _ _ _ _ _ G) by lia.
    eapply (exec_sim k IHk pc ops i l m' (do_ops blk ops s) (fold_left (c_op blk) ops t) x b' ((P ++ [Lab (LPc f pc)]) ++ emit_prof f pc ops)); eauto.
    - rewrite Fi. rewrite <- !app_assoc. cbn [app]. rewrite <- !app_assoc. reflexivity.
    - apply (s_ops prel blk). auto.
    - lia.
  Qed.
End sim.

(** The prologue. *)
Lemma prologue_goes : forall prel callG tu blk ts ys entry file nl r s, (entry mod 16 = 0)%Z ->
  exists m, goes callG tu file blk ts ys entry 12 (prologue nl ++ r) (start entry) s r m s /\ inv prel blk entry nl (sp entry nl) m (repeat None nl).
Proof.
  intros prel callG tu blk ts ys entry file nl r s He.
  pose proof (stack_bytes_ge nl) as Lb. pose proof (sp_16 entry He nl) as S16. pose proof (stack_bytes_16 nl) as B16.
  set (a := (entry + - stack_bytes nl + -64)%Z). assert (Ea : a = sp entry nl) by (unfold a, sp; lia).
  assert (La : (a + 64 + 8 * Z.of_nat nl <= entry)%Z) by (unfold a; lia). rewrite <- Ea in *.
  set (m0 := set_reg SP (WStack a) (set_reg SP (WStack (entry + - stack_bytes nl)) (start entry))).
  set (m1 := set_mem (a + 8) (WCaller LR) (set_mem (a + 0) (WCaller FP) m0)).
  set (m2 := set_reg FP (WStack a) m1).
  set (m3 := set_mem (a + (16 + 8)) (WCaller RLocals) (set_mem (a + 16) (WCaller RHeap) m2)).
  set (m4 := set_mem (a + (32 + 8)) (WCaller RStatics) (set_mem (a + 32) (WCaller RArgs) m3)).
  set (m5 := set_mem (a + (48 + 8)) (WCaller RProfile) (set_mem (a + 48) (WCaller RBlock) m4)).
  set (m6 := set_reg RLocals (WStack (a + 64)) (set_reg RProfile WProf (set_reg RArgs WArgs (set_reg RHeap WHeap (set_reg RBlock (WInt (Z.of_nat blk)) (set_reg RStatics WStatics m5)))))).
  assert (St : forall m w off, rf m SP = WStack a -> (0 <= off <= 56)%Z -> (off mod 8 = 0)%Z -> store entry m w SP off = Some (set_mem (a + off) w m)).
  { intros m w off Es Ro M8. apply store_stack; auto; lia. }
  exists m6. split.
  - unfold prologue. cbn [app].
    eapply goes_step; [cbn [AsmModel.step start rf add_word]; reflexivity|].
    apply (goes_step callG tu file blk ts ys entry 10 _ _ _ _ m1 s).
    { cbn [AsmModel.step set_reg rf upd reg_beq add_word]. fold a. change (store entry _ ?w SP 0) with (store entry m0 w SP 0). rewrite (St m0), (St (set_mem _ _ _)) by (try reflexivity; lia). reflexivity. }
    apply (goes_step callG tu file blk ts ys entry 9 _ _ _ _ m2 s); [reflexivity|].
    apply (goes_step callG tu file blk ts ys entry 8 _ _ _ _ m3 s).
    { cbn [AsmModel.step]. rewrite (St m2), (St (set_mem _ _ _)) by (try reflexivity; lia). reflexivity. }
    apply (goes_step callG tu file blk ts ys entry 7 _ _ _ _ m4 s).
    { cbn [AsmModel.step]. rewrite (St m3), (St (set_mem _ _ _)) by (try reflexivity; lia). reflexivity. }
    apply (goes_step callG tu file blk ts ys entry 6 _ _ _ _ m5 s).
    { cbn [AsmModel.step]. rewrite (St m4), (St (set_mem _ _ _)) by (try reflexivity; lia). reflexivity. }
    eapply goes_step; [reflexivity|]. eapply goes_step; [reflexivity|]. eapply goes_step; [reflexivity|]. eapply goes_step; [reflexivity|]. eapply goes_step; [reflexivity|].
    eapply goes_step; [reflexivity|]. apply goes_refl.
  - constructor; rewrite <- ?Ea; try reflexivity; auto.
    + intros k q I. unfold m6, m5, m4, m3, m2, m1. cbn [mem set_mem set_reg]. cbn [saved In] in I.
      repeat (destruct I as [I|I]; [injection I as <- <-;
        repeat match goal with |- context [(?x =? ?y)%Z] => destruct (Z.eqb_spec x y); try lia end; reflexivity|]). destruct I.
    + apply repeat_length.
    + intros i x E. apply nth_error_In, repeat_spec in E. discriminate.
Qed.
