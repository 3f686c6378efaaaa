(** * Registers: the code compiled for an expression never writes one that is in use (C20). *)
From Coq Require Import List Arith Lia Bool.
From Verif Require Import FuncModel CodeModel CompileModel CompileEval CompileStatic CompileRel CompileDyn CompileCalls.
Import ListNotations.

(** The register an instruction writes (IRefDef writes to the value the register holds). *)
Definition writes (i : instr) : option nat :=
  match i with
  | IStruct _ d | IUnion _ _ d | IAccess _ _ _ d | IFunc d _ _ _ | ICall _ _ d | ICopy _ d | IRef d
  | IType d | IList _ d | ILiteral _ d => Some d
  | ISelect _ _ _ _ | IGoto _ | ITail _ _ | IRefDef _ _ | IReturn _ | INop => None
  end.

(** The number of references to slot [d] (scope->locals, lib/compile.c:57-66). *)
Definition uses (s : cs) (d : nat) : nat := nth d (slots s) 0.

(** The locals of a list of variables that are slot [d]. *)
Fixpoint times (d : nat) (vs : list (option var)) : nat :=
  match vs with
  | [] => 0
  | Some (Local i) :: r => (if i =? d then 1 else 0) + times d r
  | _ :: r => times d r
  end.

Definition quiet (s : cs) (i : instr) : Prop := forall d, writes i = Some d -> uses s d = 0.
Definition quiets (s : cs) (s' : cs) : Prop := exists seg, bare s' = bare s ++ seg /\ Forall (quiet s) seg.
Definition ranged (s : cs) (vs : list (option var)) : Prop := forall d, In (Some (Local d)) vs -> d < length (slots s).

(** [s'] comes from [s] by code that writes no register in use in [s]; it holds the
    references [rs] on top of those of [s]. *)
Record grown (s s' : cs) (rs : list (option var)) : Prop := {
  g_vars : vars s' = vars s;
  g_len : length (slots s) <= length (slots s');
  g_uses : forall d, uses s' d = uses s d + times d rs;
  g_range : ranged s' rs;
  g_quiet : quiets s s' }.

Lemma times_app : forall d a b, times d (a ++ b) = times d a + times d b.
Proof. induction a as [|[[i|i|i]|] a IH]; intros b; cbn; auto. rewrite IH. lia. Qed.
Lemma times_rev : forall d l, times d (rev l) = times d l.
Proof. induction l as [|o l IH]; auto. cbn [rev]. rewrite times_app, IH. destruct o as [[i|i|i]|]; cbn; lia. Qed.

Lemma ranged_app : forall s a b, ranged s a -> ranged s b -> ranged s (a ++ b).
Proof. intros s a b A B d I. apply in_app_or in I. destruct I; auto. Qed.
Lemma ranged_len : forall s s' vs, length (slots s) <= length (slots s') -> ranged s vs -> ranged s' vs.
Proof. intros s s' vs L R d I. specialize (R d I). lia. Qed.

Lemma quiets_refl : forall s, quiets s s.
Proof. intros s. exists []. rewrite app_nil_r. auto. Qed.
Lemma quiets_bare : forall s s', bare s' = bare s -> quiets s s'.
Proof. intros s s' E. exists []. rewrite E, app_nil_r. auto. Qed.
Lemma quiets_trans : forall a b c, (forall d, uses a d <= uses b d) -> quiets a b -> quiets b c -> quiets a c.
Proof.
  intros a b c M [x [E1 F1]] [y [E2 F2]]. exists (x ++ y). rewrite E2, E1, app_assoc. split; auto. apply Forall_app. split; auto.
  eapply Forall_impl; [|exact F2]. intros i Q d W. specialize (Q d W). specialize (M d). lia.
Qed.
Lemma quiets_same : forall a b c, quiets a b -> bare c = bare b -> quiets a c.
Proof. intros a b c [x [E F]] H. exists x. rewrite H. auto. Qed.

Lemma grown_refl : forall s, grown s s [].
Proof. intros s. constructor; [auto|auto|intros; cbn [times]; lia|intros d []|apply quiets_refl]. Qed.
Lemma grown_trans : forall a b c r1 r2, grown a b r1 -> grown b c r2 -> grown a c (r1 ++ r2).
Proof.
  intros a b c r1 r2 [V1 L1 U1 R1 Q1] [V2 L2 U2 R2 Q2]. constructor; [congruence|lia| | |].
  - intros d. rewrite times_app, U2, U1. lia.
  - apply ranged_app; auto. eapply ranged_len; eauto.
  - apply (quiets_trans a b c); [intros d; rewrite U1; lia|auto|auto].
Qed.
Lemma grown_vranged : forall s s' r, grown s s' r -> ranged s (vars s) -> ranged s' (vars s').
Proof. intros s s' r G R. rewrite (g_vars _ _ _ G). eapply ranged_len; [apply (g_len _ _ _ G)|auto]. Qed.
Lemma grown_times : forall s s' r r', grown s s' r -> (forall d, times d r = times d r') -> ranged s' r' -> grown s s' r'.
Proof. intros s s' r r' [V L U R Q] H R'. constructor; auto. intros d. rewrite U, H. reflexivity. Qed.

(** ** The operations *)
Lemma first_free_nth : forall l, nth (first_free l) l 0 = 0.
Proof. induction l as [|[|n] l IH]; cbn; auto. Qed.
Lemma first_free_le : forall l, first_free l <= length l.
Proof. induction l as [|[|n] l IH]; cbn; lia. Qed.

Lemma new_local_uses : forall s d s', new_local s = (d, s') -> uses s d = 0 /\ vars s' = vars s /\ bare s' = bare s /\
  length (slots s) <= length (slots s') /\ d < length (slots s') /\ (forall i, uses s' i = uses s i + times i [Some (Local d)]).
Proof.
  intros s d s' H. unfold new_local in H. injection H as <- <-. unfold uses, bare. cbn [with_slots slots vars instrs].
  pose proof (first_free_nth (slots s)) as Z. pose proof (first_free_le (slots s)) as L.
  destruct (first_free (slots s) =? length (slots s)) eqn:E.
  - apply Nat.eqb_eq in E. rewrite app_length. cbn [length]. repeat split; auto; try lia. intros i. cbn.
    destruct (first_free (slots s) =? i) eqn:Ei.
    + apply Nat.eqb_eq in Ei. rewrite app_nth2, (nth_overflow (slots s)) by lia. replace (i - length (slots s)) with 0 by lia. reflexivity.
    + apply Nat.eqb_neq in Ei. destruct (Nat.lt_ge_cases i (length (slots s))); [rewrite app_nth1 by lia; lia|].
      rewrite app_nth2, (nth_overflow (slots s)) by lia. destruct (i - length (slots s)) as [|k] eqn:Ek; [lia|]. destruct k; reflexivity.
  - apply Nat.eqb_neq in E. rewrite set_nth_length. repeat split; auto; try lia. intros i. rewrite nth_set_nth. cbn [times].
    rewrite (Nat.eqb_sym (first_free (slots s)) i).
    assert (Lt : (first_free (slots s) <? length (slots s)) = true) by (apply Nat.ltb_lt; lia). rewrite Lt, andb_true_r.
    destruct (i =? first_free (slots s)) eqn:Ei; [|lia]. apply Nat.eqb_eq in Ei. subst i. rewrite Z. reflexivity.
Qed.

Definition plain (s s' : cs) : Prop := vars s' = vars s /\ slots s' = slots s /\ bare s' = bare s.

Lemma plain_refl : forall s, plain s s.
Proof. repeat split. Qed.
Lemma plain_trans : forall a b c, plain a b -> plain b c -> plain a c.
Proof. intros a b c [A1 [A2 A3]] [B1 [B2 B3]]. repeat split; congruence. Qed.
Lemma plain_grown : forall s s', plain s s' -> grown s s' [].
Proof.
  intros s s' [A [B C]]. constructor; [auto| | | |].
  - rewrite B. auto.
  - intros d. unfold uses. rewrite B. cbn [times]. lia.
  - intros d [].
  - apply quiets_bare. auto.
Qed.

Lemma append_op_plain : forall op s, plain s (append_op op s).
Proof.
  intros op s. unfold append_op. destruct (active s) as [pc|]; [|repeat split].
  destruct (nth_error (instrs s) pc) as [[ops i]|] eqn:E; [|repeat split]. repeat split. unfold bare. cbn.
  clear -E. revert pc E. induction (instrs s) as [|x l IH]; intros [|pc] E; cbn in *; try discriminate; auto.
  - injection E as ->. reflexivity.
  - rewrite IH; auto.
Qed.

Lemma append_instr_bare : forall i s, vars (append_instr i s) = vars s /\ slots (append_instr i s) = slots s /\
  bare (append_instr i s) = bare s ++ [i].
Proof.
  intros i s. unfold append_instr. destruct (append_op_plain (OSample 1) s) as [A [B C]].
  destruct (pending (append_op (OSample 1) s)); cbn; repeat split; auto; unfold bare in *; cbn; rewrite map_app, <- C; reflexivity.
Qed.

Lemma append_instr_grown : forall i s, quiet s i -> grown s (append_instr i s) [].
Proof.
  intros i s Q. destruct (append_instr_bare i s) as [A [B C]]. constructor; [auto| | | |].
  - rewrite B. auto.
  - intros d. unfold uses. rewrite B. cbn [times]. lia.
  - intros d [].
  - exists [i]. auto.
Qed.

Lemma compile_exit_grown : forall exit v s, grown s (compile_exit exit v s) [].
Proof. intros [|] [v|] s; cbn; try apply grown_refl. apply append_instr_grown. intros d H. discriminate. Qed.

Lemma enter_block_plain : forall r s, plain s (enter_block r s).
Proof. intros r s. unfold enter_block, push_block. eapply plain_trans; [|apply append_op_plain]. repeat split. Qed.
Lemma exit_block_plain : forall r s s', exit_block r s = Some s' -> plain s s'.
Proof.
  intros r s s' H. unfold exit_block in H. destruct (bstack s) as [|b l]; [discriminate|]. injection H as <-.
  destruct r; [repeat split|]. eapply plain_trans; [|apply append_op_plain]. repeat split.
Qed.

(** A new local and the instruction that writes it. *)
Lemma new_instr_grown : forall s d s1 i, new_local s = (d, s1) -> writes i = Some d \/ writes i = None -> grown s (append_instr i s1) [Some (Local d)].
Proof.
  intros s d s1 i N Wi. destruct (new_local_uses _ _ _ N) as [Z [V [B [L [Rd U]]]]].
  destruct (append_instr_bare i s1) as [A1 [A2 A3]]. constructor.
  - congruence.
  - rewrite A2. auto.
  - intros e. unfold uses in *. rewrite A2. apply U.
  - rewrite <- A2 in Rd. intros e [E|[]]. injection E as <-. auto.
  - exists [i]. rewrite A3, B. split; auto. constructor; auto. intros e W. destruct Wi as [Wi|Wi]; rewrite Wi in W; [|discriminate]. injection W as <-. exact Z.
Qed.

(** Releasing references held on top of an earlier state. *)
Lemma release_uses : forall v s s', release v s = Some s' -> vars s' = vars s /\ bare s' = bare s /\
  length (slots s') = length (slots s) /\ forall d, uses s d = uses s' d + times d [v].
Proof.
  intros [[i|i|i]|] s s' H; cbn in H.
  - destruct (nth_error (srefs s) i) as [[|[|n]]|]; try discriminate. injection H as <-. repeat split. intros d. cbn. unfold uses. cbn. lia.
  - destruct (nth_error (arefs s) i) as [[|[|n]]|]; try discriminate. injection H as <-. repeat split. intros d. cbn. unfold uses. cbn. lia.
  - destruct (nth_error (slots s) i) as [[|n]|] eqn:E; try discriminate. injection H as <-. repeat split; [apply set_nth_length|].
    intros d. unfold uses. cbn. rewrite nth_set_nth. rewrite (Nat.eqb_sym i d).
    assert (L : i < length (slots s)) by (apply nth_error_Some; congruence).
    apply Nat.ltb_lt in L. rewrite L, andb_true_r. destruct (d =? i) eqn:Ed; [|lia]. apply Nat.eqb_eq in Ed. subst d.
    rewrite (nth_error_nth _ _ 0 E). lia.
  - injection H as <-. repeat split. intros d. cbn. lia.
Qed.

Lemma release_grown : forall s0 s v r s', grown s0 s (v :: r) -> release v s = Some s' -> grown s0 s' r.
Proof.
  intros s0 s v r s' [V L U R Q] H. destruct (release_uses _ _ _ H) as [A [B [C D]]]. constructor.
  - congruence.
  - lia.
  - intros d. specialize (U d). specialize (D d). change (v :: r) with ([v] ++ r) in U. rewrite times_app in U. lia.
  - intros d I. rewrite C. apply R. right. auto.
  - eapply quiets_same; eauto.
Qed.

Lemma releases_grown : forall vs s0 s r s', grown s0 s (map Some vs ++ r) -> releases vs s = Some s' -> grown s0 s' r.
Proof.
  induction vs as [|v vs IH]; intros s0 s r s' G H; cbn [releases] in H; [injection H as <-; exact G|].
  destruct (release (Some v) s) as [s1|] eqn:E; [|discriminate]. apply (IH s0 s1 r s'); auto.
  apply (release_grown s0 s (Some v)); auto.
Qed.

Lemma grown_perm : forall s s' a b, grown s s' (a ++ b) -> grown s s' (b ++ a).
Proof.
  intros s s' a b G. eapply grown_times; [exact G|intros d; rewrite !times_app; lia|].
  pose proof (g_range _ _ _ G) as R. intros d I. apply R. apply in_app_iff. apply in_app_iff in I. tauto.
Qed.

(** ** Expressions *)
Definition slot_ok (comp : bool -> tc -> cs -> option (option var * cs)) : Prop :=
  forall exit e s r s', ranged s (vars s) -> comp exit e s = Some (r, s') -> grown s s' [r].

Lemma compile_list_grown : forall comp, slot_ok comp -> forall es s vs s', ranged s (vars s) ->
  compile_list comp es s = Some (vs, s') -> grown s s' (map Some vs).
Proof.
  intros comp C. induction es as [|e es IH]; intros s vs s' R H; cbn in H; [injection H as <- <-; apply grown_refl|].
  destruct (comp false e s) as [[[v|] s1]|] eqn:E; try discriminate.
  destruct (compile_list comp es s1) as [[vs1 s2]|] eqn:E2; try discriminate. injection H as <- <-.
  pose proof (C _ _ _ _ _ R E) as G1. pose proof (IH _ _ _ (grown_vranged _ _ _ G1 R) E2) as G2.
  exact (grown_trans _ _ _ _ _ G1 G2).
Qed.

Lemma compile_fields_grown : forall comp src, slot_ok comp -> forall es i s vs s', ranged s (vars s) ->
  compile_fields comp src i es s = Some (vs, s') -> grown s s' (map Some vs).
Proof.
  intros comp src C. induction es as [|[e|] es IH]; intros i s vs s' R H; cbn [compile_fields] in H; [injection H as <- <-; apply grown_refl| |].
  - destruct (comp false e s) as [[[v|] s1]|] eqn:E; try discriminate.
    destruct (compile_fields comp src (S i) es s1) as [[vs1 s2]|] eqn:E2; try discriminate. injection H as <- <-.
    pose proof (C _ _ _ _ _ R E) as G1. pose proof (IH _ _ _ _ (grown_vranged _ _ _ G1 R) E2) as G2.
    exact (grown_trans _ _ _ _ _ G1 G2).
  - destruct (new_local s) as [d s1] eqn:N.
    destruct (compile_fields comp src (S i) es (append_instr (IAccess true src i d) s1)) as [[vs1 s2]|] eqn:E2; try discriminate. injection H as <- <-.
    pose proof (new_instr_grown s d s1 (IAccess true src i d) N (or_introl eq_refl)) as G1.
    pose proof (IH _ _ _ _ (grown_vranged _ _ _ G1 R) E2) as G2.
    exact (grown_trans _ _ _ _ _ G1 G2).
Qed.

Lemma in_block_slots : forall comp, slot_ok comp -> slot_ok (in_block comp).
Proof.
  intros comp C exit e s r s' R H. unfold in_block in H.
  destruct (comp exit e (enter_block exit s)) as [[r1 s1]|] eqn:E; [|discriminate].
  destruct (exit_block exit s1) as [s2|] eqn:E2; [|discriminate]. injection H as -> <-.
  pose proof (plain_grown _ _ (enter_block_plain exit s)) as G0.
  pose proof (C _ _ _ _ _ (grown_vranged _ _ _ G0 R) E) as G1.
  pose proof (plain_grown _ _ (exit_block_plain _ _ _ E2)) as G2.
  pose proof (grown_trans _ _ _ _ _ G0 (grown_trans _ _ _ _ _ G1 G2)) as G. rewrite app_nil_r in G. exact G.
Qed.

(** An instruction that reads the locals [ws] and writes a new one. *)
Lemma finish_grown : forall (exit : bool) (mk : nat -> instr) ws s s1 d s2 s3, grown s s1 (map Some ws) -> new_local s1 = (d, s2) ->
  writes (mk d) = Some d ->
  releases ws (compile_exit exit (Some (Local d)) (append_instr (mk d) s2)) = Some s3 -> grown s s3 [Some (Local d)].
Proof.
  intros exit mk ws s s1 d s2 s3 G N Wr Rl.
  pose proof (new_instr_grown s1 d s2 (mk d) N (or_introl Wr)) as G2.
  pose proof (compile_exit_grown exit (Some (Local d)) (append_instr (mk d) s2)) as G3.
  pose proof (grown_trans _ _ _ _ _ G (grown_trans _ _ _ _ _ G2 G3)) as G4. rewrite app_nil_r in G4.
  eapply releases_grown; eauto.
Qed.

Lemma retain_grown : forall x s, ranged s [Some x] -> grown s (retain x s) [Some x].
Proof.
  intros [i|i|i] s R; cbn.
  - constructor; [auto|auto|intros d; cbn [times]; unfold uses; cbn; lia|intros d [E|F]; [discriminate|destruct F]|apply quiets_bare; reflexivity].
  - constructor; [auto|auto|intros d; cbn [times]; unfold uses; cbn; lia|intros d [E|F]; [discriminate|destruct F]|apply quiets_bare; reflexivity].
  - assert (L : i < length (slots s)) by (apply R; left; auto).
    constructor; [auto|cbn; rewrite set_nth_length; auto| | |apply quiets_bare; reflexivity].
    + intros d. unfold uses. cbn. rewrite nth_set_nth, (Nat.eqb_sym i d). apply Nat.ltb_lt in L. rewrite L, andb_true_r.
      destruct (d =? i) eqn:E; [apply Nat.eqb_eq in E; subst; lia|lia].
    + intros d [E|[]]. injection E as <-. cbn. rewrite set_nth_length. auto.
Qed.

(** *** Let *)
(** Like [grown], with other variables. *)
Definition grownv (s s' : cs) (rs : list (option var)) : Prop := grown (with_vars (vars s') s) s' rs.

Lemma grown_v : forall s s' rs, grown s s' rs -> grownv s s' rs.
Proof. intros s s' rs [V L U R Q]. constructor; auto. Qed.
Lemma grownv_grown : forall s s' rs, grownv s s' rs -> vars s' = vars s -> grown s s' rs.
Proof. intros s s' rs [V L U R Q] E. constructor; auto. Qed.
Lemma grownv_trans : forall a b c r1 r2, grownv a b r1 -> grownv b c r2 -> grownv a c (r1 ++ r2).
Proof.
  intros a b c r1 r2 G1 G2. assert (G1' : grown (with_vars (vars c) a) (with_vars (vars c) b) r1).
  { destruct G1 as [V L U R Q]. constructor; auto. }
  exact (grown_trans _ _ _ _ _ G1' G2).
Qed.

Lemma let_vars_grown : forall n s ds s', let_vars true n s = (ds, s') -> vars s' = vars s ++ map loc ds /\ length ds = n /\ grownv s s' (map loc ds).
Proof.
  induction n as [|n IH]; intros s ds s' H; cbn [let_vars] in H.
  - injection H as <- <-. cbn. rewrite app_nil_r. split; auto. split; auto. apply grown_v. apply grown_refl.
  - destruct (new_local s) as [d s1] eqn:N.
    destruct (let_vars true n (push_var (Some (Local d)) (append_instr (IRef d) s1))) as [ds1 s2] eqn:E. injection H as <- <-.
    destruct (IH _ _ _ E) as [V [L G]]. pose proof (new_instr_grown s d s1 (IRef d) N (or_introl eq_refl)) as G1.
    assert (Gp : grownv s (push_var (Some (Local d)) (append_instr (IRef d) s1)) [Some (Local d)]).
    { destruct G1 as [V1 L1 U1 R1 Q1]. constructor; auto. }
    split; [|split].
    + rewrite V. unfold push_var. cbn. rewrite (g_vars _ _ _ G1), <- app_assoc. reflexivity.
    + cbn. auto.
    + exact (grownv_trans _ _ _ _ _ Gp G).
Qed.

(** Setting the variables from [length pre] on to their definitions releases what they
    held before. *)
Lemma let_sets_grown : forall defs refs pre olds s0 s s' held,
  vars s = pre ++ olds -> length olds = length defs -> grownv s0 s (olds ++ held) ->
  let_sets refs (length pre) defs s = Some s' -> vars s' = pre ++ map Some defs /\ grownv s0 s' held.
Proof.
  induction defs as [|v defs IH]; intros refs pre olds s0 s s' held V L G H.
  - destruct olds; [|discriminate]. cbn in H. injection H as <-. auto.
  - destruct olds as [|old olds]; [discriminate|]. cbn [let_sets] in H.
    set (s1 := match refs with d :: _ => append_instr (IRefDef d v) s | [] => s end) in *.
    assert (G1 : grown s s1 []).
    { unfold s1. destruct refs; [apply grown_refl|]. apply append_instr_grown. intros d E. discriminate. }
    unfold set_var in H. rewrite (g_vars _ _ _ G1), V in H. rewrite nth_error_app2, Nat.sub_diag in H by lia. cbn [nth_error] in H.
    destruct (release old s1) as [s2|] eqn:E; [|discriminate].
    destruct (release_uses _ _ _ E) as [A [B [C D]]].
    assert (G2 : grownv s0 s2 (olds ++ held)).
    { assert (Gx : grownv s0 s1 ((old :: olds) ++ held)).
      { pose proof (grownv_trans _ _ _ _ _ G (grown_v _ _ _ G1)) as Gx. rewrite app_nil_r in Gx. exact Gx. }
      unfold grownv in *. rewrite A. eapply release_grown; [exact Gx|exact E]. }
    rewrite A, (g_vars _ _ _ G1), V, set_nth_mid in H.
    set (s3 := with_vars (pre ++ Some v :: olds) s2) in *.
    assert (G3 : grownv s0 s3 (olds ++ held)).
    { destruct G2 as [V2 L2 U2 R2 Q2]. constructor; auto. }
    replace (S (length pre)) with (length (pre ++ [Some v])) in H by (rewrite app_length; cbn; lia).
    destruct (IH (tl refs) (pre ++ [Some v]) olds s0 s3 s' held) as [V' G']; auto.
    + unfold s3. cbn. rewrite <- app_assoc. reflexivity.
    + split; auto. rewrite V', <- app_assoc. reflexivity.
Qed.

Lemma pop_vars_grown : forall n vs pre s0 s s' held, vars s = pre ++ vs -> length vs = n -> grownv s0 s (vs ++ held) ->
  pop_vars n s = Some s' -> vars s' = pre /\ grownv s0 s' held.
Proof.
  induction n as [|n IH]; intros vs pre s0 s s' held V L G H; cbn [pop_vars] in H.
  - destruct vs; [|discriminate]. injection H as <-. rewrite app_nil_r in V. auto.
  - unfold pop_var in H. destruct vs as [|v vs _] using rev_ind; [discriminate|]. rewrite app_length in L. cbn in L.
    rewrite V, app_assoc, rev_unit in H. rewrite rev_involutive in H.
    set (s1 := with_vars (pre ++ vs) s) in *. destruct (release v s1) as [s2|] eqn:E; [|discriminate].
    destruct (release_uses _ _ _ E) as [A [B [C D]]].
    assert (G1 : grownv s0 s1 (v :: vs ++ held)).
    { assert (Gx : grownv s0 s (v :: vs ++ held)).
      { unfold grownv in *. eapply grown_times; [exact G| |].
        - intros d. change (v :: vs ++ held) with ([v] ++ vs ++ held). rewrite !times_app. lia.
        - pose proof (g_range _ _ _ G) as R. intros d I. apply R. rewrite <- app_assoc. cbn in I |- *. rewrite !in_app_iff in *. cbn. tauto. }
      destruct Gx as [V2 L2 U2 R2 Q2]. constructor; auto. }
    assert (G2 : grownv s0 s2 (vs ++ held)).
    { unfold grownv in *. rewrite A. eapply release_grown; [exact G1|exact E]. }
    apply (IH vs pre s0 s2 s' held); auto; try congruence; try lia.
Qed.

(** *** Select *)
Lemma select_branch_grown : forall comp, slot_ok comp -> forall exit dest e s0 s pc s' held, ranged s0 (vars s0) ->
  grown s0 s held -> (exit = false -> uses s0 dest = 0) ->
  select_branch comp exit dest e s = Some (pc, s') -> grown s0 s' held.
Proof.
  intros comp C exit dest e s0 s pc s' held R0 G Hd H. unfold select_branch in H.
  destruct (comp exit e (enter_block exit (new_basic_block s))) as [[r s1]|] eqn:E; [|discriminate].
  assert (Gn : grown s (enter_block exit (new_basic_block s)) []).
  { apply plain_grown. eapply plain_trans; [|apply enter_block_plain]. repeat split. }
  pose proof (grown_vranged _ _ _ G R0) as R1.
  pose proof (C _ _ _ _ _ (grown_vranged _ _ _ Gn R1) E) as G1.
  pose proof (grown_trans _ _ _ _ _ G (grown_trans _ _ _ _ _ Gn G1)) as G2. cbn [app] in G2.
  set (s2 := if exit then Some s1 else match r with Some v => Some (append_instr (ICopy v dest) s1) | None => None end) in *.
  destruct s2 as [s2'|] eqn:E2; [|discriminate].
  assert (G3 : grown s0 s2' (held ++ [r])).
  { unfold s2 in E2. destruct exit; [injection E2 as <-; exact G2|]. destruct r as [v|]; [|discriminate]. injection E2 as <-.
    destruct (append_instr_bare (ICopy v dest) s1) as [A1 [A2 A3]]. destruct G2 as [V L U Rg [seg [Q1 Q2]]]. constructor.
    - congruence.
    - rewrite A2. auto.
    - intros d. unfold uses in *. rewrite A2. auto.
    - intros d I. rewrite A2. auto.
    - exists (seg ++ [ICopy v dest]). rewrite A3, Q1, app_assoc. split; auto. apply Forall_app. split; auto. constructor; auto.
      intros d W. cbn in W. injection W as <-. auto. }
  destruct (exit_block exit s2') as [s3|] eqn:E3; [|discriminate].
  pose proof (plain_grown _ _ (exit_block_plain _ _ _ E3)) as G4.
  pose proof (grown_trans _ _ _ _ _ G3 G4) as G5. rewrite app_nil_r in G5.
  destruct (release r s3) as [s4|] eqn:E4; [|discriminate]. injection H as _ <-.
  apply (release_grown s0 s3 r); auto. apply (grown_perm _ _ held [r]). exact G5.
Qed.

Lemma select_branches_grown : forall comp, slot_ok comp -> forall exit dest ts s0 s tgts gotos s' held, ranged s0 (vars s0) ->
  grown s0 s held -> (exit = false -> uses s0 dest = 0) ->
  select_branches comp exit dest ts s = Some (tgts, gotos, s') -> grown s0 s' held.
Proof.
  intros comp C exit dest. induction ts as [|[tag e] ts IH]; intros s0 s tgts gotos s' held R0 G Hd H; cbn [select_branches] in H.
  - injection H as _ _ <-. auto.
  - destruct (select_branch comp exit dest e s) as [[pc s1]|] eqn:E; [|discriminate].
    pose proof (select_branch_grown _ C _ _ _ _ _ _ _ _ R0 G Hd E) as G1.
    set (s2 := if exit then s1 else append_instr (IGoto 0) s1) in *.
    assert (G2 : grown s0 s2 held).
    { unfold s2. destruct exit; auto. assert (Gi : grown s1 (append_instr (IGoto 0) s1) []) by (apply append_instr_grown; intros d W; discriminate).
      pose proof (grown_trans _ _ _ _ _ G1 Gi) as Gx. rewrite app_nil_r in Gx. exact Gx. }
    destruct (select_branches comp exit dest ts s2) as [[[tg go] s3]|] eqn:E2; [|discriminate]. injection H as _ _ <-.
    eapply IH; eauto.
Qed.

(** Completing an instruction after [s0]. *)
Lemma set_nth_map : forall {A B} (f : A -> B) n x l, map f (set_nth n x l) = set_nth n (f x) (map f l).
Proof. induction n; destruct l; cbn; auto. rewrite IHn. reflexivity. Qed.
Lemma set_nth_app2 : forall {A} (a b : list A) n x, length a <= n -> set_nth n x (a ++ b) = a ++ set_nth (n - length a) x b.
Proof.
  induction a as [|y a IH]; intros b n x L; cbn in *; [rewrite Nat.sub_0_r; auto|].
  destruct n; [lia|]. cbn. rewrite IH by lia. reflexivity.
Qed.

Lemma patch_grown : forall s0 s pc i held, grown s0 s held -> writes i = None -> length (bare s0) <= pc -> grown s0 (patch pc i s) held.
Proof.
  intros s0 s pc i held G W L. unfold patch. destruct (nth_error (instrs s) pc) as [[ops j]|] eqn:E; auto.
  destruct G as [V Ln U R [seg [Q1 Q2]]]. constructor; auto.
  exists (set_nth (pc - length (bare s0)) i seg). split.
  - unfold bare in *. cbn [with_code instrs]. rewrite set_nth_map. cbn [snd]. rewrite Q1. apply set_nth_app2. auto.
  - apply Forall_set_nth; auto. intros d Wd. congruence.
Qed.

Lemma patches_grown : forall gotos s0 s held, grown s0 s held -> (forall g, In g gotos -> length (bare s0) <= g) ->
  grown s0 (fold_left (fun s pc => patch pc (IGoto (length (instrs s))) s) gotos s) held.
Proof.
  induction gotos as [|g gotos IH]; intros s0 s held G H; cbn; auto. apply IH.
  - apply patch_grown; auto. apply H. left. auto.
  - intros x I. apply H. right. auto.
Qed.

Lemma quiets_len : forall s s', quiets s s' -> length (instrs s) <= length (instrs s').
Proof. intros s s' [seg [E _]]. apply (f_equal (@length _)) in E. unfold bare in E. rewrite app_length, !map_length in E. lia. Qed.

Lemma select_gotos : forall comp, slot_ok comp -> forall exit dest ts s0 s tgts gotos s' held, ranged s0 (vars s0) ->
  grown s0 s held -> (exit = false -> uses s0 dest = 0) ->
  select_branches comp exit dest ts s = Some (tgts, gotos, s') -> forall g, In g gotos -> length (instrs s0) <= g.
Proof.
  intros comp C exit dest. induction ts as [|[tag e] ts IH]; intros s0 s tgts gotos s' held R0 G Hd H; cbn [select_branches] in H.
  - injection H as _ <- _. intros g [].
  - destruct (select_branch comp exit dest e s) as [[pc s1]|] eqn:E; [|discriminate].
    pose proof (select_branch_grown _ C _ _ _ _ _ _ _ _ R0 G Hd E) as G1.
    set (s2 := if exit then s1 else append_instr (IGoto 0) s1) in *.
    assert (G2 : grown s0 s2 held).
    { unfold s2. destruct exit; auto. assert (Gi : grown s1 (append_instr (IGoto 0) s1) []) by (apply append_instr_grown; intros d W; discriminate).
      pose proof (grown_trans _ _ _ _ _ G1 Gi) as Gx. rewrite app_nil_r in Gx. exact Gx. }
    destruct (select_branches comp exit dest ts s2) as [[[tg go] s3]|] eqn:E2; [|discriminate]. injection H as _ <- _.
    intros g Ig. assert (Ig' : In g go \/ g = length (instrs s1)) by (destruct exit; auto; destruct Ig; auto).
    destruct Ig' as [I| ->]; [eapply IH; eauto|]. apply quiets_len. apply (g_quiet _ _ _ G1).
Qed.

Lemma bare_len : forall s, length (bare s) = length (instrs s).
Proof. intros. apply map_length. Qed.

Theorem compile_slots : forall k, slot_ok (compile k).
Proof.
  induction k as [|k IH]; intros exit e s r s' R H; [discriminate|].
  destruct e as [|v|rec bs b|fs|src fs|t a|c nt ts dflt|isS o t|scope b|f a|fs|ls]; cbn [compile] in H.
  - (* type *)
    destruct (new_local s) as [d s1] eqn:N. injection H as <- <-.
    apply (finish_grown exit IType [] s s d s1); auto. apply grown_refl.
  - (* var *)
    destruct (get_var v s) as [[x|]|] eqn:E; try discriminate. injection H as <- <-.
    assert (Rx : ranged s [Some x]).
    { intros d [E1|F]; [|destruct F]. injection E1 as ->. destruct v as [i|i|i]; unfold get_var in E.
      - destruct (i <? length (srefs s)); discriminate.
      - destruct (i <? length (arefs s)); discriminate.
      - apply R. apply (nth_error_In _ i). auto. }
    pose proof (grown_trans _ _ _ _ _ (retain_grown x s Rx) (compile_exit_grown exit (Some x) (retain x s))) as G. exact G.
  - (* let *)
    destruct (let_vars rec (length bs) s) as [ds s1] eqn:E1.
    assert (X : exists olds, vars s1 = vars s ++ olds /\ length olds = length bs /\ grownv s s1 olds).
    { destruct rec.
      - destruct (let_vars_grown _ _ _ _ E1) as [V [L G]]. exists (map loc ds). rewrite map_length. auto.
      - rewrite let_vars_false in E1. injection E1 as <- <-. exists (repeat None (length bs)). rewrite repeat_length. split; auto. split; auto.
        constructor; [reflexivity|cbn; auto| | |exists []; rewrite app_nil_r; auto].
        + intros d. unfold uses. cbn. clear. induction bs; cbn; auto. 
        + intros d I. apply repeat_spec in I. discriminate. }
    destruct X as [olds [V1 [L1 G1]]].
    destruct (let_defs (compile k) bs s1) as [[defs s2]|] eqn:E2; [|discriminate]. rewrite let_defs_block in E2.
    assert (R1 : ranged s1 (vars s1)).
    { rewrite V1. apply ranged_app; [eapply ranged_len; [|exact R]; apply (g_len _ _ _ G1)|apply (g_range _ _ _ G1)]. }
    pose proof (compile_list_grown _ (in_block_slots _ IH) _ _ _ _ R1 E2) as G2.
    assert (Ld : length defs = length bs).
    { clear -E2. revert s1 defs s2 E2. induction bs as [|e bs IHb]; intros s1 defs s2 E2; cbn [compile_list] in E2; [injection E2 as <- _; reflexivity|].
      destruct (in_block (compile k) false e s1) as [[[v|] s3]|]; try discriminate.
      destruct (compile_list (in_block (compile k)) bs s3) as [[vs s4]|] eqn:E; [|discriminate]. injection E2 as <- _. cbn. f_equal. eauto. }
    destruct (let_sets ds (length (vars s)) defs s2) as [s3|] eqn:E3; [|discriminate].
    pose proof (grownv_trans _ _ _ _ _ G1 (grown_v _ _ _ G2)) as G12.
    destruct (let_sets_grown defs ds (vars s) olds s s2 s3 (map Some defs)) as [V3 G3]; auto; [rewrite (g_vars _ _ _ G2); auto|lia|].
    destruct (compile k exit b s3) as [[r4 s4]|] eqn:E4; [|discriminate].
    assert (R3 : ranged s3 (vars s3)).
    { rewrite V3. apply ranged_app; [eapply ranged_len; [|exact R]; apply (g_len _ _ _ G3)|apply (g_range _ _ _ G3)]. }
    pose proof (IH _ _ _ _ _ R3 E4) as G4.
    pose proof (grownv_trans _ _ _ _ _ G3 (grown_v _ _ _ G4)) as G34.
    destruct (pop_vars (length bs) s4) as [s5|] eqn:E5; [|discriminate]. injection H as <- <-.
    destruct (pop_vars_grown (length bs) (map Some defs) (vars s) s s4 s5 [r4]) as [V5 G5]; auto.
    { rewrite (g_vars _ _ _ G4). auto. }
    { rewrite map_length. auto. }
    apply grownv_grown; auto.
  - (* struct *)
    destruct (compile_list (compile k) fs s) as [[vs s1]|] eqn:E1; [|discriminate].
    pose proof (compile_list_grown _ IH _ _ _ _ R E1) as G1.
    destruct (new_local s1) as [d s2] eqn:N.
    destruct (releases vs _) as [s3|] eqn:E3; [|discriminate]. injection H as <- <-.
    apply (finish_grown exit (IStruct vs) vs s s1 d s2); auto.
  - (* copy *)
    destruct (compile k false src s) as [[[sv|] s1]|] eqn:E1; try discriminate.
    pose proof (IH _ _ _ _ _ R E1) as G1. pose proof (grown_vranged _ _ _ G1 R) as R1.
    destruct (compile_fields (compile k) sv 0 fs s1) as [[vs s2]|] eqn:E2; [|discriminate].
    pose proof (compile_fields_grown _ _ IH _ _ _ _ _ R1 E2) as G2.
    destruct (new_local s2) as [d s3] eqn:N.
    set (s4 := compile_exit exit (Some (Local d)) (append_instr (IStruct vs d) s3)) in *.
    destruct (releases vs s4) as [s5|] eqn:E3; [|discriminate].
    destruct (release (Some sv) s5) as [s6|] eqn:E4; [|discriminate]. injection H as <- <-.
    apply (finish_grown exit (IStruct vs) (vs ++ [sv]) s s2 d s3); auto.
    + rewrite map_app. apply grown_perm. exact (grown_trans _ _ _ _ _ G1 G2).
    + fold s4. rewrite releases_app, E3. cbn [releases]. rewrite E4. reflexivity.
  - (* union *)
    destruct (compile k false a s) as [[[v|] s1]|] eqn:E1; try discriminate.
    pose proof (IH _ _ _ _ _ R E1) as G1.
    destruct (new_local s1) as [d s2] eqn:N. destruct (release (Some v) _) as [s3|] eqn:E3; [|discriminate]. injection H as <- <-.
    apply (finish_grown exit (IUnion t v) [v] s s1 d s2); auto. cbn [releases]. rewrite E3. reflexivity.
  - (* select *)
    destruct (compile k false c s) as [[[cv|] s1]|] eqn:E1; try discriminate.
    pose proof (IH _ _ _ _ _ R E1) as G1. pose proof (grown_vranged _ _ _ G1 R) as R1.
    set (s2 := append_instr (ISelect cv nt [] 0) s1) in *.
    assert (G2 : grown s1 s2 []) by (apply append_instr_grown; intros d W; discriminate).
    pose proof (grown_trans _ _ _ _ _ G1 G2) as G12. cbn [app] in G12.
    destruct (if exit then (0, s2) else new_local s2) as [dest s3] eqn:E3.
    assert (G3 : exists held, grown s s3 (Some cv :: held) /\ (exit = false -> uses s dest = 0) /\ held = (if exit then [] else [Some (Local dest)])).
    { destruct exit; injection E3 as E3 E3'; [subst; exists []; split; auto; split; [discriminate|auto]|].
      assert (N : new_local s2 = (dest, s3)) by (unfold new_local; rewrite <- E3, <- E3'; reflexivity).
      destruct (new_local_uses _ _ _ N) as [Z [V [B [L [Rd U]]]]]. exists [Some (Local dest)]. split; [|split; auto].
      - apply (grown_trans s s2 s3 [Some cv] [Some (Local dest)]); auto. constructor; auto.
        + intros d [Ed|F]; [|destruct F]. injection Ed as <-. auto.
        + apply quiets_bare. auto.
      - intros _. pose proof (g_uses _ _ _ G12 dest) as Ud. rewrite Z in Ud. lia. }
    destruct G3 as [held [G3 [Hd Eh]]].
    destruct (select_branches (compile k) exit dest ts s3) as [[[tgts gotos] s4]|] eqn:E4; [|discriminate].
    pose proof (select_branches_grown _ IH _ _ _ _ _ _ _ _ _ R G3 Hd E4) as G4.
    destruct (select_branch (compile k) exit dest dflt s4) as [[dpc s5]|] eqn:E5; [|discriminate].
    pose proof (select_branch_grown _ IH _ _ _ _ _ _ _ _ R G4 Hd E5) as G5.
    set (s6 := new_basic_block (if exit then s5 else append_instr INop s5)) in *.
    assert (G6 : grown s s6 (Some cv :: held)).
    { assert (G : grown s5 s6 []).
      { unfold s6. destruct exit; [apply plain_grown; repeat split|].
        assert (Gi : grown s5 (append_instr INop s5) []) by (apply append_instr_grown; intros d W; discriminate).
        apply (grown_trans _ _ _ [] [] Gi). apply plain_grown. repeat split. }
      pose proof (grown_trans _ _ _ _ _ G5 G) as Gx. rewrite app_nil_r in Gx. exact Gx. }
    match goal with H : context [release (Some cv) ?x] |- _ => set (s7 := x) in * end.
    assert (G7 : grown s s7 (Some cv :: held)).
    { unfold s7. apply patches_grown.
      - apply patch_grown; auto. rewrite bare_len. apply quiets_len. apply (g_quiet _ _ _ G1).
      - intros g Ig. rewrite bare_len. apply (select_gotos _ IH exit dest ts s s3 tgts gotos s4 (Some cv :: held)); auto. }
    destruct (release (Some cv) s7) as [s8|] eqn:E8; [|discriminate]. injection H as <- <-.
    pose proof (release_grown _ _ _ _ _ G7 E8) as G8. subst held. destruct exit; auto.
    apply (grown_times _ _ [] [None]); auto. intros d [F|F]; [discriminate|destruct F].
  - (* access *)
    destruct (compile k false o s) as [[[v|] s1]|] eqn:E1; try discriminate.
    pose proof (IH _ _ _ _ _ R E1) as G1.
    destruct (new_local s1) as [d s2] eqn:N. destruct (release (Some v) _) as [s3|] eqn:E3; [|discriminate]. injection H as <- <-.
    apply (finish_grown exit (fun d => IAccess isS v t d) [v] s s1 d s2); auto. cbn [releases]. rewrite E3. reflexivity.
  - (* func *)
    destruct (merge_func scope b) as [nargs b']. destruct (get_vars scope s) as [svs|]; [|discriminate].
    destruct (push_block s) as [blk s1] eqn:Eb. unfold push_block in Eb. injection Eb as <- <-.
    destruct (compile k true b' _) as [[rf fs]|]; [|discriminate].
    destruct (exit_block true fs) as [fs1|]; [|discriminate]. destruct (release rf fs1) as [fs2|]; [|discriminate].
    destruct (free_scope fs2) as [fs3|]; [|discriminate].
    match goal with H : context [new_local ?x] |- _ => set (s2 := x) in *; destruct (new_local s2) as [d s3] eqn:N end.
    injection H as <- <-.
    assert (P : plain s s2) by (repeat split).
    match goal with |- grown s (compile_exit _ _ (append_instr ?i s3)) _ => set (ins := i) end.
    apply (grown_trans s s2 _ [] [Some (Local d)] (plain_grown _ _ P)).
    apply (finish_grown exit (fun _ => ins) [] s2 s2 d s3); auto. apply grown_refl.
  - (* apply *)
    destruct (spine (TApply f a) []) as [h args] eqn:Sp.
    destruct (compile k false h s) as [[[fv|] s1]|] eqn:E1; try discriminate.
    pose proof (IH _ _ _ _ _ R E1) as G1. pose proof (grown_vranged _ _ _ G1 R) as R1.
    destruct (compile_list (compile k) (rev args) s1) as [[ravs s2]|] eqn:E2; [|discriminate].
    pose proof (compile_list_grown _ IH _ _ _ _ R1 E2) as G2.
    pose proof (grown_trans _ _ _ _ _ G1 G2) as G12.
    destruct (if exit then (0, s2) else new_local s2) as [dest s3] eqn:E3.
    set (s4 := new_basic_block (append_instr (if exit then ITail fv (rev ravs) else ICall fv (rev ravs) dest) s3)) in *.
    assert (G4 : grown s s4 ([Some fv] ++ map Some ravs ++ (if exit then [] else [Some (Local dest)]))).
    { rewrite app_assoc. apply (grown_trans s s2 s4); auto.
      assert (P : forall i, plain (append_instr i s3) (new_basic_block (append_instr i s3))) by (intros; repeat split).
      unfold s4. destruct exit.
      - injection E3 as _ <-. apply (grown_trans _ (append_instr (ITail fv (rev ravs)) s2) _ [] []); [|apply plain_grown; apply P].
        apply append_instr_grown. intros d W. discriminate.
      - apply (grown_trans _ (append_instr (ICall fv (rev ravs) dest) s3) _ [Some (Local dest)] []); [|apply plain_grown; apply P].
        apply (new_instr_grown s2 dest s3); auto. }
    destruct (release (Some fv) s4) as [s5|] eqn:E5; [|discriminate].
    pose proof (release_grown _ _ _ _ _ G4 E5) as G5.
    destruct (releases (rev ravs) s5) as [s6|] eqn:E6; [|discriminate]. injection H as <- <-.
    assert (G5' : grown s s5 (map Some (rev ravs) ++ (if exit then [] else [Some (Local dest)]))).
    { eapply grown_times; [exact G5|intros d; rewrite !times_app, map_rev, times_rev; reflexivity|].
      pose proof (g_range _ _ _ G5) as Rg. intros d I. apply Rg. rewrite map_rev in I. rewrite in_app_iff in *. rewrite <- in_rev in I. exact I. }
    pose proof (releases_grown _ _ _ _ _ G5' E6) as G6. destruct exit; auto.
    apply (grown_times _ _ [] [None]); auto. intros d [F|F]; [discriminate|destruct F].
  - (* list *)
    destruct (compile_list (compile k) fs s) as [[vs s1]|] eqn:E1; [|discriminate].
    pose proof (compile_list_grown _ IH _ _ _ _ R E1) as G1.
    destruct (new_local s1) as [d s2] eqn:N.
    destruct (releases vs _) as [s3|] eqn:E3; [|discriminate]. injection H as <- <-.
    apply (finish_grown exit (IList vs) vs s s1 d s2); auto.
  - (* literal *)
    destruct (new_local s) as [d s1] eqn:N. injection H as <- <-.
    apply (finish_grown exit (ILiteral ls) [] s s d s1); auto. apply grown_refl.
Qed.

(** ** C20 *)

(** What is in use stays as it is: the code compiled for an expression writes no slot with
    references, and afterwards every slot has the references it had, plus one for the
    result. *)
Theorem slots_in_use_kept : forall k exit e s r s', ranged s (vars s) -> compile k exit e s = Some (r, s') ->
  (exists new, bare s' = bare s ++ new /\ forall i d, In i new -> writes i = Some d -> nth d (slots s) 0 = 0) /\
  (forall d, nth d (slots s') 0 = nth d (slots s) 0 + (match r with Some (Local i) => if i =? d then 1 else 0 | _ => 0 end)).
Proof.
  intros k exit e s r s' R H. destruct (compile_slots _ _ _ _ _ _ R H) as [V L U _ [seg [Q1 Q2]]]. split.
  - exists seg. split; auto. intros i d I W. rewrite Forall_forall in Q2. apply (Q2 i I d W).
  - intros d. specialize (U d). unfold uses in U. rewrite U. destruct r as [[i|i|i]|]; cbn; lia.
Qed.

(** In a state where the slots of the variables in scope are in use (it is so at the start
    of a function, and stays so), a well scoped expression can be compiled, its code
    writes to no slot of a variable in scope, and the slot of its result is in use, so that
    the code for what comes next does not write there either. *)
Theorem variables_kept : forall k exit e bs s, size e <= k -> wf (length (srefs s)) (length (arefs s)) bs e = true ->
  envok bs s -> inv s ->
  exists r s' new, compile k exit e s = Some (r, s') /\ bare s' = bare s ++ new /\
    (forall i d, In i new -> writes i = Some d -> ~ In (Some (Local d)) (vars s)) /\
    (forall d, r = Some (Local d) -> 0 < nth d (slots s') 0) /\
    vars s' = vars s /\ envok bs s' /\ inv s'.
Proof.
  intros k exit e bs s Sz W Ev Iv.
  assert (Hc : forall s t f g xs ys, srel s t -> vrel f g -> Forall2 vrel xs ys -> rrel (icall 0 s f xs) (ecall 0 t g ys)) by apply call_rel.
  destruct (compile_spec _ _ Hc 0 [] [] [] [] (Forall2_nil _) (Forall2_nil _) [] k exit e Sz bs s W Ev Iv) as [r [s' [E [_ [St _]]]]].
  assert (R : ranged s (vars s)).
  { intros d I. destruct Iv as [_ [_ Iv]]. apply In_nth_error in I. destruct I as [i I]. apply (Iv i _ I). }
  destruct (slots_in_use_kept _ _ _ _ _ _ R E) as [[new [B Q]] U].
  exists r, s', new. split; auto. split; auto. split.
  { intros i d I Wd Iv'. specialize (Q i d I Wd). destruct Iv as [_ [Iv _]]. specialize (Iv (Local d)). cbn [cnt] in Iv. rewrite Q in Iv.
    clear -Iv Iv'. assert (O : 0 < occ (Local d) (vars s)); [|lia]. clear Iv. induction (vars s) as [|[v|] l IH]; [destruct Iv'| |].
    - cbn [occ]. destruct Iv' as [E|I]; [injection E as ->; destruct (var_dec (Local d) (Local d)); [lia|congruence]|]. specialize (IH I). lia.
    - cbn [occ]. destruct Iv' as [E|I]; [discriminate|]. auto. }
  split. { intros d ->. rewrite U, Nat.eqb_refl. lia. }
  split; [apply (e_vars _ _ (x_ext _ _ _ St))|]. split; [eapply envok_ext; [apply (x_ext _ _ _ St)|auto]|]. eapply static_inv; eauto.
Qed.

(** The start of a function. *)
Theorem function_start : forall na ns b bst bn, inv (init_scope na ns b bst bn) /\ envok [] (init_scope na ns b bst bn).
Proof. intros. apply init_inv. Qed.

(** Slots are reused: here the struct [Unit] is written to slot 1 after slot 1 held the
    first binding of the inner let, but never to slot 0, which holds the outer variable. *)
Example slot_reused :
  match compile_code 0 (TLet false [TStruct []] (TStruct [TLet false [TUnion 0 (TVar (Local 0))] (TAccess false (TVar (Local 1)) 0); TLet false [TUnion 1 (TVar (Local 0))] (TVar (Local 1))])) with
  | Some (c, _) => map (fun i => writes (snd i)) (code_instrs c) = [Some 0; Some 1; Some 2; Some 1; Some 3; None] /\ code_num_locals c = 4
  | None => False
  end.
Proof. vm_compute. auto. Qed.
