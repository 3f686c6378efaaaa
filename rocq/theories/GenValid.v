(** * The generated C is C: it can be generated and the C compiler and linker accept its names,
    labels and switches (C49). *)
From Coq Require Import ZArith List Arith Lia Bool.
From Verif Require Import PathModel PathProps LoadModel FuncModel CodeModel CodeProps CompileModel CompileEval CompileStatic LinkModel GenModel GenLabel GenCode GenRun GenProg.
Import ListNotations.

(** ** What the C compiler checks *)

Definition label_of (x : stmt) : list nat := match x with CLabel q => [q] | _ => [] end.
Definition exe_of (x : stmt) : list nat := match x with CStaticExe q _ => [q] | _ => [] end.
Definition lit_of (x : stmt) : list nat := match x with CStaticLit q _ => [q] | _ => [] end.
Definition fv_of (x : stmt) : list nat := match x with CFvArray q _ _ => [q] | _ => [] end.
Definition ca_of (x : stmt) : list nat := match x with CCaArray q _ _ => [q] | _ => [] end.
(** The labels a statement jumps to. *)
Definition gotos_of (x : stmt) : list nat := match x with CGoto q => [q] | CSwitch _ cs d => map snd cs ++ [d] | _ => [] end.

(** The body of a function, in a file that declares the functions [protos]. *)
Record valid_body (protos : list str) (b : list stmt) : Prop := {
  (** Labels, static variables and arrays are declared once. *)
  v_labels : NoDup (flat_map label_of b);
  v_exes : NoDup (flat_map exe_of b);
  v_lits : NoDup (flat_map lit_of b);
  v_fvs : NoDup (flat_map fv_of b);
  v_cas : NoDup (flat_map ca_of b);
  (** A label is followed by a statement, not by a declaration or the end of the block. *)
  v_label_stmt : forall a q r, b = a ++ CLabel q :: r -> exists ops r', r = CProfile ops :: r';
  (** Jumps go to labels that exist, further down. *)
  v_gotos : forall a x r q, b = a ++ x :: r -> In q (gotos_of x) -> In q (flat_map label_of r);
  (** The cases of a switch are different. *)
  v_cases : forall c cs d, In (CSwitch c cs d) b -> NoDup (map fst cs);
  (** Executables refer to functions that are declared. *)
  v_runs : forall q x, In (CStaticExe q x) b -> In (x_run x) protos }.

(** A C file. *)
Record valid_c (t : tunit) : Prop := {
  v_label : identifier (t_label t);
  v_deps : Forall identifier (t_deps t);
  v_names : Forall identifier (t_protos t);
  (** The functions declared are those defined, each once. *)
  v_defined : t_protos t = map f_name (t_funs t);
  v_once : NoDup (t_protos t);
  v_exe : In (x_run (t_exe t)) (t_protos t);
  v_bodies : Forall (fun f => valid_body (t_protos t) (f_body f)) (t_funs t) }.

(** ** Proofs *)
Lemma emit_range : forall names size l pc jt e li b, emit names size pc jt e li l = Some b ->
  (forall q, In q (flat_map label_of b) -> pc <= q) /\ (forall q, In q (flat_map exe_of b) -> e <= q) /\ (forall q, In q (flat_map lit_of b) -> li <= q) /\
  (forall q, In q (flat_map fv_of b) -> pc <= q) /\ (forall q, In q (flat_map ca_of b) -> pc <= q) /\
  NoDup (flat_map label_of b) /\ NoDup (flat_map exe_of b) /\ NoDup (flat_map lit_of b) /\ NoDup (flat_map fv_of b) /\ NoDup (flat_map ca_of b).
Proof.
  intros names size l. induction l as [|[ops i] l IH]; intros pc jt e li b E; cbn [emit] in E.
  - injection E as <-. cbn. repeat split; try (intros q []); constructor.
  - destruct (forallb _ (jumps i)); [|discriminate]. destruct (emit_instr names pc e li i) as [x|] eqn:Ei; [|discriminate].
    destruct (emit names size (S pc) _ _ _ l) as [y|] eqn:Ey; [|discriminate]. injection E as <-.
    destruct (IH _ _ _ _ _ Ey) as [A1 [A2 [A3 [A4 [A5 [N1 [N2 [N3 [N4 N5]]]]]]]]]. clear IH Ey.
    assert (Hx : flat_map label_of x = [] /\ (flat_map exe_of x = [] \/ flat_map exe_of x = [e] /\ match i with IFunc _ _ _ _ => True | _ => False end) /\
      (flat_map lit_of x = [] \/ flat_map lit_of x = [li] /\ match i with ILiteral _ _ => True | _ => False end) /\
      (flat_map fv_of x = [] \/ flat_map fv_of x = [pc]) /\ (flat_map ca_of x = [] \/ flat_map ca_of x = [pc])).
    { destruct i; cbn [emit_instr] in Ei; try (injection Ei as <-; cbn; repeat split; auto; fail).
      - destruct is_struct; injection Ei as <-; cbn; auto 10.
      - destruct (symbol names (code_block c)); [|discriminate]. destruct (_ <=? _); [|discriminate]. injection Ei as <-. cbn. auto 10. }
    destruct Hx as [X1 [X2 [X3 [X4 X5]]]].
    set (hd := if existsb (Nat.eqb pc) jt then [CLabel pc] else []). set (pr := match ops with [] => [] | _ => [CProfile ops] end).
    assert (Hh : (flat_map label_of hd = [] \/ flat_map label_of hd = [pc]) /\ flat_map exe_of hd = [] /\ flat_map lit_of hd = [] /\ flat_map fv_of hd = [] /\ flat_map ca_of hd = []).
    { subst hd. destruct (existsb _ jt); cbn; auto 10. }
    assert (Hp : flat_map label_of pr = [] /\ flat_map exe_of pr = [] /\ flat_map lit_of pr = [] /\ flat_map fv_of pr = [] /\ flat_map ca_of pr = []).
    { subst pr. destruct ops; cbn; auto. }
    destruct Hh as [H1 [H2 [H3 [H4 H5]]]]. destruct Hp as [P1 [P2 [P3 [P4 P5]]]].
    rewrite !flat_map_app, X1, P1, P2, P3, P4, P5, H2, H3, H4, H5. cbn [app].
    assert (K : forall (l : list nat) (lo hi : nat) (x : list nat), (forall q, In q l -> hi <= q) -> NoDup l -> lo <= hi -> (x = [] \/ x = [lo] /\ lo < hi) ->
      (forall q, In q (x ++ l) -> lo <= q) /\ NoDup (x ++ l)).
    { intros z lo hi w Z N Le [->|[-> Lt]]; cbn; [split; auto; intros q I; specialize (Z q I); lia|].
      split; [intros q [<-|I]; [lia|specialize (Z q I); lia]|]. constructor; auto. intros I. specialize (Z _ I). lia. }
    destruct (K _ pc (S pc) (flat_map label_of hd) A1 N1 ltac:(lia) ltac:(destruct H1 as [->| ->]; auto)) as [C1 D1].
    destruct (K _ e _ (flat_map exe_of x) A2 N2 ltac:(destruct i; lia) ltac:(destruct X2 as [->|[-> Z]]; auto; right; split; auto; destruct i; try contradiction; lia)) as [C2 D2].
    destruct (K _ li _ (flat_map lit_of x) A3 N3 ltac:(destruct i; lia) ltac:(destruct X3 as [->|[-> Z]]; auto; right; split; auto; destruct i; try contradiction; lia)) as [C3 D3].
    destruct (K _ pc (S pc) (flat_map fv_of x) A4 N4 ltac:(lia) ltac:(destruct X4 as [->| ->]; auto)) as [C4 D4].
    destruct (K _ pc (S pc) (flat_map ca_of x) A5 N5 ltac:(lia) ltac:(destruct X5 as [->| ->]; auto)) as [C5 D5].
    auto 12.
Qed.

(** Where a statement of the emission comes from. *)
Lemma emit_split : forall names L body pc jt e li pre rest a x r, at_pc names L body pc jt e li pre rest -> rest = a ++ x :: r ->
  exists q ops i jt' e' li' pre' h u v, at_pc names L body q jt' e' li' pre' (head_of q jt' ops ++ h ++ v) /\ pc <= q /\
    nth_error L q = Some (ops, i) /\ emit_instr names q e' li' i = Some h /\ (forall t, In t jt -> In t jt') /\
    head_of q jt' ops ++ h = u ++ x :: firstn (length r - length v) r /\ r = firstn (length r - length v) r ++ v.
Proof.
  intros names L body pc. remember (length L - pc) as n eqn:Hn. revert pc Hn. induction n as [|n IH]; intros pc Hn jt e li pre rest a x r A E.
  - destruct A as [Em _ _ _ _ _]. rewrite skipn_all2 in Em by lia. cbn in Em. injection Em as <-. destruct a; discriminate.
  - destruct (nth_error L pc) as [[ops i]|] eqn:N; [|apply nth_error_None in N; lia].
    destruct (at_next _ _ _ _ _ _ _ _ _ _ _ A N) as [h [rest' [Eh [Er [A' _]]]]].
    destruct (Nat.lt_ge_cases (length a) (length (head_of pc jt ops ++ h))) as [Lt|Ge].
    + exists pc, ops, i, jt, e, li, pre, h, a, rest'. rewrite <- Er. split; auto. split; auto. split; auto. split; auto. split; auto.
      rewrite E in Er. rewrite app_assoc in Er. revert Er Lt. generalize (head_of pc jt ops ++ h) as z. intros z Er Lt.
      assert (Z : z = a ++ x :: firstn (length z - S (length a)) r /\ r = firstn (length z - S (length a)) r ++ rest').
      { clear -Er Lt. revert z Er Lt. induction a as [|y a IHa]; intros z Er Lt; destruct z as [|w z]; cbn [length app] in *; try lia.
        - injection Er as -> ->. cbn. rewrite Nat.sub_0_r, firstn_app, Nat.sub_diag, firstn_all. cbn. rewrite app_nil_r. auto.
        - injection Er as -> Er. destruct (IHa z Er ltac:(lia)) as [Z1 Z2]. replace (S (length z) - S (S (length a))) with (length z - S (length a)) by lia. split; [congruence|auto]. }
      destruct Z as [Z1 Z2]. assert (Lr : length z - S (length a) = length r - length rest').
      { apply (f_equal (@length _)) in Er. rewrite !app_length in Er. cbn in Er. lia. }
      rewrite <- Lr. auto.
    + assert (Ea : exists a', a = (head_of pc jt ops ++ h) ++ a' /\ rest' = a' ++ x :: r).
      { rewrite E in Er. rewrite app_assoc in Er. revert Er Ge. generalize (head_of pc jt ops ++ h) as z. clear. intros z. revert a. induction z as [|y z IHz]; intros a Er Ge; cbn [app length] in *.
        - exists a. auto.
        - destruct a as [|w a]; cbn [length app] in *; [lia|]. injection Er as -> Er. destruct (IHz a Er ltac:(lia)) as [a' [-> Q]]. exists a'. auto. }
      destruct Ea as [a' [-> Er']]. destruct (IH (S pc) ltac:(lia) _ _ _ _ _ _ _ _ A' Er') as [q [ops' [i' [jt' [e' [li' [pre' [h' [u [v [B [Lq [Nq [Eq [J [H1 H2]]]]]]]]]]]]]]]].
      exists q, ops', i', jt', e', li', pre', h', u, v. split; auto. split; [lia|]. split; auto. split; auto. split; [intros t It; apply J, in_or_app; auto|]. auto.
Qed.

(** Jump targets are collected for a reason. *)
Lemma at_start : forall names c b, emit names (length (code_instrs c)) 0 [] 0 0 (code_instrs c) = Some b ->
  at_pc names (code_instrs c) b 0 [] 0 0 [] b.
Proof. intros names c b E. constructor; auto; try constructor. intros q ops i t Lq. lia. Qed.

(** [jt] has only targets. *)
Lemma emit_labels : forall names size l pc jt e li b q, emit names size pc jt e li l = Some b -> In q (flat_map label_of b) ->
  In q jt \/ exists n ops i, nth_error l n = Some (ops, i) /\ In q (jumps i).
Proof.
  intros names size l. induction l as [|[ops i] l IH]; intros pc jt e li b q E I; cbn [emit] in E; [injection E as <-; destruct I|].
  destruct (forallb _ (jumps i)); [|discriminate]. destruct (emit_instr names pc e li i) as [x|] eqn:Ei; [|discriminate].
  destruct (emit names size (S pc) _ _ _ l) as [y|] eqn:Ey; [|discriminate]. injection E as <-.
  rewrite !flat_map_app in I. apply in_app_or in I. destruct I as [I|I].
  - destruct (existsb (Nat.eqb pc) jt) eqn:Ex; [|destruct I]. destruct I as [<-|[]]. apply existsb_exists in Ex. destruct Ex as [z [Iz Ez]]. apply Nat.eqb_eq in Ez. subst. auto.
  - apply in_app_or in I. destruct I as [I|I]; [destruct ops; destruct I|]. apply in_app_or in I. destruct I as [I|I].
    + exfalso. destruct i; cbn [emit_instr] in Ei; try (injection Ei as <-; cbn in I; tauto).
      * destruct is_struct; injection Ei as <-; cbn in I; tauto.
      * destruct (symbol names (code_block c)); [|discriminate]. destruct (_ <=? _); [|discriminate]. injection Ei as <-. cbn in I. tauto.
    + destruct (IH _ _ _ _ _ q Ey I) as [J|[n [ops' [i' [N J]]]]].
      * apply in_app_or in J. destruct J as [J|J]; [|auto]. right. exists 0, ops, i. auto.
      * right. exists (S n), ops', i'. auto.
Qed.

Lemma sorted_nodup : forall ts, sorted_targets ts -> NoDup (map fst ts).
Proof.
  intros ts So. apply NoDup_nth_error. intros i j Li E. rewrite map_length in Li. rewrite !nth_error_map in E.
  destruct (nth_error ts i) as [x|] eqn:Ei; [|apply nth_error_None in Ei; lia]. destruct (nth_error ts j) as [y|] eqn:Ej; [|discriminate].
  cbn in E. injection E as E. destruct (Nat.lt_trichotomy i j) as [Lt|[->|Lt]]; auto.
  - specialize (So i j _ _ Lt Ei Ej). lia.
  - specialize (So j i _ _ Lt Ej Ei). lia.
Qed.

Lemma body_valid : forall names c b protos, flat_ok c -> emit names (length (code_instrs c)) 0 [] 0 0 (code_instrs c) = Some b ->
  (forall ops d off c' sc f, In (ops, IFunc d off c' sc) (code_instrs c) -> symbol names (code_block c') = Some f -> In f protos) ->
  valid_body protos b.
Proof.
  intros names c b protos Fl E Pr. destruct (emit_range _ _ _ _ _ _ _ _ E) as [_ [_ [_ [_ [_ [N1 [N2 [N3 [N4 N5]]]]]]]]].
  pose proof (at_start _ _ _ E) as A0. constructor; auto.
  - (* labels *) intros a q r Eb.
    assert (Iq : In q (flat_map label_of b)) by (rewrite Eb, flat_map_app; apply in_or_app; right; left; auto).
    destruct (emit_labels _ _ _ _ _ _ _ _ q E Iq) as [[]|[n [ops0 [i0 [Nn Jn]]]]].
    destruct (Fl _ _ _ Nn) as [Fj _]. destruct (Fj q Jn) as [_ [opsq [iq [Nq Ne]]]].
    destruct (emit_split _ _ _ _ _ _ _ _ _ a (CLabel q) r A0 Eb) as [p [ops [i [jt' [e' [li' [pre' [h [u [v [B [_ [Np [Eh [_ [H1 H2]]]]]]]]]]]]]]]].
    assert (Hh : flat_map label_of h = []).
    { destruct i; cbn [emit_instr] in Eh; try (injection Eh as <-; reflexivity); [destruct is_struct; injection Eh as <-; reflexivity|].
      destruct (symbol names (code_block c0)); [|discriminate]. destruct (_ <=? _); [|discriminate]. injection Eh as <-. reflexivity. }
    unfold head_of in H1. destruct (existsb (Nat.eqb p) jt').
    + assert (Qp : u = [] /\ q = p).
      { destruct u as [|y u]; cbn [app] in H1; [injection H1; intros; subst; auto|]. exfalso. injection H1 as _ H1.
        assert (Z : In q (flat_map label_of ((match ops with [] => [] | _ => [CProfile ops] end) ++ h))).
        { rewrite H1, flat_map_app. apply in_or_app. right. left. reflexivity. }
        rewrite flat_map_app, Hh, app_nil_r in Z. destruct ops; destruct Z. }
      destruct Qp as [-> <-]. rewrite Np in Nq. injection Nq as <- <-. cbn [app] in H1. injection H1 as H1. destruct ops as [|o ops]; [congruence|].
      cbn [app] in H1. rewrite H2, <- H1. cbn [app]. eauto.
    + exfalso. assert (Z : In q (flat_map label_of ((match ops with [] => [] | _ => [CProfile ops] end) ++ h))).
      { cbn [app] in H1. rewrite H1, flat_map_app. apply in_or_app. right. left. reflexivity. }
      rewrite flat_map_app, Hh, app_nil_r in Z. destruct ops; destruct Z.
  - (* gotos *) intros a x r q Eb Iq.
    destruct (emit_split _ _ _ _ _ _ _ _ _ a x r A0 Eb) as [p [ops [i [jt' [e' [li' [pre' [h [u [v [B [_ [Np [Eh [_ [H1 H2]]]]]]]]]]]]]]]].
    assert (Iu : In x (head_of p jt' ops ++ h)) by (rewrite H1; apply in_or_app; right; left; auto).
    assert (Ji : In q (jumps i)).
    { apply in_app_or in Iu. destruct Iu as [Iu|Iu].
      - exfalso. unfold head_of in Iu. destruct (existsb _ jt'), ops; cbn in Iu; intuition; subst; destruct Iq.
      - destruct i; cbn [emit_instr] in Eh; try (injection Eh as <-; cbn in Iu; intuition; subst; (exact Iq || destruct Iq)).
        + destruct is_struct; injection Eh as <-; cbn in Iu; intuition; subst; destruct Iq.
        + destruct (symbol names (code_block c0)); [|discriminate]. destruct (_ <=? _); [|discriminate]. injection Eh as <-. cbn in Iu; intuition; subst; destruct Iq. }
    rewrite H2, flat_map_app. apply in_or_app. right.
    destruct (at_next _ _ _ _ _ _ _ _ _ _ _ B Np) as [h2 [rest2 [Eh2 [Er2 [A2 Rg]]]]]. rewrite Eh in Eh2. injection Eh2 as <-.
    apply app_inv_head in Er2. apply app_inv_head in Er2. subst rest2. specialize (Rg q Ji).
    (* the place of the target is in v *)
    clear -A2 Rg Ji. assert (Ij : In q (jumps i ++ jt')) by (apply in_or_app; auto). revert A2 Ij.
    generalize (jumps i ++ jt') as jt, (match i with IFunc _ _ _ _ => S e' | _ => e' end) as e, (match i with ILiteral _ _ => S li' | _ => li' end) as li, (pre' ++ head_of p jt' ops ++ h) as pre.
    remember (q - S p) as n eqn:Hn. clear Ji i. destruct Rg as [R1 R2]. revert v p Hn R1. induction n as [|n IH]; intros v p Hn R1 jt e li pre A2 Ij.
    + assert (q = S p) by lia. subst q. destruct (nth_error (code_instrs c) (S p)) as [[ops' i']|] eqn:N; [|apply nth_error_None in N; lia].
      destruct (at_next _ _ _ _ _ _ _ _ _ _ _ A2 N) as [h2 [rest2 [_ [-> _]]]]. unfold head_of. replace (existsb (Nat.eqb (S p)) jt) with true.
      * left. reflexivity.
      * symmetry. apply existsb_exists. exists (S p). split; auto. apply Nat.eqb_refl.
    + destruct (nth_error (code_instrs c) (S p)) as [[ops' i']|] eqn:N; [|apply nth_error_None in N; lia].
      destruct (at_next _ _ _ _ _ _ _ _ _ _ _ A2 N) as [h2 [rest2 [_ [-> [A3 _]]]]]. rewrite !flat_map_app. apply in_or_app. right. apply in_or_app. right.
      eapply (IH rest2 (S p)); [lia|lia|exact A3|]. apply in_or_app. auto.
  - (* cases *) intros cd cs d I. apply in_split in I. destruct I as [a [r Eb]].
    destruct (emit_split _ _ _ _ _ _ _ _ _ a _ r A0 Eb) as [p [ops [i [jt' [e' [li' [pre' [h [u [v [B [_ [Np [Eh [_ [H1 H2]]]]]]]]]]]]]]]].
    assert (Iu : In (CSwitch cd cs d) (head_of p jt' ops ++ h)) by (rewrite H1; apply in_or_app; right; left; auto).
    apply in_app_or in Iu. destruct Iu as [Iu|Iu].
    + exfalso. unfold head_of in Iu. destruct (existsb _ jt'), ops; cbn in Iu; intuition; discriminate.
    + destruct i; cbn [emit_instr] in Eh; try (injection Eh as <-; cbn in Iu; intuition; discriminate).
      * destruct is_struct; injection Eh as <-; cbn in Iu; intuition; discriminate.
      * injection Eh as <-. destruct Iu as [Iu|[]]. injection Iu as -> -> ->. destruct (Fl _ _ _ Np) as [_ [So _]]. apply sorted_nodup. eapply So; eauto.
      * destruct (symbol names (code_block c0)); [|discriminate]. destruct (_ <=? _); [|discriminate]. injection Eh as <-. cbn in Iu; intuition; discriminate.
  - (* executables *) intros q x I. apply in_split in I. destruct I as [a [r Eb]].
    destruct (emit_split _ _ _ _ _ _ _ _ _ a _ r A0 Eb) as [p [ops [i [jt' [e' [li' [pre' [h [u [v [B [_ [Np [Eh [_ [H1 H2]]]]]]]]]]]]]]]].
    assert (Iu : In (CStaticExe q x) (head_of p jt' ops ++ h)) by (rewrite H1; apply in_or_app; right; left; auto).
    apply in_app_or in Iu. destruct Iu as [Iu|Iu].
    + exfalso. unfold head_of in Iu. destruct (existsb _ jt'), ops; cbn in Iu; intuition; discriminate.
    + destruct i; cbn [emit_instr] in Eh; try (injection Eh as <-; cbn in Iu; intuition; discriminate).
      * destruct is_struct; injection Eh as <-; cbn in Iu; intuition; discriminate.
      * destruct (symbol names (code_block c0)) as [f|] eqn:Sy; [|discriminate]. destruct (_ <=? _); [|discriminate]. injection Eh as <-.
        destruct Iu as [Iu|[Iu|[Iu|[]]]]; try discriminate. injection Iu as <- <-. cbn [x_run]. eapply Pr; [eapply nth_error_In; exact Np|exact Sy].
Qed.

(** ** Generation succeeds *)
Lemma emit_total : forall names c, flat_ok c -> (forall ops d off c' sc, In (ops, IFunc d off c' sc) (code_instrs c) -> exists f, symbol names (code_block c') = Some f) ->
  forall n pc jt e li, length (code_instrs c) - pc <= n -> exists b, emit names (length (code_instrs c)) pc jt e li (skipn pc (code_instrs c)) = Some b.
Proof.
  intros names c Fl Sy. induction n as [|n IH]; intros pc jt e li Le.
  - rewrite skipn_all2 by lia. cbn. eauto.
  - destruct (nth_error (code_instrs c) pc) as [[ops i]|] eqn:N.
    2:{ apply nth_error_None in N. rewrite skipn_all2 by lia. cbn. eauto. }
    rewrite (skipn_nth _ _ _ N). cbn [emit]. destruct (Fl _ _ _ N) as [Fj [_ Fs]].
    replace (forallb (fun t => (pc <? t) && (t <? length (code_instrs c))) (jumps i)) with true.
    2:{ symmetry. apply forallb_forall. intros t It. destruct (Fj t It) as [L1 [ops' [i' [Nt _]]]]. apply andb_true_iff. rewrite !Nat.ltb_lt. split; auto. apply nth_error_Some. congruence. }
    destruct (IH (S pc) (jumps i ++ jt) (match i with IFunc _ _ _ _ => S e | _ => e end) (match i with ILiteral _ _ => S li | _ => li end) ltac:(lia)) as [y Ey]. rewrite Ey.
    assert (Ex : exists x, emit_instr names pc e li i = Some x).
    { destruct i; cbn [emit_instr]; eauto; [destruct is_struct; eauto|]. destruct (Sy _ _ _ _ _ (nth_error_In _ _ N)) as [f ->].
      rewrite (Fs _ _ _ _ eq_refl), Nat.leb_refl. eauto. }
    destruct Ex as [x ->]. eauto.
Qed.

Lemma symbol_total : forall names b, Forall ascii names -> b < length names -> exists f, symbol names b = Some f.
Proof.
  intros names b F Lt. unfold symbol. destruct (nth_error names b) as [s|] eqn:E; [|apply nth_error_None in E; lia].
  rewrite Forall_forall in F. pose proof (F _ (nth_error_In _ _ E)) as A.
  destruct (proj1 (sanitize_ascii s ltac:(eapply Forall_impl; [|exact A]; cbn; intros; lia)) A) as [x ->]. eauto.
Qed.

(** C can be generated for every module the compiler makes, if its path, those of its
    dependencies and the names of its profile blocks are ASCII. *)
Theorem generation_succeeds : forall nargs e m nblocks names, wf 0 nargs [] e = true -> compile_code nargs e = Some (c_code m, nblocks) ->
  nblocks <= length names -> Forall ascii names ->
  Forall path_ok (c_path m :: c_deps m) -> Forall ascii_path (c_path m :: c_deps m) ->
  exists t, generate names m = Some t.
Proof.
  intros nargs e m nblocks names W E Nb As Pk Ap. destruct (compiled_gen_ok _ _ _ _ W E) as [Go [_ Bl]].
  inversion Pk as [|? ? Pk1 Pk2]; subst. inversion Ap as [|? ? Ap1 Ap2]; subst.
  assert (Sy : forall c, In c (collect (c_code m)) -> exists f, symbol names (code_block c) = Some f).
  { intros c I. apply symbol_total; auto. rewrite Forall_forall in Bl. specialize (Bl (code_block c) (in_map _ _ _ I)). lia. }
  unfold generate. cbv zeta. destruct (proj1 (label_ascii _ Pk1) Ap1) as [l ->].
  destruct (all_some_total label_for_path (c_deps m)) as [ds ->].
  { intros p I. rewrite Forall_forall in Pk2, Ap2. apply label_ascii; auto. }
  destruct (Sy _ (collect_self _)) as [f ->]. destruct (all_some_total (fun c => symbol names (code_block c)) (collect (c_code m)) Sy) as [ps ->].
  destruct (all_some_total (emit_code names) (collect (c_code m))) as [fs ->]; [|eauto].
  intros c I. unfold emit_code. destruct (Sy c I) as [g ->]. pose proof (gen_ok_in _ _ _ (le_n _) Go I) as Gc. inversion Gc as [? Fl _]; subst.
  destruct (emit_total names c Fl) with (n := length (code_instrs c)) (pc := 0) (jt := @nil nat) (e := 0) (li := 0) as [b Eb]; [|lia|cbn [skipn] in Eb; rewrite Eb; eauto].
  intros ops d off c' sc Ii. apply Sy. eapply collect_trans; [apply le_n|exact I|]. eapply collect_in; [exact Ii|apply collect_self].
Qed.

(** And the result is C.  (The names of profile blocks start with the path of the module:
    lib/compile.c:716-791.) *)
Theorem generated_c_is_valid : forall nargs e m nblocks (names : list str) t, wf 0 nargs [] e = true -> compile_code nargs e = Some (c_code m, nblocks) ->
  Forall (fun s : str => exists r, s = 47%Z :: r \/ s = 37%Z :: r) names ->
  generate names m = Some t -> valid_c t.
Proof.
  intros nargs e m nblocks names t W E Sl G. destruct (compiled_gen_ok _ _ _ _ W E) as [Go [Nd _]]. pose proof (generate_parts _ _ _ G) as P.
  assert (Ef : t_protos t = map f_name (t_funs t)).
  { pose proof (p_protos _ _ _ P) as Pp. pose proof (p_funs _ _ _ P) as Pf. revert Pp Pf. generalize (t_protos t) as ps, (t_funs t) as fs, (collect (c_code m)) as cs. clear.
    intros ps fs cs. revert ps fs. induction cs as [|c cs IH]; intros ps fs Pp Pf; inversion Pp; inversion Pf; subst; auto. cbn. f_equal; auto.
    match goal with H : emit_code _ _ = _ |- _ => apply emit_code_name in H; congruence end. }
  assert (Ip : forall c s, In c (collect (c_code m)) -> symbol names (code_block c) = Some s -> In s (t_protos t)).
  { pose proof (p_protos _ _ _ P) as Pp. clear -Pp. induction Pp as [|x y l l' H F IH]; intros c s I Es; [destruct I|]. destruct I as [->|I]; [left; congruence|right; eauto]. }
  constructor; auto.
  - eapply label_identifier. apply (p_label _ _ _ P).
  - pose proof (p_deps _ _ _ P) as Pd. clear -Pd. induction Pd; constructor; auto. eapply label_identifier; eauto.
  - pose proof (p_protos _ _ _ P) as Pp. clear -Pp Sl. induction Pp as [|x y l l' H F IH]; constructor; auto.
    destruct (nth_error names (code_block x)) as [s|] eqn:N; [|unfold symbol in H; rewrite N in H; discriminate].
    eapply symbol_identifier; eauto. rewrite Forall_forall in Sl. apply Sl. eapply nth_error_In; eauto.
  - pose proof (p_protos _ _ _ P) as Pp. clear -Pp Nd. induction Pp as [|x y l l' H F IH]; [constructor|]. cbn [map] in Nd. inversion Nd as [|? ? Ni Nd']; subst. constructor; auto.
    intros I. apply Ni. clear -H F I. induction F as [|a b l l' Ha F IH]; [destruct I|]. destruct I as [->|I]; [left; eapply symbols_distinct; eauto|right; auto].
  - eapply Ip; [apply collect_self|apply (p_run _ _ _ P)].
  - pose proof (p_funs _ _ _ P) as Pf.
    assert (H : forall c f, In c (collect (c_code m)) -> emit_code names c = Some f -> valid_body (t_protos t) (f_body f)).
    { intros c f I Ec. pose proof (gen_ok_in _ _ _ (le_n _) Go I) as Gc. inversion Gc as [? Fl _]; subst. unfold emit_code in Ec.
      destruct (symbol names (code_block c)); [|discriminate]. destruct (emit names _ 0 [] 0 0 _) as [b|] eqn:Eb; [|discriminate]. injection Ec as <-. cbn [f_body].
      apply (body_valid names c); auto. intros ops d off c' sc g Ii Sg. apply (Ip c'); auto. eapply collect_trans; [apply le_n|exact I|]. eapply collect_in; [exact Ii|apply collect_self]. }
    clear -H Pf. induction Pf as [|x y l l' Hx F IH]; constructor; auto.
    + apply (H x); auto. left. auto.
    + apply IH. intros c f I. apply H. right. auto.
Qed.

(** The C linker accepts the files of a program: modules with different names define different
    globals. *)
Theorem generated_globals_distinct : forall us : list (list str * cmodule * tunit),
  Forall (fun u => generate (fst (fst u)) (snd (fst u)) = Some (snd u) /\ path_ok (c_path (snd (fst u))) /\ no_slash (c_path (snd (fst u)))) us ->
  NoDup (map (fun u => map n_str (c_path (snd (fst u)))) us) -> NoDup (map (fun u => t_label (snd u)) us).
Proof.
  induction us as [|u us IH]; intros F N; cbn [map] in *; [constructor|]. inversion F as [|? ? [G [Pk Ns]] F']; subst. inversion N as [|? ? Ni N']; subst.
  constructor; auto. intros I. apply Ni. apply in_map_iff in I. destruct I as [v [Ev Iv]]. apply in_map_iff. exists v. split; auto.
  rewrite Forall_forall in F'. destruct (F' v Iv) as [G' [Pk' Ns']].
  pose proof (p_label _ _ _ (generate_parts _ _ _ G)) as L1. pose proof (p_label _ _ _ (generate_parts _ _ _ G')) as L2. rewrite Ev in L2.
  eapply labels_distinct; eauto.
Qed.
