(** * The labels of a generated assembly file are all different, and what the file is made of. *)
From Coq Require Import ZArith List Arith Lia Bool.
From Verif Require Import PathModel LoadModel FuncModel CodeModel CodeProps LinkModel GenModel GenLabel GenCode GenProg AsmModel AsmSearch.
Import ListNotations.

(** ** Run functions *)

(** Code blocks with different profile blocks have different names. *)
Theorem asm_symbols_distinct : forall names b c x, asm_symbol names b = Some x -> asm_symbol names c = Some x -> b = c.
Proof.
  intros names b c x Eb Ec. unfold asm_symbol in *.
  destruct (nth_error names b) as [s|]; [|discriminate]. destruct (nth_error names c) as [t|]; [|discriminate].
  destruct (sanitize s) as [y|]; [|discriminate]. destruct (sanitize t) as [z|]; [|discriminate]. injection Eb as <-. injection Ec as Eq.
  assert (L : forall (a a' h h' : list Z), ~ In 46%Z h -> ~ In 46%Z h' -> a ++ 46%Z :: h = a' ++ 46%Z :: h' -> h = h').
  { clear. induction a as [|c a IH]; intros a' h h' N N' E; destruct a' as [|c' a']; cbn in E.
    - injection E as E. auto.
    - exfalso. injection E as E1 E2. apply N. rewrite E2. apply in_or_app. right. left. auto.
    - exfalso. injection E as E1 E2. apply N'. rewrite <- E2. apply in_or_app. right. left. auto.
    - injection E as E1 E2. apply (IH a'); auto. }
  assert (H : forall w n, ~ In 46%Z (hex w n)).
  { intros w n I. pose proof (hex_alnum w n) as F. rewrite Forall_forall in F. apply F in I. discriminate I. }
  apply L in Eq; auto. apply hex_inj in Eq. auto.
Qed.

(** ** Labels *)

Lemma nodup_app : forall {A} (a b : list A), NoDup a -> NoDup b -> (forall x, In x a -> ~ In x b) -> NoDup (a ++ b).
Proof.
  intros A a b Na Nb D. induction Na as [|x a Ni Na IH]; [exact Nb|]. cbn. constructor.
  - intros I. apply in_app_or in I. destruct I as [I|I]; [auto|]. apply (D x); [left; auto|exact I].
  - apply IH. intros y I. apply D. right. auto.
Qed.

(** The function of a label, and the instruction. *)
Definition lab_fun (l : label) : option nat :=
  match l with
  | LPc f _ | LPp f _ | LExit f | LOut f _ _ | LSearch f _ _ | LExe f _ | LLetters f _ | LHigh f => Some f
  | _ => None
  end.
Definition body_pc (l : label) : option nat :=
  match l with LPc _ pc | LPp _ pc | LSearch _ pc _ | LExe _ pc | LLetters _ pc => Some pc | _ => None end.
Definition out_pc (l : label) : option nat := match l with LOut _ pc _ => Some pc | _ => None end.

Lemma store_args_labels : forall r vs i, labels_of (store_args r i vs) = [].
Proof. intros r. induction vs as [|v vs IH]; intros i; cbn; auto. Qed.

Lemma main_labels : forall names f pc i x, emit_main names f pc i = Some x ->
  NoDup (labels_of x) /\ forall l, In l (labels_of x) -> match l with LSearch g q _ | LExe g q | LLetters g q => g = f /\ q = pc | _ => False end.
Proof.
  intros names f pc i x E.
  assert (Nil : forall y, labels_of y = [] -> NoDup (labels_of y) /\ forall l, In l (labels_of y) -> match l with LSearch g q _ | LExe g q | LLetters g q => g = f /\ q = pc | _ => False end).
  { intros y ->. split; [constructor|intros l []]. }
  destruct i; cbn [emit_main] in E.
  - injection E as <-. apply Nil. cbn. rewrite labels_app, store_args_labels. reflexivity.
  - injection E as <-. apply Nil. reflexivity.
  - destruct is_struct; injection E as <-; apply Nil; reflexivity.
  - destruct (emit_search (length targets) f pc 0 num_tags targets default 0) as [[y lb]|] eqn:Es; [|discriminate]. injection E as <-.
    destruct (search_labels _ _ _ _ _ _ _ _ _ _ Es) as [_ [Nd A]]. cbn. split; [exact Nd|]. intros l I. destruct (A l I) as [n [-> _]]. auto.
  - injection E as <-. apply Nil. reflexivity.
  - destruct (asm_symbol names (code_block c)) as [g|]; [|discriminate]. destruct (code_num_statics c <=? length scope); [|discriminate]. injection E as <-.
    match goal with |- NoDup ?x /\ _ => assert (El : x = [LExe f pc]) by (rewrite ?labels_app; cbn; rewrite labels_app, store_args_labels; reflexivity) end.
    rewrite El. split; [constructor; [intros []|constructor]|]. intros l [<-|[]]. auto.
  - injection E as <-. apply Nil. cbn. rewrite labels_app, store_args_labels. reflexivity.
  - injection E as <-. apply Nil. cbn. rewrite labels_app, store_args_labels. reflexivity.
  - injection E as <-. apply Nil. reflexivity.
  - injection E as <-. apply Nil. reflexivity.
  - injection E as <-. apply Nil. reflexivity.
  - injection E as <-. apply Nil. reflexivity.
  - injection E as <-. apply Nil. reflexivity.
  - injection E as <-. apply Nil. cbn. rewrite labels_app, store_args_labels. reflexivity.
  - injection E as <-. cbn. split; [constructor; [intros []|constructor]|]. intros l [<-|[]]. auto.
  - injection E as <-. apply Nil. reflexivity.
Qed.

Lemma body_labels : forall names f l pc b, emit_body names f pc l = Some b ->
  NoDup (labels_of b) /\ forall x, In x (labels_of b) -> lab_fun x = Some f /\ exists q, body_pc x = Some q /\ pc <= q.
Proof.
  intros names f. induction l as [|[ops i] l IH]; intros pc b E; cbn [emit_body] in E; [injection E as <-; split; [constructor|intros x []]|].
  destruct (emit_main names f pc i) as [x|] eqn:Ex; [|discriminate]. destruct (emit_body names f (S pc) l) as [y|] eqn:Ey; [|discriminate]. injection E as <-.
  destruct (main_labels _ _ _ _ _ Ex) as [Nx Ax]. destruct (IH _ _ Ey) as [Ny Ay].
  assert (Ep : forall z, In z (labels_of (emit_prof f pc ops)) -> z = LPp f pc) by (destruct ops; cbn; intros z I; [destruct I|destruct I as [<-|[]]; auto]).
  assert (Np : NoDup (labels_of (emit_prof f pc ops))) by (destruct ops; cbn; repeat constructor; intros []).
  change (labels_of (Lab (LPc f pc) :: emit_prof f pc ops ++ x ++ y)) with (LPc f pc :: labels_of (emit_prof f pc ops ++ x ++ y)). rewrite !labels_app.
  assert (Ax' : forall z, In z (labels_of x) -> lab_fun z = Some f /\ body_pc z = Some pc /\ z <> LPc f pc /\ z <> LPp f pc).
  { intros z I. specialize (Ax z I). destruct z; try contradiction; destruct Ax as [-> ->]; repeat split; discriminate. }
  split.
  - constructor.
    + intros I. apply in_app_or in I. destruct I as [I|I]; [specialize (Ep _ I); discriminate|]. apply in_app_or in I. destruct I as [I|I]; [apply Ax' in I; tauto|].
      destruct (Ay _ I) as [_ [q [Q Lq]]]. injection Q as <-. lia.
    + apply nodup_app; auto; [apply nodup_app; auto|].
      * intros z I J. destruct (Ax' z I) as [_ [Q1 _]]. destruct (Ay _ J) as [_ [q [Q2 Lq]]]. rewrite Q1 in Q2. injection Q2 as <-. lia.
      * intros z I J. apply Ep in I. subst z. apply in_app_or in J. destruct J as [J|J]; [apply Ax' in J; tauto|]. destruct (Ay _ J) as [_ [q [Q2 Lq]]]. injection Q2 as <-. lia.
  - intros z [<-|I]; [split; [reflexivity|exists pc; split; [reflexivity|lia]]|]. apply in_app_or in I. destruct I as [I|I]; [apply Ep in I; subst; split; [reflexivity|exists pc; split; [reflexivity|lia]]|].
    apply in_app_or in I. destruct I as [I|I].
    + destruct (Ax' z I) as [A [B _]]. split; auto. exists pc. split; auto.
    + destruct (Ay _ I) as [A [q [B C]]]. split; auto. exists q. split; auto. lia.
Qed.

Lemma emit_op_labels : forall ops, labels_of (flat_map emit_op ops) = [].
Proof. induction ops as [|o ops IH]; cbn [flat_map]; auto. rewrite labels_app, IH. destruct o; reflexivity. Qed.

Lemma outline_labels : forall f pc ops i, NoDup (labels_of (emit_outline f pc ops i)) /\
  forall x, In x (labels_of (emit_outline f pc ops i)) -> lab_fun x = Some f /\ out_pc x = Some pc.
Proof.
  intros f pc ops i. unfold emit_outline. rewrite labels_app.
  assert (A : labels_of (outline_prof f pc ops) = match ops with [] => [] | _ => [LOut f pc OProfile] end).
  { destruct ops as [|o ops]; [reflexivity|]. unfold outline_prof. change (labels_of (Lab (LOut f pc OProfile) :: ?x)) with (LOut f pc OProfile :: labels_of x). rewrite labels_app, emit_op_labels. reflexivity. }
  assert (B : exists ks, labels_of (outline_err f pc i) = map (LOut f pc) ks /\ NoDup ks /\ ~ In OProfile ks).
  { assert (N0 : NoDup (@nil outline)) by constructor. assert (N1 : forall k : outline, NoDup [k]) by (intros k; constructor; [intros []|exact N0]).
    destruct i; cbn; try (exists []; repeat split; auto; fail).
    - destruct is_struct; cbn.
      + exists [OUndef]. repeat split; auto. intros [Q|[]]; discriminate.
      + exists [OUndef; OBadTag]. repeat split; auto; [repeat constructor; cbn; intuition discriminate|]. cbn. intuition discriminate.
    - exists [OUndef]. repeat split; auto. cbn. intuition discriminate.
    - exists [OAbort]. repeat split; auto. cbn. intuition discriminate.
    - exists [OUndef; OAbort]. repeat split; auto; [repeat constructor; cbn; intuition discriminate|]. cbn. intuition discriminate.
    - exists [OVacuous]. repeat split; auto. cbn. intuition discriminate. }
  destruct B as [ks [B [Nk Pk]]]. rewrite A, B. split.
  - apply nodup_app.
    + destruct ops; repeat constructor. intros [].
    + clear -Nk. induction Nk as [|k ks Ni Nk IH]; cbn; constructor; auto. intros I. apply in_map_iff in I. destruct I as [k' [Q I]]. injection Q as <-. contradiction.
    + intros x I J. destruct ops; [destruct I|]. destruct I as [<-|[]]. apply in_map_iff in J. destruct J as [k [Q J]]. injection Q as ->. contradiction.
  - intros x I. apply in_app_or in I. destruct I as [I|I].
    + destruct ops; [destruct I|]. destruct I as [<-|[]]. auto.
    + apply in_map_iff in I. destruct I as [k [<- I]]. auto.
Qed.

Lemma outlines_labels : forall f l pc, NoDup (labels_of (emit_outlines f pc l)) /\
  forall x, In x (labels_of (emit_outlines f pc l)) -> lab_fun x = Some f /\ exists q, out_pc x = Some q /\ pc <= q.
Proof.
  intros f. induction l as [|[ops i] l IH]; intros pc; cbn [emit_outlines]; [split; [constructor|intros x []]|].
  rewrite labels_app. destruct (outline_labels f pc ops i) as [N1 A1]. destruct (IH (S pc)) as [N2 A2]. split.
  - apply nodup_app; auto. intros x I J. destruct (A1 x I) as [_ Q]. destruct (A2 x J) as [_ [q [Q2 Lq]]]. rewrite Q in Q2. injection Q2 as <-. lia.
  - intros x I. apply in_app_or in I. destruct I as [I|I]; [destruct (A1 x I) as [A B]; split; eauto|]. destruct (A2 x I) as [A [q [B C]]]. split; auto. exists q. split; auto. lia.
Qed.

Lemma code_labels : forall names c x, asm_code names c = Some x ->
  NoDup (labels_of x) /\ forall l, In l (labels_of x) -> lab_fun l = Some (code_block c) \/ exists s, l = LSym s /\ asm_symbol names (code_block c) = Some s.
Proof.
  intros names c x E. unfold asm_code in E. destruct (asm_symbol names (code_block c)) as [s|]; [|discriminate].
  destruct (emit_body names (code_block c) 0 (code_instrs c)) as [b|] eqn:Eb; [|discriminate]. injection E as <-.
  set (f := code_block c) in *. destruct (body_labels _ _ _ _ _ Eb) as [Nb Ab]. destruct (outlines_labels f (code_instrs c) 0) as [No Ao].
  match goal with |- NoDup (labels_of ?x) /\ _ =>
    assert (El : labels_of x = LSym s :: labels_of b ++ LExit f :: labels_of (emit_outlines f 0 (code_instrs c)) ++ [LHigh f]) by (cbn; rewrite labels_app; cbn; rewrite labels_app; reflexivity) end.
  rewrite El.
  assert (Fb : forall l, In l (labels_of b ++ LExit f :: labels_of (emit_outlines f 0 (code_instrs c)) ++ [LHigh f]) -> lab_fun l = Some f).
  { intros l I. apply in_app_or in I. destruct I as [I|[<-|I]]; [apply Ab; auto|reflexivity|]. apply in_app_or in I. destruct I as [I|[<-|[]]]; [apply Ao; auto|reflexivity]. }
  split.
  - constructor; [intros I; apply Fb in I; discriminate|]. apply nodup_app; auto.
    + constructor.
      * intros I. apply in_app_or in I. destruct I as [I|[I|[]]]; [|discriminate]. destruct (Ao _ I) as [_ [q [Q _]]]. discriminate.
      * apply nodup_app; auto; [repeat constructor; intros []|]. intros l I [<-|[]]. destruct (Ao _ I) as [_ [q [Q _]]]. discriminate.
    + intros l I J. destruct (Ab l I) as [_ [q [Q _]]]. destruct J as [<-|J]; [discriminate|]. apply in_app_or in J. destruct J as [J|[<-|[]]]; [|discriminate].
      destruct (Ao _ J) as [_ [q' [Q' _]]]. destruct l; discriminate.
  - intros l [<-|I]; [right; eauto|left; auto].
Qed.

(** Every label of the functions of a file is defined once. *)
Theorem file_labels : forall names cs fs, Forall2 (fun c x => asm_code names c = Some x) cs fs -> NoDup (map code_block cs) -> NoDup (labels_of (concat fs)).
Proof.
  intros names cs fs F. induction F as [|c x cs fs E F IH]; intros Nd; [constructor|]. cbn [map concat] in *. inversion Nd as [|? ? Ni Nd']; subst. rewrite labels_app.
  destruct (code_labels _ _ _ E) as [N1 A1]. apply nodup_app; auto. intros l I J.
  assert (Hj : exists c', In c' cs /\ (lab_fun l = Some (code_block c') \/ exists s, l = LSym s /\ asm_symbol names (code_block c') = Some s)).
  { clear -F J. induction F as [|c x cs fs E F IH]; [destruct J|]. cbn [concat] in J. rewrite labels_app in J. apply in_app_or in J. destruct J as [J|J].
    - exists c. split; [left; auto|]. apply (code_labels _ _ _ E). auto.
    - destruct (IH J) as [c' [I' H]]. exists c'. split; [right; auto|auto]. }
  destruct Hj as [c' [Ic' Hj]]. apply Ni. replace (code_block c) with (code_block c'); [apply in_map; auto|].
  destruct (A1 l I) as [Q|[s [-> Q]]], Hj as [Q'|[s' [Q' Q2]]]; [congruence|subst l; discriminate|discriminate|]. injection Q' as <-. eapply asm_symbols_distinct; eauto.
Qed.

(** ** What an assembly file is made of *)
Record aparts (names : list str) (m : cmodule) (t : aunit) : Prop := {
  ap_label : label_for_path (c_path m) = Some (a_label t);
  ap_path : a_path t = c_path m;
  ap_deps : Forall2 (fun p l => label_for_path p = Some l) (c_deps m) (a_deps t);
  ap_args : x_args (a_exe t) = code_num_args (c_code m);
  ap_statics : x_statics (a_exe t) = code_num_statics (c_code m);
  ap_run : asm_symbol names (code_block (c_code m)) = Some (x_run (a_exe t));
  ap_funs : exists fs, a_lines t = concat fs /\ Forall2 (fun c x => asm_code names c = Some x) (collect (c_code m)) fs }.
Lemma asm_parts : forall names m t, asm_generate names m = Some t -> aparts names m t.
Proof.
  intros names m t E. unfold asm_generate in E.
  destruct (label_for_path (c_path m)) as [l|] eqn:E1; [|discriminate]. destruct (all_some (map label_for_path (c_deps m))) as [ds|] eqn:E2; [|discriminate].
  destruct (asm_symbol names (code_block (c_code m))) as [f|] eqn:E3; [|discriminate].
  destruct (all_some (map (asm_code names) (collect (c_code m)))) as [fs|] eqn:E5; [|discriminate]. injection E as <-.
  constructor; cbn [a_label a_path a_deps a_exe a_lines x_args x_statics x_run]; auto; [apply all_some_map; auto|]. exists fs. split; auto. apply all_some_map. auto.
Qed.

(** The lines of one function in the file. *)
Lemma code_in_file : forall names m t c, aparts names m t -> In c (collect (c_code m)) ->
  exists x P R, asm_code names c = Some x /\ a_lines t = P ++ x ++ R.
Proof.
  intros names m t c A I. destruct (ap_funs _ _ _ A) as [fs [-> F]]. clear A. induction F as [|c0 x cs fs E F IH]; [destruct I|]. destruct I as [->|I].
  - exists x, [], (concat fs). auto.
  - destruct (IH I) as [y [P [R [Ey Ef]]]]. exists y, (x ++ P), R. split; auto. cbn [concat]. rewrite Ef, <- app_assoc. reflexivity.
Qed.
