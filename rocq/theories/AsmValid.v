(** * C52: the assembler accepts the generated assembly. *)
From Coq Require Import ZArith String Ascii List Arith Lia Bool DecimalNat.
From Verif Require Import PathModel PathProps LoadModel FuncModel CodeModel CodeProps CompileModel CompileEval LinkModel KindModel KindProps GenModel GenLabel GenCode GenProg GenValid AsmModel AsmSearch AsmCode AsmSafe.
Import ListNotations.
Local Open Scope list_scope.
Notation length := List.length.

(** ** The text of labels *)

Definition txt (s : string) : str := map (fun a => Z.of_nat (nat_of_ascii a)) (list_ascii_of_string s).
(** printf's %zi, of sizes less than 2^63. *)
Definition decimal (n : nat) : str := digits (Nat.to_uint n).
(** [.a.b.c] *)
Definition dotted (fs : list str) : str := flat_map (fun f => 46%Z :: f) fs.

Definition outline_text (k : outline) : string :=
  match k with OProfile => "p" | OUndef => "u" | OBadTag => "bt" | OAbort => "abort" | OVacuous => "v" end.
(** lib/aarch64.c:1212-1224. *)
Definition msg_text (m : msg) : string :=
  match m with
  | MCallee => "CalleeAborted" | MStruct => "UndefinedStructValue" | MUnion => "UndefinedUnionValue" | MSelect => "UndefinedUnionSelect"
  | MWrong => "WrongUnionTag" | MFunction => "UndefinedFunctionValue" | MVacuous => "VacuousValue"
  end.
(** The parts of the labels that start with a dot: lib/aarch64.c:449 (exit), 547 (pc), 616-617 (p,
    pp), 577 (search), 714 (exe), 873 (letters), 952-1002 (outlines), 1081 (high_pc) and
    1210-1224; [GLoc] without the name of the file (lib/aarch64.c:1231). *)
Definition label_parts (l : label) : list str :=
  match l with
  | LSym _ | GStderr | GTypeValue => []
  | LPc f pc => [txt "Lr"; hex 4 f; decimal pc]
  | LPp f pc => [txt "Lr"; hex 4 f; decimal pc; txt "pp"]
  | LExit f => [txt "Lr"; hex 4 f; txt "exit"]
  | LOut f pc k => [txt "Lo"; hex 4 f; decimal pc; txt (outline_text k)]
  | LSearch f pc n => [txt "Lr"; hex 4 f; decimal pc; decimal n]
  | LExe f pc => [txt "Lr"; hex 4 f; decimal pc; txt "exe"]
  | LLetters f pc => [txt "Lr"; hex 4 f; decimal pc; txt "letters"]
  | LHigh f => [txt "L"; hex 4 f; txt "high_pc"]
  | GFormat => [txt "L"; txt "ErrorFormatString"]
  | GLoc => [txt "L"; txt "loc"]
  | GMsg m => [txt "L"; txt (msg_text m)]
  end.
Definition label_text (l : label) : str :=
  match l with
  | LSym s => s
  | GStderr => txt "stderr"
  | GTypeValue => txt "FbleGenericTypeValue"
  | l => dotted (label_parts l)
  end.

(** What the assembler takes for a symbol. *)
Definition symbol_char (c : Z) : Prop := is_alnum c = true \/ c = us \/ c = 46%Z.
Definition as_symbol (s : str) : Prop := Forall symbol_char s /\ exists c r, s = c :: r /\ (c < 48 \/ 57 < c)%Z.

(** ** What instructions refer to *)
Definition used (i : ins) : list label :=
  match i with B l | Beq l | Bcc l | Cbz _ l | Cbnz _ l | Adr _ l => [l] | _ => [] end.
(** stderr, FbleGenericTypeValue and what every file has. *)
Definition shared (l : label) : Prop := match l with GStderr | GTypeValue | GFormat | GLoc | GMsg _ => True | _ => False end.
(** Instructions that reach 1 MB only: b.cond, cbz and cbnz. *)
Definition conditional (i : ins) : bool := match i with Beq _ | Bcc _ | Cbz _ _ | Cbnz _ _ => true | _ => false end.
(** Bytes of code: Adr is two instructions. *)
Definition bytes_of (x : line) : Z := match x with Ins (Adr _ _) => 8 | Ins _ => 4 | _ => 0 end.
Fixpoint code_bytes (x : list line) : Z := match x with [] => 0%Z | l :: r => (bytes_of l + code_bytes r)%Z end.

(** ** What an instruction can encode (Arm ARM C6.2: ADD and SUB immediate, LDR and STR unsigned
    offset, LDP and STP signed offset, MOVZ; cmp with a negative number is CMN).  Sufficient for
    MOV, which has other encodings. *)
Definition imm12 (z : Z) : bool := ((0 <=? z) && (z <=? 4095) || (z mod 4096 =? 0) && (0 <=? z) && (z <=? 4095 * 4096))%Z.
Definition encodable (i : ins) : bool :=
  match i with
  | Ldr _ _ z | Str _ _ z => ((0 <=? z) && (z <=? 32760) && (z mod 8 =? 0))%Z
  | Stp _ _ _ z | StpPre _ _ _ z | Ldp _ _ _ z | LdpPost _ _ _ z => ((-512 <=? z) && (z <=? 504) && (z mod 8 =? 0))%Z
  | MovI _ z => ((0 <=? z) && (z <=? 65535))%Z
  | AddI _ _ z | SubI _ _ z => imm12 z
  | CmpI _ z => imm12 z || imm12 (- z)
  | _ => true
  end.

(** ** The specification *)
Record valid_asm (t : aunit) : Prop := {
  va_label : identifier (a_label t);
  va_deps : Forall identifier (a_deps t);
  (** Labels are symbols, and defined once. *)
  va_symbols : Forall (fun l => as_symbol (label_text l)) (labels_of (a_lines t));
  va_once : NoDup (map label_text (labels_of (a_lines t)));
  (** None is that of an error message. *)
  va_shared : forall l m, In l (labels_of (a_lines t)) -> shared m -> label_text l <> label_text m;
  (** Labels that are used are defined. *)
  va_used : forall i l, In (Ins i) (a_lines t) -> In l (used i) -> In l (labels_of (a_lines t)) \/ shared l;
  (** And so are the functions of executables. *)
  va_exe : In (LSym (x_run (a_exe t))) (labels_of (a_lines t));
  va_runs : forall l x, In (Data l (DExe x)) (a_lines t) -> In (LSym (x_run x)) (labels_of (a_lines t)) }.

(** ** Proofs: text *)
Lemma decimal_inj : forall a b, decimal a = decimal b -> a = b.
Proof. intros a b E. apply digits_inj in E. apply (Unsigned.to_uint_inj _ _ E). Qed.
Lemma decimal_digit : forall n z, In z (decimal n) -> (48 <= z <= 57)%Z.
Proof. intros n z. apply digits_range. Qed.
Lemma to_uint_nonnil : forall n, Nat.to_uint n <> Decimal.Nil.
Proof.
  intros n E. pose proof (Unsigned.of_to n) as H. rewrite E in H. cbn in H. subst n. discriminate.
Qed.

Definition dotfree (s : str) : Prop := ~ In 46%Z s.
Lemma dotted_inj : forall a b, Forall dotfree a -> Forall dotfree b -> dotted a = dotted b -> a = b.
Proof.
  assert (K : forall (x y : str) a b, dotfree x -> dotfree y -> x ++ dotted a = y ++ dotted b -> x = y /\ dotted a = dotted b).
  { induction x as [|c x IH]; intros y a b Hx Hy E.
    - destruct y as [|c' y]; auto. exfalso. destruct a as [|f a]; cbn in E; [discriminate|]. injection E as <- _. apply Hy. left. auto.
    - destruct y as [|c' y].
      + exfalso. destruct b as [|f b]; cbn in E; [discriminate|]. injection E as -> _. apply Hx. left. auto.
      + cbn in E. injection E as <- E. destruct (IH y a b) as [-> Q]; auto; [intros I; apply Hx; right; auto|intros I; apply Hy; right; auto]. }
  induction a as [|x a IH]; intros b Fa Fb E; destruct b as [|y b]; auto; try discriminate.
  inversion Fa; subst. inversion Fb; subst. unfold dotted in E. cbn [flat_map app] in E. injection E as E. destruct (K _ _ _ _ H1 H3 E) as [-> Q]. f_equal. apply IH; auto.
Qed.

Lemma hex_dotfree : forall w n, dotfree (hex w n).
Proof. intros w n I. pose proof (hex_alnum w n) as F. rewrite Forall_forall in F. apply F in I. discriminate I. Qed.
Lemma decimal_dotfree : forall n, dotfree (decimal n).
Proof. intros n I. apply decimal_digit in I. lia. Qed.
Lemma parts_dotfree : forall l, Forall dotfree (label_parts l).
Proof.
  intros l. pose proof hex_dotfree as H. pose proof decimal_dotfree as D.
  destruct l; cbn [label_parts]; repeat (apply Forall_cons || apply Forall_nil); auto;
    try (destruct k); try (destruct m); unfold dotfree; vm_compute; intuition discriminate.
Qed.

(** The label can be printed. *)
Definition printed (names : list str) (l : label) : Prop := match l with LSym s => exists b, asm_symbol names b = Some s | _ => True end.

Lemma symbol_parts : forall names b s, asm_symbol names b = Some s -> exists x, s = x ++ 46%Z :: hex 4 b /\ dotfree x.
Proof.
  intros names b s E. unfold asm_symbol in E. destruct (nth_error names b) as [n|]; [|discriminate]. destruct (sanitize n) as [x|] eqn:Ex; [|discriminate].
  injection E as <-. exists x. split; auto. apply sanitize_ident in Ex. rewrite Forall_forall in Ex. intros I. apply Ex in I. destruct I as [I|I]; [discriminate|]. unfold us in I. lia.
Qed.
Lemma symbol_not_dotted : forall names b s fs, asm_symbol names b = Some s -> length fs <> 1 -> Forall dotfree fs -> s <> dotted fs.
Proof.
  intros names b s fs E L F Q. destruct (symbol_parts _ _ _ E) as [x [-> Dx]]. destruct x as [|c x].
  - assert (Z : fs = [hex 4 b]). { apply dotted_inj; auto; [repeat constructor; apply hex_dotfree|]. rewrite <- Q. unfold dotted. cbn [flat_map app]. rewrite app_nil_r. reflexivity. }
    subst fs. apply L. reflexivity.
  - destruct fs as [|f fs]; cbn in Q; [discriminate|]. injection Q as -> _. apply Dx. left. auto.
Qed.
Lemma parts_length : forall l, length (label_parts l) <> 1.
Proof. intros l. destruct l; cbn; lia. Qed.

Lemma decimal_not : forall n z r, decimal n = z :: r -> (z < 48 \/ 57 < z)%Z -> False.
Proof. intros n z r E H. pose proof (decimal_digit n z) as D. rewrite E in D. specialize (D (or_introl eq_refl)). lia. Qed.

Lemma cons_eq : forall {A} (a b : A) l m, a :: l = b :: m -> a = b /\ l = m.
Proof. intros A a b l m E. injection E as -> ->. auto. Qed.
Lemma outline_text_inj : forall k h, txt (outline_text k) = txt (outline_text h) -> k = h.
Proof. intros k h E. destruct k, h; try reflexivity; vm_compute in E; discriminate E. Qed.
Lemma msg_text_inj : forall k h, txt (msg_text k) = txt (msg_text h) -> k = h.
Proof. intros k h E. destruct k, h; try reflexivity; vm_compute in E; discriminate E. Qed.
Lemma parts_inj : forall a b, label_parts a <> [] -> label_parts a = label_parts b -> a = b.
Proof.
  intros a b N E.
  assert (X : forall n x, decimal n = txt x -> match txt x with [] => False | c :: _ => (57 < c)%Z end -> False).
  { intros n x E1 H. destruct (txt x) as [|c y]; [contradiction|]. eapply decimal_not; [exact E1|lia]. }
  destruct a; cbn [label_parts] in N, E; try congruence; clear N; destruct b; cbn [label_parts] in E; try discriminate E;
    repeat match type of E with _ :: _ = _ :: _ => let E1 := fresh "E1" in apply cons_eq in E; destruct E as [E1 E] end; try discriminate E; clear E;
    repeat match goal with
           | H : hex 4 _ = hex 4 _ |- _ => apply hex_inj in H; subst
           | H : decimal _ = decimal _ |- _ => apply decimal_inj in H; subst
           | H : txt (outline_text _) = txt (outline_text _) |- _ => apply outline_text_inj in H; subst
           | H : txt (msg_text _) = txt (msg_text _) |- _ => apply msg_text_inj in H; subst
           | H : txt ?x = decimal ?n |- _ => symmetry in H
           end;
    try reflexivity;
    try match goal with
        | H : decimal ?n = txt ?x |- _ => exfalso; apply (X n x H); vm_compute; reflexivity
        end;
    repeat match goal with m : msg |- _ => destruct m | k : outline |- _ => destruct k end;
    try match goal with H : txt _ = txt _ |- _ => exfalso; vm_compute in H; discriminate H end.
Qed.

(** Different labels are different in the assembly file. *)
Theorem label_text_inj : forall names a b, printed names a -> printed names b -> label_text a = label_text b -> a = b.
Proof.
  assert (Dc : forall l, (exists s, l = LSym s) \/ l = GStderr \/ l = GTypeValue \/ label_text l = dotted (label_parts l) /\ label_parts l <> []).
  { intros l. destruct l; eauto; right; right; right; split; try reflexivity; discriminate. }
  assert (Sy : forall names s l, printed names (LSym s) -> label_text l = s -> l = LSym s).
  { intros names s l [k Ek] Q. destruct (Dc l) as [[t ->]|[->|[->|[D N]]]]; [cbn in Q; congruence| | |].
    1,2: destruct (symbol_parts _ _ _ Ek) as [x [-> _]]; match type of Q with ?y = _ => assert (I : In 46%Z y) by (rewrite Q; apply in_or_app; right; left; auto) end;
      vm_compute in I; intuition discriminate.
    exfalso. rewrite D in Q. symmetry in Q. revert Q. eapply symbol_not_dotted; eauto using parts_length, parts_dotfree. }
  intros names a b Pa Pb E. destruct (Dc b) as [[t ->]|Db]; [apply (Sy names); auto|]. destruct (Dc a) as [[t ->]|Da]; [symmetry; apply (Sy names); auto|].
  assert (K : forall x y, label_text x = dotted (label_parts x) /\ label_parts x <> [] -> (y = GStderr \/ y = GTypeValue) -> label_text x <> label_text y).
  { intros x y [Dx Nx] Hy Q. rewrite Dx in Q. destruct (label_parts x) as [|f fs]; [congruence|]. destruct Hy as [-> | ->]; vm_compute in Q; discriminate Q. }
  destruct Da as [-> |[-> | Da]], Db as [-> |[-> | Db]]; try reflexivity; try (vm_compute in E; discriminate E);
    try (exfalso; eapply K; [exact Da| |exact E]; auto; fail); try (exfalso; eapply K; [exact Db| |symmetry; exact E]; auto; fail).
  destruct Da as [Da Na], Db as [Db _]. rewrite Da, Db in E. apply parts_inj; auto. apply dotted_inj; auto using parts_dotfree.
Qed.

Lemma dotted_symbol : forall l, (forall s, l <> LSym s) -> as_symbol (label_text l).
Proof.
  assert (Hx : forall w n, Forall symbol_char (hex w n)) by (intros w n; eapply Forall_impl; [|apply hex_alnum]; left; auto).
  assert (Hd : forall n, Forall symbol_char (decimal n)).
  { intros n. apply Forall_forall. intros z I. apply decimal_digit in I. left. unfold is_alnum. replace ((48 <=? z) && (z <=? 57))%Z with true; [rewrite ?orb_true_l, ?orb_true_r; auto|].
    symmetry. apply andb_true_iff. rewrite !Z.leb_le. lia. }
  assert (Ht : forall x, forallb (fun c => is_alnum c || (c =? us)%Z) (txt x) = true -> Forall symbol_char (txt x)).
  { intros x H. rewrite forallb_forall in H. apply Forall_forall. intros c I. apply H in I. apply orb_true_iff in I. destruct I as [I|I]; [left; auto|right; left; apply Z.eqb_eq; auto]. }
  assert (Dt : forall fs, Forall (Forall symbol_char) fs -> fs <> [] -> as_symbol (dotted fs)).
  { intros fs F N. split.
    - clear N. induction F as [|f fs Hf F IH]; [constructor|]. unfold dotted. cbn [flat_map app]. constructor; [right; right; auto|]. apply Forall_app. auto.
    - destruct fs; [congruence|]. unfold dotted. cbn. do 2 eexists. split; [reflexivity|lia]. }
  intros l N. destruct l; try (exfalso; eapply N; reflexivity); cbn [label_text label_parts];
    try (apply Dt; [|discriminate]; repeat match goal with |- Forall (Forall _) _ => constructor end; auto; apply Ht; try destruct k; try destruct m; vm_compute; reflexivity).
  - split; [|eexists _, _; split; [reflexivity|vm_compute; auto]]. apply Ht. reflexivity.
  - split; [|eexists _, _; split; [reflexivity|vm_compute; auto]]. apply Ht. reflexivity.
Qed.
Lemma sym_symbol : forall (names : list str) b s, Forall (fun s : str => exists r, s = 47%Z :: r \/ s = 37%Z :: r) names -> asm_symbol names b = Some s -> as_symbol s.
Proof.
  intros names b s Sl E. unfold asm_symbol in E. destruct (nth_error names b) as [n|] eqn:N; [|discriminate]. destruct (sanitize n) as [x|] eqn:Ex; [|discriminate].
  injection E as <-. rewrite Forall_forall in Sl. destruct (Sl n (nth_error_In _ _ N)) as [r Hr]. split.
  - apply Forall_app. split.
    + eapply Forall_impl; [|eapply sanitize_ident; exact Ex]. intros c [H|H]; [left; auto|right; left; auto].
    + constructor; [right; right; auto|]. eapply Forall_impl; [|apply hex_alnum]. left. auto.
  - destruct Hr as [-> | ->]; cbn [sanitize] in Ex; destruct (sanitize r) as [z|]; try discriminate; vm_compute in Ex; injection Ex as <-; cbn [app]; do 2 eexists; (split; [reflexivity|lia]).
Qed.

(** ** Proofs: labels *)
Lemma in_labels : forall l x, In (Lab l) x -> In l (labels_of x).
Proof. intros l x I. apply in_flat_map. exists (Lab l). split; auto. left. auto. Qed.

Lemma some_pair : forall {A B} (a c : A) (b d : B), Some (a, b) = Some (c, d) -> a = c /\ b = d.
Proof. intros A B0 a c b d E. injection E as -> ->. auto. Qed.
Lemma search_uses : forall k f pc lo hi1 ts d label x label', emit_search k f pc lo hi1 ts d label = Some (x, label') ->
  forall i l, In (Ins i) x -> In l (used i) -> (exists t, l = LPc f t /\ In t (map snd ts ++ [d])) \/ In l (labels_of x).
Proof.
  assert (Sg : forall lo hi1 ts d q, single_target lo hi1 ts d = Some (Some q) -> In q (map snd ts ++ [d])).
  { intros lo hi1 ts d q E. destruct ts as [|[tag tg] [|? ?]]; cbn [single_target] in E; try discriminate.
    - injection E as <-. left. auto.
    - destruct (S lo =? hi1); [|discriminate]. destruct (lo =? tag); [|discriminate]. injection E as <-. left. auto. }
  induction k as [|k IH]; intros f pc lo hi1 ts d label x label' E i l Ii Il; cbn [emit_search] in E;
    destruct (single_target lo hi1 ts d) as [[q|]|] eqn:Es; try discriminate.
  - apply some_pair in E; destruct E as [<- _]. destruct Ii as [Ii|[]]. injection Ii as <-. destruct Il as [<-|[]]. left. eauto.
  - apply some_pair in E; destruct E as [<- _]. destruct Ii as [Ii|[]]. injection Ii as <-. destruct Il as [<-|[]]. left. eauto.
  - set (mid := length ts / 2) in *. destruct (nth_error ts mid) as [[mt mtg]|] eqn:Nm; [|discriminate].
    assert (Im : In mtg (map snd ts)) by (apply nth_error_In in Nm; apply (in_map snd) in Nm; exact Nm).
    assert (Lo : forall t, In t (map snd (firstn mid ts) ++ [d]) -> In t (map snd ts ++ [d])).
    { intros t I. apply in_app_or in I. apply in_or_app. destruct I as [I|I]; auto. left. rewrite <- (firstn_skipn mid ts), map_app. apply in_or_app. auto. }
    assert (Hi : forall t, In t (map snd (skipn (mid + 1) ts) ++ [d]) -> In t (map snd ts ++ [d])).
    { intros t I. apply in_app_or in I. apply in_or_app. destruct I as [I|I]; auto. left. rewrite <- (firstn_skipn (mid + 1) ts), map_app. apply in_or_app. auto. }
    assert (Hd : forall y, In (Ins i) [Ins (CmpI X0 (Z.of_nat mt)); Ins (Beq (LPc f mtg))] -> (exists t, l = LPc f t /\ In t (map snd ts ++ [d])) \/ In l (labels_of y)).
    { intros y [Q|[Q|[]]]; injection Q as <-; [destruct Il|]. destruct Il as [<-|[]]. left. exists mtg. split; auto. apply in_or_app. auto. }
    destruct (lo =? mt).
    { destruct (emit_search k f pc (S mt) hi1 _ d label) as [[y lb]|] eqn:Ey; [|discriminate]. apply some_pair in E; destruct E as [<- _].
      apply in_app_or in Ii. destruct Ii as [Ii|Ii]; [apply Hd; auto|]. destruct (IH _ _ _ _ _ _ _ _ _ Ey i l Ii Il) as [[t [-> It]]|I]; [left; eauto|right]. rewrite labels_app. apply in_or_app. auto. }
    destruct (S mt =? hi1).
    { destruct (emit_search k f pc lo mt _ d label) as [[y lb]|] eqn:Ey; [|discriminate]. apply some_pair in E; destruct E as [<- _].
      apply in_app_or in Ii. destruct Ii as [Ii|Ii]; [apply Hd; auto|]. destruct (IH _ _ _ _ _ _ _ _ _ Ey i l Ii Il) as [[t [-> It]]|I]; [left; eauto|right]. rewrite labels_app. apply in_or_app. auto. }
    destruct (single_target lo mt (firstn mid ts) d) as [[q|]|] eqn:El; try discriminate.
    { destruct (emit_search k f pc (S mt) hi1 _ d label) as [[y lb]|] eqn:Ey; [|discriminate]. apply some_pair in E; destruct E as [<- _].
      apply in_app_or in Ii. destruct Ii as [Ii|[Ii|Ii]]; [apply Hd; auto| |].
      - injection Ii as <-. destruct Il as [<-|[]]. left. eauto.
      - destruct (IH _ _ _ _ _ _ _ _ _ Ey i l Ii Il) as [[t [-> It]]|I]; [left; eauto|right]. rewrite labels_app. apply in_or_app. auto. }
    destruct (emit_search k f pc (S mt) hi1 _ d (S label)) as [[y lb]|] eqn:Ey; [|discriminate].
    destruct (emit_search k f pc lo mt _ d lb) as [[z lz]|] eqn:Ez; [|discriminate]. apply some_pair in E; destruct E as [<- _].
    assert (Sp : forall q, In q (LSearch f pc label :: labels_of y ++ labels_of z) ->
      In q (labels_of ([Ins (CmpI X0 (Z.of_nat mt)); Ins (Beq (LPc f mtg))] ++ Ins (Bcc (LSearch f pc label)) :: y ++ Lab (LSearch f pc label) :: z))).
    { intros q I. rewrite labels_app. apply in_or_app. right. change (In q (labels_of (y ++ Lab (LSearch f pc label) :: z))). rewrite labels_app. apply in_or_app.
      destruct I as [<-|I]; [right; left; auto|]. apply in_app_or in I. destruct I; [auto|right; right; auto]. }
    apply in_app_or in Ii. destruct Ii as [Ii|[Ii|Ii]]; [apply Hd; auto| |].
    + injection Ii as <-. destruct Il as [<-|[]]. right. apply Sp. left. auto.
    + apply in_app_or in Ii. destruct Ii as [Ii|[Ii|Ii]]; [|discriminate|].
      * destruct (IH _ _ _ _ _ _ _ _ _ Ey i l Ii Il) as [[t [-> It]]|I]; [left; eauto|right]. apply Sp. right. apply in_or_app. auto.
      * destruct (IH _ _ _ _ _ _ _ _ _ Ez i l Ii Il) as [[t [-> It]]|I]; [left; eauto|right]. apply Sp. right. apply in_or_app. auto.
Qed.

Definition uses (x : list line) : list label := flat_map (fun l => match l with Ins j => used j | _ => [] end) x.
Lemma uses_app : forall x y, uses (x ++ y) = uses x ++ uses y.
Proof. intros. apply flat_map_app. Qed.
Lemma in_uses : forall x l, In l (uses x) <-> exists j, In (Ins j) x /\ In l (used j).
Proof.
  intros x l. unfold uses. rewrite in_flat_map. split.
  - intros [y [I J]]. destruct y; try destruct J; eauto.
  - intros [j [I J]]. exists (Ins j). auto.
Qed.
Lemma store_args_uses : forall r vs i, uses (store_args r i vs) = [].
Proof. intros r. induction vs as [|v vs IH]; intros i; [reflexivity|]. cbn [store_args]. unfold uses in *. cbn [flat_map]. rewrite IH. destruct v; reflexivity. Qed.

Lemma main_uses : forall names f pc i x, emit_main names f pc i = Some x -> forall l, In l (uses x) ->
  shared l \/ In l (labels_of x) \/ l = LExit f \/ (exists t, l = LPc f t /\ In t (jumps i)) \/ In l (labels_of (outline_err f pc i)).
Proof.
  intros names f pc i x E l I.
  assert (Gv : forall d v, uses [get_var d v] = []) by (intros d v; destruct v; reflexivity).
  assert (Cs : forall y w z, uses (y :: w :: z) = uses [y] ++ uses (w :: z)) by (intros y w z; unfold uses; cbn [flat_map]; rewrite app_nil_r; reflexivity).
  destruct i; cbn [emit_main] in E.
  - injection E as <-. cbn in I. rewrite uses_app, store_args_uses in I. cbn in I. tauto.
  - injection E as <-. repeat (rewrite Cs in I). rewrite Gv in I. cbn in I. tauto.
  - destruct is_struct; injection E as <-; repeat (rewrite Cs in I); rewrite Gv in I; cbn in I.
    + destruct I as [<-|[]]. right. right. right. right. left. auto.
    + right. right. right. right. cbn. intuition.
  - destruct (emit_search (length targets) f pc 0 num_tags targets default 0) as [[y lb]|] eqn:Es; [|discriminate].
    match type of E with Some ?t = _ => assert (x = t) by congruence end. subst x. clear E.
    rewrite uses_app in I. apply in_app_or in I. destruct I as [I|I].
    + rewrite Cs, Gv in I. cbn in I. destruct I as [<-|[]]. right. right. right. right. left. auto.
    + apply in_uses in I. destruct I as [j [Ij Il]]. destruct (search_uses _ _ _ _ _ _ _ _ _ _ Es j l Ij Il) as [H|H]; [right; right; right; left; exact H|].
      right. left. rewrite labels_app. apply in_or_app. auto.
  - injection E as <-. cbn in I. destruct I as [<-|[]]. right. right. right. left. exists target. split; auto. left. auto.
  - destruct (asm_symbol names (code_block c)) as [g|]; [|discriminate]. destruct (code_num_statics c <=? length scope); [|discriminate].
    match type of E with Some ?t = _ => assert (x = t) by congruence end. subst x. clear E.
    rewrite !uses_app, store_args_uses in I. cbn in I. destruct I as [<-|[]]. right. left. left. auto.
  - injection E as <-. cbn in I. rewrite uses_app, store_args_uses in I. repeat (rewrite Cs in I). rewrite Gv in I. cbn in I. destruct I as [<-|[]]. right. right. right. right. left. auto.
  - match type of E with Some ?t = _ => assert (x = t) by congruence end. subst x. clear E. rewrite !uses_app, store_args_uses in I. repeat (rewrite Cs in I). rewrite !Gv in I. cbn in I.
    destruct I as [<-|[<-|[]]]; [right; right; right; right; left; auto|auto].
  - injection E as <-. repeat (rewrite Cs in I). rewrite Gv in I. cbn in I. tauto.
  - injection E as <-. cbn in I. tauto.
  - injection E as <-. repeat (rewrite Cs in I). rewrite !Gv in I. cbn in I. destruct I as [<-|[]]. right. right. right. right. left. auto.
  - injection E as <-. repeat (rewrite Cs in I). rewrite !Gv in I. cbn in I. destruct I as [<-|[]]. auto.
  - injection E as <-. cbn in I. destruct I as [<-|[]]. left. exact Logic.I.
  - injection E as <-. cbn in I. rewrite uses_app, store_args_uses in I. cbn in I. tauto.
  - injection E as <-. cbn in I. destruct I as [<-|[]]. right. left. left. auto.
  - injection E as <-. destruct I.
Qed.

Lemma body_has : forall names f l pc b, emit_body names f pc l = Some b -> forall q, pc <= q < pc + length l -> In (LPc f q) (labels_of b).
Proof.
  intros names f. induction l as [|[ops i] l IH]; intros pc b E q Rg; cbn [length] in Rg; [lia|]. cbn [emit_body] in E.
  destruct (emit_main names f pc i) as [x|]; [|discriminate]. destruct (emit_body names f (S pc) l) as [y|] eqn:Ey; [|discriminate].
  assert (b = Lab (LPc f pc) :: emit_prof f pc ops ++ x ++ y) by congruence. subst b. destruct (Nat.eq_dec q pc) as [->|N]; [left; auto|].
  right. change (In (LPc f q) (labels_of (emit_prof f pc ops ++ x ++ y))). rewrite !labels_app. apply in_or_app. right. apply in_or_app. right. eapply IH; eauto. lia.
Qed.
Lemma body_has_pp : forall names f l pc b, emit_body names f pc l = Some b -> forall q ops i, nth_error l q = Some (ops, i) -> ops <> [] -> In (LPp f (pc + q)) (labels_of b).
Proof.
  intros names f. induction l as [|[ops i] l IH]; intros pc b E q ops' i' N Ne; [destruct q; discriminate|]. cbn [emit_body] in E.
  destruct (emit_main names f pc i) as [x|]; [|discriminate]. destruct (emit_body names f (S pc) l) as [y|] eqn:Ey; [|discriminate].
  assert (b = Lab (LPc f pc) :: emit_prof f pc ops ++ x ++ y) by congruence. subst b.
  right. match goal with |- In ?q _ => change (In q (labels_of (emit_prof f pc ops ++ x ++ y))) end. rewrite !labels_app. apply in_or_app. destruct q as [|q]; cbn in N.
  - injection N as -> ->. left. rewrite Nat.add_0_r. destruct ops'; [congruence|]. left. auto.
  - right. apply in_or_app. right. replace (pc + S q) with (S pc + q) by lia. eapply IH; eauto.
Qed.
Lemma outlines_has : forall f l pc q ops i, nth_error l q = Some (ops, i) -> forall x, In x (labels_of (emit_outline f (pc + q) ops i)) -> In x (labels_of (emit_outlines f pc l)).
Proof.
  intros f. induction l as [|[ops i] l IH]; intros pc q ops' i' N x I; [destruct q; discriminate|]. cbn [emit_outlines]. rewrite labels_app. apply in_or_app.
  destruct q as [|q]; cbn in N; [injection N as -> ->; left; rewrite Nat.add_0_r in I; auto|]. right. eapply (IH (S pc)); eauto. replace (S pc + q) with (pc + S q) by lia. auto.
Qed.

(** What the main path uses. *)
Lemma body_uses : forall names f l pc b, emit_body names f pc l = Some b -> forall x, In x (uses b) ->
  shared x \/ In x (labels_of b) \/ x = LExit f \/
  exists q ops i, nth_error l q = Some (ops, i) /\ ((exists t, x = LPc f t /\ In t (jumps i)) \/ In x (labels_of (emit_outline f (pc + q) ops i))).
Proof.
  intros names f. induction l as [|[ops i] l IH]; intros pc b E x I; cbn [emit_body] in E; [injection E as <-; destruct I|].
  destruct (emit_main names f pc i) as [y|] eqn:Ey; [|discriminate]. destruct (emit_body names f (S pc) l) as [z|] eqn:Ez; [|discriminate].
  assert (b = Lab (LPc f pc) :: emit_prof f pc ops ++ y ++ z) by congruence. subst b. clear E.
  change (In x (uses (emit_prof f pc ops ++ y ++ z))) in I. rewrite !uses_app in I.
  assert (Lb : forall q, In q (labels_of y) \/ In q (labels_of z) -> In q (labels_of (Lab (LPc f pc) :: emit_prof f pc ops ++ y ++ z))).
  { intros q J. right. change (In q (labels_of (emit_prof f pc ops ++ y ++ z))). rewrite !labels_app. apply in_or_app. right. apply in_or_app. auto. }
  apply in_app_or in I. destruct I as [I|I]; [|apply in_app_or in I; destruct I as [I|I]].
  - destruct ops as [|o ops]; [destruct I|]. cbn in I. destruct I as [<-|[]]. right. right. right. exists 0, (o :: ops), i. split; auto. right. rewrite Nat.add_0_r.
    unfold emit_outline. rewrite labels_app. left. auto.
  - destruct (main_uses _ _ _ _ _ Ey x I) as [H|[H|[H|[H|H]]]]; auto.
    + right. right. right. exists 0, ops, i. auto.
    + right. right. right. exists 0, ops, i. split; auto. right. rewrite Nat.add_0_r. unfold emit_outline. rewrite labels_app. apply in_or_app. auto.
  - destruct (IH _ _ Ez x I) as [H|[H|[H|[q [ops' [i' [N H]]]]]]]; auto. right. right. right. exists (S q), ops', i'. split; auto. replace (pc + S q) with (S pc + q) by lia. auto.
Qed.

Lemma do_abort_uses : forall f m x, In x (uses (do_abort f m)) -> shared x \/ x = LExit f.
Proof. intros f m x I. cbn in I. intuition; subst; cbn; auto. Qed.
Lemma outlines_uses : forall f l pc x, In x (uses (emit_outlines f pc l)) -> shared x \/ x = LExit f \/
  exists q ops i, nth_error l q = Some (ops, i) /\ ops <> [] /\ x = LPp f (pc + q).
Proof.
  intros f. induction l as [|[ops i] l IH]; intros pc x I; cbn [emit_outlines] in I; [destruct I|]. rewrite uses_app in I. apply in_app_or in I. destruct I as [I|I].
  - unfold emit_outline in I. rewrite uses_app in I. apply in_app_or in I. destruct I as [I|I].
    + destruct ops as [|o ops]; [destruct I|]. cbn [outline_prof] in I. change (In x (uses (flat_map emit_op (o :: ops) ++ [Ins (B (LPp f pc))]))) in I. rewrite uses_app in I. apply in_app_or in I.
      destruct I as [I|[<-|[]]].
      * exfalso. revert I. generalize (o :: ops) as os. clear. induction os as [|o os IH]; cbn [flat_map]; [auto|]. rewrite uses_app. intros I. apply in_app_or in I. destruct I as [I|I]; auto. destruct o; destruct I.
      * right. right. exists 0, (o :: ops), i. rewrite Nat.add_0_r. repeat split; auto. discriminate.
    + assert (D : shared x \/ x = LExit f); [|tauto]. destruct i; cbn [outline_err] in I; try (destruct I; fail);
        try (destruct is_struct); repeat (match type of I with In _ (uses (?a ++ ?b)) => rewrite uses_app in I; apply in_app_or in I; destruct I as [I|I] end);
        try (eapply do_abort_uses; exact I).
  - destruct (IH _ _ I) as [H|[H|[q [ops' [i' [N [Ne ->]]]]]]]; auto. right. right. exists (S q), ops', i'. repeat split; auto. f_equal. lia.
Qed.

(** Every label a function uses is defined in it. *)
Lemma code_uses : forall names c x, flat_ok c -> asm_code names c = Some x -> forall l, In l (uses x) -> In l (labels_of x) \/ shared l.
Proof.
  intros names c x Fl E l I. unfold asm_code in E. destruct (asm_symbol names (code_block c)) as [s|]; [|discriminate].
  set (f := code_block c) in *. destruct (emit_body names f 0 (code_instrs c)) as [b|] eqn:Eb; [|discriminate].
  match type of E with Some ?t = _ => assert (x = t) by congruence end. subst x. clear E. set (nl := code_num_locals c) in *.
  change (In l (uses (prologue nl ++ b ++ epilogue f nl ++ emit_outlines f 0 (code_instrs c) ++ [Lab (LHigh f)]))) in I. rewrite !uses_app in I.
  assert (Lb : forall q, In q (labels_of b) \/ q = LExit f \/ In q (labels_of (emit_outlines f 0 (code_instrs c))) ->
    In q (labels_of (Lab (LSym s) :: prologue nl ++ b ++ epilogue f nl ++ emit_outlines f 0 (code_instrs c) ++ [Lab (LHigh f)]))).
  { intros q J. right. match goal with |- In _ ?t => change (In q (labels_of (prologue nl ++ b ++ epilogue f nl ++ emit_outlines f 0 (code_instrs c) ++ [Lab (LHigh f)]))) end.
    rewrite !labels_app. apply in_or_app. right. apply in_or_app. destruct J as [J|[->|J]]; auto; right; apply in_or_app; [left; left; auto|right; apply in_or_app; auto]. }
  apply in_app_or in I. destruct I as [I|I]; [cbn in I; destruct I|]. apply in_app_or in I. destruct I as [I|I].
  - destruct (body_uses _ _ _ _ _ Eb l I) as [H|[H|[H|[q [ops [i [N [[t [-> It]]|H]]]]]]]]; auto.
    + left. apply Lb. left. destruct (Fl _ _ _ N) as [Fj _]. destruct (Fj t It) as [_ [ops' [i' [Nt _]]]]. eapply body_has; [exact Eb|]. split; [lia|]. apply nth_error_Some. congruence.
    + left. apply Lb. right. right. eapply outlines_has; eauto.
  - apply in_app_or in I. destruct I as [I|I]; [cbn in I; destruct I|]. apply in_app_or in I. destruct I as [I|I]; [|cbn in I; destruct I].
    destruct (outlines_uses _ _ _ _ I) as [H|[H|[q [ops [i [N [Ne ->]]]]]]]; auto. left. apply Lb. left. eapply body_has_pp; eauto.
Qed.

Lemma search_no_data : forall k f pc lo hi1 ts d label x label' l dt, emit_search k f pc lo hi1 ts d label = Some (x, label') -> ~ In (Data l dt) x.
Proof.
  induction k as [|k IH]; intros f pc lo hi1 ts d label x label' l dt E I; cbn [emit_search] in E;
    destruct (single_target lo hi1 ts d) as [[q|]|] eqn:Es; try discriminate; try (injection E as <- _; destruct I as [I|[]]; discriminate).
  destruct (nth_error ts _) as [[mt mtg]|]; [|discriminate].
  destruct (lo =? mt); [destruct (emit_search k f pc (S mt) hi1 _ d label) as [[y lb]|] eqn:Ey; [|discriminate]; apply some_pair in E; destruct E as [<- _]; destruct I as [I|[I|I]]; try discriminate; exact (IH _ _ _ _ _ _ _ _ _ _ _ Ey I)|].
  destruct (S mt =? hi1); [destruct (emit_search k f pc lo mt _ d label) as [[y lb]|] eqn:Ey; [|discriminate]; apply some_pair in E; destruct E as [<- _]; destruct I as [I|[I|I]]; try discriminate; exact (IH _ _ _ _ _ _ _ _ _ _ _ Ey I)|].
  destruct (single_target lo mt _ d) as [[q|]|]; try discriminate.
  - destruct (emit_search k f pc (S mt) hi1 _ d label) as [[y lb]|] eqn:Ey; [|discriminate]. apply some_pair in E; destruct E as [<- _]. destruct I as [I|[I|[I|I]]]; try discriminate. exact (IH _ _ _ _ _ _ _ _ _ _ _ Ey I).
  - destruct (emit_search k f pc (S mt) hi1 _ d (S label)) as [[y lb]|] eqn:Ey; [|discriminate]. destruct (emit_search k f pc lo mt _ d lb) as [[z lz]|] eqn:Ez; [|discriminate].
    apply some_pair in E; destruct E as [<- _]. destruct I as [I|[I|[I|I]]]; try discriminate. apply in_app_or in I. destruct I as [I|[I|I]]; [exact (IH _ _ _ _ _ _ _ _ _ _ _ Ey I)|discriminate|exact (IH _ _ _ _ _ _ _ _ _ _ _ Ez I)].
Qed.

(** ** The file is valid *)
Theorem generated_asm_is_valid : forall nargs e m nblocks (names : list str) t, wf 0 nargs [] e = true -> compile_code nargs e = Some (c_code m, nblocks) ->
  Forall (fun s : str => exists r, s = 47%Z :: r \/ s = 37%Z :: r) names ->
  asm_generate names m = Some t -> valid_asm t.
Proof.
  intros nargs e m nblocks names t W E Sl G. destruct (compiled_gen_ok _ _ _ _ W E) as [Go [Nd _]]. pose proof (asm_parts _ _ _ G) as P.
  destruct (ap_funs _ _ _ P) as [fs [El F]]. pose proof (file_labels _ _ _ F Nd) as Nl. rewrite <- El in Nl.
  assert (Pr : forall l, In l (labels_of (a_lines t)) -> lab_fun l <> None \/ exists s b, l = LSym s /\ asm_symbol names b = Some s).
  { rewrite El. clear -F. induction F as [|c x cs fs E F IH]; intros l I; [destruct I|]. cbn [concat] in I. rewrite labels_app in I. apply in_app_or in I. destruct I as [I|I]; [|auto].
    destruct (proj2 (code_labels _ _ _ E) l I) as [H|[s [-> H]]]; [left; congruence|right; eauto]. }
  assert (Pt : forall l, In l (labels_of (a_lines t)) -> printed names l).
  { intros l I. destruct (Pr l I) as [H|[s [b [-> H]]]]; [destruct l; cbn in *; auto; congruence|]. exists b. auto. }
  assert (Sy : forall c s, In c (collect (c_code m)) -> asm_symbol names (code_block c) = Some s -> In (LSym s) (labels_of (a_lines t))).
  { intros c s I Es. destruct (code_in_file _ _ _ _ P I) as [x [A [R [Ex ->]]]]. rewrite !labels_app. apply in_or_app. right. apply in_or_app. left.
    unfold asm_code in Ex. rewrite Es in Ex. destruct (emit_body names _ 0 _); [|discriminate]. match type of Ex with Some ?y = _ => assert (x = y) by congruence end. subst x. left. auto. }
  constructor.
  - eapply label_identifier. apply (ap_label _ _ _ P).
  - pose proof (ap_deps _ _ _ P) as Pd. clear -Pd. induction Pd; constructor; auto. eapply label_identifier; eauto.
  - apply Forall_forall. intros l I. destruct (Pr l I) as [H|[s [b [-> H]]]]; [apply dotted_symbol; intros s ->; apply H; reflexivity|]. cbn. eapply sym_symbol; eauto.
  - clear -Nl Pt. revert Nl Pt. generalize (labels_of (a_lines t)) as ls. intros ls N Pt. induction N as [|l ls Ni N IH]; cbn [map]; constructor.
    + intros I. apply Ni. apply in_map_iff in I. destruct I as [l' [Q I]]. replace l with l'; auto. eapply label_text_inj; eauto; apply Pt; [right|left]; auto.
    + apply IH. intros x I. apply Pt. right. auto.
  - intros l x I Sh Q. assert (l = x) by (eapply label_text_inj; eauto; destruct x; cbn in *; auto; contradiction). subst x.
    destruct (Pr l I) as [H|[s [b [-> H]]]]; [destruct l; cbn in *; auto; congruence|destruct Sh].
  - intros i l Ii Il. assert (Iu : In l (uses (a_lines t))) by (apply in_uses; eauto). clear Ii Il. rewrite El in *.
    assert (Fo : forall c, In c (collect (c_code m)) -> flat_ok c).
    { intros c I. pose proof (gen_ok_in _ _ _ (le_n _) Go I) as Gc. inversion Gc. auto. }
    clear -F Iu Fo. induction F as [|c x cs fs E F IH]; [destruct Iu|]. cbn [concat] in *. rewrite uses_app in Iu. rewrite labels_app. apply in_app_or in Iu. destruct Iu as [I|I].
    + destruct (code_uses _ _ _ (Fo c (or_introl eq_refl)) E l I) as [H|H]; auto. left. apply in_or_app. auto.
    + destruct (IH I) as [H|H]; auto; [intros c' I'; apply Fo; right; auto|]. left. apply in_or_app. auto.
  - apply (Sy (c_code m)); [apply collect_self|apply (ap_run _ _ _ P)].
  - intros l x I.
    assert (Ex : exists c c' ops d off sc, In c (collect (c_code m)) /\ In (ops, IFunc d off c' sc) (code_instrs c) /\ asm_symbol names (code_block c') = Some (x_run x)).
    { rewrite El in I. clear -F I. induction F as [|c y cs fs E F IH]; [destruct I|]. cbn [concat] in I. apply in_app_or in I. destruct I as [I|I].
      - exists c. unfold asm_code in E. destruct (asm_symbol names (code_block c)) as [s|]; [|discriminate]. destruct (emit_body names _ 0 _) as [b|] eqn:Eb; [|discriminate].
        match type of E with Some ?z = _ => assert (y = z) by congruence end. subst y. clear E.
        assert (Ib : In (Data l (DExe x)) b).
        { destruct I as [I|I]; [discriminate|]. apply in_app_or in I. destruct I as [I|I]; [cbn in I; intuition discriminate|]. apply in_app_or in I. destruct I as [I|I]; auto. exfalso.
          apply in_app_or in I. destruct I as [I|I]; [cbn in I; intuition discriminate|]. apply in_app_or in I. destruct I as [I|[I|[]]]; [|discriminate]. revert I. clear.
          generalize (code_instrs c) as is, 0 as pc. induction is as [|[ops i] is IH]; intros pc I; cbn [emit_outlines] in I; [destruct I|]. apply in_app_or in I. destruct I as [I|I]; [|eapply IH; eauto].
          unfold emit_outline in I. apply in_app_or in I. destruct I as [I|I].
          - destruct ops as [|o ops]; [destruct I|]. destruct I as [I|I]; [discriminate|]. apply in_app_or in I. destruct I as [I|[I|[]]]; [|discriminate].
            apply in_flat_map in I. destruct I as [o' [_ I]]. destruct o'; cbn in I; intuition discriminate.
          - destruct i; cbn in I; try (intuition discriminate). destruct is_struct; cbn in I; intuition discriminate. }
        clear I. assert (Q : exists c' ops d off sc, In (ops, IFunc d off c' sc) (code_instrs c) /\ asm_symbol names (code_block c') = Some (x_run x)).
        { revert Eb Ib. generalize (code_block c) as f, (code_instrs c) as is, 0 as pc. clear. intros f is. revert b. induction is as [|[ops i] is IH]; intros b pc Eb Ib; cbn [emit_body] in Eb; [injection Eb as <-; destruct Ib|].
          destruct (emit_main names f pc i) as [y|] eqn:Ey; [|discriminate]. destruct (emit_body names f (S pc) is) as [z|] eqn:Ez; [|discriminate].
          match type of Eb with Some ?w = _ => assert (b = w) by congruence end. subst b. clear Eb. destruct Ib as [Ib|Ib]; [discriminate|].
          apply in_app_or in Ib. destruct Ib as [Ib|Ib]; [destruct ops; cbn in Ib; intuition discriminate|]. apply in_app_or in Ib. destruct Ib as [Ib|Ib].
          2:{ destruct (IH _ _ Ez Ib) as [c' [ops' [d [off [sc [I H]]]]]]. exists c', ops', d, off, sc. split; auto. right. auto. }
          assert (Sa : forall r k vs w, In (Data l (DExe x)) (store_args r k vs ++ w) -> In (Data l (DExe x)) w).
          { clear. intros r k vs. revert k. induction vs as [|v vs IH]; intros k w I; cbn [store_args app] in I; auto. destruct I as [I|[I|I]]; [destruct v; discriminate|discriminate|eauto]. }
          assert (Gd : forall r v, get_var r v <> Data l (DExe x)) by (intros r v; destruct v; discriminate).
          destruct i; cbn [emit_main] in Ey.
          all: try (match type of Ey with Some ?w = _ => assert (y = w) by congruence end; subst y; clear Ey; exfalso;
            try (destruct Ib as [Ib|Ib]; [discriminate|]; apply Sa in Ib); cbn in Ib; intuition (try discriminate); eapply Gd; eassumption).
          - exfalso. destruct is_struct; injection Ey as <-; cbn in Ib; intuition (try discriminate); eapply Gd; eassumption.
          - exfalso. destruct (emit_search (length targets) f pc 0 num_tags targets default 0) as [[w lb]|] eqn:Es; [|discriminate].
            match type of Ey with Some ?w = _ => assert (y = w) by congruence end; subst y; clear Ey. apply in_app_or in Ib. destruct Ib as [Ib|Ib]; [cbn in Ib; intuition (try discriminate); eapply Gd; eassumption|].
            eapply search_no_data; eauto.
          - destruct (asm_symbol names (code_block c)) as [g|] eqn:Eg; [|discriminate]. destruct (code_num_statics c <=? length scope); [|discriminate].
            match type of Ey with Some ?w = _ => assert (y = w) by congruence end; subst y; clear Ey. cbn [app] in Ib. destruct Ib as [Ib|[Ib|Ib]]; [|discriminate|].
            + injection Ib as _ <-. cbn [x_run]. do 5 eexists. split; [left; reflexivity|auto].
            + exfalso. apply Sa in Ib. cbn in Ib. intuition discriminate.
          - exfalso. match type of Ey with Some ?w = _ => assert (y = w) by congruence end; subst y; clear Ey. cbn [app] in Ib.
            repeat (destruct Ib as [Ib|Ib]; [solve [discriminate | exfalso; eapply Gd; exact Ib]|]). apply Sa in Ib. cbn in Ib. intuition discriminate.
        }
        destruct Q as [c' [ops [d [off [sc [I H]]]]]]. exists c', ops, d, off, sc. split; [left; auto|auto].
      - destruct (IH I) as [c' [c2 [ops [d [off [sc [I1 [I2 H]]]]]]]]. exists c', c2, ops, d, off, sc. split; [right; auto|auto]. }
    destruct Ex as [c [c' [ops [d [off [sc [I1 [I2 Es]]]]]]]]. apply (Sy c'); auto. eapply collect_trans; [apply le_n|exact I1|]. eapply collect_in; [exact I2|apply collect_self].
Qed.

(** ** Conditional branches reach their labels *)
Definition branch_label (l : label) : Prop := match l with LPc _ _ | LPp _ _ | LExit _ | LOut _ _ _ | LSearch _ _ _ => True | _ => False end.
Definition line_ok (x : line) : Prop :=
  match x with
  | Ins i => conditional i = true -> forall l, In l (used i) -> branch_label l
  | Data l _ => ~ branch_label l
  | Lab _ => True
  end.

Lemma store_args_ok : forall r vs i, Forall line_ok (store_args r i vs).
Proof. intros r. induction vs as [|v vs IH]; intros i; cbn [store_args]; [constructor|]. constructor; [destruct v; cbn; discriminate|]. constructor; [cbn; discriminate|auto]. Qed.
Lemma search_ok : forall k f pc lo hi1 ts d label x label', emit_search k f pc lo hi1 ts d label = Some (x, label') -> Forall line_ok x.
Proof.
  assert (Hd : forall f z q, Forall line_ok [Ins (CmpI X0 z); Ins (Beq (LPc f q))]).
  { intros f z q. constructor; [cbn; discriminate|]. constructor; [|constructor]. intros _ l [<-|[]]. exact I. }
  induction k as [|k IH]; intros f pc lo hi1 ts d label x label' E; cbn [emit_search] in E;
    destruct (single_target lo hi1 ts d) as [[q|]|] eqn:Es; try discriminate;
    try (apply some_pair in E; destruct E as [<- _]; constructor; [cbn; discriminate|constructor]).
  destruct (nth_error ts _) as [[mt mtg]|]; [|discriminate].
  destruct (lo =? mt); [destruct (emit_search k f pc (S mt) hi1 _ d label) as [[y lb]|] eqn:Ey; [|discriminate]; apply some_pair in E; destruct E as [<- _]; apply Forall_app; split; [apply Hd|eapply IH; exact Ey]|].
  destruct (S mt =? hi1); [destruct (emit_search k f pc lo mt _ d label) as [[y lb]|] eqn:Ey; [|discriminate]; apply some_pair in E; destruct E as [<- _]; apply Forall_app; split; [apply Hd|eapply IH; exact Ey]|].
  destruct (single_target lo mt _ d) as [[q|]|]; try discriminate.
  - destruct (emit_search k f pc (S mt) hi1 _ d label) as [[y lb]|] eqn:Ey; [|discriminate]. apply some_pair in E; destruct E as [<- _]. apply Forall_app; split; [apply Hd|].
    constructor; [intros _ l [<-|[]]; exact I|eapply IH; exact Ey].
  - destruct (emit_search k f pc (S mt) hi1 _ d (S label)) as [[y lb]|] eqn:Ey; [|discriminate]. destruct (emit_search k f pc lo mt _ d lb) as [[z lz]|] eqn:Ez; [|discriminate].
    apply some_pair in E; destruct E as [<- _]. apply Forall_app; split; [apply Hd|]. constructor; [intros _ l [<-|[]]; exact I|]. apply Forall_app; split; [eapply IH; exact Ey|].
    constructor; [exact I|eapply IH; exact Ez].
Qed.
Lemma main_ok : forall names f pc i x, emit_main names f pc i = Some x -> Forall line_ok x.
Proof.
  intros names f pc i x E.
  assert (Gv : forall d v, line_ok (get_var d v)) by (intros d v; destruct v; cbn; discriminate).
  assert (Sv : forall d v, line_ok (set_var d v)) by (intros d v; cbn; discriminate).
  Ltac lines Gv Sv := repeat match goal with
    | |- Forall _ (_ ++ _) => apply Forall_app; split
    | |- Forall _ (store_args _ _ _) => apply store_args_ok
    | |- Forall _ (_ :: _) => constructor
    | |- Forall _ [] => constructor
    | |- line_ok (get_var _ _) => apply Gv
    | |- line_ok (set_var _ _) => apply Sv
    | |- line_ok (Lab _) => exact I
    | |- line_ok (Data _ _) => intros []
    | |- line_ok (Ins _) => first [cbn; discriminate | intros _ ? [<-|[]]; exact I]
    end.
  destruct i; cbn [emit_main] in E; try (match type of E with Some ?w = _ => assert (x = w) by congruence end; subst x; clear E; lines Gv Sv).
  - destruct is_struct; injection E as <-; lines Gv Sv.
  - destruct (emit_search (length targets) f pc 0 num_tags targets default 0) as [[w lb]|] eqn:Es; [|discriminate].
    match type of E with Some ?w = _ => assert (x = w) by congruence end; subst x; clear E. apply Forall_app; split; [lines Gv Sv|eapply search_ok; exact Es].
  - destruct (asm_symbol names (code_block c)) as [g|]; [|discriminate]. destruct (code_num_statics c <=? length scope); [|discriminate].
    match type of E with Some ?w = _ => assert (x = w) by congruence end; subst x; clear E. lines Gv Sv.
Qed.
Lemma abort_ok : forall f m, Forall line_ok (do_abort f m).
Proof. intros f m. unfold do_abort. repeat (constructor; [cbn; discriminate|]). constructor. Qed.
Lemma code_ok_lines : forall names c x, asm_code names c = Some x -> Forall line_ok x.
Proof.
  intros names c x E. unfold asm_code in E. destruct (asm_symbol names (code_block c)) as [s|]; [|discriminate].
  destruct (emit_body names (code_block c) 0 (code_instrs c)) as [b|] eqn:Eb; [|discriminate].
  match type of E with Some ?t = _ => assert (x = t) by congruence end. subst x. clear E.
  constructor; [exact I|]. apply Forall_app; split; [unfold prologue; repeat (constructor; [cbn; discriminate|]); constructor|].
  apply Forall_app; split; [|apply Forall_app; split; [unfold epilogue; constructor; [exact I|]; repeat (constructor; [cbn; discriminate|]); constructor|apply Forall_app; split; [|constructor; [exact I|constructor]]]].
  - revert Eb. generalize (code_block c) as f, (code_instrs c) as is, 0 as pc. clear. intros f is. revert b. induction is as [|[ops i] is IH]; intros b pc Eb; cbn [emit_body] in Eb; [injection Eb as <-; constructor|].
    destruct (emit_main names f pc i) as [y|] eqn:Ey; [|discriminate]. destruct (emit_body names f (S pc) is) as [z|] eqn:Ez; [|discriminate].
    match type of Eb with Some ?w = _ => assert (b = w) by congruence end. subst b. constructor; [exact I|]. apply Forall_app; split.
    + destruct ops; [constructor|]. constructor; [intros _ l [<-|[]]; exact I|]. constructor; [exact I|constructor].
    + apply Forall_app; split; [eapply main_ok; exact Ey|eapply IH; exact Ez].
  - generalize (code_block c) as f, (code_instrs c) as is, 0 as pc. clear. intros f is. induction is as [|[ops i] is IH]; intros pc; cbn [emit_outlines]; [constructor|].
    apply Forall_app; split; [|apply IH]. unfold emit_outline. apply Forall_app; split.
    + destruct ops as [|o ops]; [constructor|]. cbn [outline_prof]. constructor; [exact I|]. apply Forall_app; split; [|constructor; [cbn; discriminate|constructor]].
      apply Forall_forall. intros y Iy. apply in_flat_map in Iy. destruct Iy as [o' [_ Iy]]. destruct o'; cbn in Iy; intuition; subst; cbn; discriminate.
    + destruct i; cbn [outline_err]; try constructor; try exact I; try apply abort_ok.
      * destruct is_struct; [constructor; [exact I|apply abort_ok]|]. apply Forall_app; split; [constructor; [exact I|apply abort_ok]|]. constructor; [exact I|]. constructor; [cbn; discriminate|apply abort_ok].
      * apply Forall_app; split; [apply abort_ok|constructor; [exact I|apply abort_ok]].
Qed.

Lemma code_bytes_app : forall x y, code_bytes (x ++ y) = (code_bytes x + code_bytes y)%Z.
Proof. induction x as [|l x IH]; intros y; cbn [app code_bytes]; [lia|]. rewrite IH. lia. Qed.
Lemma code_bytes_pos : forall x, (0 <= code_bytes x)%Z.
Proof. induction x as [|l x IH]; cbn [code_bytes]; [lia|]. assert (0 <= bytes_of l)%Z by (destruct l as [| |i]; [cbn; lia|cbn; lia|destruct i; cbn; lia]). lia. Qed.

(** In a function of less than 1 MB of code, conditional branches go to labels they reach. *)
Theorem conditional_branches_reach : forall names c x, gen_ok c -> asm_code names c = Some x -> (code_bytes x < 1048576)%Z ->
  forall a i b l, x = a ++ Ins i :: b -> conditional i = true -> In l (used i) ->
  exists a' b', x = a' ++ Lab l :: b' /\ (-1048576 <= code_bytes a' - code_bytes a < 1048576)%Z.
Proof.
  intros names c x Go E Sz a i b l Ex Co Il. inversion Go as [? Fl _]; subst c0. pose proof (code_ok_lines _ _ _ E) as F. rewrite Forall_forall in F.
  assert (Ii : In (Ins i) x) by (rewrite Ex; apply in_or_app; right; left; auto). pose proof (F _ Ii Co l Il) as Bl.
  assert (Iu : In l (uses x)) by (apply in_uses; eauto). destruct (code_uses _ _ _ Fl E l Iu) as [Id|Sh]; [|destruct l; contradiction].
  apply in_flat_map in Id. destruct Id as [y [Iy Ly]]. assert (y = Lab l).
  { destruct y as [l'|l' dt|]; cbn in Ly; [destruct Ly as [->|[]]; auto| |destruct Ly]. destruct Ly as [->|[]]. exfalso. apply (F _ Iy Bl). }
  subst y. apply in_split in Iy. destruct Iy as [a' [b' E']]. exists a', b'. split; auto.
  pose proof (code_bytes_pos a). pose proof (code_bytes_pos b). pose proof (code_bytes_pos a'). pose proof (code_bytes_pos b').
  pose proof (f_equal code_bytes Ex) as Q. pose proof (f_equal code_bytes E') as Q'. rewrite code_bytes_app in Q, Q'. cbn [code_bytes] in Q, Q'.
  pose proof (code_bytes_pos [Ins i]) as Pi. pose proof (code_bytes_pos [Lab l]) as Pl. cbn [code_bytes] in Pi, Pl. lia.
Qed.
