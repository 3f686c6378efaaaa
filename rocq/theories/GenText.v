(** * The strings in generated C (lib/c.c): literals for names, and error messages (C49). *)
From Coq Require Import ZArith List Arith Lia Bool.
From Verif Require Import PathModel PathProps KindModel.
Import ListNotations.
Open Scope Z_scope.

(** ** Model *)

(** lib/c.c:95-105: one character. *)
Definition escape (c : Z) : str :=
  if c =? 7 then [92; 97]          (* \a *)
  else if c =? 8 then [92; 98]     (* \b *)
  else if c =? 12 then [92; 102]   (* \f *)
  else if c =? 10 then [92; 110]   (* \n *)
  else if c =? 13 then [92; 114]   (* \r *)
  else if c =? 9 then [92; 116]    (* \t *)
  else if c =? 11 then [92; 118]   (* \v *)
  else if c =? 34 then [92; 34]
  else if c =? 92 then [92; 92]
  else [c].

(** lib/c.c:91-109 StringLit. *)
Definition string_lit (s : str) : str := 34 :: flat_map escape s ++ [34].

(** The text :%d:%d: error: %s\n as it is written in the generated file. *)
Definition report_tail : str :=
  [58; 37; 100; 58; 37; 100; 58; 32; 101; 114; 114; 111; 114; 58; 32; 37; 115; 92; 110].
(** lib/c.c:700-704: the literal in ReportAbort, for a module loaded from file [source]. *)
Definition report_lit (source : str) : str := 34 :: source ++ report_tail ++ [34].

(** ** Specification: string literals in C (C11 6.4.5, 6.4.4.4, 5.1.1.2) *)

(** [source_chars]: the bytes of a literal up to the closing quote, and what follows it.
    Simple escapes, and octal escapes with one digit for \0; the other octal escapes,
    hexadecimal escapes and universal names are not in what StringLit prints, and are [None].
    A literal does not go over the end of a line. *)
Definition simple_escape (c : Z) : option Z :=
  if c =? 97 then Some 7 else if c =? 98 then Some 8 else if c =? 102 then Some 12 else if c =? 110 then Some 10
  else if c =? 114 then Some 13 else if c =? 116 then Some 9 else if c =? 118 then Some 11
  else if (c =? 34) || (c =? 39) || (c =? 63) || (c =? 92) then Some c else None.
Fixpoint literal_chars (s : str) : option (str * str) :=
  match s with
  | [] => None
  | c :: r =>
    if c =? 34 then Some ([], r)
    else if c =? 10 then None
    else if c =? 92 then
      match r with
      | [] => None
      | d :: r' =>
        match simple_escape d, literal_chars r' with
        | Some x, Some (y, rest) => Some (x :: y, rest)
        | _, _ => None
        end
      end
    else match literal_chars r with Some (y, rest) => Some (c :: y, rest) | None => None end
  end.
(** The string a C compiler reads, and the text after the literal. *)
Definition c_string (s : str) : option (str * str) :=
  match s with c :: r => if c =? 34 then literal_chars r else None | [] => None end.

(** Trigraphs (C11 5.2.1.1), which compilers replace before in their strict ISO modes. *)
Definition trigraph (c : Z) : option Z :=
  if c =? 61 then Some 35 else if c =? 40 then Some 91 else if c =? 47 then Some 92 else if c =? 41 then Some 93
  else if c =? 39 then Some 94 else if c =? 60 then Some 123 else if c =? 33 then Some 124 else if c =? 62 then Some 125
  else if c =? 45 then Some 126 else None.
Fixpoint trigraphs (s : str) : str :=
  match s with
  | [] => []
  | a :: r =>
    match r with
    | b :: c :: r' =>
      match (if (a =? 63) && (b =? 63) then trigraph c else None) with
      | Some x => x :: trigraphs r'
      | None => a :: trigraphs r
      end
    | _ => a :: trigraphs r
    end
  end.

(** printf with conversions %d, %s and %%, and its arguments; [None]: undefined. *)
Inductive parg := PInt (n : nat) | PStr (s : str).
Fixpoint printf (f : str) (args : list parg) : option str :=
  match f with
  | [] => Some []
  | c :: r =>
    if c =? 37 then
      match r, args with
      | d :: r', _ =>
        if d =? 37 then option_map (cons 37) (printf r' args)
        else match args with
             | PInt n :: a => if d =? 100 then option_map (app (digits (Nat.to_uint n))) (printf r' a) else None
             | PStr s :: a => if d =? 115 then option_map (app s) (printf r' a) else None
             | [] => None
             end
      | [], _ => None
      end
    else option_map (cons c) (printf r args)
  end.

(** What ReportAbort prints when the C file is compiled and the program aborts at [line] and
    [col] with message [msg]: [None] if the file does not compile, the rest of the line is not
    what follows the literal, or printf is undefined. *)
Definition reported (source : str) (line col : nat) (msg : str) : option str :=
  match c_string (report_lit source ++ [44]) with
  | Some (f, [44]) => printf f [PInt line; PInt col; PStr msg]
  | _ => None
  end.

(** The message the interpreter prints (lib/loc.c:53-60 FbleReportError). *)
Definition error_line (source : str) (line col : nat) (msg : str) : str :=
  source ++ 58 :: digits (Nat.to_uint line) ++ 58 :: digits (Nat.to_uint col) ++
  [58; 32; 101; 114; 114; 111; 114; 58; 32] ++ msg ++ [10].

(** ** Theorems *)

Lemma literal_plain : forall c r, c <> 34 -> c <> 10 -> c <> 92 ->
  literal_chars (c :: r) = match literal_chars r with Some (y, rest) => Some (c :: y, rest) | None => None end.
Proof.
  intros c r H1 H2 H3. cbn [literal_chars].
  destruct (Z.eqb_spec c 34); [congruence|]. destruct (Z.eqb_spec c 10); [congruence|]. destruct (Z.eqb_spec c 92); [congruence|]. reflexivity.
Qed.
Lemma literal_escape : forall c r, literal_chars (92 :: c :: r) =
    match simple_escape c, literal_chars r with Some x, Some (y, rest) => Some (x :: y, rest) | _, _ => None end.
Proof. reflexivity. Qed.

Lemma escape_reads_back : forall c r y rest, literal_chars r = Some (y, rest) -> literal_chars (escape c ++ r) = Some (c :: y, rest).
Proof.
  intros c r y rest H. unfold escape.
  repeat (match goal with |- context [if ?a =? ?b then _ else _] => destruct (Z.eqb_spec a b); [subst; cbn [app]; rewrite literal_escape, H; reflexivity|] end).
  cbn [app]. rewrite literal_plain, H; auto.
Qed.

(** The C compiler reads the string that was printed, whatever it contains. *)
Theorem string_literal_reads_back : forall s rest, c_string (string_lit s ++ rest) = Some (s, rest).
Proof.
  intros s rest. unfold c_string, string_lit. cbn [app]. rewrite <- app_assoc.
  induction s as [|c s IH]; [reflexivity|]. cbn [flat_map]. rewrite <- app_assoc. apply escape_reads_back, IH.
Qed.

(** Not with trigraphs: ??/ in the name of a file or a variable. *)
Theorem string_literal_trigraph_refuted : exists s : str, text_ok s /\ c_string (trigraphs (string_lit s)) = None.
Proof. exists [63; 63; 47]. split; [repeat constructor; lia|reflexivity]. Qed.

Lemma literal_app : forall s r y rest, ~ In 34 s -> ~ In 10 s -> ~ In 92 s -> literal_chars r = Some (y, rest) ->
  literal_chars (s ++ r) = Some (s ++ y, rest).
Proof.
  induction s as [|c s IH]; intros r y rest H1 H2 H3 E; [exact E|]. cbn [app].
  rewrite literal_plain by (intros ->; cbn in *; tauto). rewrite (IH r y rest); cbn in *; tauto.
Qed.
Lemma printf_plain : forall c r args, c <> 37 -> printf (c :: r) args = option_map (cons c) (printf r args).
Proof.
  intros c r args H. cbn [printf]. destruct (Z.eqb_spec c 37); [congruence|reflexivity].
Qed.
Lemma printf_app : forall s r args x, ~ In 37 s -> printf r args = Some x -> printf (s ++ r) args = Some (s ++ x).
Proof.
  induction s as [|c s IH]; intros r args x H E; [exact E|]. cbn [app]. rewrite printf_plain by (intros ->; cbn in *; tauto).
  rewrite (IH r args x); cbn in *; tauto.
Qed.

(** Errors in generated code are reported as the interpreter reports them, for files whose name
    has no quote, backslash, percent sign or newline. *)
Theorem abort_reported : forall source line col msg, ~ In 34 source -> ~ In 92 source -> ~ In 37 source -> ~ In 10 source ->
  reported source line col msg = Some (error_line source line col msg).
Proof.
  intros source line col msg Q B P N. unfold reported, report_lit, c_string. cbn [app]. rewrite <- !app_assoc.
  rewrite (literal_app source _ (firstn 17 report_tail ++ [10]) [44]) by (auto; reflexivity).
  apply (printf_app source _ _ (58 :: digits (Nat.to_uint line) ++ 58 :: digits (Nat.to_uint col) ++
    [58; 32; 101; 114; 114; 111; 114; 58; 32] ++ msg ++ [10]) P).
  cbn. reflexivity.
Qed.
(** The others are why these names are left out: with %% it prints what was not meant, with %s
    it is undefined, and with a quote or a backslash it does not compile. *)
Theorem abort_reported_refuted :
  reported [97; 37; 115] 1 2 [120] = None /\ reported [97; 34; 98] 1 2 [120] = None /\ reported [92; 120] 1 2 [120] = None /\
  exists x, reported [97; 37; 37] 1 2 [120] = Some x /\ x <> error_line [97; 37; 37] 1 2 [120].
Proof. split; [reflexivity|]. split; [reflexivity|]. split; [reflexivity|]. eexists. split; [reflexivity|]. discriminate. Qed.

Example reported_example : reported [65; 46; 102] 12 7 [120; 33] = Some [65; 46; 102; 58; 49; 50; 58; 55; 58; 32; 101; 114; 114; 111; 114; 58; 32; 120; 33; 10].
Proof. reflexivity. Qed.
