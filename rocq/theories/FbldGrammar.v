(** * How fbld markup is written: a grammar of arguments and inline markup.

    The words of the user: an argument is [{text}], taken as it is as long as its braces match, or
    [[inline markup]]; inline markup is characters and commands; a command is [@name] and its
    arguments; [\@], [\[], [\\] and [\]] are those characters and [\n] is a new line. *)
From Coq Require Import ZArith String List Bool.
Local Open Scope string_scope.
From Verif Require Import FbldModel FbldSpec.
Import ListNotations.
Local Open Scope list_scope.
Notation length := List.length.

(** Character 3 cannot be written: the program takes it for the end of the input. *)
Definition plain_char (c : Z) : Prop := c <> 3%Z.
(** A name is made of ASCII letters, digits and underscores (other letters are not modelled). *)
Definition name_char (c : Z) : Prop := (c = 95 \/ 48 <= c <= 57 \/ 65 <= c <= 90 \/ 97 <= c <= 122)%Z.

(** Text in which every brace has its match: [closes n t] when [t] closes [n] more braces than it
    opens, each after it is opened. *)
Inductive closes : nat -> text -> Prop :=
| closes_nil : closes 0 []
| closes_open : forall n t, closes (S n) t -> closes n (123%Z :: t)
| closes_close : forall n t, closes n t -> closes (S n) (125%Z :: t)
| closes_char : forall n c t, c <> 123%Z -> c <> 125%Z -> plain_char c -> closes n t -> closes n (c :: t).

(** One character of inline markup, as it is or as an escape. *)
Inductive w_char : Z -> text -> Prop :=
| w_raw : forall c, plain_char c -> c <> 64%Z -> c <> 92%Z -> c <> 93%Z -> w_char c [c]
| w_escape : forall c, (c = 64 \/ c = 91 \/ c = 92 \/ c = 93)%Z -> w_char c [92%Z; c]
| w_newline : w_char 10%Z [92%Z; 110%Z].
Inductive w_text : text -> text -> Prop :=
| w_empty : w_text [] []
| w_more : forall c s t u, w_char c s -> w_text t u -> w_text (c :: t) (s ++ u).

Definition no_text_first (ds : list doc) : Prop := match ds with Plain _ :: _ => False | _ => True end.
(** What may follow a command with these arguments: nothing that reads as one more argument, and
    nothing that reads as more of the name of a command without arguments. *)
Definition may_follow (args : list doc) (u : text) : Prop :=
  match u with [] => True | c :: _ => c <> 91%Z /\ c <> 123%Z /\ (args = [] -> ~ name_char c) end.
(** The document of a list of parts: the part itself if there is one. *)
Definition doc_of (ds : list doc) : doc := match ds with [d] => d | _ => Sequence ds end.

(** [w_args ds s]: [s] is a way to write the arguments [ds]; [w_inline ds s]: inline markup made
    of the parts [ds]. *)
Inductive w_args : list doc -> text -> Prop :=
| w_no_args : w_args [] []
| w_literal : forall t ds u, closes 0 t -> w_args ds u -> w_args (Plain t :: ds) (123%Z :: t ++ 125%Z :: u)
| w_markup : forall p s ds u, w_inline p s -> w_args ds u -> w_args (doc_of p :: ds) (91%Z :: s ++ 93%Z :: u)
with w_inline : list doc -> text -> Prop :=
| w_end : w_inline [] []
| w_plain : forall t s ds u, t <> [] -> w_text t s -> no_text_first ds -> w_inline ds u -> w_inline (Plain t :: ds) (s ++ u)
| w_command : forall x args s ds u, Forall name_char x -> w_args args s -> may_follow args u -> w_inline ds u -> w_inline (Command x args :: ds) (64%Z :: x ++ s ++ u).
Scheme w_args_ind2 := Minimality for w_args Sort Prop with w_inline_ind2 := Minimality for w_inline Sort Prop.
Combined Scheme w_mutind from w_args_ind2, w_inline_ind2.

(** Text moved one column to the right: a space before every line that is not empty; [true] at the
    start of a line. *)
Fixpoint shift (k : nat) (start : bool) (t : text) : text :=
  match t with
  | [] => []
  | c :: r => (if start && negb (c =? 10)%Z then repeat 32%Z k else []) ++ c :: shift k (c =? 10)%Z r
  end.
Definition indented (t : text) : text := shift 1 true t.

Definition starts_line (t : text) : Prop := match t with [] => False | c :: _ => c <> 10%Z end.


(** Inline markup on the line of a command: no line ends in its text, and its commands have names. *)
Inductive w_line_char : Z -> text -> Prop :=
| l_char : forall c s, w_char c s -> s <> [10%Z] -> w_line_char c s
| l_bracket : w_line_char 93%Z [93%Z].
Inductive w_line_text : text -> text -> Prop :=
| l_empty : w_line_text [] []
| l_more : forall c s t u, w_line_char c s -> w_line_text t u -> w_line_text (c :: t) (s ++ u).
Inductive w_same : list doc -> text -> Prop :=
| s_end : w_same [] []
| s_plain : forall t s ds u, t <> [] -> w_line_text t s -> no_text_first ds -> w_same ds u -> w_same (Plain t :: ds) (s ++ u)
| s_command : forall x args s ds u, x <> [] -> Forall name_char x -> w_args args s -> may_follow args u -> w_same ds u -> w_same (Command x args :: ds) (64%Z :: x ++ s ++ u).
(** A paragraph is one or more lines of text and commands, none of them empty; [true] at the start
    of a line. *)
Inductive w_para_text : bool -> text -> text -> bool -> Prop :=
| p_no_text : forall b, w_para_text b [] [] b
| p_newline : forall t u b, w_para_text true t u b -> w_para_text false (10%Z :: t) (10%Z :: u) b
| p_char : forall b c s t u b', w_line_char c s -> w_para_text false t u b' -> w_para_text b (c :: t) (s ++ u) b'.
Inductive w_para : bool -> list doc -> text -> Prop :=
| p_end : w_para true [] []
| p_plain : forall b t s b' ds u, t <> [] -> w_para_text b t s b' -> no_text_first ds -> w_para b' ds u -> w_para b (Plain t :: ds) (s ++ u)
| p_inner : forall b x args s ds u, Forall name_char x -> w_args args s -> may_follow args u -> w_para false ds u -> w_para b (Command x args :: ds) (64%Z :: x ++ s ++ u).
Definition starts_paragraph (s : text) : Prop := match s with [] => False | c :: _ => c <> 32%Z /\ c <> 64%Z end.

(** No argument on the line, or one after a space. *)
Inductive w_same_line : list doc -> text -> Prop :=
| no_same_line : w_same_line [] []
| same_line : forall p s, w_same p s -> w_same_line [doc_of p] (32%Z :: s).

(** A document: paragraphs, each with an empty line or nothing after it, and commands, each
    starting a line; a paragraph that starts with a command has one more [@].  The arguments of a command are given in rounds, the next one after an [@]
    that starts a line.  A round is arguments in braces and brackets, then [w_eol]: an argument on
    the same line if there is one, the end of the line, and perhaps one more argument in the lines
    after it, indented: text as it is after a lone [@], trailing empty lines dropped, or a document.
    After a lone [@@] all that is left is the last argument, not indented.

    [true] for arguments after which an empty line would be more of the same. *)
Inductive w_doc : list doc -> text -> Prop :=
| w_no_more : w_doc [] []
| w_blank_line : forall ds s, w_doc ds s -> w_doc ds (10%Z :: s)
| w_paragraph : forall p s ds u, w_para true p s -> starts_paragraph s -> w_doc ds u -> ~ starts_line u -> w_doc (Command (txt ".block") [doc_of p] :: ds) (s ++ u)
| w_paragraph_at : forall x args p s ds u, x <> [] -> w_para true (Command x args :: p) s -> w_doc ds u -> ~ starts_line u -> w_doc (Command (txt ".block") [doc_of (Command x args :: p)] :: ds) (64%Z :: s ++ u)
| w_block : forall x args s b ds u, x <> [] -> Forall name_char x -> w_rounds args s b -> w_doc ds u -> (b = true -> u = [] \/ starts_line u) -> w_doc (Command x args :: ds) (64%Z :: x ++ s ++ u)
| w_last_block : forall x args s ds u, x <> [] -> Forall name_char x -> w_final args s -> w_doc ds u -> w_doc [Command x (args ++ [Sequence ds])] (64%Z :: x ++ s ++ u)
with w_eol : list doc -> text -> bool -> Prop :=
| e_line : forall d s, w_same_line d s -> w_eol d (s ++ [10%Z]) false
| e_literal : forall d s v c n, w_same_line d s -> ~ In 3%Z (v ++ [c]) -> c <> 10%Z -> w_eol (d ++ [Plain (v ++ [c; 10%Z])]) (s ++ txt " @" ++ 10%Z :: indented (v ++ [c; 10%Z] ++ repeat 10%Z n)) true
| e_block : forall d s dt t, w_same_line d s -> w_doc dt t -> starts_line t -> w_eol (d ++ [Sequence dt]) (s ++ 10%Z :: indented t) true
with w_rounds : list doc -> text -> bool -> Prop :=
| r_last : forall a s d e b, w_args a s -> w_eol d e b -> w_rounds (a ++ d) (s ++ e) b
| r_next : forall a s d e b a' r b', w_args a s -> w_eol d e b -> w_rounds a' r b' -> w_rounds (a ++ d ++ a') (s ++ e ++ 64%Z :: r) b'
with w_final : list doc -> text -> Prop :=
| f_same : forall a s d e, w_args a s -> w_same_line d e -> w_final (a ++ d) (s ++ e ++ txt " @@" ++ [10%Z])
| f_line : forall a s d e b, w_args a s -> w_eol d e b -> w_final (a ++ d) (s ++ e ++ txt "@@" ++ [10%Z])
| f_next : forall a s d e b a' r, w_args a s -> w_eol d e b -> w_final a' r -> w_final (a ++ d ++ a') (s ++ e ++ 64%Z :: r).
Scheme w_doc_ind2 := Minimality for w_doc Sort Prop with w_eol_ind2 := Minimality for w_eol Sort Prop with w_rounds_ind2 := Minimality for w_rounds Sort Prop with w_final_ind2 := Minimality for w_final Sort Prop.
Combined Scheme w_docind from w_doc_ind2, w_eol_ind2, w_rounds_ind2, w_final_ind2.
