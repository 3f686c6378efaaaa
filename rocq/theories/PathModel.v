(** * Names, module paths and the lexer: lib/name.c, lib/module-path.c, lib/parse.y. *)
From Coq Require Import ZArith List Bool.
Import ListNotations.
Local Open Scope Z_scope.

(** Strings are the bytes (1-255) before the terminating NUL. *)
Definition str := list Z.

(** include/fble/fble-name.h:17-20, 34-38 FbleNameSpace and FbleName (location dropped). *)
Inductive space := Normal | Type_.
Record name := mk_name { n_str : str; n_space : space }.

(** A module path is the vector of its names (include/fble/fble-module-path.h). *)
Definition path := list name.

(** strcmp(3): the result is 0, or the difference of the first bytes that differ. *)
Fixpoint strcmp (a b : str) : Z :=
  match a, b with
  | [], [] => 0
  | [], y :: _ => - y
  | x :: _, [] => x
  | x :: a', y :: b' => if x =? y then strcmp a' b' else x - y
  end.

Definition space_eqb (a b : space) : bool :=
  match a, b with Normal, Normal | Type_, Type_ => true | _, _ => false end.

(** lib/name.c:31-34 FbleNamesEqual. *)
Definition names_equal (a b : name) : bool :=
  space_eqb (n_space a) (n_space b) && (strcmp (n_str a) (n_str b) =? 0).

(** [for (size_t i = 0; i < n; ++i) if (!FbleNamesEqual(a.xs[i], b.xs[i])) return false;
     return true;]   [k] iterations are left, [None] is a read out of bounds. *)
Fixpoint names_equal_from (a b : path) (i k : nat) : option bool :=
  match k with
  | O => Some true
  | S k' =>
    match nth_error a i, nth_error b i with
    | Some x, Some y => if names_equal x y then names_equal_from a b (S i) k' else Some false
    | _, _ => None
    end
  end.

(** lib/module-path.c:89-101 FbleModulePathsEqual. *)
Definition paths_equal (a b : path) : option bool :=
  if negb (Nat.eqb (length a) (length b)) then Some false
  else names_equal_from a b 0 (length a).

(** lib/module-path.c:104-116 FbleModuleBelongsToPackage. *)
Definition belongs_to (module package : path) : option bool :=
  if Nat.ltb (length module) (length package) then Some false
  else names_equal_from module package 0 (length package).

(** ** Character classes, lib/parse.y:728-778 *)

Definition EOF : Z := -1.
Definition NL : Z := 10.
Definition quote : Z := 39.
Definition hash : Z := 35.

(** isspace(3) in the C locale.  Calling it with a value that is neither EOF nor an
    unsigned char is undefined: the result is then whatever [ub] says. *)
Definition isspace_defined (c : Z) : bool := (-1 <=? c) && (c <=? 255).
Definition isspace (ub : Z -> bool) (c : Z) : bool :=
  if isspace_defined c then ((9 <=? c) && (c <=? 13)) || (c =? 32) else ub c.

(** The characters of the strchr argument, in the order of the source. *)
Definition punctuation : list Z :=
  [40; 41; 123; 125; 91; 93; 59; 44; 58; 63; 61; 46; 60; 62; 43; 42; 45; 33; 36; 64; 126;
   38; 124; 37; 47; 94].

(** (char)c: the usual two's complement signed char. *)
Definition to_char (c : Z) : Z := let m := c mod 256 in if m <? 128 then m else m - 256.

(** lib/parse.y:745-748 IsPunctuationChar; strchr also finds the terminating NUL. *)
Definition is_punctuation (c : Z) : bool :=
  (c =? EOF) || existsb (Z.eqb (to_char c)) (punctuation ++ [0]).

(** lib/parse.y:764-770 IsWordChar. *)
Definition is_word_char (ub : Z -> bool) (c : Z) : bool :=
  if isspace ub c || is_punctuation c || (c =? quote) || (c =? hash) then false else true.

(** lib/parse.y:908-917 FbleIsPlainWord: reads plain (signed) chars. *)
Definition is_plain_word (ub : Z -> bool) (w : str) : bool :=
  forallb (fun b => is_word_char ub (to_char b)) w.

(** ** lib/name.c:37-64 FblePrintName *)
Definition print_name (ub : Z -> bool) (n : name) : str :=
  let quoted := negb (is_plain_word ub (n_str n)) in
  (if quoted then [quote] else [])
  ++ flat_map (fun c => if c =? quote then [quote; c] else [c]) (n_str n)
  ++ (if quoted then [quote] else [])
  ++ match n_space n with Normal => [] | Type_ => [64] end.

(** lib/module-path.c:75-87 FblePrintModulePath. *)
Definition print_path (p : path) : str :=
  (match p with [] => [47] | _ => [] end)
  ++ flat_map (fun n => 47 :: n_str n) p ++ [37].

(** lib/module-path.c:46-72 FbleModulePathName: the text of the name; [None] if it does
    not fit in the [len] bytes allocated (with the terminating NUL). *)
Definition path_name_len (p : path) : nat :=
  fold_left (fun len n => (len + (1 + length (n_str n)))%nat) p 3%nat.
Definition path_name (p : path) : option str :=
  let s := (match p with [] => [47] | _ => [] end) ++ flat_map (fun n => 47 :: n_str n) p ++ [37] in
  if Nat.leb (S (length s)) (path_name_len p) then Some s else None.

(** ** The lexer *)

(** lib/parse.y:36-42 Lex.  [from_file] selects fin or sin; [inp] is what is left of it. *)
Record lex := mk_lex { lc : Z; line : Z; col : Z; from_file : bool; inp : str }.

(** lib/parse.y:787-812 ReadNextChar.  fgetc returns unsigned chars, *sin is a char. *)
Definition read_next (l : lex) : lex :=
  let '(c', i') := match inp l with
                   | [] => (EOF, [])
                   | b :: r => (if from_file l then b else to_char b, r)
                   end in
  if lc l =? NL then mk_lex c' (line l + 1) 1 (from_file l) i'
  else if negb (lc l =? EOF) then mk_lex c' (line l) (col l + 1) (from_file l) i'
  else mk_lex c' (line l) (col l) (from_file l) i'.

(** Loops run on [fuel]; [None] is out of fuel, which [PathProps.lex_total] excludes. *)

(** lib/parse.y:846-848: the rest of a comment. *)
Fixpoint skip_comment (fuel : nat) (l : lex) : option lex :=
  match fuel with
  | O => None
  | S f => if negb (lc l =? EOF) && negb (lc l =? NL) then skip_comment f (read_next l) else Some l
  end.

(** lib/parse.y:842-851: whitespace and comments. *)
Fixpoint skip_blank (ub : Z -> bool) (fuel : nat) (l : lex) : option lex :=
  match fuel with
  | O => None
  | S f =>
    let is_comment_start := lc l =? hash in
    if isspace ub (lc l) || is_comment_start then
      let l1 := read_next l in
      match (if is_comment_start then skip_comment f l1 else Some l1) with
      | None => None
      | Some l2 => skip_blank ub f l2
      end
    else Some l
  end.

(** lib/parse.y:872-877: the inner loop of a quoted word; [w] is the reversed wordv. *)
Fixpoint quoted_run (fuel : nat) (l : lex) (w : str) : option (lex * str) :=
  match fuel with
  | O => None
  | S f =>
    if negb (lc l =? EOF) && negb (lc l =? quote)
    then quoted_run f (read_next l) (lc l :: w) else Some (l, w)
  end.

(** lib/parse.y:870-882: the do-while loop of a quoted word. *)
Fixpoint quoted_word (fuel : nat) (l : lex) (w : str) : option (lex * str) :=
  match fuel with
  | O => None
  | S f =>
    match quoted_run f (read_next l) w with
    | None => None
    | Some (l1, w1) =>
      let l2 := read_next l1 in
      if lc l2 =? quote then quoted_word f l2 (quote :: w1) else Some (l2, w1)
    end
  end.

(** lib/parse.y:884-887: a plain word. *)
Fixpoint plain_word (ub : Z -> bool) (fuel : nat) (l : lex) (w : str) : option (lex * str) :=
  match fuel with
  | O => None
  | S f => if is_word_char ub (lc l) then plain_word ub f (read_next l) (lc l :: w) else Some (l, w)
  end.

(** Tokens.  A punctuation character is its own token number, so a NUL byte is the END
    token, whose number is 0.  The bytes of a word end at its first NUL, as it is read
    back as a C string by ToString. *)
Inductive token := TEnd | TPunct (c : Z) | TWord (w : str).

Fixpoint c_string (w : str) : str :=
  match w with
  | [] => []
  | b :: r => if b =? 0 then [] else b :: c_string r
  end.

(** lib/parse.y:832-893 yylex, after the start token: the token, the line and column of
    its first character, and the new state.  The word buffer is an array of char: bytes
    read back as unsigned ([mod 256]). *)
Definition yylex (ub : Z -> bool) (l : lex) : option (token * Z * Z * lex) :=
  let fuel := S (S (length (inp l))) in
  match skip_blank ub fuel l with
  | None => None
  | Some l1 =>
    if lc l1 =? EOF then Some (TEnd, line l1, col l1, l1)
    else if is_punctuation (lc l1) then
      Some (if lc l1 =? 0 then TEnd else TPunct (lc l1), line l1, col l1, read_next l1)
    else
      match (if lc l1 =? quote then quoted_word fuel l1 [] else plain_word ub fuel l1 []) with
      | None => None
      | Some (l2, w) =>
        Some (TWord (c_string (map (fun c => c mod 256) (rev w))), line l1, col l1, l2)
      end
  end.

(** lib/parse.y:929-935 (FbleParse) and 950-956 (FbleParseModulePath): the first state. *)
Definition lex_init (file : bool) (text : str) : lex := mk_lex 32 1 0 file text.

(** The tokens of a text, up to and including the first END, with their locations.  The
    parser asks for at most this many. *)
Fixpoint lex_all (ub : Z -> bool) (fuel : nat) (l : lex) : option (list (token * Z * Z)) :=
  match fuel with
  | O => None
  | S f =>
    match yylex ub l with
    | None => None
    | Some (TEnd, x, y, _) => Some [(TEnd, x, y)]
    | Some (t, x, y, l') =>
      match lex_all ub f l' with None => None | Some ts => Some ((t, x, y) :: ts) end
    end
  end.

Definition tokens (ub : Z -> bool) (file : bool) (text : str) : option (list (token * Z * Z)) :=
  lex_all ub (S (S (length text))) (lex_init file text).

(** ** Parsing a module path, lib/parse.y:216-238 and 942-970 *)

(** The rules [path: WORD | path '/' WORD], [module_path: '/' path '%'] and
    [start: PARSE_MODULE_PATH module_path] as the automaton they generate: the result (the
    [deps] vector of the action of the start rule) and whether a syntax error is reported.
    In the state after module_path the only possible action is to reduce, so the bison
    parser (with its usual default reductions) runs the action before it looks at the next
    token, and only then finds out that this is not END. *)
Fixpoint parse_path_rest (ts : list token) (acc : path) : option path * bool :=
  match ts with
  | TPunct 37 :: TEnd :: _ => (Some acc, false)
  | TPunct 37 :: _ => (Some acc, true)
  | TPunct 47 :: TWord w :: r => parse_path_rest r (acc ++ [mk_name w Normal])
  | _ => (None, true)
  end.

Definition parse_path (ts : list token) : option path * bool :=
  match ts with
  | TPunct 47 :: TWord w :: r => parse_path_rest r [mk_name w Normal]
  | _ => (None, true)
  end.

(** lib/parse.y:942-970 FbleParseModulePath: the result (NULL: [None]) and whether an
    error is reported; the result of yyparse is ignored.  The outer [None] is out of fuel. *)
Definition parse_module_path (ub : Z -> bool) (s : str) : option (option path * bool) :=
  match tokens ub false s with
  | None => None
  | Some ts => Some (parse_path (map (fun t => fst (fst t)) ts))
  end.

(** lib/parse.y:203-214, the rules for [name], on all tokens of a text. *)
Definition parse_name (ts : list token) : option name :=
  match ts with
  | [TWord w; TEnd] => Some (mk_name w Normal)
  | [TWord w; TPunct 64; TEnd] => Some (mk_name w Type_)
  | _ => None
  end.
