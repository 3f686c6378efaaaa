(** * fbld/parse.c: the parser of documents. *)
From Coq Require Import ZArith String Ascii List Arith Bool.
From Verif Require Import FbldModel FbldSpec.
Import ListNotations.
Local Open Scope list_scope.
Notation length := List.length.
Notation bind := FbldModel.bind.

(** fbld/parse.c:16 END. *)
Definition END : Z := 3.
Definition NL : Z := 10.
Definition SP : Z := 32.

(** ** The lexer *)

(** fbld/parse.c:29-39 Lex: the inputs not yet opened, what is still to be read of [fin] (NULL is
    an empty file here), and [next] up to next_size; [next] is made larger when needed.  All
    files can be opened.  Of the location only the column is kept. *)
Record lex := mk_lex { files : list text; fin : text; column : nat; indent : nat; next : text }.

(** fbld/parse.c:85-110: the loop of GetC that opens the next input. *)
Fixpoint open_next (fs : list text) (l : lex) : Z * lex :=
  match fs with
  | [] => (END, mk_lex [] (fin l) (column l) (indent l) (next l))
  | [] :: r => open_next r (mk_lex r [] 1 (indent l) (next l))
  | (c :: t) :: r => (c, mk_lex r t 1 (indent l) (next l))
  end.
(** fbld/parse.c:78-112 GetC. *)
Definition get_c (l : lex) : Z * lex :=
  match fin l with
  | c :: t => (c, mk_lex (files l) t (column l) (indent l) (next l))
  | [] => match next l with [] => open_next (files l) l | _ => (END, l) end
  end.

(** fbld/parse.c:129-141, 227-236. *)
Definition columns (col : nat) (t : text) : nat := fold_left (fun n c => if (c =? NL)%Z then 1 else S n) t col.

(** fbld/parse.c:143-178: the loop of NextFetched; [k] is the number of columns to the left of
    the indentation, lex->indent + 1 - col. *)
Fixpoint fetch (k : nat) (l : lex) (i : nat) : Z * nat * lex :=
  let '(e, l1) :=
    if length (next l) =? i then
      let '(c, l1) := get_c l in
      if (c =? END)%Z then (true, l1) else (false, mk_lex (files l1) (fin l1) (column l1) (indent l1) (next l1 ++ [c]))
    else (false, l) in
  if e then (END, i, l1)
  else
    let c := nth i (next l1) END in
    match k with
    | O => (c, i, l1)
    | S k' => if (c =? SP)%Z then fetch k' l1 (S i) else if (c =? NL)%Z then (NL, i, l1) else (END, i, l1)
    end.
(** fbld/parse.c:123-179 NextFetched: the character, the index and the state. *)
Definition next_fetched (l : lex) (i : nat) : out (Z * nat * lex) :=
  if i <=? length (next l) then Ok (fetch (indent l + 1 - columns (column l) (firstn i (next l))) l i) else Stop AssertFail.

(** fbld/parse.c:187-191 Char. *)
Definition char_of (l : lex) : out (Z * lex) := do x <- next_fetched l 0; let '(c, _, l1) := x in Ok (c, l1).
(** fbld/parse.c:202-218 Is, from index [i] on. *)
Fixpoint is_from (l : lex) (s : text) (i : nat) : out (bool * lex) :=
  match s with
  | [] => Ok (true, l)
  | x :: r =>
    do y <- next_fetched l i;
    let '(c, j, l1) := y in
    if (c =? END)%Z then Ok (false, l1) else if (x =? c)%Z then is_from l1 r (S j) else Ok (false, l1)
  end.
Definition is (l : lex) (s : text) : out (bool * lex) := is_from l s 0.
(** fbld/parse.c:238-263 Advance. *)
Definition advance (l : lex) : out lex :=
  do x <- next_fetched l 0;
  let '(c, i, l1) := x in
  if (c =? END)%Z then Stop AssertFail
  else Ok (mk_lex (files l1) (fin l1) (columns (column l1) (firstn (S i) (next l1))) (indent l1) (skipn (S i) (next l1))).
Definition indent_by (l : lex) (n : nat) : lex := mk_lex (files l) (fin l) (column l) n (next l).

(** ** The parser *)

(** What the parser does to its lexer; [lex_ops] is the lexer above. *)
Record ops (L : Type) := mk_ops { o_is : L -> text -> out (bool * L); o_char : L -> out (Z * L); o_adv : L -> out L; o_col : L -> nat; o_indent : L -> nat; o_set : L -> nat -> L }.
Arguments mk_ops {L}. Arguments o_is {L}. Arguments o_char {L}. Arguments o_adv {L}. Arguments o_col {L}. Arguments o_indent {L}. Arguments o_set {L}.
Definition lex_ops : ops lex := mk_ops is char_of advance column indent indent_by.

(** fbld/parse.c:271-274 IsNameChar, for ASCII. *)
Definition is_name_char (c : Z) : bool :=
  ((c =? 95) || ((48 <=? c) && (c <=? 57)) || ((65 <=? c) && (c <=? 90)) || ((97 <=? c) && (c <=? 122)))%Z.

(** fbld/parse.c:45-52 InlineContext. *)
Inductive context := InlineArg | ImplicitBlock | SameLine.

(** fbld/parse.c:484-498: the elements of inline markup, and what is made of them. *)
Definition plains (chars : text) : list doc := match chars with [] => [] | _ => [Plain chars] end.
Definition inline_of (ds : list doc) : doc := match ds with [d] => d | _ => Sequence ds end.

Section Parser.
Context {L : Type} (O : ops L).

(** fbld/parse.c:285-301 ParseName; [acc] are the characters so far. *)
Fixpoint p_name (f : nat) (l : L) (acc : text) : out (text * L) :=
  match f with
  | 0 => Stop Timeout
  | S f' =>
    do (c, l1) <- o_char O l;
    if is_name_char c then
      do (c2, l2) <- o_char O l1; do l3 <- o_adv O l2; p_name f' l3 (acc ++ [c2])
    else Ok (acc, l1)
  end.

(** fbld/parse.c:327-345: the loop of ParseInlineArgs for the text of an argument in braces;
    [None] for an error. *)
Fixpoint p_literal (f : nat) (l : L) (nest : nat) (acc : text) : out (option text * L) :=
  match f with
  | 0 => Stop Timeout
  | S f' =>
    do (b, l1) <- (if 0 <? nest then Ok (false, l) else o_is O l (txt "}"));
    if b then Ok (Some acc, l1)
    else
      do (e, l2) <- o_char O l1;
      if (e =? END)%Z then Ok (None, l2)
      else
        do (b1, l3) <- o_is O l2 (txt "{");
        do (b2, l4) <- o_is O l3 (txt "}");
        let n1 := if b1 then S nest else nest in
        let n2 := if b2 then pred n1 else n1 in
        do (c, l5) <- o_char O l4;
        do l6 <- o_adv O l5;
        p_literal f' l6 n2 (acc ++ [c])
  end.

(** fbld/parse.c:415-421, 462-476: the character an escape stands for. *)
Definition escaped (c : Z) : option Z :=
  (if (c =? 64) || (c =? 91) || (c =? 92) || (c =? 93) then Some c else if c =? 110 then Some NL else None)%Z.

(** fbld/parse.c:315-368 ParseInlineArgs, 381-394 ParseInlineCommand and 406-501 ParseInline; a
    loop is a function of the values it changes: the arguments [acc], the characters [chars] and
    the markups [ds] so far.  Locations, messages and the freeing of markups after an error are
    left out. *)
Fixpoint p_args (f : nat) (l : L) (acc : list doc) {struct f} : out (option (list doc) * L) :=
  match f with
  | 0 => Stop Timeout
  | S f' =>
    do (b0, l0) <- o_is O l (txt "[");
    do (b1, l1) <- (if b0 then Ok (true, l0) else o_is O l0 (txt "{"));
    if negb b1 then Ok (Some acc, l1)
    else
      do (b2, l2) <- o_is O l1 (txt "{");
      if b2 then
        do l3 <- o_adv O l2;
        do (x, l4) <- p_literal f' l3 0 [];
        match x with
        | None => Ok (None, l4)
        | Some t => do l5 <- o_adv O l4; p_args f' l5 (acc ++ [Plain t])
        end
      else
        do (b3, l3) <- o_is O l2 (txt "[");
        if b3 then
          do l4 <- o_adv O l3;
          do (x, l5) <- p_inline f' l4 InlineArg [] [];
          match x with
          | None => Ok (None, l5)
          | Some d =>
            do (b4, l6) <- o_is O l5 (txt "]");
            if b4 then do l7 <- o_adv O l6; p_args f' l7 (acc ++ [d]) else Stop AssertFail
          end
        else p_args f' l3 acc
  end
with p_inline (f : nat) (l : L) (ctx : context) (chars : text) (ds : list doc) {struct f} : out (option doc * L) :=
  match f with
  | 0 => Stop Timeout
  | S f' =>
    let done (l : L) : out (option doc * L) := Ok (Some (inline_of (ds ++ plains chars)), l) in
    let rest (l : L) : out (option doc * L) :=
      do (b, l1) <- o_is O l (txt "@");
      if b then
        do l2 <- o_adv O l1;
        do (x, l3) <- p_name f' l2 [];
        do (y, l4) <- p_args f' l3 [];
        match y with
        | None => Ok (None, l4)
        | Some args => p_inline f' l4 ctx [] (ds ++ plains chars ++ [Command x args])
        end
      else
        do (b2, l2) <- o_is O l1 (txt "\");
        if b2 then
          do l3 <- o_adv O l2;
          do (c, l4) <- o_char O l3;
          match escaped c with
          | None => Ok (None, l4)
          | Some c' => do l5 <- o_adv O l4; p_inline f' l5 ctx (chars ++ [c']) ds
          end
        else
          do (c, l3) <- o_char O l2;
          do l4 <- o_adv O l3;
          p_inline f' l4 ctx (chars ++ [c]) ds in
    match ctx with
    | InlineArg =>
      do (b, l1) <- o_is O l (txt "]");
      if b then done l1
      else
        do (c, l2) <- o_char O l1;
        if (c =? END)%Z then Ok (None, l2) else rest l2
    | SameLine =>
      do (b1, l1) <- o_is O l [NL];
      if b1 then done l1
      else
        do (b2, l2) <- o_is O l1 (txt " @" ++ [NL]);
        if b2 then done l2
        else
          do (b3, l3) <- o_is O l2 (txt " @@" ++ [NL]);
          if b3 then done l3 else rest l3
    | ImplicitBlock =>
      do (b1, l1) <- (if o_col O l =? 1 then o_is O l [NL] else Ok (false, l));
      if b1 then done l1
      else
        do (c, l2) <- o_char O l1;
        if (c =? END)%Z then done l2 else rest l2
    end
  end.

(** while (Is(lex, "\n")) Advance(lex); *)
Fixpoint p_blank (f : nat) (l : L) : out L :=
  match f with
  | 0 => Stop Timeout
  | S f' => do (b, l1) <- o_is O l [NL]; if b then do l2 <- o_adv O l1; p_blank f' l2 else Ok l1
  end.
(** fbld/parse.c:567-577: the characters of a next line literal argument. *)
Fixpoint p_lines (f : nat) (l : L) (acc : text) : out (text * L) :=
  match f with
  | 0 => Stop Timeout
  | S f' =>
    do (e, l1) <- o_char O l;
    if (e =? END)%Z then Ok (acc, l1)
    else do (c, l2) <- o_char O l1; do l3 <- o_adv O l2; p_lines f' l3 (acc ++ [c])
  end.
(** fbld/parse.c:579-584: the text without trailing blank lines; [t] is reversed. *)
Fixpoint strip_rev (t : text) : text :=
  match t with
  | x :: (y :: _) as r => if (x =? NL)%Z && (y =? NL)%Z then strip_rev r else t
  | _ => t
  end.
Definition strip (t : text) : text := rev (strip_rev (rev t)).

Definition block_of (d : doc) : doc := Command (txt ".block") [d].

(** fbld/parse.c:514-639 ParseBlockCommand, after the name, and 652-719 ParseBlock, from its loop
    on. *)
Fixpoint p_command (f : nat) (l : L) (x : text) (acc : list doc) {struct f} : out (option doc * L) :=
  match f with
  | 0 => Stop Timeout
  | S f' =>
    let final (l : L) (acc : list doc) : out (option doc * L) :=
      do l0 <- p_blank f' l;
      do (y, l1) <- p_block f' l0 [];
      match y with None => Ok (None, l1) | Some d => Ok (Some (Command x (acc ++ [d])), l1) end in
    do (y, l0) <- p_args f' l [];
    match y with
    | None => Ok (None, l0)
    | Some args =>
      let acc := acc ++ args in
      do (b1, l1) <- o_is O l0 (txt " ");
      do (b2, l2) <- (if b1 then o_is O l1 (txt " @" ++ [NL]) else Ok (true, l1));
      do (b3, l3) <- (if b2 then Ok (true, l2) else o_is O l2 (txt " @@" ++ [NL]));
      do (y, l4) <- (if b3 then Ok (Some [], l3)
                     else do l4 <- o_adv O l3;
                          do (d, l5) <- p_inline f' l4 SameLine [] [];
                          Ok (match d with Some d => Some [d] | None => None end, l5));
      match y with
      | None => Ok (None, l4)
      | Some same =>
        let acc := acc ++ same in
        do (b5, l5) <- o_is O l4 (txt " @@" ++ [NL]);
        if b5 then
          do l6 <- o_adv O l5; do l7 <- o_adv O l6; do l8 <- o_adv O l7; do l9 <- o_adv O l8;
          final l9 acc
        else
          do (b6, l6) <- o_is O l5 (txt " @" ++ [NL]);
          do (y, l7) <-
            (if b6 then
               do l7 <- o_adv O l6; do l8 <- o_adv O l7; do l9 <- o_adv O l8;
               do (t, l10) <- p_lines f' (o_set O l9 (S (o_indent O l9))) [];
               Ok (Some [Plain (strip t)], o_set O l10 (pred (o_indent O l10)))
             else
               do (b7, l7) <- o_is O l6 [NL];
               if b7 then do l8 <- o_adv O l7; Ok (Some [], l8)
               else Ok (None, l7));
          match y with
          | None => Ok (None, l7)
          | Some lit =>
            let acc := acc ++ lit in
            do (b8, l8) <- o_is O l7 (txt " ");
            do (y, l9) <-
              (if b8 then
                 do l9 <- p_blank f' (o_set O l8 (S (o_indent O l8)));
                 do (d, l10) <- p_block f' l9 [];
                 match d with
                 | None => Ok (None, l10)
                 | Some d => Ok (Some [d], o_set O l10 (pred (o_indent O l10)))
                 end
               else Ok (Some [], l8));
            match y with
            | None => Ok (None, l9)
            | Some arg =>
              let acc := acc ++ arg in
              do (b10, l10) <- o_is O l9 (txt "@@" ++ [NL]);
              if b10 then
                do l11 <- o_adv O l10; do l12 <- o_adv O l11; do l13 <- o_adv O l12;
                final l13 acc
              else
                do (c1, l11) <- o_is O l10 (txt "@" ++ [NL]);
                do (c2, l12) <- (if c1 then Ok (true, l11) else o_is O l11 (txt "@ "));
                do (c3, l13) <- (if c2 then Ok (true, l12) else o_is O l12 (txt "@["));
                do (c4, l14) <- (if c3 then Ok (true, l13) else o_is O l13 (txt "@{"));
                if c4 then do l15 <- o_adv O l14; p_command f' l15 x acc
                else Ok (Some (Command x acc), l14)
            end
          end
      end
    end
  end
with p_block (f : nat) (l : L) (ds : list doc) {struct f} : out (option doc * L) :=
  match f with
  | 0 => Stop Timeout
  | S f' =>
    let more (y : option doc) (l : L) : out (option doc * L) :=
      match y with
      | None => Ok (None, l)
      | Some d => do l1 <- p_blank f' l; p_block f' l1 (ds ++ [d])
      end in
    let block (l : L) : out (option doc * L) :=
      do (y, l1) <- p_inline f' l ImplicitBlock [] [];
      more (match y with Some d => Some (block_of d) | None => None end) l1 in
    do (e, l0) <- o_char O l;
    if (e =? END)%Z then Ok (Some (Sequence ds), l0)
    else
      do (b1, l1) <- o_is O l0 (txt "@@");
      if b1 then do l2 <- o_adv O l1; block l2
      else
        do (b2, l2) <- o_is O l1 (txt "@");
        if b2 then
          do l3 <- o_adv O l2;
          do (x, l4) <- p_name f' l3 [];
          do (y, l5) <- p_command f' l4 x [];
          more y l5
        else block l2
  end.
Definition parse_ops (f : nat) (l : L) : out (option doc) :=
  do l0 <- p_blank f l;
  do (y, _) <- p_block f l0 [];
  Ok y.
End Parser.

(** fbld/parse.c:697-719 FbldParse, of the contents of the inputs; [None] after an error. *)
Definition start_lex (inputs : list text) : lex := mk_lex inputs [] 0 0 [].
Definition fbld_parse (f : nat) (inputs : list text) : out (option doc) := parse_ops lex_ops f (start_lex inputs).
