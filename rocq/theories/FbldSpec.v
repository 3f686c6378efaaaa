(** * What evaluating a document means.

    Nothing here looks at memory or at the commands of the evaluator. *)
From Coq Require Import ZArith String Ascii List Arith Bool.
From Verif Require Import FbldModel.
Import ListNotations.
Local Open Scope list_scope.
Notation length := List.length.

(** Documents. *)
Inductive doc := Plain (t : text) | Command (name : text) (args : list doc) | Sequence (ds : list doc).

(** The definitions in force, the innermost first. *)
Inductive def := Fun (name : text) (params : list text) (body : doc) | Val (name : text) (value : doc).
Definition name_of (d : def) : text := match d with Fun x _ _ | Val x _ => x end.

(** ** Documents as strings *)

(** The characters of a document, and the commands left in it. *)
Inductive item := Char (c : Z) | Cmd (name : text).
Fixpoint items (d : doc) : list item :=
  match d with
  | Plain t => map Char t
  | Command x _ => [Cmd x]
  | Sequence ds => flat_map items ds
  end.
(** Its plain texts, [None] for a command. *)
Fixpoint pieces (d : doc) : list (option text) :=
  match d with
  | Plain t => [Some t]
  | Command _ _ => [None]
  | Sequence ds => flat_map pieces ds
  end.
Fixpoint join (l : list (option text)) : option text :=
  match l with
  | [] => Some []
  | None :: _ => None
  | Some t :: r => match join r with Some x => Some (t ++ x) | None => None end
  end.

(** The document without its first character. *)
Fixpoint drop (d : doc) : option doc :=
  match d with
  | Plain (_ :: t) => Some (Plain t)
  | Plain [] | Command _ _ => None
  | Sequence ds =>
    (fix each (l : list doc) : option doc :=
       match l with
       | [] => None
       | x :: r => match drop x with Some y => Some (match r with [] => y | _ => Sequence (y :: r) end) | None => each r end
       end) ds
  end.

(** Comparing strings; [None] if there is a command before they are found equal or different. *)
Fixpoint same (a b : list item) : option bool :=
  match a, b with
  | Cmd _ :: _, _ | _, Cmd _ :: _ => None
  | Char x :: a', Char y :: b' => if (x =? y)%Z then same a' b' else Some false
  | [], [] => Some true
  | _, _ => Some false
  end.

(** [f] applied to each plain text. *)
Fixpoint apply_plain (f : text) (d : doc) : doc :=
  match d with
  | Plain t => Command f [d]
  | Command _ _ => d
  | Sequence ds => Sequence (map (apply_plain f) ds)
  end.

(** ** Evaluation *)

(** A document, an error that is reported, the failed assertion of FbldTextOfMarkup
    (fbld/markup.c:159), or none of these with the given depth. *)
Inductive result (A : Type) := Value (a : A) | Error | Assert | Deep.
Arguments Value {A}. Arguments Error {A}. Arguments Assert {A}. Arguments Deep {A}.
Definition bind {A B} (x : result A) (k : A -> result B) : result B :=
  match x with Value a => k a | Error => Error | Assert => Assert | Deep => Deep end.
Notation "'let?' p := x 'in' k" := (bind x (fun p => k)) (at level 200, p pattern, x at level 100, k at level 200).

(** The string of a document; the code fails if it starts with two empty texts. *)
Definition string_of (d : doc) : result text :=
  match pieces d with
  | Some [] :: Some [] :: _ => Assert
  | l => match join l with Some t => Value t | None => Error end
  end.

(** The entry of a name and what follows it. *)
Fixpoint lookup (env : list def) (x : text) : option (def * list def) :=
  match env with
  | [] => None
  | d :: r => if text_eqb x (name_of d) then Some (d, env) else lookup r x
  end.

(** The last argument is the innermost. *)
Fixpoint bind_args (params : list text) (vs : list doc) (env : list def) : list def :=
  match params, vs with
  | x :: params', v :: vs' => bind_args params' vs' (Val x v :: env)
  | _, _ => env
  end.

(** Arguments are evaluated from the last to the first. *)
Definition eval_list (ev : doc -> result doc) : list doc -> result (list doc) :=
  fix each (l : list doc) : result (list doc) :=
    match l with
    | [] => Value []
    | x :: r => let? r' := each r in let? x' := ev x in Value (x' :: r')
    end.

Fixpoint eval (n : nat) (env : list def) (d : doc) : result doc :=
  match n with
  | O => Deep
  | S n' =>
    let ev := eval n' env in
    match d with
    | Plain _ => Value d
    | Sequence ds => let? ds' := eval_list ev ds in Value (Sequence ds')
    | Command x args =>
      match lookup env x with
      | Some (Val _ v, _) => match args with [] => Value v | _ => Error end
      | Some (Fun _ params body, env') =>
        if length args =? length params then let? vs := eval_list ev args in eval n' (bind_args params vs env') body else Error
      | None =>
        if text_eqb x (txt "error") then
          match args with [m] => let? v := ev m in let? s := string_of v in Error | _ => Error end
        else if text_eqb x (txt "define") then
          match args with
          | [name; params; def; body] =>
            let? p := ev params in let? m := ev name in let? x := string_of m in let? ps := string_of p in
            eval n' (Fun x (split_args ps []) def :: env) body
          | _ => Error
          end
        else if text_eqb x (txt "let") then
          match args with
          | [name; def; body] =>
            let? v := ev def in let? m := ev name in let? x := string_of m in
            eval n' (Val x v :: env) body
          | _ => Error
          end
        else if text_eqb x (txt "head") then
          match args with
          | [a] =>
            let? v := ev a in
            match items v with [] => Value v | Char c :: _ => Value (Plain [c]) | Cmd _ :: _ => Error end
          | _ => Error
          end
        else if text_eqb x (txt "tail") then
          match args with
          | [a] =>
            let? v := ev a in
            match items v with [] => Value v | Cmd _ :: _ => Error | Char _ :: _ => Value (match drop v with Some w => w | None => v end) end
          | _ => Error
          end
        else if text_eqb x (txt "ifeq") || text_eqb x (txt "ifneq") then
          match args with
          | [a; b; yes; no] =>
            let? w := ev b in let? v := ev a in
            match same (items v) (items w) with
            | None => Error
            | Some r => ev (if Bool.eqb r (text_eqb x (txt "ifeq")) then yes else no)
            end
          | _ => Error
          end
        else if text_eqb x (txt "plain") then
          match args with
          | [f; body] =>
            let? v := ev body in let? g := ev f in let? s := string_of g in
            ev (apply_plain s v)
          | _ => Error
          end
        else if text_eqb x (txt "eval") then
          match args with [a] => let? v := ev a in ev v | _ => Error end
        else Value d
      end
    end
  end.

(** ** Documents in memory *)

(** [holds h p d]: the markup at [p] is the document [d]. *)
Inductive holds (h : heap) : option nat -> doc -> Prop :=
| holds_plain a t ks r : mh h a = Some (mk_node TPlain t ks r) -> holds h (Some a) (Plain t)
| holds_command a x ks r ds : mh h a = Some (mk_node TCommand x ks r) -> Forall2 (holds h) ks ds -> holds h (Some a) (Command x ds)
| holds_sequence a t ks r ds : mh h a = Some (mk_node TSequence t ks r) -> Forall2 (holds h) ks ds -> holds h (Some a) (Sequence ds).

(** A document put in memory, as FbldParse makes it: every markup is used once. *)
Fixpoint alloc (h : heap) (d : doc) : heap * nat :=
  let all := fix all (h : heap) (l : list doc) : heap * list (option nat) :=
    match l with [] => (h, []) | x :: r => let '(h1, a) := alloc h x in let '(h2, ks) := all h1 r in (h2, Some a :: ks) end in
  match d with
  | Plain t => new_plain h t
  | Command x ds => let '(h1, ks) := all h ds in new_node h1 (mk_node TCommand x ks 1)
  | Sequence ds => let '(h1, ks) := all h ds in new_node h1 (mk_node TSequence [] ks 1)
  end.
Definition no_memory : heap := mk_heap (fun _ => None) 0 (fun _ => None) 0.
