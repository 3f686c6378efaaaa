(** * Unused-variable warnings, lib/unused.c. *)
From Coq Require Import String Ascii List Arith Bool.
Import ListNotations.

(** [FbleName], include/fble/fble-name.h: the text, the name space (normal or
    type) and the location, here an opaque number. *)
Record vname : Type := MkVName { v_str : string; v_type : bool; v_loc : nat }.

(** FbleNamesEqual, lib/name.c:39-42; its own exactness on C strings is
    PathProps.v. *)
Definition vname_equal (a b : vname) : bool :=
  (Bool.eqb (v_type a) (v_type b) && String.eqb (v_str a) (v_str b))%bool.

(** [FbleExpr] and its variants, lib/expr.h:20-440.  [Null] is the NULL
    pointer.  Left out: locations, kinds, module paths, the text of literals
    and which of struct and union a data type is. *)
Inductive expr : Type :=
| Null
| Typeof (e : expr)
| Var (x : vname)
| Let (bs : list (vname * (expr * expr))) (body : expr)  (* name, type, value *)
| DataType (fields : list (vname * expr))
| DataAccess (object : expr) (field : vname)
| StructValue (args : list (vname * expr))
| StructCopy (src : expr) (args : list (vname * expr))
| UnionValue (type : expr) (field : vname) (arg : expr)
| UnionSelect (condition : expr) (choices : list (vname * expr)) (default_ : expr)
| FuncType (arg rtype : expr)
| FuncValue (arg : vname) (type body : expr)
| PolyValue (arg : vname) (body : expr)
| PolyApply (poly arg : expr)
| ListExpr (func : expr) (args : list expr)
| Literal (func : expr)
| ModulePath
| PackageType
| AbstractCast (package target value : expr)
| AbstractAccess (value : expr)
| MiscApply (misc : expr) (args : list expr).

(** A line printed to stderr: "variable ... defined but not used" or
    "argument ... is unused". *)
Inductive warning : Type := UnusedVar (x : vname) | UnusedArg (x : vname).

(** [Vars], lib/unused.c:16-20: the linked list, innermost variable first,
    with the [used] flags. *)
Definition vars := list (vname * bool).

(** A traversal updates the flags and prints; [None] is undefined behaviour
    or a loop that ran out of fuel. *)
Definition step := vars -> option (vars * list warning).

Definition nothing : step := fun vs => Some (vs, []).

Definition andthen (f g : step) : step := fun vs =>
  match f vs with
  | None => None
  | Some (vs1, o1) => match g vs1 with
                      | None => None
                      | Some (vs2, o2) => Some (vs2, o1 ++ o2)
                      end
  end.

(** [for (i = 0; i < size; ++i) Expr(xs[i], vars)]. *)
Definition each (l : list step) : step := fold_right andthen nothing l.

(** [name.name->str[0] == '_']. *)
Definition underscore (x : vname) : bool :=
  match v_str x with
  | String c _ => Ascii.eqb c "_"
  | EmptyString => false
  end.

(** The search of a variable, lib/unused.c:65-70. *)
Fixpoint use (x : vname) (vs : vars) : vars :=
  match vs with
  | [] => []
  | (y, u) :: r => if vname_equal x y then (y, true) :: r else (y, u) :: use x r
  end.

Definition flag (vs : vars) (i : nat) : bool :=
  match nth_error vs i with Some (_, u) => u | None => false end.

Fixpoint set_true (i : nat) (l : list bool) : list bool :=
  match l, i with
  | [], _ => []
  | _ :: r, 0 => true :: r
  | b :: r, S j => b :: set_true j r
  end.

(** The loop [while (v < varc)], lib/unused.c:92-101; [nvars[v]] is element
    [varc - 1 - v] of the list that starts at [nvars + varc - 1]. *)
Fixpoint settle (fuel : nat) (fs : list step) (v : nat) (processed : list bool)
         (vs : vars) : option (vars * list warning) :=
  match fuel with
  | 0 => None
  | S f =>
      if v <? length fs then
        if (flag vs (length fs - 1 - v) && negb (nth v processed false))%bool then
          match nth v fs (fun _ => None) vs with
          | None => None
          | Some (vs1, o1) =>
              match settle f fs 0 (set_true v processed) vs1 with
              | None => None
              | Some (vs2, o2) => Some (vs2, o1 ++ o2)
              end
          end
        else settle f fs (S v) processed vs
      else Some (vs, [])
  end.

(** The final loop of let, lib/unused.c:103-109, over the bindings in
    order. *)
Definition let_warnings (xs : list vname) (vs : vars) : list warning :=
  flat_map (fun i => match nth_error xs i with
                     | Some x => if flag vs (length xs - 1 - i) then [] else [UnusedVar x]
                     | None => []
                     end) (seq 0 (length xs)).

(** Expr, lib/unused.c:32-229. *)
Fixpoint visit (fuel : nat) (e : expr) : step :=
  match e with
  | Null => nothing                                                   (* 34-36 *)
  | DataType fields =>                                                (* 39-45 *)
      each (map (fun p => visit fuel (snd p)) fields)
  | FuncType arg rtype => andthen (visit fuel arg) (visit fuel rtype) (* 47-52 *)
  | PackageType => nothing                                            (* 54 *)
  | Typeof e => visit fuel e                                          (* 56-61 *)
  | Var x => fun vs => Some (use x vs, [])                            (* 63-72 *)
  | Let bs body => fun vs =>                                          (* 74-111 *)
      match each (map (fun b => visit fuel (fst (snd b))) bs) vs with
      | None => None
      | Some (vs1, o1) =>
          match bs with
          | [] => None    (* nvars - 1 *)
          | _ :: _ =>
              let nvars := map (fun b => (fst b, underscore (fst b))) bs in
              match visit fuel body (rev nvars ++ vs1) with
              | None => None
              | Some (vs2, o2) =>
                  match settle fuel (map (fun b => visit fuel (snd (snd b))) bs) 0
                               (map (fun _ => false) bs) vs2 with
                  | None => None
                  | Some (vs3, o3) =>
                      Some (skipn (length bs) vs3,
                            o1 ++ o2 ++ o3 ++ let_warnings (map fst bs) vs3)
                  end
              end
          end
      end
  | StructValue args => each (map (fun p => visit fuel (snd p)) args) (* 113-119 *)
  | StructCopy src args =>                                            (* 121-128 *)
      andthen (visit fuel src) (each (map (fun p => visit fuel (snd p)) args))
  | UnionValue type _ arg => andthen (visit fuel type) (visit fuel arg) (* 130-135 *)
  | UnionSelect condition choices default_ =>                         (* 137-145 *)
      andthen (visit fuel condition)
        (andthen (each (map (fun p => visit fuel (snd p)) choices)) (visit fuel default_))
  | FuncValue arg type body => fun vs =>                              (* 147-165 *)
      match visit fuel type vs with
      | None => None
      | Some (vs1, o1) =>
          match visit fuel body ((arg, underscore arg) :: vs1) with
          | None => None
          | Some (vs2, o2) =>
              Some (tl vs2, o1 ++ o2 ++ (if flag vs2 0 then [] else [UnusedArg arg]))
          end
      end
  | PolyValue arg body => fun vs =>                                   (* 167-177 *)
      match visit fuel body ((arg, false) :: vs) with
      | None => None
      | Some (vs1, o1) => Some (tl vs1, o1)
      end
  | PolyApply poly arg => andthen (visit fuel poly) (visit fuel arg)  (* 179-184 *)
  | ListExpr func args =>                                             (* 186-193 *)
      andthen (visit fuel func) (each (map (visit fuel) args))
  | Literal func => visit fuel func                                   (* 195-199 *)
  | AbstractCast package target value =>                              (* 201-207 *)
      andthen (visit fuel package) (andthen (visit fuel target) (visit fuel value))
  | AbstractAccess value => visit fuel value                          (* 209-213 *)
  | ModulePath => nothing                                             (* 215 *)
  | DataAccess object _ => visit fuel object                          (* 217-221 *)
  | MiscApply misc args =>                                            (* 223-229 *)
      andthen (visit fuel misc) (each (map (visit fuel) args))
  end.

(** FbleWarnAboutUnusedVars, lib/unused.c:233-236: what it prints. *)
Definition warn_about_unused_vars (fuel : nat) (e : expr) : option (list warning) :=
  match visit fuel e [] with
  | Some (_, o) => Some o
  | None => None
  end.
