(** * Types: normal forms, substitution and equality, lib/type.c. *)
From Coq Require Import String List Arith Bool ZArith.
Import ListNotations.
From Verif Require Import KindModel UnusedModel.

(** [FbleType] and its variants, lib/type.h:21-180.  Types are numbered;
    pointers to types are their numbers.  Left out: locations and the
    [visiting] flag, which is only set during HasParam.  A type that is
    pointed to is alive: TypeHeapProps.v is about reference counts and
    collection, so retaining and releasing types is left out here. *)
Inductive ty : Type :=
| TData (union : bool) (fields : list (vname * nat))
| TFunc (arg rtype : nat)
| TPoly (arg body : nat)
| TApply (poly arg : nat)
| TPackage (path : list string) (opaque : bool)
| TAbstract (package type : nat)
| TVar (k : kind) (name : vname) (value : option nat)
| TType (type : nat).

(** The types allocated so far. *)
Definition store := list ty.
Definition get (st : store) (n : nat) : option ty := nth_error st n.
Fixpoint put (st : store) (n : nat) (t : ty) : store :=
  match st, n with
  | [], _ => []
  | _ :: r, 0 => t :: r
  | x :: r, S m => x :: put r m t
  end.

(** FbleNewType: the new type has the next number. *)
Definition new_type (st : store) (t : ty) : store * nat := (st ++ [t], List.length st).

Definition is_in (n : nat) (l : list nat) : bool := existsb (Nat.eqb n) l.

(** HasParam and HasParam_, lib/type.c:328-402.  [visiting] are the types
    whose flag is set. *)
Fixpoint has_param (fuel : nat) (st : store) (visiting : list nat) (t param : nat)
  : option bool :=
  match fuel with
  | 0 => None
  | S f =>
      if is_in t visiting then Some false
      else
        let hp := fun x => has_param f st (t :: visiting) x param in
        let or2 := fun x y =>
          match hp x with
          | Some false => hp y
          | r => r
          end in
        match get st t with
        | None => None
        | Some (TData _ fields) =>
            fold_right (fun p r => match hp (snd p) with Some false => r | x => x end)
                       (Some false) fields
        | Some (TFunc arg rtype) => or2 arg rtype
        | Some (TPoly arg body) => if arg =? param then Some false else hp body
        | Some (TApply poly arg) => or2 arg poly
        | Some (TPackage _ _) => Some false
        | Some (TAbstract _ type) => hp type
        | Some (TVar _ _ value) =>
            if t =? param then Some true
            else match value with None => Some false | Some v => hp v end
        | Some (TType type) => hp type
        end
  end.

(** FbleGetKind, lib/type.c:784-846. *)
Fixpoint kind_of (fuel : nat) (st : store) (t : nat) : option kind :=
  match fuel with
  | 0 => None
  | S f =>
      match get st t with
      | None => None
      | Some (TData _ _) | Some (TFunc _ _) | Some (TPackage _ _) | Some (TAbstract _ _) =>
          Some (Basic 0)
      | Some (TPoly arg body) =>
          match kind_of f st arg, kind_of f st body with
          | Some ka, Some kb =>
              match level_adjusted ka 1 with
              | Some ka' => Some (Poly ka' kb)
              | None => None
              end
          | _, _ => None
          end
      | Some (TApply poly _) =>
          match kind_of f st poly with
          | Some (Poly _ r) => Some r
          | _ => None
          end
      | Some (TVar k _ _) => Some k
      | Some (TType type) =>
          match kind_of f st type with
          | Some k => level_adjusted k 1
          | None => None
          end
      end
  end.

(** FbleNewVarType, lib/type.c:933-954. *)
Fixpoint wrap (n : nat) (st : store) (t : nat) : store * nat :=
  match n with
  | 0 => (st, t)
  | S m => let '(st1, t1) := new_type st (TType t) in wrap m st1 t1
  end.
Definition new_var_type (st : store) (k : kind) (name : vname) : option (store * nat) :=
  let level := kind_level k in
  match level_adjusted k (- Z.of_nat level) with
  | None => None
  | Some k0 => let '(st1, v) := new_type st (TVar k0 name None) in Some (wrap level st1 v)
  end.

(** FbleAssignVarType, lib/type.c:957-972. *)
Fixpoint assign_var (fuel : nat) (st : store) (var value : nat) : option store :=
  match fuel with
  | 0 => None
  | S f =>
      match get st var with
      | Some (TType var') =>
          match get st value with
          | Some (TType value') => assign_var f st var' value'
          | _ => None
          end
      | Some (TVar _ name _) =>
          match kind_of f st value with
          | Some k => Some (put st var (TVar k name (Some value)))
          | None => None
          end
      | _ => None
      end
  end.

(** Subst, lib/type.c:441-577. *)
Fixpoint subst (fuel : nat) (st : store) (t param arg : nat) (tps : list (nat * nat))
  : option (store * nat) :=
  match fuel with
  | 0 => None
  | S f =>
      match has_param f st [] t param with
      | None => None
      | Some false => Some (st, t)                                     (* 443-445 *)
      | Some true =>
          match get st t with
          | None => None
          | Some (TData union fields) =>                               (* 448-464 *)
              let '(st1, s) := new_type st (TData union []) in
              let fix go (l : list (vname * nat)) (st : store) (acc : list (vname * nat)) :=
                match l with
                | [] => Some (put st s (TData union acc), s)
                | (x, ft) :: r =>
                    match subst f st ft param arg tps with
                    | None => None
                    | Some (st', ft') => go r st' (acc ++ [(x, ft')])
                    end
                end in
              go fields st1 []
          | Some (TFunc a r) =>                                        (* 466-481 *)
              match subst f st a param arg tps with
              | None => None
              | Some (st1, a') =>
                  match subst f st1 r param arg tps with
                  | None => None
                  | Some (st2, r') => Some (new_type st2 (TFunc a' r'))
                  end
              end
          | Some (TPoly a b) =>                                        (* 483-496 *)
              match subst f st b param arg tps with
              | None => None
              | Some (st1, b') =>
                  match get st1 b' with
                  | None | Some (TType _) => None
                  | _ => Some (new_type st1 (TPoly a b'))
                  end
              end
          | Some (TApply p a) =>                                       (* 498-514 *)
              match subst f st p param arg tps with
              | None => None
              | Some (st1, p') =>
                  match subst f st1 a param arg tps with
                  | None => None
                  | Some (st2, a') =>
                      match get st2 p' with
                      | None | Some (TType _) => None
                      | _ => Some (new_type st2 (TApply p' a'))
                      end
                  end
              end
          | Some (TPackage _ _) => None                                (* 516-519 *)
          | Some (TAbstract p b) =>                                    (* 521-533 *)
              match subst f st b param arg tps with
              | None => None
              | Some (st1, b') => Some (new_type st1 (TAbstract p b'))
              end
          | Some (TVar _ _ None) =>                                    (* 535-539 *)
              Some (st, if t =? param then arg else t)
          | Some (TVar k name (Some v)) =>                             (* 541-561 *)
              match find (fun p => fst p =? v) tps with
              | Some (_, s) => Some (st, s)
              | None =>
                  match new_var_type st k name with
                  | None => None
                  | Some (st1, svar) =>
                      match subst f st1 v param arg ((v, svar) :: tps) with
                      | None => None
                      | Some (st2, v') =>
                          match assign_var f st2 svar v' with
                          | None => None
                          | Some st3 => Some (st3, v')
                          end
                      end
                  end
              end
          | Some (TType b) =>                                          (* 563-573 *)
              match subst f st b param arg tps with
              | None => None
              | Some (st1, b') => Some (new_type st1 (TType b'))
              end
          end
      end
  end.

(** Normal, lib/type.c:242-313.  The inner [None] is NULL. *)
Fixpoint normal (fuel : nat) (st : store) (t : nat) (normalizing : list nat)
  : option (store * option nat) :=
  match fuel with
  | 0 => None
  | S f =>
      if is_in t normalizing then Some (st, None)
      else
        let nn := t :: normalizing in
        match get st t with
        | None => None
        | Some (TData _ _) | Some (TFunc _ _) | Some (TPackage _ _)
        | Some (TAbstract _ _) | Some (TType _) => Some (st, Some t)
        | Some (TPoly arg body) =>
            match normal f st body nn with
            | None => None
            | Some (st1, None) => Some (st1, None)
            | Some (st1, Some pat) =>
                match get st1 pat with
                | None => None
                | Some (TApply q x) => Some (st1, Some (if x =? arg then q else t))
                | Some _ => Some (st1, Some t)
                end
            end
        | Some (TApply p x) =>
            match normal f st p nn with
            | None => None
            | Some (st1, None) => Some (st1, None)
            | Some (st1, Some q) =>
                match get st1 q with
                | None => None
                | Some (TPoly arg body) =>
                    match subst f st1 body arg x [] with
                    | None => None
                    | Some (st2, s) => normal f st2 s nn
                    end
                | Some _ => Some (st1, Some t)
                end
            end
        | Some (TVar _ _ None) => Some (st, Some t)
        | Some (TVar _ _ (Some v)) => normal f st v nn
        end
  end.

(** FbleNormalType, lib/type.c:1045-1050. *)
Definition normal_type (fuel : nat) (st : store) (t : nat) : option (store * nat) :=
  match normal fuel st t [] with
  | Some (st', Some n) => Some (st', n)
  | _ => None
  end.

(** The assignments to type variables being inferred: [FbleTypeAssignmentV]. *)
Definition asgn := list (nat * option nat).

Fixpoint set_asgn (vars : asgn) (a b : nat) : asgn :=
  match vars with
  | [] => []
  | (x, v) :: r => if x =? a then (x, Some b) :: r else (x, v) :: set_asgn r a b
  end.

(** FbleModulePathsEqual; its own exactness on C strings is PathProps.v. *)
Fixpoint path_equal (a b : list string) : bool :=
  match a, b with
  | [], [] => true
  | x :: a', y :: b' => (String.eqb x y && path_equal a' b')%bool
  | _, _ => false
  end.

Definition pair_in (a b : nat) (eq : list (nat * nat)) : bool :=
  existsb (fun p => ((fst p =? a) && (snd p =? b))%bool) eq.

(** TypesEqual, lib/type.c:594-781. *)
Fixpoint types_equal (fuel : nat) (st : store) (vars : asgn) (a b : nat)
         (eq : list (nat * nat)) : option (store * asgn * bool) :=
  match fuel with
  | 0 => None
  | S f =>
      match normal_type f st a with                                    (* 596 *)
      | None => None
      | Some (st0, a0) =>
          (* the comparison proper, lines 615-776 *)
          let compare := fun (st1 : store) (a : nat) =>
            match normal_type f st1 b with
            | None => None
            | Some (st2, b) =>
                if pair_in a b eq then Some (st2, vars, true)
                else
                  let neq := (a, b) :: eq in
                  let both := fun (x y : nat) (x' y' : nat) =>
                    match types_equal f st2 vars x y neq with
                    | None => None
                    | Some (st3, vars3, false) => Some (st3, vars3, false)
                    | Some (st3, vars3, true) => types_equal f st3 vars3 x' y' neq
                    end in
                  match get st2 a, get st2 b with
                  | Some ta, Some tb =>
                      match (match ta with
                             | TAbstract p t => match get st2 p with
                                                | Some (TPackage _ o) => Some (if o : bool then None else Some t)
                                                | _ => None
                                                end
                             | _ => Some None
                             end) with
                      | None => None
                      | Some (Some t) => types_equal f st2 vars t b neq  (* 633-641 *)
                      | Some None =>
                          match (match tb with
                                 | TAbstract p t => match get st2 p with
                                                    | Some (TPackage _ o) => Some (if o : bool then None else Some t)
                                                    | _ => None
                                                    end
                                 | _ => Some None
                                 end) with
                          | None => None
                          | Some (Some t) => types_equal f st2 vars a t neq  (* 643-651 *)
                          | Some None =>
                              match ta, tb with
                              | TData ua fa, TData ub fb =>              (* 660-687 *)
                                  if (Bool.eqb ua ub && (List.length fa =? List.length fb))%bool then
                                    (fix go (la lb : list (vname * nat)) st vars :=
                                       match la, lb with
                                       | (x, s) :: ra, (y, t) :: rb =>
                                           if vname_equal x y then
                                             match types_equal f st vars s t neq with
                                             | None => None
                                             | Some (st', vars', false) => Some (st', vars', false)
                                             | Some (st', vars', true) => go ra rb st' vars'
                                             end
                                           else Some (st, vars, false)
                                       | _, _ => Some (st, vars, true)
                                       end) fa fb st2 vars
                                  else Some (st2, vars, false)
                              | TFunc xa ra, TFunc xb rb => both xa xb ra rb   (* 689-699 *)
                              | TPoly xa ba, TPoly xb bb =>              (* 701-726 *)
                                  match kind_of f st2 xa, kind_of f st2 xb with
                                  | Some ka, Some kb =>
                                      if kinds_equal ka kb
                                      then types_equal f st2 vars ba bb ((xa, xb) :: neq)
                                      else Some (st2, vars, false)
                                  | _, _ => None
                                  end
                              | TApply pa xa, TApply pb xb => both pa pb xa xb (* 728-736 *)
                              | TPackage pa _, TPackage pb _ =>          (* 738-745 *)
                                  Some (st2, vars, path_equal pa pb)
                              | TAbstract pa xa, TAbstract pb xb => both pa pb xa xb (* 747-755 *)
                              | TVar _ _ va, TVar _ _ vb =>              (* 757-765 *)
                                  match va, vb with
                                  | None, None => Some (st2, vars, a =? b)
                                  | _, _ => None
                                  end
                              | TType xa, TType xb => types_equal f st2 vars xa xb neq (* 767-774 *)
                              | _, _ => Some (st2, vars, false)          (* 653-657 *)
                              end
                          end
                      end
                  | _, _ => None
                  end
            end in
          match find (fun p => fst p =? a0) vars with                  (* 599-613 *)
          | None => compare st0 a0
          | Some (_, None) => Some (st0, set_asgn vars a0 b, true)
          | Some (_, Some v) =>
              match normal_type f st0 v with
              | None => None
              | Some (st1, a1) => compare st1 a1
              end
          end
      end
  end.

(** FbleTypeInfer, lib/type.c:1113-1116. *)
Definition type_infer fuel st vars abstract concrete := types_equal fuel st vars abstract concrete [].

(** FbleTypesEqual, lib/type.c:1106-1110. *)
Definition fble_types_equal (fuel : nat) (st : store) (a b : nat) : option bool :=
  match type_infer fuel st [] a b with
  | Some (_, _, r) => Some r
  | None => None
  end.
