(** * The type checker: lib/typecheck.c. *)
From Coq Require Import String List Arith Bool ZArith.
From Verif Require CodeModel CompileModel.
From Verif Require Import KindModel UnusedModel TypeModel.
Import ListNotations.
Local Open Scope list_scope.

Local Notation tc := CompileModel.tc.
Local Notation var := CodeModel.var.

(** [FbleExpr], lib/expr.h, without locations.  UnusedModel.v has a smaller version
    of it, without what the warnings do not look at.  Paths are lists of names, all of the
    normal name space. *)
Inductive expr : Type :=
| ETypeof (e : expr)
| EVar (x : vname)
| EModulePath (p : list string)
| ELet (bs : list (vname * (kind + expr) * expr)) (body : expr)   (** name, kind or type, value *)
| EDataType (union : bool) (fields : list (vname * expr))
| EAccess (object : expr) (field : vname)
| EStruct (args : list (vname * expr))
| ECopy (src : expr) (args : list (vname * expr))
| EUnion (type : expr) (field : vname) (arg : expr)
| ESelect (condition : expr) (choices : list (vname * expr)) (default : option expr)
| EFuncType (arg rtype : expr)
| EFunc (arg : vname) (type body : expr)
| EPoly (arg : vname) (k : kind) (body : expr)
| EPolyApply (poly arg : expr)
| EList (func : expr) (args : list expr)
| ELiteral (func : expr) (word : string)
| EPackage (p : list string)
| ECast (package target value : expr)
| EAbsAccess (value : expr)
| EApply (bind : bool) (misc : expr) (args : list expr).

(** lib/typecheck.c:30-36 VarName, and 215-226 VarNamesEqual. *)
Inductive var_name := Plain (x : vname) | Mod (p : list string).
Definition var_names_equal (a b : var_name) : bool :=
  match a, b with
  | Plain x, Plain y => vname_equal x y
  | Mod p, Mod q => path_equal p q
  | _, _ => false
  end.

(** lib/typecheck.c:59-74 Var; the place [None] is the tag TYPE_VAR. *)
Record svar := MkVar { sv_name : var_name; sv_type : nat; sv_used : bool; sv_place : option var }.

(** lib/typecheck.c:87-119 Scope; the current module is a parameter of the checker, the
    parents are the rest of a list of scopes. *)
Record frame := MkFrame {
  f_statics : list svar; f_args : list svar; f_locals : list svar;
  f_allocated : nat; f_captured : option (list var) }.

(** The type heap and the scopes, innermost first. *)
Record state := MkState { types : store; scopes : list frame }.

(** Results: [Bad] is undefined behaviour or a failed assertion of lib/typecheck.c, [More]
    that the functions of TypeModel.v gave no result or the fuel ran out. *)
Inductive result (A : Type) := Done (x : A) (s : state) | Bad | More.
Arguments Done {A}. Arguments Bad {A}. Arguments More {A}.

Definition M (A : Type) := state -> result A.
Definition ret {A} (x : A) : M A := fun s => Done x s.
Definition bad {A} : M A := fun _ => Bad.
Definition bind {A B} (m : M A) (k : A -> M B) : M B := fun s =>
  match m s with Done x s' => k x s' | Bad => Bad | More => More end.
Local Notation "x <- m ;; k" := (bind m (fun x => k)) (at level 61, m at next level, right associativity).
Definition read {A} (f : state -> A) : M A := fun s => Done (f s) s.
Definition lift {A} (o : option A) : M A := fun s => match o with Some x => Done x s | None => More end.
(** A failed part makes the whole fail: [if (x == NULL) return TC_FAILED]. *)
Definition and_then {A B} (m : M (option A)) (k : A -> M (option B)) : M (option B) :=
  o <- m ;; match o with None => ret None | Some x => k x end.
Local Notation "x <~ m ;; k" := (and_then m (fun x => k)) (at level 61, m at next level, right associativity).

Definition set_types (st : store) : M unit := fun s => Done tt (MkState st (scopes s)).
Definition set_scopes (sc : list frame) : M unit := fun s => Done tt (MkState (types s) sc).

(** FbleNewType. *)
Definition alloc (t : ty) : M nat := fun s =>
  let '(st, n) := new_type (types s) t in Done n (MkState st (scopes s)).

(** ** Functions of lib/type.c, in the state *)
Definition kind_of_m (f t : nat) : M kind := fun s => lift (kind_of f (types s) t) s.
(** FbleNormalType: the assertion fails for a vacuous type. *)
Definition normal_m (f t : nat) : M nat := fun s =>
  match normal f (types s) t [] with
  | None => More
  | Some (_, None) => Bad
  | Some (st, Some n) => Done n (MkState st (scopes s))
  end.
Definition get_m (n : nat) : M ty := fun s => match get (types s) n with Some t => Done t s | None => Bad end.
(** FbleTypeInfer and FbleTypesEqual. *)
Definition infer_m (f : nat) (vars : asgn) (a b : nat) : M (asgn * bool) := fun s =>
  match type_infer f (types s) vars a b with
  | None => More
  | Some (st, vars', r) => Done (vars', r) (MkState st (scopes s))
  end.
Definition equal_m (f a b : nat) : M bool := r <- infer_m f [] a b ;; ret (snd r).
Definition new_var_m (k : kind) (x : vname) : M nat := fun s =>
  match new_var_type (types s) k x with
  | None => More
  | Some (st, n) => Done n (MkState st (scopes s))
  end.
Definition assign_m (f var value : nat) : M unit := fun s =>
  match assign_var f (types s) var value with
  | None => More
  | Some st => Done tt (MkState st (scopes s))
  end.

(** FbleValueOfType, lib/type.c:1053-1061. *)
Definition value_of_type (st : store) (t : nat) : option nat :=
  match get st t with Some (TType u) => Some u | _ => None end.
Definition value_of (t : nat) : M (option nat) := read (fun s => value_of_type (types s) t).

(** FbleTypeIsVacuous, lib/type.c:1024-1042. *)
Fixpoint vacuous (f : nat) (t : nat) : M bool :=
  match f with
  | 0 => fun _ => More
  | S g => fun s =>
      match normal g (types s) t [] with
      | None => More
      | Some (st, None) => Done true (MkState st (scopes s))
      | Some (st, Some n) =>
          match get st n with
          | Some (TType u) => vacuous g u (MkState st (scopes s))
          | Some (TPoly _ b) => vacuous g b (MkState st (scopes s))
          | _ => Done false (MkState st (scopes s))
          end
      end
  end.

(** FbleNewPolyType, lib/type.c:975-997. *)
Fixpoint new_poly (f : nat) (arg body : nat) : M nat :=
  match f with
  | 0 => fun _ => More
  | S g => t <- get_m body ;;
      match t with
      | TType b => n <- new_poly g arg b ;; alloc (TType n)
      | _ => alloc (TPoly arg body)
      end
  end.

(** FbleNewPolyApplyType, lib/type.c:1000-1021. *)
Fixpoint new_poly_apply (f : nat) (poly arg : nat) : M nat :=
  match f with
  | 0 => fun _ => More
  | S g => t <- get_m poly ;;
      match t with
      | TType p => n <- new_poly_apply g p arg ;; alloc (TType n)
      | _ => alloc (TApply poly arg)
      end
  end.

(** FbleListElementType, lib/type.c:1064-1103. *)
Definition list_element (f t : nat) : M (option nat) :=
  n <- normal_m f t ;; d <- get_m n ;;
  match d with
  | TData true [(_, c); (_, e)] =>
      nn <- normal_m f e ;; nd <- get_m nn ;;
      match nd with
      | TData false [] =>
          cn <- normal_m f c ;; cd <- get_m cn ;;
          match cd with
          | TData false [(_, elem); (_, tail)] =>
              b <- equal_m f t tail ;; ret (if b then Some elem else None)
          | _ => ret None
          end
      | _ => ret None
      end
  | _ => ret None
  end.

(** FbleModuleBelongsToPackage, lib/module-path.c:106-118. *)
Fixpoint belongs (module package : list string) : bool :=
  match package, module with
  | [], _ => true
  | p :: package', m :: module' => (String.eqb m p && belongs module' package')%bool
  | _ :: _, [] => false
  end.

(** ** Scopes *)

(** The loop over locals and over args of GetVar, lib/typecheck.c:335-355: the last one
    of that name. *)
Definition mark (v : svar) : svar := MkVar (sv_name v) (sv_type v) true (sv_place v).
Definition hit (phantom : bool) (v : svar) : svar :=
  match sv_place v with None => v | Some _ => if phantom then v else mark v end.
Fixpoint find_last (phantom : bool) (x : var_name) (l : list svar) : option (svar * list svar) :=
  match l with
  | [] => None
  | v :: r =>
      match find_last phantom x r with
      | Some (w, r') => Some (w, v :: r')
      | None => if var_names_equal x (sv_name v) then Some (hit phantom v, hit phantom v :: r) else None
      end
  end.
(** The loop over statics, lib/typecheck.c:357-364: the first one. *)
Fixpoint find_first (phantom : bool) (x : var_name) (l : list svar) : option (svar * list svar) :=
  match l with
  | [] => None
  | v :: r =>
      if var_names_equal x (sv_name v) then Some (hit phantom v, hit phantom v :: r)
      else match find_first phantom x r with
           | Some (w, r') => Some (w, v :: r')
           | None => None
           end
  end.

(** GetVar, lib/typecheck.c:333-391. *)
Fixpoint get_var (phantom : bool) (x : var_name) (sc : list frame) : option (svar * list frame) :=
  match sc with
  | [] => None
  | fr :: parents =>
      match find_last phantom x (f_locals fr) with
      | Some (v, l) => Some (v, MkFrame (f_statics fr) (f_args fr) l (f_allocated fr) (f_captured fr) :: parents)
      | None =>
      match find_last phantom x (f_args fr) with
      | Some (v, l) => Some (v, MkFrame (f_statics fr) l (f_locals fr) (f_allocated fr) (f_captured fr) :: parents)
      | None =>
      match find_first phantom x (f_statics fr) with
      | Some (v, l) => Some (v, MkFrame l (f_args fr) (f_locals fr) (f_allocated fr) (f_captured fr) :: parents)
      | None =>
          match get_var (phantom || match f_captured fr with None => true | Some _ => false end)%bool x parents with
          | None => None
          | Some (v, parents') =>
              match phantom, sv_place v with
              | false, Some w =>
                  let c := MkVar (sv_name v) (sv_type v) true (Some (CodeModel.Static (List.length (f_statics fr)))) in
                  Some (c, MkFrame (f_statics fr ++ [c]) (f_args fr) (f_locals fr) (f_allocated fr)
                             (match f_captured fr with None => None | Some cs => Some (cs ++ [w]) end) :: parents')
              | _, _ => Some (v, fr :: parents')
              end
          end
      end end end
  end.
Definition get_var_m (x : var_name) : M (option svar) := fun s =>
  match get_var false x (scopes s) with
  | None => Done None s
  | Some (v, sc) => Done (Some v) (MkState (types s) sc)
  end.

(** InitScope, lib/typecheck.c:415-434, for the arguments [args]. *)
Fixpoint arg_vars (i : nat) (args : list (var_name * nat)) : list svar :=
  match args with
  | [] => []
  | (x, t) :: r => MkVar x t false (Some (CodeModel.Arg i)) :: arg_vars (S i) r
  end.
Definition new_frame (captured : option (list var)) (args : list (var_name * nat)) : frame :=
  MkFrame [] (arg_vars 0 args) [] 0 captured.
Definition push_frame (fr : frame) : M unit := fun s => Done tt (MkState (types s) (fr :: scopes s)).
(** FreeScope, lib/typecheck.c:444-463; gives the scope it frees. *)
Definition pop_frame : M frame := fun s =>
  match scopes s with
  | [] => Bad
  | fr :: sc => Done fr (MkState (types s) sc)
  end.

Definition on_frame (g : frame -> frame) : M unit := fun s =>
  match scopes s with
  | [] => Bad
  | fr :: sc => Done tt (MkState (types s) (g fr :: sc))
  end.
(** PushLocalVar, lib/typecheck.c:248-258. *)
Definition push_local (x : vname) (t : nat) : M unit := on_frame (fun fr =>
  MkFrame (f_statics fr) (f_args fr)
    (f_locals fr ++ [MkVar (Plain x) t false (Some (CodeModel.Local (f_allocated fr)))])
    (S (f_allocated fr)) (f_captured fr)).
(** PushLocalTypeVar, lib/typecheck.c:283-293. *)
Definition push_local_type (x : vname) (t : nat) : M unit := on_frame (fun fr =>
  MkFrame (f_statics fr) (f_args fr) (f_locals fr ++ [MkVar (Plain x) t false None]) (f_allocated fr) (f_captured fr)).
(** PopLocalVar, lib/typecheck.c:304-316. *)
Definition pop_local : M unit := on_frame (fun fr =>
  MkFrame (f_statics fr) (f_args fr) (removelast (f_locals fr))
    (match last (f_locals fr) (MkVar (Mod []) 0 false None) with
     | MkVar _ _ _ None => f_allocated fr
     | _ => pred (f_allocated fr)
     end) (f_captured fr)).
Fixpoint push_locals (l : list (vname * nat)) : M unit :=
  match l with [] => ret tt | (x, t) :: r => _ <- push_local x t ;; push_locals r end.
Fixpoint pop_locals (n : nat) : M unit :=
  match n with 0 => ret tt | S m => _ <- pop_local ;; pop_locals m end.
(** The last [n] local variables. *)
Definition top_locals (n : nat) : M (list svar) := fun s =>
  match scopes s with
  | [] => Bad
  | fr :: _ => Done (skipn (List.length (f_locals fr) - n) (f_locals fr)) s
  end.
(** [vars[i]->type = types[i]] for the last local variables. *)
Definition set_top_types (ts : list nat) : M unit := on_frame (fun fr =>
  let k := List.length (f_locals fr) - List.length ts in
  MkFrame (f_statics fr) (f_args fr)
    (firstn k (f_locals fr) ++
     map (fun p => MkVar (sv_name (fst p)) (snd p) (sv_used (fst p)) (sv_place (fst p))) (combine (skipn k (f_locals fr)) ts))
    (f_allocated fr) (f_captured fr)).

(** CheckNameSpace, lib/typecheck.c:566-580. *)
Definition name_space (f : nat) (x : vname) (t : nat) : M bool :=
  k <- kind_of_m f t ;;
  ret (match kind_level k with 0 => negb (v_type x) | 1 => v_type x | _ => false end).

Definition repeated (x : vname) (l : list vname) : bool := existsb (vname_equal x) l.

(** ** Poly types *)

(** DepolyType, lib/typecheck.c:766-779. *)
Fixpoint depoly (f : nat) (t : nat) (vars : asgn) : M (nat * asgn) :=
  match f with
  | 0 => fun _ => More
  | S g =>
      n <- normal_m g t ;; d <- get_m n ;;
      match d with
      | TPoly arg body => depoly g body (vars ++ [(arg, None)])
      | _ => ret (n, vars)
      end
  end.

(** PolyApply, lib/typecheck.c:801-878. *)
Definition poly_apply (f : nat) (poly : nat * tc) (arg_type : nat) : M (option (nat * tc)) :=
  k <- kind_of_m f (fst poly) ;;
  match k with
  | Poly expected _ =>
      actual <- kind_of_m f arg_type ;;
      if kinds_equal expected actual then
        o <- value_of arg_type ;;
        match o with
        | None => bad
        | Some arg => t <- new_poly_apply f (fst poly) arg ;; ret (Some (t, snd poly))
        end
      else ret None
  | Basic _ =>
      o <- value_of (fst poly) ;;
      match o with
      | None => ret None
      | Some v =>
          package <- normal_m f v ;; d <- get_m package ;;
          match d with
          | TPackage _ _ =>
              arg <~ value_of arg_type ;;
              a <- alloc (TAbstract package arg) ;; t <- alloc (TType a) ;;
              ret (Some (t, CompileModel.TType))
          | _ => ret None
          end
      end
  end.

(** TypeInferArgs, lib/typecheck.c:901-970. *)
Fixpoint infer_all (f : nat) (vars : asgn) (expected actual : list nat) : M (asgn * bool) :=
  match expected, actual with
  | x :: xs, y :: ys =>
      r <- infer_m f vars x y ;; r' <- infer_all f (fst r) xs ys ;; ret (fst r', (snd r && snd r')%bool)
  | _, _ => ret (vars, true)
  end.
Fixpoint apply_vars (f : nat) (vars : asgn) (poly : nat * tc) : M (option (nat * tc)) :=
  match vars with
  | [] => ret (Some poly)
  | (_, None) :: _ => ret None
  | (_, Some v) :: r =>
      t <- alloc (TType v) ;; p <~ poly_apply f poly t ;; apply_vars f r p
  end.
Definition infer_args (f : nat) (vars : asgn) (expected actual : list nat) (poly : nat * tc) : M (option (nat * tc)) :=
  if List.length expected =? List.length actual then
    r <- infer_all f vars expected actual ;;
    if snd r then apply_vars f (fst r) poly else ret None
  else ret None.

(** ** Literals: the loop of lib/typecheck.c:1757-1798 *)
Fixpoint prefix_of (p w : string) : bool :=
  match p, w with
  | EmptyString, _ => true
  | String a p', String b w' => (Ascii.eqb a b && prefix_of p' w')%bool
  | _, EmptyString => false
  end.
Fixpoint longest (j : nat) (fields : list (vname * nat)) (w : string) (maxlen arg : nat) : nat * nat :=
  match fields with
  | [] => (maxlen, arg)
  | (x, _) :: r =>
      let n := String.length (v_str x) in
      if ((maxlen <? n) && (n <=? String.length w) && prefix_of (v_str x) w)%bool
      then longest (S j) r w n j else longest (S j) r w maxlen arg
  end.
Fixpoint letters (f : nat) (unit : nat) (fields : list (vname * nat)) (n : nat) (w : string) : M (option (list nat)) :=
  match w with
  | EmptyString => ret (Some [])
  | _ =>
      match n with
      | 0 => fun _ => More
      | S m =>
          let '(len, j) := longest 0 fields w 0 0 in
          if len =? 0 then ret None
          else match nth_error fields j with
               | None => bad
               | Some (_, t) =>
                   b <- equal_m f unit t ;;
                   if b : bool then
                     r <~ letters f unit fields m (substring len (String.length w - len) w) ;; ret (Some (j :: r))
                   else ret None
               end
      end
  end.

Fixpoint find_field (i : nat) (x : vname) (fields : list (vname * nat)) : option (nat * nat) :=
  match fields with
  | [] => None
  | (y, t) :: r => if vname_equal x y then Some (i, t) else find_field (S i) x r
  end.

Fixpoint somes {A} (l : list (option A)) : option (list A) :=
  match l with
  | [] => Some []
  | None :: _ => None
  | Some x :: r => match somes r with Some xs => Some (x :: xs) | None => None end
  end.

(** The loops that check several things and go on after an error. *)
Fixpoint each {A B} (g : A -> M B) (l : list A) : M (list B) :=
  match l with
  | [] => ret []
  | x :: r => y <- g x ;; ys <- each g r ;; ret (y :: ys)
  end.
(** The same from the last to the first: [j = argc - i - 1]. *)
Fixpoint each_rev {A B} (g : A -> M B) (l : list A) : M (list B) :=
  match l with
  | [] => ret []
  | x :: r => ys <- each_rev g r ;; y <- g x ;; ret (y :: ys)
  end.

(** The fields of an implicit struct type, lib/typecheck.c:1253-1276. *)
Fixpoint struct_fields (f : nat) (seen : list vname) (l : list (vname * (nat * tc))) : M bool :=
  match l with
  | [] => ret true
  | (x, (t, _)) :: r =>
      b <- name_space f x t ;; b' <- struct_fields f (seen ++ [x]) r ;;
      ret (b && negb (repeated x seen) && b')%bool
  end.

(** The loop over the fields of a struct copy, lib/typecheck.c:1321-1350; FbleCopyTc and
    FbleTypesEqual do not accept NULL. *)
Fixpoint copy_fields (f : nat) (fields : list (vname * nat)) (args : list (vname * option (nat * tc)))
  : M (bool * list (option tc)) :=
  match fields with
  | [] => ret (match args with [] => true | _ => false end, [])
  | (x, t) :: fr =>
      match args with
      | (y, a) :: ar =>
          if vname_equal y x then
            match a with
            | None => bad
            | Some (u, e) =>
                b <- equal_m f t u ;; r <- copy_fields f fr ar ;; ret ((b && fst r)%bool, Some e :: snd r)
            end
          else r <- copy_fields f fr args ;; ret (fst r, None :: snd r)
      | [] => r <- copy_fields f fr [] ;; ret (fst r, None :: snd r)
      end
  end.

Section check.
  (** [scope->module]. *)
  Variable module : list string.

  Section parts.
    Variable chk : expr -> M (option (nat * tc)).
    Variable chk_type : expr -> M (option nat).
    Variable f : nat.

    (** TypeCheckExprForType, lib/typecheck.c:2109-2120. *)
    Definition for_type (e : expr) : M (option nat) :=
      _ <- push_frame (new_frame None []) ;; r <- chk e ;; _ <- pop_frame ;; ret (option_map fst r).

    (** The types of let bindings, lib/typecheck.c:1066-1126; false: an error. *)
    Definition renamed (x : vname) (level : nat) : vname :=
      MkVName (match level with 0 => String.append "__" (v_str x) | _ => v_str x end) true (v_loc x).
    Fixpoint let_types (seen : list vname) (bs : list (vname * (kind + expr) * expr)) : M (bool * list nat) :=
      match bs with
      | [] => ret (true, [])
      | ((x, kt), _) :: r =>
          o <- match kt with
               | inl k => n <- new_var_m (Basic (kind_level k)) (renamed x (kind_level k)) ;; ret (Some n)
               | inr t => chk_type t
               end ;;
          b <- match o with Some t => name_space f x t | None => ret false end ;;
          p <- let_types (seen ++ [x]) r ;;
          ret ((b && negb (repeated x seen) && fst p)%bool, match o with Some t => t :: snd p | None => snd p end)
      end.

    (** The values of let bindings, lib/typecheck.c:1128-1157. *)
    Fixpoint let_defs (bs : list (vname * (kind + expr) * expr)) (ts : list nat) : M (option (list (nat * tc))) :=
      match bs, ts with
      | ((_, kt), e) :: r, t :: ts' =>
          d <~ chk e ;;
          b <- match kt with
               | inr _ => equal_m f t (fst d)
               | inl k => k' <- kind_of_m f (fst d) ;; ret (kinds_equal k k')
               end ;;
          if b : bool then ds <~ let_defs r ts' ;; ret (Some (d :: ds)) else ret None
      | _, _ => ret (Some [])
      end.

    (** lib/typecheck.c:1159-1188: the types of the variables from then on. *)
    Fixpoint let_assign (bs : list (vname * (kind + expr) * expr)) (ts : list nat) (ds : list (nat * tc)) : M (list nat) :=
      match bs, ts, ds with
      | ((_, kt), _) :: bs', t :: ts', d :: ds' =>
          t' <- match kt with
                | inr _ => ret t
                | inl k => _ <- assign_m f t (fst d) ;; ret (match kind_level k with 0 => fst d | _ => t end)
                end ;;
          r <- let_assign bs' ts' ds' ;; ret (t' :: r)
      | _, _, _ => ret []
      end.

    Definition check_let (bs : list (vname * (kind + expr) * expr)) (body : expr) : M (option (nat * tc)) :=
      p <- let_types [] bs ;;
      if fst p then
        let n := List.length bs in
        _ <- push_locals (combine (map (fun b => fst (fst b)) bs) (snd p)) ;;
        o <- let_defs bs (snd p) ;;
        match o with
        | None => _ <- pop_locals n ;; ret None
        | Some ds =>
            vs <- top_locals n ;;
            let recursive := existsb sv_used vs in
            ts <- let_assign bs (snd p) ds ;;
            _ <- set_top_types ts ;;
            vac <- each (vacuous f) ts ;;
            o <- (if existsb (fun b => b) vac then ret None else chk body) ;;
            _ <- pop_locals n ;;
            match o with
            | None => ret None
            | Some (t, b) => ret (Some (t, CompileModel.TLet recursive (map snd ds) b))
            end
        end
      else ret None.

    (** The loop over the fields of a union select, lib/typecheck.c:1470-1517.  [rt]: the
        type of the result so far; [ts]: the targets so far; gives whether there was no
        error, whether the default is used, the type, the targets, and the choices left. *)
    Record select := MkSelect { s_ok : bool; s_default : bool; s_type : option nat; s_targets : list (nat * tc) }.
    Fixpoint select_fields (i : nat) (fields : list (vname * nat)) (choices : list (vname * expr)) (has_default : bool)
      (a : select) : M (select * list (vname * expr)) :=
      match fields with
      | [] => ret (a, choices)
      | (x, _) :: fr =>
          let miss :=
            select_fields (S i) fr choices has_default
              (if has_default then MkSelect (s_ok a) true (s_type a) (s_targets a)
               else MkSelect false (s_default a) (s_type a) (s_targets a)) in
          match choices with
          | (y, e) :: cr =>
              if vname_equal y x then
                r <- chk e ;;
                a' <- match r with
                      | None => ret (MkSelect false (s_default a) (s_type a) (s_targets a))
                      | Some (t, b) =>
                          match s_type a with
                          | None => ret (MkSelect (s_ok a) (s_default a) (Some t) (s_targets a ++ [(i, b)]))
                          | Some u => q <- equal_m f u t ;;
                                      ret (MkSelect (s_ok a && q)%bool (s_default a) (Some u) (s_targets a ++ [(i, b)]))
                          end
                      end ;;
                select_fields (S i) fr cr has_default a'
              else miss
          | [] => miss
          end
      end.

    Definition check_select (c : expr) (choices : list (vname * expr)) (default : option expr) : M (option (nat * tc)) :=
      c <~ chk c ;;
      n <- normal_m f (fst c) ;; d <- get_m n ;;
      match d with
      | TData true fields =>
          dflt <- match default with None => ret None | Some e => r <- chk e ;; ret (Some r) end ;;
          let ok := match dflt with Some None => false | _ => true end in
          let ty := match dflt with Some (Some (t, _)) => Some t | _ => None end in
          p <- select_fields 0 fields choices (match default with None => false | _ => true end) (MkSelect ok false ty []) ;;
          let '(a, left_) := p in
          if (s_ok a && match left_ with [] => true | _ => false end)%bool then
            match s_type a with
            | None => bad                     (* no fields: branches[-1] is read *)
            | Some t =>
                if s_default a then
                  match dflt with
                  | Some (Some (_, b)) => ret (Some (t, CompileModel.TSelect (snd c) (List.length fields) (s_targets a) b))
                  | _ => bad
                  end
                else
                  match rev (s_targets a) with
                  | [] => bad                 (* branches[-1] *)
                  | (_, b) :: r => ret (Some (t, CompileModel.TSelect (snd c) (List.length fields) (rev r) b))
                  end
            end
          else ret None
      | _ => ret None
      end.

    (** Function application, one argument at a time, lib/typecheck.c:2035-2080. *)
    Fixpoint apply_args (g : nat * tc) (args : list (nat * tc)) : M (option (nat * tc)) :=
      match args with
      | [] => ret (Some g)
      | a :: r =>
          p <- depoly f (fst g) [] ;; d <- get_m (fst p) ;;
          match d with
          | TFunc x _ =>
              q <~ infer_args f (snd p) [x] [fst a] g ;;
              n <- normal_m f (fst q) ;; ft <- get_m n ;;
              match ft with
              | TFunc _ rt => apply_args (rt, CompileModel.TApply (snd q) (snd a)) r
              | _ => bad
              end
          | _ => ret None
          end
      end.

    (** FBLE_MISC_APPLY_EXPR, lib/typecheck.c:1944-2081. *)
    Definition check_apply (bind_ : bool) (misc : expr) (args : list expr) : M (option (nat * tc)) :=
      om <- chk misc ;;
      os <- each chk args ;;
      match om, somes os with
      | Some m, Some xs =>
          n <- normal_m f (fst m) ;; d <- get_m n ;;
          match bind_, d with
          | false, TType vtype =>
              vn <- normal_m f vtype ;; vd <- get_m vn ;;
              match vd with
              | TPackage path _ =>
                  match xs with
                  | [(t, e)] => if belongs module path then a <- alloc (TAbstract vn t) ;; ret (Some (a, e)) else ret None
                  | _ => ret None
                  end
              | _ =>
                  p <- depoly f vtype [] ;; sd <- get_m (fst p) ;;
                  match sd with
                  | TData false fields =>
                      q <~ infer_args f (snd p) (map snd fields) (map fst xs) (vtype, snd m) ;;
                      ret (Some (fst q, CompileModel.TStruct (map snd xs)))
                  | _ => apply_args m xs
                  end
              end
          | _, _ => apply_args m xs
          end
      | _, _ => ret None
      end.
  End parts.

  (** The fields of a data type, lib/typecheck.c:2173-2205. *)
  Fixpoint data_fields (chk_type : expr -> M (option nat)) (f : nat) (seen : list vname) (l : list (vname * expr))
    : M (option (list (vname * nat))) :=
    match l with
    | [] => ret (Some [])
    | (x, e) :: r =>
        t <~ chk_type e ;;
        b <- name_space f x t ;;
        if (b && negb (repeated x seen))%bool then
          ts <~ data_fields chk_type f (seen ++ [x]) r ;; ret (Some ((x, t) :: ts))
        else ret None
    end.

  (** TypeCheckExpr and TypeCheckExprWithCleaner, lib/typecheck.c:989-2086, and TypeCheckType
      and TypeCheckTypeWithCleaner, lib/typecheck.c:2137-2276.  After an error the code goes
      on to report others, as here where that can change what it does; types made for an
      expression that turns out wrong, and the order in which the parts of a new type are
      made, only change the numbers of types. *)
  Fixpoint check (fuel : nat) (e : expr) {struct fuel} : M (option (nat * tc)) :=
    match fuel with
    | 0 => fun _ => More
    | S f =>
      match e with
      | EDataType _ _ | EFuncType _ _ | EPackage _ | ETypeof _ =>            (* 1022-1039 *)
          t <~ check_type f e ;; n <- alloc (TType t) ;; ret (Some (n, CompileModel.TType))
      | EVar x =>                                                            (* 1041-1060 *)
          v <~ get_var_m (Plain x) ;;
          ret (Some (sv_type v, match sv_place v with None => CompileModel.TType | Some w => CompileModel.TVar w end))
      | EModulePath p =>                                                     (* 1891-1904 *)
          o <- get_var_m (Mod p) ;;
          match o with
          | None => bad
          | Some v => match sv_place v with None => bad | Some w => ret (Some (sv_type v, CompileModel.TVar w)) end
          end
      | ELet bs body => check_let (check f) (check_type f) f bs body         (* 1062-1232 *)
      | EStruct args =>                                                      (* 1234-1289 *)
          os <- each_rev (fun p => check f (snd p)) args ;;
          match somes os with
          | None => ret None
          | Some xs =>
              b <- struct_fields f [] (combine (map fst args) xs) ;;
              if b : bool then
                n <- alloc (TData false (combine (map fst args) (map fst xs))) ;;
                ret (Some (n, CompileModel.TStruct (map snd xs)))
              else ret None
          end
      | ECopy src args =>                                                    (* 1291-1358 *)
          s <~ check f src ;;
          n <- normal_m f (fst s) ;; d <- get_m n ;;
          match d with
          | TData false fields =>
              os <- each_rev (fun p => check f (snd p)) args ;;
              r <- copy_fields f fields (combine (map fst args) os) ;;
              ret (match somes os with
                   | Some _ => if fst r then Some (n, CompileModel.TCopy (snd s) (snd r)) else None
                   | None => None
                   end)
          | _ => ret None
          end
      | EUnion type field arg =>                                             (* 1360-1427 *)
          t <~ check_type f type ;;
          p <- depoly f t [] ;; d <- get_m (fst p) ;;
          match d with
          | TData true fields =>
              match find_field 0 field fields with
              | None => ret None
              | Some (tag, ft) =>
                  a <~ check f arg ;;
                  q <~ infer_args f (snd p) [ft] [fst a] (t, CompileModel.TStruct []) ;;
                  ret (Some (fst q, CompileModel.TUnion tag (snd a)))
              end
          | TData false _ => ret None
          | _ => bad                          (* [datatype] of something that is no data type *)
          end
      | ESelect c choices default => check_select (check f) f c choices default   (* 1429-1546 *)
      | EFunc x type body =>                                                 (* 1548-1604 *)
          t <~ check_type f type ;;
          _ <- push_frame (new_frame (Some []) [(Plain x, t)]) ;;
          o <- check f body ;;
          fr <- pop_frame ;;
          match o, f_captured fr with
          | Some (rt, b), Some scope => n <- alloc (TFunc t rt) ;; ret (Some (n, CompileModel.TFunc scope b))
          | _, _ => ret None
          end
      | EPoly x k body =>                                                    (* 1606-1640 *)
          if ((kind_level k =? 1) && v_type x)%bool then
            at_ <- new_var_m k x ;;
            o <- value_of at_ ;;
            match o with
            | None => bad
            | Some arg =>
                _ <- push_local_type x at_ ;;
                r <- check f body ;;
                _ <- pop_local ;;
                match r with
                | None => ret None
                | Some (bt, b) => n <- new_poly f arg bt ;; ret (Some (n, b))
                end
            end
          else ret None
      | EPolyApply poly arg =>                                               (* 1642-1649 *)
          op <- check f poly ;;
          oa <- for_type (check f) arg ;;
          match op, oa with
          | Some p, Some a => poly_apply f p a
          | _, _ => ret None
          end
      | EList func args =>                                                   (* 1651-1719 *)
          g <~ check f func ;;
          p <- depoly f (fst g) [] ;; d <- get_m (fst p) ;;
          match d with
          | TFunc x _ =>
              elem <~ list_element f x ;;
              os <- each (check f) args ;;
              match somes os with
              | None => ret None
              | Some xs =>
                  q <~ infer_args f (snd p) (map (fun _ => elem) xs) (map fst xs) g ;;
                  n <- normal_m f (fst q) ;; ft <- get_m n ;;
                  match ft with
                  | TFunc _ rt => ret (Some (rt, CompileModel.TApply (snd q) (CompileModel.TList (map snd xs))))
                  | _ => bad
                  end
              end
          | _ => ret None
          end
      | ELiteral func word =>                                                (* 1721-1814 *)
          g <~ check f func ;;
          n <- normal_m f (fst g) ;; d <- get_m n ;;
          match d with
          | TFunc x rt =>
              elem <~ list_element f x ;;
              en <- normal_m f elem ;; ed <- get_m en ;;
              match ed with
              | TData true fields =>
                  unit <- alloc (TData false []) ;;
                  ls <~ letters f unit fields (String.length word) word ;;
                  ret (Some (rt, CompileModel.TApply (snd g) (CompileModel.TLiteral ls)))
              | _ => ret None
              end
          | _ => ret None
          end
      | ECast package target value =>                                        (* 1816-1862 *)
          pt <~ check_type f package ;;
          p <- normal_m f pt ;; d <- get_m p ;;
          match d with
          | TPackage path opaque =>
              t <~ check_type f target ;;
              v <~ check f value ;;
              if belongs module path then
                if opaque : bool then
                  st <- read types ;; _ <- set_types (put st p (TPackage path false)) ;;
                  b <- equal_m f t (fst v) ;;
                  st' <- read types ;; _ <- set_types (put st' p (TPackage path true)) ;;
                  ret (if b then Some (t, snd v) else None)
                else bad
              else ret None
          | _ => ret None
          end
      | EAbsAccess value =>                                                  (* 1864-1889 *)
          v <~ check f value ;;
          n <- normal_m f (fst v) ;; d <- get_m n ;;
          match d with
          | TAbstract p t =>
              pd <- get_m p ;;
              match pd with
              | TPackage path _ => if belongs module path then ret (Some (t, snd v)) else ret None
              | _ => bad
              end
          | _ => ret None
          end
      | EAccess object field =>                                              (* 1906-1942 *)
          o <~ check f object ;;
          n <- normal_m f (fst o) ;; d <- get_m n ;;
          match d with
          | TData union fields =>
              match find_field 0 field fields with
              | None => ret None
              | Some (i, t) => ret (Some (t, CompileModel.TAccess (negb union) (snd o) i))
              end
          | _ => ret None
          end
      | EApply b misc args => check_apply (check f) f b misc args            (* 1944-2081 *)
      end
    end
  with check_type (fuel : nat) (e : expr) {struct fuel} : M (option nat) :=
    match fuel with
    | 0 => fun _ => More
    | S f =>
      match e with
      | ETypeof e' => for_type (check f) e'                                  (* 2167-2171 *)
      | EDataType u fields =>                                                (* 2173-2210 *)
          fs <~ data_fields (check_type f) f [] fields ;; n <- alloc (TData u fs) ;; ret (Some n)
      | EFuncType arg rtype =>                                               (* 2212-2231 *)
          oa <- check_type f arg ;;
          or_ <- check_type f rtype ;;
          match oa, or_ with
          | Some a, Some r => n <- alloc (TFunc a r) ;; ret (Some n)
          | _, _ => ret None
          end
      | EPackage p => n <- alloc (TPackage p true) ;; ret (Some n)           (* 2233-2239 *)
      | _ =>                                                                 (* 2241-2273 *)
          t <~ for_type (check f) e ;; value_of t
      end
    end.

End check.

(** FbleLoadedModule, include/fble/fble-load.h. *)
Record lmodule := MkLModule { lm_path : list string; lm_deps : list (list string); lm_type : option expr; lm_value : option expr }.

(** TypeCheckModule, lib/typecheck.c:2302-2358, with the warnings of lib/unused.c left out
    (UnusedModel.v); the tc [None] is NULL.  [deps] are the types of the dependencies. *)
Definition check_module (fuel : nat) (m : lmodule) (deps : list nat) : M (option (nat * option tc)) :=
  match lm_type m, lm_value m with
  | None, None => bad
  | _, _ =>
    _ <- push_frame (new_frame None (combine (map Mod (lm_deps m)) deps)) ;;
    type <- match lm_type m with
            | None => ret (Some None)
            | Some _ =>
                match lm_value m with
                | None => bad
                | Some v => o <- check_type (lm_path m) fuel v ;;       (* 2318: module->value *)
                            ret (match o with Some t => Some (Some t) | None => None end)
                end
            end ;;
    match type with
    | None => _ <- pop_frame ;; ret None
    | Some ot =>
        o <- match lm_value m with
             | None => ret (Some None)
             | Some v => o <- check (lm_path m) fuel v ;;
                         ret (match o with Some r => Some (Some r) | None => None end)
             end ;;
        _ <- pop_frame ;;
        match o with
        | None => ret None
        | Some r =>
            match ot, r with
            | Some t, Some (u, e) =>
                b <- equal_m fuel t u ;; ret (if b : bool then Some (u, Some e) else None)
            | Some t, None => ret (Some (t, None))
            | None, Some (u, e) => ret (Some (u, Some e))
            | None, None => ret None
            end
        end
    end
  end.

(** FbleTypeCheckProgram, lib/typecheck.c:2377-2430.  [done_]: the modules before, in order,
    with their types. *)
Fixpoint find_type (p : list string) (done_ : list (list string * option nat)) : option nat :=
  match done_ with
  | [] => None
  | (q, t) :: r => if path_equal p q then t else find_type p r
  end.
Fixpoint check_modules (fuel : nat) (ms : list lmodule) (done_ : list (list string * option nat))
  : M (list (option (nat * option tc))) :=
  match ms with
  | [] => ret []
  | m :: r =>
      o <- match somes (map (fun d => find_type d done_) (lm_deps m)) with
           | None => ret None
           | Some deps => check_module fuel m deps
           end ;;
      os <- check_modules fuel r (done_ ++ [(lm_path m, option_map fst o)]) ;;
      ret (o :: os)
  end.
Definition check_program (fuel : nat) (ms : list lmodule) : result (option (list (option tc))) :=
  (os <- check_modules fuel ms [] ;; ret (option_map (map snd) (somes os))) (MkState [] []).
