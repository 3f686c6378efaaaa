(** * The meaning of type checked expressions (specification for C19).

    A big-step semantics of the expressions of lib/tc.h, following their description there
    and the fble language specification: functions take one argument and capture the
    values of their scope, a recursive let binds its variables to references that get
    their values once all the bindings are evaluated.  Nothing here knows of instructions,
    registers, merged functions, partial applications, or tail calls.

    The order of evaluation is the one of the implementation (the function of a chain of
    applications, then its arguments from the last to the first one, then the calls); it
    decides only which references are made first, and which failure comes first. *)
From Coq Require Import List Arith.
From Verif Require Import CodeModel CompileModel.
Import ListNotations.

Inductive sval :=
| SStruct (fields : list sval)
| SUnion (tag : nat) (arg : sval)
| SClosure (scope : list sval) (body : tc)   (** a function, with the values it captured *)
| SRef (l : nat)                             (** a variable of a recursive let *)
| SType.

(** The values of the variables of recursive lets so far. *)
Definition store := list (option sval).

(** [None]: the program aborts. *)
Definition result := option (sval * store).

(** [chain S v w]: [v] is the value [w] if the variables of recursive lets are looked up;
    [w] is a reference if that variable has no value yet. *)
Inductive chain (S : store) : sval -> sval -> Prop :=
| chain_value v : (forall l, v <> SRef l) -> chain S v v
| chain_undefined l : nth_error S l = Some None -> chain S (SRef l) (SRef l)
| chain_step l v w : nth_error S l = Some (Some v) -> chain S v w -> chain S (SRef l) w.

Definition undefined (S : store) (v : sval) : Prop := exists l, chain S v (SRef l).

Fixpoint update (S : store) (l : nat) (v : sval) : store :=
  match S, l with
  | [], _ => []
  | _ :: S', O => Some v :: S'
  | x :: S', S l' => x :: update S' l' v
  end.

(** Giving the references [l], [l+1], ... their values; a variable defined as itself, like
    x = x, has no value and aborts. *)
Inductive ties : store -> nat -> list sval -> option store -> Prop :=
| ties_nil S l : ties S l [] (Some S)
| ties_cons S l v w vs r : chain S v w -> w <> SRef l -> ties (update S l w) (1 + l) vs r -> ties S l (v :: vs) r
| ties_vacuous S l v vs : chain S v (SRef l) -> ties S l (v :: vs) None.

(** Lists are chains of unions: tag 0 for a pair of head and tail, 1 for the end. *)
Fixpoint slist (vs : list sval) : sval :=
  match vs with
  | [] => SUnion 1 (SStruct [])
  | v :: r => SUnion 0 (SStruct [v; slist r])
  end.

Definition is_function (e : tc) : bool := match e with TFunc _ _ => true | _ => false end.
Definition is_application (e : tc) : bool := match e with TApply _ _ => true | _ => false end.

(** The value of a variable: of the function's scope, its argument, or a local one. *)
Definition slookup (ss xs : list sval) (env : list (option sval)) (v : var) : option sval :=
  match v with
  | Static i => nth_error ss i
  | Arg i => nth_error xs i
  | Local i => match nth_error env i with Some (Some x) => Some x | _ => None end
  end.

(** [eval ss xs env S e r c]: in a function with scope [ss] and arguments [xs], with local
    variables [env] and store [S], [e] has the result [r]; [c] is the number of function
    bodies run, not counting those that just make another function.
    [apps S f xs r c]: the function [f], applied to the arguments [xs] one after the
    other, has the result [r]. *)
Inductive eval : list sval -> list sval -> list (option sval) -> store -> tc -> result -> nat -> Prop :=
| eval_type ss xs env S : eval ss xs env S TType (Some (SType, S)) 0
| eval_var ss xs env S v x : slookup ss xs env v = Some x -> eval ss xs env S (TVar v) (Some (x, S)) 0
| eval_let ss xs env S bs b vs S1 r c1 c2 :
    evals ss xs (env ++ repeat None (length bs)) S bs (Some (vs, S1)) c1 ->
    eval ss xs (env ++ map Some vs) S1 b r c2 ->
    eval ss xs env S (TLet false bs b) r (c1 + c2)
| eval_let_abort ss xs env S bs b c :
    evals ss xs (env ++ repeat None (length bs)) S bs None c ->
    eval ss xs env S (TLet false bs b) None c
| eval_letrec ss xs env S bs b vs S1 S2 r c1 c2 :
    evals ss xs (env ++ map (fun i => Some (SRef i)) (seq (length S) (length bs)))
      (S ++ repeat None (length bs)) bs (Some (vs, S1)) c1 ->
    ties S1 (length S) vs (Some S2) ->
    eval ss xs (env ++ map Some vs) S2 b r c2 ->
    eval ss xs env S (TLet true bs b) r (c1 + c2)
| eval_letrec_vacuous ss xs env S bs b vs S1 c :
    evals ss xs (env ++ map (fun i => Some (SRef i)) (seq (length S) (length bs)))
      (S ++ repeat None (length bs)) bs (Some (vs, S1)) c ->
    ties S1 (length S) vs None ->
    eval ss xs env S (TLet true bs b) None c
| eval_letrec_abort ss xs env S bs b c :
    evals ss xs (env ++ map (fun i => Some (SRef i)) (seq (length S) (length bs)))
      (S ++ repeat None (length bs)) bs None c ->
    eval ss xs env S (TLet true bs b) None c
| eval_struct ss xs env S fs vs S1 c :
    evals ss xs env S fs (Some (vs, S1)) c -> eval ss xs env S (TStruct fs) (Some (SStruct vs, S1)) c
| eval_struct_abort ss xs env S fs c :
    evals ss xs env S fs None c -> eval ss xs env S (TStruct fs) None c
| eval_copy ss xs env S src fs v S1 vs S2 c1 c2 :
    eval ss xs env S src (Some (v, S1)) c1 -> copies ss xs env S1 v 0 fs (Some (vs, S2)) c2 ->
    eval ss xs env S (TCopy src fs) (Some (SStruct vs, S2)) (c1 + c2)
| eval_copy_abort ss xs env S src fs v S1 c1 c2 :
    eval ss xs env S src (Some (v, S1)) c1 -> copies ss xs env S1 v 0 fs None c2 ->
    eval ss xs env S (TCopy src fs) None (c1 + c2)
| eval_copy_source_abort ss xs env S src fs c :
    eval ss xs env S src None c -> eval ss xs env S (TCopy src fs) None c
| eval_union ss xs env S t a v S1 c :
    eval ss xs env S a (Some (v, S1)) c -> eval ss xs env S (TUnion t a) (Some (SUnion t v, S1)) c
| eval_union_abort ss xs env S t a c :
    eval ss xs env S a None c -> eval ss xs env S (TUnion t a) None c
| eval_select ss xs env S e n ts d v S1 tag x b r c1 c2 :
    eval ss xs env S e (Some (v, S1)) c1 -> chain S1 v (SUnion tag x) -> tag < n -> In (tag, b) ts ->
    eval ss xs env S1 b r c2 -> eval ss xs env S (TSelect e n ts d) r (c1 + c2)
| eval_select_default ss xs env S e n ts d v S1 tag x r c1 c2 :
    eval ss xs env S e (Some (v, S1)) c1 -> chain S1 v (SUnion tag x) -> tag < n -> ~ In tag (map fst ts) ->
    eval ss xs env S1 d r c2 -> eval ss xs env S (TSelect e n ts d) r (c1 + c2)
| eval_select_undefined ss xs env S e n ts d v S1 c :
    eval ss xs env S e (Some (v, S1)) c -> undefined S1 v -> eval ss xs env S (TSelect e n ts d) None c
| eval_select_abort ss xs env S e n ts d c :
    eval ss xs env S e None c -> eval ss xs env S (TSelect e n ts d) None c
| eval_field ss xs env S e i v S1 fs x c :
    eval ss xs env S e (Some (v, S1)) c -> chain S1 v (SStruct fs) -> nth_error fs i = Some x ->
    eval ss xs env S (TAccess true e i) (Some (x, S1)) c
| eval_untag ss xs env S e t v S1 x c :
    eval ss xs env S e (Some (v, S1)) c -> chain S1 v (SUnion t x) ->
    eval ss xs env S (TAccess false e t) (Some (x, S1)) c
| eval_wrong_tag ss xs env S e t v S1 t' x c :
    eval ss xs env S e (Some (v, S1)) c -> chain S1 v (SUnion t' x) -> t' <> t ->
    eval ss xs env S (TAccess false e t) None c
| eval_access_undefined ss xs env S k e t v S1 c :
    eval ss xs env S e (Some (v, S1)) c -> undefined S1 v -> eval ss xs env S (TAccess k e t) None c
| eval_access_abort ss xs env S k e t c :
    eval ss xs env S e None c -> eval ss xs env S (TAccess k e t) None c
| eval_func ss xs env S scope b vs :
    Forall2 (fun v x => slookup ss xs env v = Some x) scope vs ->
    eval ss xs env S (TFunc scope b) (Some (SClosure vs b, S)) 0
| eval_apply ss xs env S h es f S1 vs S2 r c1 c2 c3 :
    is_application h = false -> es <> [] ->
    eval ss xs env S h (Some (f, S1)) c1 -> evals ss xs env S1 (rev es) (Some (vs, S2)) c2 ->
    apps S2 f (rev vs) r c3 ->
    eval ss xs env S (fold_left TApply es h) r (c1 + c2 + c3)
| eval_apply_arg_abort ss xs env S h es f S1 c1 c2 :
    is_application h = false -> es <> [] ->
    eval ss xs env S h (Some (f, S1)) c1 -> evals ss xs env S1 (rev es) None c2 ->
    eval ss xs env S (fold_left TApply es h) None (c1 + c2)
| eval_apply_func_abort ss xs env S h es c :
    is_application h = false -> es <> [] ->
    eval ss xs env S h None c -> eval ss xs env S (fold_left TApply es h) None c
| eval_list ss xs env S fs vs S1 c :
    evals ss xs env S fs (Some (vs, S1)) c -> eval ss xs env S (TList fs) (Some (slist vs, S1)) c
| eval_list_abort ss xs env S fs c :
    evals ss xs env S fs None c -> eval ss xs env S (TList fs) None c
| eval_literal ss xs env S letters :
    eval ss xs env S (TLiteral letters) (Some (slist (map (fun t => SUnion t (SStruct [])) letters), S)) 0

(** Expressions one after the other. *)
with evals : list sval -> list sval -> list (option sval) -> store -> list tc -> option (list sval * store) -> nat -> Prop :=
| evals_nil ss xs env S : evals ss xs env S [] (Some ([], S)) 0
| evals_cons ss xs env S e es v S1 vs S2 c1 c2 :
    eval ss xs env S e (Some (v, S1)) c1 -> evals ss xs env S1 es (Some (vs, S2)) c2 ->
    evals ss xs env S (e :: es) (Some (v :: vs, S2)) (c1 + c2)
| evals_abort ss xs env S e es c :
    eval ss xs env S e None c -> evals ss xs env S (e :: es) None c
| evals_cons_abort ss xs env S e es v S1 c1 c2 :
    eval ss xs env S e (Some (v, S1)) c1 -> evals ss xs env S1 es None c2 ->
    evals ss xs env S (e :: es) None (c1 + c2)

(** The fields, from number [i] on, of a copy of the struct [v]. *)
with copies : list sval -> list sval -> list (option sval) -> store -> sval -> nat -> list (option tc) -> option (list sval * store) -> nat -> Prop :=
| copies_nil ss xs env S v i : copies ss xs env S v i [] (Some ([], S)) 0
| copies_new ss xs env S v i e es x S1 vs S2 c1 c2 :
    eval ss xs env S e (Some (x, S1)) c1 -> copies ss xs env S1 v (1 + i) es (Some (vs, S2)) c2 ->
    copies ss xs env S v i (Some e :: es) (Some (x :: vs, S2)) (c1 + c2)
| copies_new_abort ss xs env S v i e es c :
    eval ss xs env S e None c -> copies ss xs env S v i (Some e :: es) None c
| copies_new_rest_abort ss xs env S v i e es x S1 c1 c2 :
    eval ss xs env S e (Some (x, S1)) c1 -> copies ss xs env S1 v (1 + i) es None c2 ->
    copies ss xs env S v i (Some e :: es) None (c1 + c2)
| copies_old ss xs env S v i es fs x c vs S2 :
    chain S v (SStruct fs) -> nth_error fs i = Some x -> copies ss xs env S v (1 + i) es (Some (vs, S2)) c ->
    copies ss xs env S v i (None :: es) (Some (x :: vs, S2)) c
| copies_old_undefined ss xs env S v i es :
    undefined S v -> copies ss xs env S v i (None :: es) None 0
| copies_old_rest_abort ss xs env S v i es fs x c :
    chain S v (SStruct fs) -> nth_error fs i = Some x -> copies ss xs env S v (1 + i) es None c ->
    copies ss xs env S v i (None :: es) None c

with apps : store -> sval -> list sval -> result -> nat -> Prop :=
| apps_nil S f : apps S f [] (Some (f, S)) 0
| apps_cons S f ss b x xs g S1 r c1 c2 :
    chain S f (SClosure ss b) -> eval ss [x] [] S b (Some (g, S1)) c1 -> apps S1 g xs r c2 ->
    apps S f (x :: xs) r ((if is_function b then 0 else 1) + c1 + c2)
| apps_abort S f ss b x xs c :
    chain S f (SClosure ss b) -> eval ss [x] [] S b None c ->
    apps S f (x :: xs) None ((if is_function b then 0 else 1) + c)
| apps_undefined S f x xs : undefined S f -> apps S f (x :: xs) None 0.

Scheme eval_mind := Minimality for eval Sort Prop
  with evals_mind := Minimality for evals Sort Prop
  with copies_mind := Minimality for copies Sort Prop
  with apps_mind := Minimality for apps Sort Prop.
