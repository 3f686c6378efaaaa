(** * When two types are equal: a specification for TypeProps.v.

    Types form a graph that may have cycles.  Two types are equal when no
    observation tells them apart: look at the outermost constructor of both,
    compare it, and go on with the parts.  Nothing here mentions how the code
    goes about it (fuel, lists of pairs assumed equal, order of comparison). *)
From Coq Require Import String List Arith Bool.
Import ListNotations.
From Verif Require Import KindModel UnusedModel TypeModel.

(** [whnf st n m]: the outermost constructor of type [n] is that of node [m]:
    type variables that have a value stand for it, and [<X>{ f<X> }] stands
    for [f]. *)
Inductive whnf (st : store) : nat -> nat -> Prop :=
| whnf_data n u fs : get st n = Some (TData u fs) -> whnf st n n
| whnf_func n a r : get st n = Some (TFunc a r) -> whnf st n n
| whnf_package n p o : get st n = Some (TPackage p o) -> whnf st n n
| whnf_abstract n p t : get st n = Some (TAbstract p t) -> whnf st n n
| whnf_type n t : get st n = Some (TType t) -> whnf st n n
| whnf_free n k x : get st n = Some (TVar k x None) -> whnf st n n
| whnf_var n k x v m : get st n = Some (TVar k x (Some v)) -> whnf st v m -> whnf st n m
| whnf_poly n x b m : get st n = Some (TPoly x b) -> whnf st b m ->
    (forall f, get st m <> Some (TApply f x)) -> whnf st n n
| whnf_eta n x b m f : get st n = Some (TPoly x b) -> whnf st b m ->
    get st m = Some (TApply f x) -> whnf st n f
| whnf_apply n f x : get st n = Some (TApply f x) ->
    whnf st f f -> (forall y b, get st f <> Some (TPoly y b)) -> whnf st n n.

(** An abstract type whose package type is not opaque: the code looks through
    it. *)
Definition transparent (st : store) (n t : nat) : Prop :=
  exists p path, get st n = Some (TAbstract p t) /\ get st p = Some (TPackage path false).

(** [head st n h]: the outermost constructor after looking through. *)
Inductive head (st : store) : nat -> nat -> Prop :=
| head_here n h : whnf st n h -> (forall t, ~ transparent st h t) -> head st n h
| head_under n m t h : whnf st n m -> transparent st m t -> head st t h -> head st n h.

(** Relations between types, under a list of pairs of type parameters that
    are bound on the way and correspond to each other. *)
Definition rel := list (nat * nat) -> nat -> nat -> Prop.

Definition same_field (R : nat -> nat -> Prop) (a b : vname * nat) : Prop :=
  vname_equal (fst a) (fst b) = true /\ R (snd a) (snd b).

(** The same outermost constructor with parts related by [R]. *)
Definition same (st : store) (R : rel) (G : list (nat * nat)) (a b : nat) : Prop :=
  match get st a, get st b with
  | Some (TData u fs), Some (TData v gs) => u = v /\ Forall2 (same_field (R G)) fs gs
  | Some (TFunc x r), Some (TFunc y s) => R G x y /\ R G r s
  | Some (TPoly x s), Some (TPoly y t) =>
      (exists k n v l m w, get st x = Some (TVar k n v) /\ get st y = Some (TVar l m w) /\
                           kinds_equal k l = true) /\
      R ((x, y) :: G) s t
  | Some (TApply f x), Some (TApply g y) => R G f g /\ R G x y
  | Some (TPackage p _), Some (TPackage q _) => p = q
  | Some (TAbstract p s), Some (TAbstract q t) => R G p q /\ R G s t
  | Some (TVar _ _ _), Some (TVar _ _ _) => In (a, b) G \/ a = b
  | Some (TType s), Some (TType t) => R G s t
  | _, _ => False
  end.

(** A relation in which everything related looks the same and has related
    parts. *)
Definition bisimulation (st : store) (R : rel) : Prop :=
  forall G a b, R G a b -> forall ha hb, head st a ha -> head st b hb -> same st R G ha hb.

(** Equality under corresponding parameters [G], and equality. *)
Definition eqv (st : store) (G : list (nat * nat)) (a b : nat) : Prop :=
  exists R, bisimulation st R /\ R G a b.
Definition equal_types (st : store) (a b : nat) : Prop := eqv st [] a b.

(** The graphs the theorems are about: every part exists, the package of an
    abstract type is a package type, a poly type's parameter is a type
    variable without value, and only type variables without value (or
    applications of them) are applied to arguments.  Poly types applied to
    arguments are left out. *)
Definition wf_node (st : store) (t : ty) : Prop :=
  let ok := fun n => n < List.length st in
  match t with
  | TData _ fs => Forall (fun p => ok (snd p)) fs
  | TFunc a r => ok a /\ ok r
  | TPoly a b => (exists k x, get st a = Some (TVar k x None)) /\ ok b
  | TApply f x => ok x /\ whnf st f f /\ (forall y b, get st f <> Some (TPoly y b))
  | TPackage _ _ => True
  | TAbstract p t => (exists path o, get st p = Some (TPackage path o)) /\ ok t
  | TVar _ _ None => True
  | TVar _ _ (Some v) => ok v
  | TType t => ok t
  end.

(** A type such as [T@ = T@] has no outermost constructor; the type checker
    rejects it ("vacuous"). *)
Definition well_formed (st : store) : Prop :=
  forall n t, get st n = Some t -> wf_node st t /\ exists m, whnf st n m.

(** No abstract type that is not opaque is its own contents. *)
Definition has_heads (st : store) : Prop :=
  forall n, n < List.length st -> exists h, head st n h.

Definition no_poly (st : store) : Prop := forall n x b, get st n <> Some (TPoly x b).
