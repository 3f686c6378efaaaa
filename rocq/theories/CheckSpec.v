(** * What the type checker has to guarantee: specification for CheckProps.v.

    Nothing here looks at the type checker. *)
From Coq Require Import List Arith Sorted.
From Verif Require Import CodeModel CompileModel.
Import ListNotations.

(** [readable ns na L v]: the variable [v] has a value where there are [ns] captured
    variables, [na] arguments and local variables [L], [true] for those that have been
    computed already (or are being defined recursively). *)
Inductive readable (ns na : nat) (L : list bool) : var -> Prop :=
| r_static i : i < ns -> readable ns na L (Static i)
| r_arg i : i < na -> readable ns na L (Arg i)
| r_local i : nth_error L i = Some true -> readable ns na L (Local i).

(** [in_scope ns na L e]: every variable that [e] reads has a value there; the tags of the
    branches of a select are in order, different, and possible ones. *)
Inductive in_scope (ns na : nat) (L : list bool) : tc -> Prop :=
| s_type : in_scope ns na L TType
| s_var v : readable ns na L v -> in_scope ns na L (TVar v)
| s_let r bs b : Forall (in_scope ns na (L ++ repeat r (length bs))) bs ->
    in_scope ns na (L ++ repeat true (length bs)) b -> in_scope ns na L (TLet r bs b)
| s_struct fs : Forall (in_scope ns na L) fs -> in_scope ns na L (TStruct fs)
| s_copy src fs : in_scope ns na L src -> Forall (fun o => forall e, o = Some e -> in_scope ns na L e) fs ->
    in_scope ns na L (TCopy src fs)
| s_union tag a : in_scope ns na L a -> in_scope ns na L (TUnion tag a)
| s_select c n ts d : in_scope ns na L c -> Forall (fun p => in_scope ns na L (snd p)) ts -> in_scope ns na L d ->
    StronglySorted lt (map fst ts) -> Forall (fun t => t < n) (map fst ts) -> in_scope ns na L (TSelect c n ts d)
| s_access k o i : in_scope ns na L o -> in_scope ns na L (TAccess k o i)
| s_func vs b : Forall (readable ns na L) vs -> in_scope (length vs) 1 [] b -> in_scope ns na L (TFunc vs b)
| s_apply f a : in_scope ns na L f -> in_scope ns na L a -> in_scope ns na L (TApply f a)
| s_list fs : Forall (in_scope ns na L) fs -> in_scope ns na L (TList fs)
| s_literal ls : in_scope ns na L (TLiteral ls).

(** Every select of [e] has at least one branch besides its default. *)
Inductive branching : tc -> Prop :=
| b_type : branching TType
| b_var v : branching (TVar v)
| b_let r bs b : Forall branching bs -> branching b -> branching (TLet r bs b)
| b_struct fs : Forall branching fs -> branching (TStruct fs)
| b_copy src fs : branching src -> Forall (fun o => forall e, o = Some e -> branching e) fs -> branching (TCopy src fs)
| b_union tag a : branching a -> branching (TUnion tag a)
| b_select c n ts d : branching c -> ts <> [] -> Forall (fun p => branching (snd p)) ts -> branching d -> branching (TSelect c n ts d)
| b_access k o i : branching o -> branching (TAccess k o i)
| b_func vs b : branching b -> branching (TFunc vs b)
| b_apply f a : branching f -> branching a -> branching (TApply f a)
| b_list fs : Forall branching fs -> branching (TList fs)
| b_literal ls : branching (TLiteral ls).
