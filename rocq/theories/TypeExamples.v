(** * Concrete graphs of types: the hypotheses of TypeProps.v are met, and
      what goes wrong outside them. *)
From Coq Require Import String List Arith Bool Lia.
Import ListNotations.
From Verif Require Import KindModel UnusedModel TypeModel TypeSpec TypeProps.
Open Scope string_scope.

Definition nm (s : string) : vname := MkVName s false 0.
Definition tn (s : string) : vname := MkVName s true 0.

(** [Unit@ = *();  N@ = +(Unit@ z, N@ s);  M@ = +(Unit@ z, +(Unit@ z, M@ s) s)]. *)
Definition nat_types : store :=
  [ TData false []                                      (* 0: *() *)
  ; TVar (Basic 0) (tn "N") (Some 2)                    (* 1: N@ *)
  ; TData true [(nm "z", 0); (nm "s", 1)]               (* 2 *)
  ; TVar (Basic 0) (tn "M") (Some 4)                    (* 3: M@ *)
  ; TData true [(nm "z", 0); (nm "s", 5)]               (* 4 *)
  ; TData true [(nm "z", 0); (nm "s", 3)]               (* 5 *)
  ; TData true [(nm "z", 0); (nm "t", 3)]               (* 6: another field name *)
  ; TFunc 1 3                                           (* 7: (N@) { M@; } *)
  ; TFunc 3 1 ].                                        (* 8: (M@) { N@; } *)

Ltac nodes n E :=
  repeat (destruct n as [|n]; [cbn in E; injection E as <-|]); [..|destruct n; discriminate E].
Ltac whnf_now :=
  first [ eapply whnf_data; reflexivity | eapply whnf_func; reflexivity | eapply whnf_package; reflexivity
        | eapply whnf_abstract; reflexivity | eapply whnf_type; reflexivity | eapply whnf_free; reflexivity
        | eapply whnf_var; [reflexivity|whnf_now]
        | eapply whnf_apply; [reflexivity|whnf_now|intros; discriminate]
        | eapply whnf_poly; [reflexivity|whnf_now|intros ? ; discriminate]
        | eapply whnf_eta; [reflexivity|whnf_now|reflexivity] ].

Lemma nat_types_wf : well_formed nat_types.
Proof.
  intros n t E; nodes n E; (split; [cbn; repeat constructor; lia|eexists; whnf_now]).
Qed.

Lemma nat_types_no_poly : no_poly nat_types.
Proof. intros n x b E. do 9 (destruct n as [|n]; [discriminate E|]). destruct n; discriminate E. Qed.

Lemma nat_types_heads : has_heads nat_types.
Proof.
  intros n L; cbn in L.
  do 9 (destruct n as [|n]; [eexists; apply head_here; [whnf_now|intros t (p & q & E & _); discriminate]|]).
  lia.
Qed.

Example recursive_types_equal : fble_types_equal (enough nat_types) nat_types 1 3 = Some true.
Proof. vm_compute. reflexivity. Qed.
Example recursive_functions_equal : fble_types_equal (enough nat_types) nat_types 7 8 = Some true.
Proof. vm_compute. reflexivity. Qed.
Example other_field_name : fble_types_equal (enough nat_types) nat_types 4 6 = Some false.
Proof. vm_compute. reflexivity. Qed.

Corollary recursive_types_by_theorem : equal_types nat_types 1 3.
Proof.
  destruct (types_equal_exact_partial nat_types 1 3 (enough nat_types) nat_types_wf) as (r & Hr & Q);
    [cbn; lia|cbn; lia|lia|]. apply Q. rewrite recursive_types_equal in Hr. congruence.
Qed.

(** [<@ A@> { (M@<A@>) { A@; } }], twice with different parameter names and
    once with the parameter not returned.  [M@] is a type parameter. *)
Definition poly_types : store :=
  [ TVar (Poly (Basic 1) (Basic 0)) (tn "M") None       (* 0: M@ *)
  ; TVar (Basic 0) (tn "A") None                        (* 1: A@ *)
  ; TVar (Basic 0) (tn "B") None                        (* 2: B@ *)
  ; TApply 0 1                                          (* 3: M@<A@> *)
  ; TApply 0 2                                          (* 4: M@<B@> *)
  ; TFunc 3 1                                           (* 5 *)
  ; TFunc 4 2                                           (* 6 *)
  ; TPoly 1 5                                           (* 7 *)
  ; TPoly 2 6                                           (* 8 *)
  ; TFunc 4 4                                           (* 9 *)
  ; TPoly 2 9                                           (* 10 *)
  ; TPoly 1 3 ].                                        (* 11: <@ A@> { M@<A@>; } *)

Lemma poly_types_wf : well_formed poly_types.
Proof.
  intros n t E; nodes n E;
  (split; [cbn; first [ exact I | split; [eexists; eexists; reflexivity|lia] | split; lia
                      | split; [lia|split; [whnf_now|intros; discriminate]] ] |eexists; whnf_now]).
Qed.

Example parameters_renamed : fble_types_equal (enough poly_types) poly_types 7 8 = Some true.
Proof. vm_compute. reflexivity. Qed.
Example parameter_not_returned : fble_types_equal (enough poly_types) poly_types 7 10 = Some false.
Proof. vm_compute. reflexivity. Qed.
Example eta : fble_types_equal (enough poly_types) poly_types 11 0 = Some true.
Proof. vm_compute. reflexivity. Qed.

(** ** An abstract type that is its own contents equals everything

    [A@ = P@<A@>], where the package type [P@] is not opaque, as it is while a
    cast is type checked (lib/typecheck.c:1851-1854).  Equality is not
    transitive: the two types at 3 and 4 differ. *)
Definition self_abstract : store :=
  [ TPackage ["P"] false                                (* 0: P@ *)
  ; TVar (Basic 0) (tn "A") (Some 2)                    (* 1: A@ *)
  ; TAbstract 0 1                                       (* 2: P@<A@> *)
  ; TData false []                                      (* 3: *() *)
  ; TFunc 3 3 ].                                        (* 4: ( *() ) { *(); } *)

Lemma self_abstract_wf : well_formed self_abstract.
Proof.
  intros n t E; nodes n E;
  (split; [cbn; first [ exact I | split; [eexists; eexists; reflexivity|lia] | split; lia | lia | constructor ] |eexists; whnf_now]).
Qed.

Theorem self_abstract_not_transitive :
  fble_types_equal (enough self_abstract) self_abstract 3 1 = Some true /\
  fble_types_equal (enough self_abstract) self_abstract 1 4 = Some true /\
  fble_types_equal (enough self_abstract) self_abstract 3 4 = Some false.
Proof. vm_compute. auto. Qed.

(** ** A parameter bound again on the way round

    [A@ = <@ X@> { (A@) { X@; } }] and [B@ = <@ Y@> { (<@ Z@> { (B@) { Y@; } }) { Y@; } }].
    Inside the argument [B@]'s inner function returns the outer parameter,
    [A@]'s the inner one.  They are found equal, since the pair of [X@] and
    [Y@] is still assumed from the outer level. *)
Definition rebound : store :=
  [ TVar (Basic 0) (tn "X") None                        (* 0: X@ *)
  ; TVar (Poly (Basic 1) (Basic 0)) (tn "A") (Some 3)   (* 1: A@ *)
  ; TFunc 1 0                                           (* 2: (A@) { X@; } *)
  ; TPoly 0 2                                           (* 3 *)
  ; TVar (Basic 0) (tn "Y") None                        (* 4: Y@ *)
  ; TVar (Basic 0) (tn "Z") None                        (* 5: Z@ *)
  ; TVar (Poly (Basic 1) (Basic 0)) (tn "B") (Some 10)  (* 6: B@ *)
  ; TFunc 6 4                                           (* 7: (B@) { Y@; } *)
  ; TPoly 5 7                                           (* 8: <@ Z@> { (B@) { Y@; } } *)
  ; TFunc 8 4                                           (* 9 *)
  ; TPoly 4 9                                           (* 10 *)
  ; TFunc 1 5                                           (* 11: (A@) { Z@; } *)
  ; TPoly 5 11 ].                                       (* 12: <@ Z@> { (A@) { Z@; } } *)

Theorem rebound_found_equal :
  fble_types_equal (enough rebound) rebound 1 6 = Some true /\
  (* the argument types, compared on their own, differ *)
  fble_types_equal (enough rebound) rebound 1 8 = Some false.
Proof. vm_compute. auto. Qed.

(** ** Eta reduction that is not one

    [<@ T@> { F@<T@><T@>; }] is reduced to [F@<T@>], although [T@] occurs in
    it: two such types that differ only in the name of the parameter are not
    found equal. *)
Definition eta_captured : store :=
  [ TVar (Poly (Basic 1) (Poly (Basic 1) (Basic 0))) (tn "F") None   (* 0: F@ *)
  ; TVar (Basic 0) (tn "T") None                        (* 1: T@ *)
  ; TApply 0 1                                          (* 2: F@<T@> *)
  ; TApply 2 1                                          (* 3: F@<T@><T@> *)
  ; TPoly 1 3                                           (* 4 *)
  ; TVar (Basic 0) (tn "U") None                        (* 5: U@ *)
  ; TApply 0 5                                          (* 6 *)
  ; TApply 6 5                                          (* 7 *)
  ; TPoly 5 7 ].                                        (* 8 *)

Theorem eta_captures_parameter :
  normal_type 9 eta_captured 4 = Some (eta_captured, 2) /\
  fble_types_equal (enough eta_captured) eta_captured 4 8 = Some false.
Proof. vm_compute. auto. Qed.

(** ** Eta reduction to a variable that has a value

    With [V@ = F@], [<@ T@> { V@<T@>; }] is reduced to [V@], which is not a
    normal form: comparing it with [F@] fails the assertion in
    lib/type.c:757-765, however many steps are allowed. *)
Definition eta_unreduced : store :=
  [ TVar (Poly (Basic 1) (Basic 0)) (tn "F") None       (* 0: F@ *)
  ; TVar (Poly (Basic 1) (Basic 0)) (tn "V") (Some 0)   (* 1: V@ *)
  ; TVar (Basic 0) (tn "T") None                        (* 2: T@ *)
  ; TApply 1 2                                          (* 3: V@<T@> *)
  ; TPoly 2 3 ].                                        (* 4 *)

Theorem eta_result_not_normal :
  normal_type 5 eta_unreduced 4 = Some (eta_unreduced, 1) /\
  forall fuel, fble_types_equal fuel eta_unreduced 4 0 = None.
Proof.
  split; [vm_compute; reflexivity|]. intros fuel.
  do 5 (destruct fuel as [|fuel]; [reflexivity|]). reflexivity.
Qed.
