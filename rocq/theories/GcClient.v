(** * What a user of the value heap may do, and what they rely on (specification).

    A client program is a history of calls.  The state records, besides the heap,
    which values the client may use in each frame and which references it may still
    assign. *)

From Coq Require Import Arith List Bool.
From Verif Require Import GcModel.
Import ListNotations.

Record cst := mk_cst {
  c_heap : heap;
  c_vals : nat -> list value;   (* values in use, by frame *)
  c_refs : nat -> list nat }.   (* references that may be assigned, by frame *)

Definition init : cst := mk_cst new_heap (fun _ => []) (fun _ => []).

Inductive op : Type :=
| NewObj (k : kind) (vs : list value)    (* FbleNewStructValue, FbleNewUnionValue, FbleNewFuncValue, ... *)
| NewRef                                 (* FbleNewRefValue *)
| NewNative (data : nat)                 (* FbleNewNativeValue *)
| Assign (r : nat) (v : value)           (* FbleAssignRefValue *)
| Read (o : nat) (i : nat)               (* FbleStructValueField, FbleUnionValueArg, function statics, dereference *)
| Push (merge : bool) (vs : list value)  (* PushFrame, [vs]: values passed to the new frame *)
| Pop (v : value)                        (* FblePopFrame *)
| Compact (merge : bool) (vs : list value). (* CompactFrame *)

(** Packed values (and NULL) are always usable. *)
Definition usable (s : cst) (v : value) : Prop :=
  v = VNull \/ (exists z, v = VPacked z) \/
  (v <> VUninit /\ In v (c_vals s (top (c_heap s)))).

Definition add_val (s : cst) (h : heap) (v : value) : cst :=
  mk_cst h (upd (c_vals s) (top h) (v :: c_vals s (top h))) (c_refs s).

(** The contract of the API. *)
Definition allowed (s : cst) (o : op) : Prop :=
  let h := c_heap s in
  match o with
  | NewObj k vs => (k <> KRef /\ forall n, k <> KNative n) /\ forall v, In v vs -> usable s v
  | NewRef | NewNative _ => True
  | Assign r v => In r (c_refs s (top h)) /\ usable s v
  | Read o i => usable s (VObj o)
  | Push _ vs => forall v, In v vs -> usable s v
  | Pop v => usable s v /\ (top h <> 0 \/ merges (frames h (top h)) <> 0)
  | Compact merge vs => (forall v, In v vs -> usable s v) /\
      (merge = true \/ top h <> 0 \/ merges (frames h (top h)) <> 0)
  end.

(** One call; [None] is undefined behaviour.  [fix_]: see [GcModel.pop]. *)
Definition exec (fix_ : bool) (s : cst) (o : op) : option cst :=
  let h := c_heap s in
  match o with
  | NewObj k vs => let (h', o) := new_stack h k vs in Some (add_val s h' (VObj o))
  | NewRef =>
    match new_ref h with
    | Some (h', r) =>
      Some (mk_cst h' (upd (c_vals s) (top h) (VObj r :: c_vals s (top h)))
                      (upd (c_refs s) (top h) (r :: c_refs s (top h))))
    | None => None
    end
  | NewNative data =>
    match new_native h data with
    | Some (h', o) => Some (add_val s h' (VObj o))
    | None => None
    end
  | Assign r v =>
    match assign_ref h r v with
    | Some h' => Some (mk_cst h' (c_vals s) (c_refs s))
    | None => None
    end
  | Read o i =>
    match mem h o with
    | Some ob =>
      match nth_error (ofields ob) i with
      | Some VUninit => None
      | Some v => Some (add_val s h v)
      | None => Some s
      end
    | None => None
    end
  | Push merge vs =>
    let h' := push h merge in
    if merge then Some (mk_cst h' (c_vals s) (c_refs s))
    else Some (mk_cst h' (upd (c_vals s) (top h') vs) (upd (c_refs s) (top h') []))
  | Pop v =>
    match pop fix_ h v with
    | Some (h', v') => Some (add_val s h' v')
    | None => None
    end
  | Compact merge vs =>
    match compact h merge vs with
    | Some (h', vs') =>
      if merge then Some (mk_cst h' (c_vals s) (c_refs s))
      else Some (mk_cst h' (upd (c_vals s) (top h') vs') (upd (c_refs s) (top h') []))
    | None => None
    end
  end.

(** States reached by a client that respects the contract and the extra condition [C]. *)
Inductive reached (fix_ : bool) (C : cst -> op -> Prop) : cst -> Prop :=
| reached_init : reached fix_ C init
| reached_step s o s' : reached fix_ C s -> allowed s o -> C s o -> exec fix_ s o = Some s' ->
    reached fix_ C s'.

Definition any (_ : cst) (_ : op) : Prop := True.

(** [x] can be found by following fields from [v]. *)
Inductive follows (m : nat -> option obj) : value -> nat -> Prop :=
| follows_here x : follows m (VObj x) x
| follows_field v o ob x : follows m v o -> m o = Some ob -> In (VObj x) (ofields ob) -> follows m v x.

(** Everything a client may use, in any frame, is still there and initialised. *)
Definition intact (s : cst) : Prop :=
  forall d v x, d <= top (c_heap s) -> In v (c_vals s d) -> follows (mem (c_heap s)) v x ->
    exists ob, mem (c_heap s) x = Some ob /\ ~ In VUninit (ofields ob).

(** The call does not run into undefined behaviour. *)
Definition defined (fix_ : bool) (s : cst) (o : op) : Prop := exec fix_ s o <> None.

(** FblePopFrame's ownership test (lib/value.c:1104) succeeds, or the frame being popped
    is not the one the collector is working on. *)
Definition pop_owned (s : cst) (o : op) : Prop :=
  match o with
  | Pop v =>
    let h := c_heap s in
    merges (frames h (top h)) <> 0 \/
    forall h1 v1, realloc h v = Some (h1, v1) ->
      owned h1 v1 (min_gen (frames h1 (top h1))) = true \/ g_frame (gc h1) <> top h1
  | _ => True
  end.

(** A history of calls. *)
Fixpoint execs (fix_ : bool) (s : cst) (os : list op) : option cst :=
  match os with
  | [] => Some s
  | o :: os' => match exec fix_ s o with Some s' => execs fix_ s' os' | None => None end
  end.

Fixpoint alloweds (fix_ : bool) (s : cst) (os : list op) : Prop :=
  match os with
  | [] => True
  | o :: os' => allowed s o /\ match exec fix_ s o with Some s' => alloweds fix_ s' os' | None => True end
  end.

(** ** Equality of values as a program can observe it *)

(** [vrel Q]: equal, or objects related by [Q]. *)
Definition vrel (Q : nat -> nat -> Prop) (v v' : value) : Prop :=
  match v, v' with
  | VObj o, VObj o' => Q o o'
  | VNull, VNull => True
  | VPacked a, VPacked b => a = b
  | _, _ => False
  end.

(** Related objects have the same kind (and tag, code, native data) and related fields,
    to any depth; references and native values are the very same object, so sharing and
    later assignments are visible on both sides. *)
Definition bisim (m m' : nat -> option obj) (Q : nat -> nat -> Prop) : Prop :=
  forall o o', Q o o' -> exists ob ob', m o = Some ob /\ m' o' = Some ob' /\
    okind ob = okind ob' /\ Forall2 (vrel Q) (ofields ob) (ofields ob') /\
    ((okind ob = KRef \/ exists n, okind ob = KNative n) -> o = o').

Definition same_value (m : nat -> option obj) (v : value) (m' : nat -> option obj) (v' : value) : Prop :=
  exists Q, bisim m m' Q /\ vrel Q v v'.
