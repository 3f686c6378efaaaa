(** * What a client of the type heap is promised.

    Independent of the collector: a client's own view of the types it made.
    Types are numbered in the order they were made.  [t_rc] is how many times
    the client retained a type and has not released it; [t_refs] lists the
    references it stored in the type. *)
From Coq Require Import List Arith.
Import ListNotations.

Record client : Type := MkClient {
  t_n : nat;                    (* types made so far *)
  t_rc : nat -> nat;            (* references the client owns *)
  t_refs : nat -> list nat      (* references between types *)
}.

(** A type is held when the client can get to it from a type it retains. *)
Inductive held (w : client) : nat -> Prop :=
| held_root o : 0 < t_rc w o -> held w o
| held_ref o p : held w o -> In p (t_refs w o) -> held w p.

Inductive ty_op : Type :=
| New                           (* FbleAllocType *)
| Retain (t : option nat)       (* FbleRetainType; None is NULL *)
| Release (t : option nat)      (* FbleReleaseType *)
| Refer (src dst : nat)         (* store dst in src, then FbleTypeAddRef *)
| Collect (fuel : nat).         (* FullGc; at least [fuel] iterations of each
                                   of its loops are allowed *)

Definition put {A} (f : nat -> A) (k : nat) (v : A) : nat -> A :=
  fun i => if i =? k then v else f i.

(** The rules clients follow: types are retained, and stored, only while they
    are held; types are released only as often as they were retained. *)
Inductive ty_step (w : client) : ty_op -> client -> Prop :=
| st_new : ty_step w New (MkClient (S (t_n w)) (put (t_rc w) (t_n w) 1) (put (t_refs w) (t_n w) []))
| st_retain o : held w o ->
    ty_step w (Retain (Some o)) (MkClient (t_n w) (put (t_rc w) o (S (t_rc w o))) (t_refs w))
| st_retain_null : ty_step w (Retain None) w
| st_release o : 0 < t_rc w o ->
    ty_step w (Release (Some o)) (MkClient (t_n w) (put (t_rc w) o (pred (t_rc w o))) (t_refs w))
| st_release_null : ty_step w (Release None) w
| st_refer s d : held w s -> held w d ->
    ty_step w (Refer s d) (MkClient (t_n w) (t_rc w) (put (t_refs w) s (t_refs w s ++ [d])))
| st_collect f : t_n w + 2 <= f -> ty_step w (Collect f) w.

Definition no_types : client := MkClient 0 (fun _ => 0) (fun _ => []).

Inductive history : list ty_op -> client -> Prop :=
| hist_nil : history [] no_types
| hist_step l op w w' : history l w -> ty_step w op w' -> history (l ++ [op]) w'.
