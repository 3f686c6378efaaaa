(** * The collector's circular doubly linked lists, pointer by pointer (lib/value.c:519-599).

    A node (list head or [h.gc.list] of a value) is a number; memory is the two maps
    [next] and [prev]. *)
From Coq Require Import Arith List.
Import ListNotations.

Record links := mk_links { next : nat -> nat; prev : nat -> nat }.

Definition put (f : nat -> nat) (i a : nat) : nat -> nat :=
  fun j => if Nat.eq_dec j i then a else f j.
Definition set_next (m : links) (x y : nat) : links := mk_links (put (next m) x y) (prev m).
Definition set_prev (m : links) (x y : nat) : links := mk_links (next m) (put (prev m) x y).

(** lib/value.c:525-529 Clear. *)
Definition clear (m : links) (x : nat) : links :=
  let m := set_next m x x in
  set_prev m x x.

(** lib/value.c:536-539 IsEmpty. *)
Definition is_empty (m : links) (x : nat) : bool := next m x =? x.

(** lib/value.c:552-563 Get. *)
Definition get (m : links) (l : nat) : option nat * links :=
  if next m l =? l then (None, m)
  else
    let got := next m l in
    let m := set_next m (prev m got) (next m got) in
    let m := set_prev m (next m got) (prev m got) in
    (Some got, clear m got).

(** lib/value.c:572-580 MoveTo. *)
Definition move_to (m : links) (dst v : nat) : links :=
  let m := set_next m (prev m v) (next m v) in
  let m := set_prev m (next m v) (prev m v) in
  let m := set_next m v (next m dst) in
  let m := set_prev m v dst in
  let m := set_prev m (next m dst) v in
  set_next m dst v.

(** lib/value.c:589-599 MoveAllTo. *)
Definition move_all (m : links) (dst src : nat) : links :=
  if is_empty m src then m
  else
    let m := set_prev m (next m dst) (prev m src) in
    let m := set_next m (prev m src) (next m dst) in
    let m := set_next m dst (next m src) in
    let m := set_prev m (next m dst) dst in
    let m := set_next m src src in
    set_prev m src src.
