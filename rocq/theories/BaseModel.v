(** * Models of lib/vector.c, lib/alloc.c, lib/string.c. *)
From Coq Require Import ZArith List Bool.
Import ListNotations.
Local Open Scope Z_scope.

(** size_t arithmetic wraps. *)
Definition size_t (z : Z) : Z := z mod 2^64.

(** ** lib/alloc.c *)

(** gTotalBytesAllocated, gMaxTotalBytesAllocated (lines 17-24), and the live allocations
    with the [size] field of their Alloc header (lines 37-40), identified by a number. *)
Record astate := mk_a { total : Z; max_total : Z; live : list (nat * Z); fresh : nat }.

Definition a_init : astate := mk_a 0 0 [] 0.

Fixpoint size_of (i : nat) (l : list (nat * Z)) : option Z :=
  match l with
  | [] => None
  | (j, n) :: r => if Nat.eq_dec i j then Some n else size_of i r
  end.

Fixpoint drop (i : nat) (l : list (nat * Z)) : list (nat * Z) :=
  match l with
  | [] => []
  | (j, n) :: r => if Nat.eq_dec i j then r else (j, n) :: drop i r
  end.

(** [if (gTotal > gMax) gMax = gTotal], lib/alloc.c:67-69, 83-85. *)
Definition bump (t m : Z) : Z := if m <? t then t else m.

(** lib/alloc.c:58-73 FbleAllocRaw. *)
Definition alloc (s : astate) (size : Z) : astate :=
  let t := size_t (total s + size) in
  mk_a t (bump t (max_total s)) ((fresh s, size) :: live s) (S (fresh s)).

(** lib/alloc.c:75-91 FbleReAllocRaw; [None] for [ptr]: NULL.  The result [None] is a
    pointer that is not a live allocation (undefined behaviour).  The block may move: it
    gets a new number. *)
Definition realloc (s : astate) (ptr : option nat) (size : Z) : option astate :=
  match ptr with
  | None => Some (alloc s size)
  | Some i =>
    match size_of i (live s) with
    | None => None
    | Some old =>
      let t := size_t (total s + size_t (size - old)) in
      Some (mk_a t (bump t (max_total s)) ((fresh s, size) :: drop i (live s)) (S (fresh s)))
    end
  end.

(** lib/alloc.c:94-103 FbleFree. *)
Definition free (s : astate) (ptr : option nat) : option astate :=
  match ptr with
  | None => Some s
  | Some i =>
    match size_of i (live s) with
    | None => None
    | Some n => Some (mk_a (size_t (total s - n)) (max_total s) (drop i (live s)) (fresh s))
    end
  end.

(** lib/alloc.c:112-115 FbleResetMaxTotalBytesAllocated. *)
Definition reset (s : astate) : astate := mk_a (total s) (total s) (live s) (fresh s).

(** lib/alloc.c:48-55 Exit: true if it reports a leak. *)
Definition leak_reported (s : astate) : bool := negb (total s =? 0).

(** ** lib/vector.c and the macros of fble-vector.h *)

(** [size], and the array: [cap] bytes of memory holding [cells] elements ([None]:
    uninitialised). *)
Record vec (A : Type) := mk_vec { vsize : Z; cap : Z; cells : list (option A) }.
Arguments mk_vec {A}. Arguments vsize {A}. Arguments cap {A}. Arguments cells {A}.

(** fble-vector.h:37-39 FbleInitVector: room for one element. *)
Definition init_vector {A} (elem_size : Z) : vec A := mk_vec 0 elem_size [None].

(** realloc keeps the old contents up to the new size. *)
Definition resize {A} (n : nat) (l : list (option A)) : list (option A) :=
  firstn n l ++ repeat None (n - length l).

(** lib/vector.c:11-21 FbleExtendVectorRaw. *)
Definition extend_vector {A} (elem_size : Z) (v : vec A) : vec A :=
  let s := vsize v in
  let v1 := mk_vec (size_t (s + 1)) (cap v) (cells v) in
  if (0 <? s) && (Z.land s (s - 1) =? 0) then
    let bytes := size_t (size_t (2 * s) * elem_size) in
    mk_vec (vsize v1) bytes (resize (Z.to_nat (bytes / elem_size)) (cells v1))
  else v1.

Fixpoint write {A} (l : list (option A)) (i : nat) (x : A) : list (option A) :=
  match l, i with
  | [], _ => []
  | _ :: r, O => Some x :: r
  | y :: r, S j => y :: write r j x
  end.

(** fble-vector.h:85-86 FbleAppendToVector; [None]: a write outside the allocation. *)
Definition append {A} (elem_size : Z) (v : vec A) (x : A) : option (vec A) :=
  let v1 := extend_vector elem_size v in
  let i := vsize v1 - 1 in
  if (0 <=? i) && ((i + 1) * elem_size <=? cap v1)
  then Some (mk_vec (vsize v1) (cap v1) (write (cells v1) (Z.to_nat i) x)) else None.

(** [v.size--], as in lib/typecheck.c:306, lib/code.c:234, lib/profile.c:704,
    lib/compile.c:229 and 822; [None]: the vector is empty. *)
Definition drop_last {A} (v : vec A) : option (vec A) :=
  if 0 <? vsize v then Some (mk_vec (vsize v - 1) (cap v) (cells v)) else None.

(** ** lib/string.c *)

(** Strings by number: reference count and contents, [None] once freed. *)
Definition strings := nat -> option (Z * list Z).

Definition put {A} (f : nat -> A) (i : nat) (a : A) : nat -> A :=
  fun j => if Nat.eq_dec j i then a else f j.

(** lib/string.c:14-21 FbleNewString, as string number [i] (its allocation is
    sizeof(FbleString) + strlen(str) + 1 bytes, the copy writes strlen(str) + 1). *)
Definition new_string (m : strings) (i : nat) (s : list Z) : strings := put m i (Some (1, s)).

(** lib/string.c:24-28 FbleCopyString; [None]: use after free. *)
Definition copy_string (m : strings) (i : nat) : option strings :=
  match m i with
  | Some (n, s) => Some (put m i (Some (size_t (n + 1), s)))
  | None => None
  end.

(** lib/string.c:31-40 FbleFreeString; [None]: use after free. *)
Definition free_string (m : strings) (i : nat) : option strings :=
  match m i with
  | Some (n, s) =>
    let n' := size_t (n - 1) in
    Some (put m i (if n' =? 0 then None else Some (n', s)))
  | None => None
  end.
