(** * Model of the managed stack of lib/value.c: where stack objects and frames live.

    Addresses are integers.  The operating system's allocator is represented by the
    address it is going to return, given with each operation that might need it; the
    specification of malloc (fresh, disjoint blocks) is part of the theorems.  What is
    stored in the objects and the collector's part of the frames are in GcModel.v.
    [value.c]'s intptr_t additions do not overflow (blocks lie in the address space). *)
From Coq Require Import ZArith List Bool.
Import ListNotations.
Local Open Scope Z_scope.

(** lib/value.c:359 CHUNK_SIZE. *)
Definition chunk_size : Z := 1024 * 1024.
(** sizeof(Chunk): one pointer, lib/value.c:365-367. *)
Definition chunk_header : Z := 8.
(** sizeof(Frame): 14 words, lib/value.c:396-412. *)
Definition frame_size : Z := 112.

(** A linked list of chunks: the addresses, and what ends the list. *)
Inductive terminator := TNull | TUninit.
Record chain := mk_chain { ch_list : list Z; ch_end : terminator }.

(** lib/value.c:396-412 Frame: its address, merges, top, max, chunks.  [objs] is ghost:
    the blocks (address, size) handed out for objects of the frame. *)
Record frame := mk_frame {
  addr : Z; merges : nat; ftop : Z; fmax : Z; chunks : chain; objs : list (Z * Z) }.

(** lib/value.c:480-485: base of the stack, frames (top frame first; the last one is the
    base frame), unused chunks.  [mallocs] is ghost: every block obtained from malloc. *)
Record heap := mk_heap { stack : Z; tops : frame; callers : list frame; spare : list Z; mallocs : list Z }.

(** lib/value.c:982-1015 FbleNewValueHeap: note that nothing sets [top->chunks]. *)
Definition new_heap (a : Z) : heap :=
  mk_heap a (mk_frame a 0 (a + frame_size) (chunk_size + a) (mk_chain [] TUninit) []) [] [] [a].

(** The same function with [heap->top->chunks = NULL] added. *)
Definition new_heap_init (a : Z) : heap :=
  mk_heap a (mk_frame a 0 (a + frame_size) (chunk_size + a) (mk_chain [] TNull) []) [] [] [a].

(** lib/value.c:609-629 StackAlloc; [m] is the address FbleAllocRaw would return. *)
Definition stack_alloc (m : Z) (h : heap) (size : Z) : heap * Z :=
  let f := tops h in
  let '(f1, spare1, mallocs1) :=
    if fmax f <? ftop f + size then
      let '(chunk, sp, ms) :=
        match spare h with
        | [] => (m, [], m :: mallocs h)
        | c :: r => (c, r, mallocs h)
        end in
      (mk_frame (addr f) (merges f) (size + (chunk + chunk_header)) (chunk_size + chunk)
         (mk_chain (chunk :: ch_list (chunks f)) (ch_end (chunks f))) (objs f), sp, ms)
    else (f, spare h, mallocs h) in
  let result := ftop f1 in
  (mk_heap (stack h)
     (mk_frame (addr f1) (merges f1) (result + size) (fmax f1) (chunks f1) (objs f1))
     (callers h) spare1 mallocs1, result).

(** lib/value.c:640-648 NewValueRaw. *)
Definition new_value (m : Z) (h : heap) (size : Z) : heap * Z :=
  let (h1, r) := stack_alloc m h size in
  let f := tops h1 in
  (mk_heap (stack h1) (mk_frame (addr f) (merges f) (ftop f) (fmax f) (chunks f) ((r, size) :: objs f))
     (callers h1) (spare h1) (mallocs h1), r).

(** lib/value.c:1051-1083 PushFrame. *)
Definition push (m : Z) (h : heap) (merge : bool) : heap :=
  let f := tops h in
  if merge then
    mk_heap (stack h) (mk_frame (addr f) (S (merges f)) (ftop f) (fmax f) (chunks f) (objs f))
      (callers h) (spare h) (mallocs h)
  else
    let (h1, callee) := stack_alloc m h frame_size in
    mk_heap (stack h1)
      (mk_frame callee 0 (callee + frame_size) (fmax (tops h1)) (mk_chain [] TNull) [])
      (tops h1 :: callers h1) (spare h1) (mallocs h1).

(** The loops of lib/value.c:1127-1132 and 1184-1189: give the frame's chunks back. *)
Definition give_back (l sp : list Z) : list Z := rev l ++ sp.

(** lib/value.c:1086-1138 FblePopFrame; [None] if there is no caller or the chunk list
    read is not terminated. *)
Definition pop (h : heap) : option heap :=
  let f := tops h in
  match merges f with
  | S n =>
    Some (mk_heap (stack h) (mk_frame (addr f) n (ftop f) (fmax f) (chunks f) (objs f))
            (callers h) (spare h) (mallocs h))
  | O =>
    match callers h, ch_end (chunks f) with
    | c :: cs, TNull => Some (mk_heap (stack h) c cs (give_back (ch_list (chunks f)) (spare h)) (mallocs h))
    | _, _ => None
    end
  end.

(** lib/value.c:1155-1227 CompactFrame. *)
Definition compact (m : Z) (h : heap) (merge : bool) : option heap :=
  let f := tops h in
  if merge then Some h
  else
    match merges f with
    | S n =>
      Some (push m (mk_heap (stack h) (mk_frame (addr f) n (ftop f) (fmax f) (chunks f) (objs f))
              (callers h) (spare h) (mallocs h)) false)
    | O =>
      match callers h, ch_end (chunks f) with
      | c :: cs, TNull =>
        Some (mk_heap (stack h)
                (mk_frame (addr f) O (addr f + frame_size) (fmax c) (mk_chain [] TNull) [])
                (callers h) (give_back (ch_list (chunks f)) (spare h)) (mallocs h))
      | _, _ => None
      end
    end.

(** lib/value.c:1018-1047 FbleFreeValueHeap: the blocks of stack memory it frees, in
    order; [None] if it follows an uninitialised pointer. *)
Fixpoint free_frames (fs : list frame) : option (list Z) :=
  match fs with
  | [] => Some []
  | f :: r =>
    match ch_end (chunks f), free_frames r with
    | TNull, Some l => Some (ch_list (chunks f) ++ l)
    | _, _ => None
    end
  end.

Definition free_heap (h : heap) : option (list Z) :=
  match free_frames (tops h :: callers h) with
  | Some l => Some (l ++ stack h :: spare h)
  | None => None
  end.
