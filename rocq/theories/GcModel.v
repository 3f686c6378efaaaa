(** * Model of the memory management of lib/value.c: frames, stack and GC objects,
    and the incremental collector.

    Simplifications:
    - addresses are natural numbers, handed out in increasing order and never
      reused (so a dangling pointer is visible as a lookup failure);
    - the circular doubly linked lists are Coq lists ([ListProofs.v] shows that
      the pointer code implements exactly these list operations);
    - frames are numbered by depth, 0 being the base frame;
    - generations are unbounded (the C code asserts that its uint64_t does not
      overflow);
    - the layout of the managed stack (top, max, chunks) is in StackModel.v;
    - packed values are opaque ([VPacked]).

    [None] means undefined behaviour: following a dangling pointer, reading an
    uninitialised field, reading the GC header of a stack object, popping or
    compacting the base frame. *)

From Coq Require Import Arith List Bool.
Import ListNotations.

Inductive value : Type :=
| VNull
| VPacked (z : nat)
| VObj (o : nat)
| VUninit.             (* contents of freshly malloced memory *)

(** lib/value.c:132-138 ValueTag, with the data each kind carries besides values. *)
Inductive kind : Type :=
| KStruct
| KUnion (tag : nat)
| KFunc (code : nat)
| KRef
| KNative (data : nat).

(** lib/value.c:147-173: StackHeader (gc, frame), GcHeader (gen). *)
Inductive loc : Type :=
| LStack (gc : option nat) (frame : nat)
| LGc (gen : nat).

(** lib/value.c:190-286: object header and values it refers to.  A REF_VALUE has
    exactly one field, [VNull] while unassigned. *)
Record obj := mk_obj { okind : kind; ofields : list value; oloc : loc }.

(** The lists of lib/value.c:404-406 (per frame) and 461-468 (collector). *)
Inductive lid : Type :=
| Unm (d : nat) | Mrk (d : nat) | All (d : nat) | GMrk | GUnm | GFree.

Definition lid_eq_dec (a b : lid) : {a = b} + {a <> b}.
Proof. decide equality; apply Nat.eq_dec. Defined.

(** lib/value.c:396-412 Frame, without the list heads and the memory bounds. *)
Record frame := mk_frame { merges : nat; min_gen : nat; gen : nat; max_gen : nat }.

(** lib/value.c:452-469 Gc, without the list heads. *)
Record gcst := mk_gc {
  g_gen : nat; g_min : nat; g_max : nat;
  g_frame : nat; g_next : option nat;
  g_int : bool; g_save : list nat }.

(** lib/value.c:480-485 FbleValueHeap.  [freed] is the log of FbleFree calls on GC
    objects (for native values: of on_free calls). *)
Record heap := mk_heap {
  mem : nat -> option obj;
  fresh : nat;
  lists : lid -> list nat;
  frames : nat -> frame;
  top : nat;
  gc : gcst;
  freed : list nat }.

Definition set_mem (h : heap) m := mk_heap m (fresh h) (lists h) (frames h) (top h) (gc h) (freed h).
Definition set_fresh (h : heap) n := mk_heap (mem h) n (lists h) (frames h) (top h) (gc h) (freed h).
Definition set_lists (h : heap) l := mk_heap (mem h) (fresh h) l (frames h) (top h) (gc h) (freed h).
Definition set_frames (h : heap) f := mk_heap (mem h) (fresh h) (lists h) f (top h) (gc h) (freed h).
Definition set_top (h : heap) t := mk_heap (mem h) (fresh h) (lists h) (frames h) t (gc h) (freed h).
Definition set_gc (h : heap) g := mk_heap (mem h) (fresh h) (lists h) (frames h) (top h) g (freed h).
Definition set_freed (h : heap) f := mk_heap (mem h) (fresh h) (lists h) (frames h) (top h) (gc h) f.

Definition upd {A} (f : nat -> A) (i : nat) (a : A) : nat -> A :=
  fun j => if Nat.eq_dec j i then a else f j.
Definition updl {A} (f : lid -> A) (i : lid) (a : A) : lid -> A :=
  fun j => if lid_eq_dec j i then a else f j.

Definition rem (o : nat) (l : list nat) : list nat := remove Nat.eq_dec o l.

(** lib/value.c:572-580 MoveTo: unlink from whatever list, push on the front of [dst]. *)
Definition move_to (h : heap) (dst : lid) (o : nat) : heap :=
  set_lists h (fun l => if lid_eq_dec l dst then o :: rem o (lists h l) else rem o (lists h l)).

(** lib/value.c:589-599 MoveAllTo ([dst] and [src] different). *)
Definition move_all (h : heap) (dst src : lid) : heap :=
  set_lists h (updl (updl (lists h) dst (lists h src ++ lists h dst)) src []).

(** lib/value.c:552-563 Get. *)
Definition get (h : heap) (l : lid) : option nat * heap :=
  match lists h l with
  | [] => (None, h)
  | o :: r => (Some o, set_lists h (updl (lists h) l r))
  end.

(** lib/value.c:681-692 FreeGcValue applied to Get(&gc->free) (932-933). *)
Definition free_one (h : heap) : heap :=
  match get h GFree with
  | (None, h1) => h1
  | (Some o, h1) => set_freed (set_mem h1 (upd (mem h1) o None)) (o :: freed h1)
  end.

(** lib/value.c:866-873 MarkRef. *)
Definition mark_ref (h : heap) (v : value) : option heap :=
  match v with
  | VObj x =>
    match mem h x with
    | Some ob =>
      match oloc ob with
      | LGc g =>
        if (g_min (gc h) <=? g) && negb (g =? g_gen (gc h))
        then Some (move_to h GMrk x) else Some h
      | LStack _ _ => None
      end
    | None => None
    end
  | VUninit => None
  | VNull | VPacked _ => Some h
  end.

(** lib/value.c:882-919 MarkRefs. *)
Fixpoint mark_refs (h : heap) (vs : list value) : option heap :=
  match vs with
  | [] => Some h
  | v :: vs' => match mark_ref h v with Some h' => mark_refs h' vs' | None => None end
  end.

Definition move_list_to (h : heap) (dst : lid) (os : list nat) : heap :=
  fold_left (fun h o => move_to h dst o) os h.

(** lib/value.c:927-980 IncrGc. *)
Definition incr_gc (h : heap) : option heap :=
  let h := free_one (free_one h) in
  let g := gc h in
  match get h GMrk with
  | (Some o, h1) =>
    match mem h1 o with
    | Some ob =>
      match oloc ob with
      | LGc _ =>
        let h2 := set_mem h1 (upd (mem h1) o (Some (mk_obj (okind ob) (ofields ob) (LGc (g_gen g))))) in
        match mark_refs h2 (ofields ob) with
        | Some h3 => Some (move_to h3 (if g_int g then Unm (g_frame g) else All (g_frame g)) o)
        | None => None
        end
      | LStack _ _ => None
      end
    | None => None
    end
  | (None, h1) =>
    let h2 := move_all h1 GFree GUnm in
    let h3 := move_list_to h2 (Mrk (g_frame g)) (g_save g) in
    match g_next g with
    | None => Some h3
    | Some n =>
      let f := frames h3 n in
      let next := if Nat.eq_dec n (top h3) then None else Some (S n) in
      let h4 := set_gc h3 (mk_gc (gen f) (min_gen f) (max_gen f) n next false []) in
      Some (move_all (move_all h4 GMrk (Mrk n)) GUnm (Unm n))
    end
  end.

(** lib/value.c:640-648 NewValueRaw and the initialisation of the new stack value. *)
Definition new_stack (h : heap) (k : kind) (vs : list value) : heap * nat :=
  let o := fresh h in
  (set_mem (set_fresh h (S o)) (upd (mem h) o (Some (mk_obj k vs (LStack None (top h))))), o).

(** lib/value.c:660-673 NewGcValueRaw on frame [d], fields as given. *)
Definition new_gc (h : heap) (d : nat) (k : kind) (vs : list value) : option (heap * nat) :=
  match incr_gc h with
  | None => None
  | Some h1 =>
    let o := fresh h1 in
    let h2 := set_mem (set_fresh h1 (S o))
                (upd (mem h1) o (Some (mk_obj k vs (LGc (gen (frames h1 d)))))) in
    Some (set_lists h2 (updl (lists h2) (All d) (o :: lists h2 (All d))), o)
  end.

Fixpoint set_nth (vs : list value) (i : nat) (v : value) : list value :=
  match vs, i with
  | [], _ => []
  | _ :: vs', O => v :: vs'
  | x :: vs', S i' => x :: set_nth vs' i' v
  end.

(** [nv->fields[i] = v] *)
Definition set_field (h : heap) (o i : nat) (v : value) : heap :=
  match mem h o with
  | Some ob => set_mem h (upd (mem h) o (Some (mk_obj (okind ob) (set_nth (ofields ob) i v) (oloc ob))))
  | None => h
  end.

(** [value->h.stack.gc = g] *)
Definition set_stack_gc (h : heap) (o g : nat) : heap :=
  match mem h o with
  | Some ob =>
    match oloc ob with
    | LStack _ d => set_mem h (upd (mem h) o (Some (mk_obj (okind ob) (ofields ob) (LStack (Some g) d))))
    | LGc _ => h
    end
  | None => h
  end.

(** lib/value.c:703-768 GcRealloc.  [fuel] bounds the recursion depth. *)
Fixpoint gc_realloc (fuel : nat) (h : heap) (v : value) {struct fuel} : option (heap * value) :=
  match v with
  | VObj o =>
    match mem h o with
    | None => None
    | Some ob =>
      match oloc ob with
      | LGc _ => Some (h, v)
      | LStack (Some g) _ => Some (h, VObj g)
      | LStack None d =>
        match fuel with
        | O => None
        | S fuel' =>
          match okind ob with
          | KRef | KNative _ => None
          | _ =>
            match new_gc h d (okind ob) (repeat VUninit (length (ofields ob))) with
            | None => None
            | Some (h1, g) =>
              (fix fields (h : heap) (i : nat) (vs : list value) {struct vs} : option (heap * value) :=
                 match vs with
                 | [] => Some (h, VObj g)
                 | x :: vs' =>
                   match gc_realloc fuel' h x with
                   | None => None
                   | Some (h', x') => fields (set_field h' g i x') (S i) vs'
                   end
                 end) (set_stack_gc h1 o g) 0 (ofields ob)
            end
          end
        end
      end
    end
  | VUninit => None
  | VNull | VPacked _ => Some (h, v)
  end.

(** A stack value only refers to values that existed before it, so the recursion
    depth is bounded by its address. *)
Definition realloc (h : heap) (v : value) : option (heap * value) :=
  gc_realloc (fresh h) h v.

Fixpoint realloc_list (h : heap) (vs : list value) : option (heap * list value) :=
  match vs with
  | [] => Some (h, [])
  | v :: vs' =>
    match realloc h v with
    | None => None
    | Some (h1, v1) =>
      match realloc_list h1 vs' with
      | None => None
      | Some (h2, vs2) => Some (h2, v1 :: vs2)
      end
    end
  end.

(** Generation of an (alloced) value; stack objects have none. *)
Definition gen_of (h : heap) (v : value) : option nat :=
  match v with
  | VObj o =>
    match mem h o with
    | Some ob => match oloc ob with LGc g => Some g | LStack _ _ => None end
    | None => None
    end
  | _ => None
  end.

Definition obj_of (v : value) : list nat := match v with VObj o => [o] | _ => [] end.

(** lib/value.c:1051-1077 PushFrame. *)
Definition push (h : heap) (merge : bool) : heap :=
  let f := frames h (top h) in
  if merge then
    set_frames h (upd (frames h) (top h) (mk_frame (S (merges f)) (min_gen f) (gen f) (max_gen f)))
  else
    let d := S (top h) in
    let h1 := set_frames h (upd (frames h) d (mk_frame 0 (max_gen f) (max_gen f) (S (max_gen f)))) in
    let h2 := set_lists h1 (updl (updl (updl (lists h1) (Unm d) []) (Mrk d) []) (All d) []) in
    set_top h2 d.

(** Stack memory of frame [d] is reused from here on. *)
Definition kill_stack (m : nat -> option obj) (d : nat) : nat -> option obj :=
  fun o =>
    match m o with
    | Some ob =>
      match oloc ob with
      | LStack _ d' => if Nat.eq_dec d' d then None else Some ob
      | LGc _ => Some ob
      end
    | None => None
    end.

(** [IsAlloced(value) && gen >= gc.min_gen && gen != gc.gen && gen < gc.max_gen],
    lib/value.c:1116-1120 and 1209-1212. *)
Definition undergoing (h : heap) (v : value) : bool :=
  match gen_of h v with
  | Some g => (g_min (gc h) <=? g) && negb (g =? g_gen (gc h)) && (g <? g_max (gc h))
  | None => false
  end.

(** [IsAlloced(value) && value->h.gc.gen >= frame->min_gen] *)
Definition owned (h : heap) (v : value) (mn : nat) : bool :=
  match gen_of h v with Some g => mn <=? g | None => false end.

Definition set_interrupted (g : gcst) (fr : nat) (save : list nat) : gcst :=
  mk_gc (g_gen g) (g_min g) (g_max g) fr (g_next g) true save.

Definition set_next (g : gcst) (n : option nat) : gcst :=
  mk_gc (g_gen g) (g_min g) (g_max g) (g_frame g) n (g_int g) (g_save g).

(** lib/value.c:1086-1138 FblePopFrame.

    [fix_] selects a variant of the code: [false] is the code at the pinned commit;
    [true] is a repaired version that executes [heap->top->max_gen = top->max_gen]
    unconditionally (in the code it is inside the [if] of line 1104). *)
Definition pop (fix_ : bool) (h : heap) (v : value) : option (heap * value) :=
  let d := top h in
  let f := frames h d in
  match merges f with
  | S n => Some (set_frames h (upd (frames h) d (mk_frame n (min_gen f) (gen f) (max_gen f))), v)
  | O =>
    match d with
    | O => None
    | S c =>
      match realloc h v with
      | None => None
      | Some (h1, v1) =>
        let h2 := set_top h1 c in
        let h3 := move_all (move_all (move_all h2 (Unm c) (Unm d)) (Unm c) (Mrk d)) (Unm c) (All d) in
        let f1 := frames h3 d in
        let fc := frames h3 c in
        let own := owned h3 v1 (min_gen f1) in
        let h4 := if own || fix_ then
                    set_frames h3 (upd (frames h3) c (mk_frame (merges fc) (min_gen fc) (gen fc) (max_gen f1)))
                  else h3 in
        let h4 := if own then move_list_to h4 (Mrk c) (obj_of v1) else h4 in
        let h5 :=
          if Nat.eq_dec (g_frame (gc h4)) d then
            if undergoing h4 v1 then
              set_gc (move_list_to h4 GMrk (obj_of v1)) (set_interrupted (gc h4) c (obj_of v1))
            else set_gc h4 (set_interrupted (gc h4) c [])
          else h4 in
        let h6 :=
          match g_next (gc h5) with
          | None => set_gc h5 (set_next (gc h5) (Some c))
          | Some n => if Nat.eq_dec n d then set_gc h5 (set_next (gc h5) (Some c)) else h5
          end in
        Some (set_mem h6 (kill_stack (mem h6) d), v1)
      end
    end
  end.

(** lib/value.c:1155-1227 CompactFrame; returns the updated save array. *)
Definition compact (h : heap) (merge : bool) (vs : list value) : option (heap * list value) :=
  if merge then Some (h, vs)
  else
    let d := top h in
    let f := frames h d in
    match merges f with
    | S n =>
      let h1 := set_frames h (upd (frames h) d (mk_frame n (min_gen f) (gen f) (max_gen f))) in
      Some (push h1 false, vs)
    | O =>
      match d with
      | O => None
      | S _ =>
        match realloc_list h vs with
        | None => None
        | Some (h1, vs1) =>
          let f1 := frames h1 d in
          let h2 := set_frames h1 (upd (frames h1) d
                      (mk_frame (merges f1) (min_gen f1) (max_gen f1) (S (max_gen f1)))) in
          let h3 := move_all (move_all h2 (Unm d) (Mrk d)) (Unm d) (All d) in
          let keep := flat_map (fun v => if owned h3 v (min_gen f1) then obj_of v else []) vs1 in
          let h4 := move_list_to h3 (Mrk d) keep in
          let h5 :=
            if Nat.eq_dec (g_frame (gc h4)) d then
              let save := flat_map (fun v => if undergoing h4 v then obj_of v else []) vs1 in
              set_gc (move_list_to h4 GMrk save) (set_interrupted (gc h4) (g_frame (gc h4)) save)
            else h4 in
          let h6 :=
            match g_next (gc h5) with
            | None => set_gc h5 (set_next (gc h5) (Some d))
            | Some _ => h5
            end in
          Some (set_mem h6 (kill_stack (mem h6) d), vs1)
        end
      end
    end.

(** lib/value.c:1777-1782 FbleNewRefValue, 1809-1816 FbleNewNativeValue. *)
Definition new_ref (h : heap) : option (heap * nat) := new_gc h (top h) KRef [VNull].
Definition new_native (h : heap) (data : nat) : option (heap * nat) := new_gc h (top h) (KNative data) [].

(** lib/value.c:1785-1806 FbleAssignRefValue for an already unwrapped value that is
    not the reference itself (the unwrapping is in PackModel.v). *)
Definition assign_ref (h : heap) (r : nat) (v : value) : option heap :=
  match realloc h v with
  | None => None
  | Some (h1, v1) => Some (set_field h1 r 0 v1)
  end.

(** lib/value.c:982-1015 FbleNewValueHeap. *)
Definition new_heap : heap :=
  mk_heap (fun _ => None) 0 (fun _ => []) (fun _ => mk_frame 0 0 0 1) 0
          (mk_gc 0 0 1 0 None false []) [].

(** Loop condition of FbleValueFullGc, lib/value.c:1829-1831. *)
Definition full_gc_done (h : heap) : bool :=
  match g_next (gc h) with
  | Some _ => false
  | None =>
    match lists h (Mrk (g_frame (gc h))), lists h (Unm (g_frame (gc h))) with
    | [], [] => true
    | _, _ => false
    end
  end.

(** lib/value.c:1827-1834 FbleValueFullGc; [None] also if [fuel] iterations are not enough. *)
Fixpoint full_gc (fuel : nat) (h : heap) : option heap :=
  if full_gc_done h then Some h
  else match fuel with
       | O => None
       | S f => match incr_gc h with Some h' => full_gc f h' | None => None end
       end.

(** The values collected by FbleFreeValueHeap, lib/value.c:1018-1047, in the order they
    are gathered (not the order they are freed, which does not matter). *)
Fixpoint frame_lists (h : heap) (d : nat) : list nat :=
  lists h (Unm d) ++ lists h (Mrk d) ++ lists h (All d) ++
  match d with O => [] | S d' => frame_lists h d' end.

Definition free_heap (h : heap) : list nat :=
  frame_lists h (top h) ++ lists h GFree ++ lists h GMrk ++ lists h GUnm ++ freed h.
