(** * The heap of types (lib/type-heap.c): an incremental, generational,
      reference counted mark-sweep collector.

    Pointers are natural numbers: an object is a [nat] into [objs], a
    generation is a [nat] into [gens]; an entry that is [None] is memory that
    was never allocated or has been freed.  Names are never reused.  Every
    access to an entry that is [None] makes the operation [None]: that is the
    model's undefined behaviour, and it covers use after free and double
    free.  The circular doubly linked lists of the C code are Coq lists in
    the order in which [next] visits them. *)
From Coq Require Import List Arith Bool Lia.
Import ListNotations.

(** The [size_t] ids of generations, lib/type-heap.c:40-44.  [OLD n] is the
    id [n] of an older generation; the four special ids are the four largest
    [size_t] values, in this order.  Simplification: the ids of older
    generations are unbounded; in the code they would meet [GC_ID] only after
    2^64-4 nested generations, each of which owns a block of memory. *)
Inductive gid : Type := OLD (n : nat) | GC | MARK | SAVE | NEW.

Definition gid_rank (i : gid) : nat :=
  match i with OLD _ => 0 | GC => 1 | MARK => 2 | SAVE => 3 | NEW => 4 end.

(** The [<] of two [size_t] ids. *)
Definition gid_ltb (a b : gid) : bool :=
  match a, b with
  | OLD n, OLD m => n <? m
  | _, _ => gid_rank a <? gid_rank b
  end.

(** The [<=] of two [size_t] ids. *)
Definition gid_leb (a b : gid) : bool := negb (gid_ltb b a).

(** The [==] of two [size_t] ids. *)
Definition gid_eqb (a b : gid) : bool :=
  match a, b with
  | OLD n, OLD m => n =? m
  | _, _ => gid_rank a =? gid_rank b
  end.

(** [struct Gen], lib/type-heap.c:26-38.  The [tail] links are the lists
    [olds] and [gcs] of the heap. *)
Record gen : Type := MkGen {
  g_id : gid;
  g_roots : list nat;
  g_non : list nat
}.

(** [struct Obj], lib/type-heap.c:46-60.  [o_refs] is what FbleTypeRefs
    (lib/type.c:134-187) visits: the non-NULL type fields of the object, in
    order.  Nothing else of the type matters to the heap: FbleTypeOnFree
    (lib/type.c:190-226) touches no other type. *)
Record obj : Type := MkObj {
  o_gen : nat;
  o_rc : nat;
  o_refs : list nat
}.

(** [struct FbleTypeHeap], lib/type-heap.c:74-143, with the memory.  [olds]
    and [gcs] are the lists [heap->old] and [heap->gc]. *)
Record theap : Type := MkHeap {
  gens : nat -> option gen;
  ngens : nat;
  objs : nat -> option obj;
  nobjs : nat;
  olds : list nat;
  mark : nat;
  gcs : list nat;
  save : nat;
  new : nat;
  next : nat;
  freel : list nat
}.

Definition upd {A} (f : nat -> A) (k : nat) (v : A) : nat -> A :=
  fun i => if i =? k then v else f i.

Definition set_gens (h : theap) f :=
  MkHeap f (ngens h) (objs h) (nobjs h) (olds h) (mark h) (gcs h) (save h)
         (new h) (next h) (freel h).
Definition set_objs (h : theap) f :=
  MkHeap (gens h) (ngens h) f (nobjs h) (olds h) (mark h) (gcs h) (save h)
         (new h) (next h) (freel h).
Definition set_next (h : theap) g :=
  MkHeap (gens h) (ngens h) (objs h) (nobjs h) (olds h) (mark h) (gcs h)
         (save h) (new h) g (freel h).
Definition set_olds (h : theap) l :=
  MkHeap (gens h) (ngens h) (objs h) (nobjs h) l (mark h) (gcs h) (save h)
         (new h) (next h) (freel h).
Definition set_freel (h : theap) l :=
  MkHeap (gens h) (ngens h) (objs h) (nobjs h) (olds h) (mark h) (gcs h)
         (save h) (new h) (next h) l.

(** [heap->old] and [heap->gc], the heads of their lists. *)
Definition old (h : theap) : nat := hd 0 (olds h).
Definition gc (h : theap) : nat := hd 0 (gcs h).

(** [obj->gen = g]. *)
Definition set_gen (h : theap) (o : nat) (b : obj) (g : nat) : theap :=
  set_objs h (upd (objs h) o (Some (MkObj g (o_rc b) (o_refs b)))).

(** Unlinking an object from the list it is on: the first two assignments of
    MoveToFront and MoveToBack, lib/type-heap.c:163-164 and 179-180. *)
Definition rm (o : nat) (l : list nat) : list nat :=
  filter (fun x => negb (x =? o)) l.
Definition unlink (o : nat) (G : gen) : gen :=
  MkGen (g_id G) (rm o (g_roots G)) (rm o (g_non G)).

(** Which list of a generation: its roots or its non-roots. *)
Inductive side : Type := Roots | NonRoots.

(** MoveToFront / MoveToBack, lib/type-heap.c:155-186: move [o] from
    whichever list it is on to the front ([fr = true]) or the back of one of
    the lists of generation [g]. *)
Definition link (fr : bool) (o : nat) (l : list nat) : list nat :=
  if fr then o :: l else l ++ [o].
Definition link_gen (fr : bool) (s : side) (o : nat) (G : gen) : gen :=
  match s with
  | Roots => MkGen (g_id G) (link fr o (g_roots G)) (g_non G)
  | NonRoots => MkGen (g_id G) (g_roots G) (link fr o (g_non G))
  end.
Definition move_to (h : theap) (fr : bool) (g : nat) (s : side) (o : nat)
  : option theap :=
  match gens h g with
  | None => None
  | Some _ =>
      Some (set_freel
              (set_gens h (fun k =>
                 match gens h k with
                 | None => None
                 | Some G => Some (if k =? g then link_gen fr s o (unlink o G)
                                   else unlink o G)
                 end))
              (rm o (freel h)))
  end.

(** NewGen, lib/type-heap.c:204-224. *)
Definition empty_gen (i : gid) : gen := MkGen i [] [].

(** GenIsEmpty, lib/type-heap.c:226-234. *)
Definition gen_is_empty (G : gen) : bool :=
  match g_roots G, g_non G with [], [] => true | _, _ => false end.

(** FbleTypeAddRef, lib/type-heap.c:471-516. *)
Definition add_ref (h : theap) (src dst : nat) : option theap :=
  match objs h src, objs h dst with
  | Some s, Some d =>
      match gens h (o_gen s), gens h (o_gen d), gens h (old h), gens h (next h) with
      | Some sg, Some dg, Some og, Some ng =>
          let h1 :=
            if (gid_leb (g_id sg) (g_id og) && gid_ltb (g_id sg) (g_id dg)
                && gid_ltb (g_id sg) (g_id ng))%bool
            then set_next h (o_gen s)
            else if (gid_eqb (g_id sg) MARK && gid_eqb (g_id dg) NEW
                     && gid_ltb (g_id sg) (g_id ng))%bool
            then set_next h (old h)
            else h in
          let moveto :=
            if gid_eqb (g_id dg) GC then
              if gid_eqb (g_id sg) MARK then Some (mark h)
              else if negb (gid_eqb (g_id sg) GC) then Some (save h)
              else None
            else if (gid_eqb (g_id sg) MARK && gid_eqb (g_id dg) SAVE)%bool
            then Some (mark h)
            else None in
          match moveto with
          | None => Some h1
          | Some g =>
              move_to (set_gen h1 dst d g) false g
                      (if o_rc d =? 0 then NonRoots else Roots) dst
          end
      | _, _, _, _ => None
      end
  | _, _ => None
  end.

Fixpoint add_refs (h : theap) (src : nat) (l : list nat) : option theap :=
  match l with
  | [] => Some h
  | d :: l' => match add_ref h src d with
               | None => None
               | Some h' => add_refs h' src l'
               end
  end.

(** FbleTypeRefs, lib/type.c:134-187: FbleTypeAddRef for every non-NULL type
    field of the object. *)
Definition refs (h : theap) (x : nat) : option theap :=
  match objs h x with
  | None => None
  | Some b => add_refs h x (o_refs b)
  end.

(** Freeing the first object of the free list: lib/type-heap.c:256-260 and
    548-552. *)
Definition free_one (h : theap) : option theap :=
  match freel h with
  | [] => Some h
  | o :: r =>
      match objs h o with
      | None => None
      | Some _ => Some (set_freel (set_objs h (upd (objs h) o None)) r)
      end
  end.

(** One traversal: FbleTypeRefs, then [obj->gen = g] and the move, as in
    lib/type-heap.c:273-279, 282-288 and 319-325. *)
Definition traverse (h : theap) (x : nat) (fr : bool) (g : nat) (s : side)
  : option theap :=
  match refs h x with
  | None => None
  | Some h1 =>
      match objs h1 x with
      | None => None
      | Some b => move_to (set_gen h1 x b g) fr g s x
      end
  end.

(** Traversing a root of [gc] or [save]: the object is put in generation
    [mark] first, without moving it; lib/type-heap.c:299-306 and 309-316. *)
Definition traverse_root (h : theap) (x : nat) : option theap :=
  match objs h x with
  | None => None
  | Some b => traverse (set_gen h x b (mark h)) x true (old h) Roots
  end.

(** The chain [new -> old -> ...], cut after [next]:
    lib/type-heap.c:341-345. *)
Fixpoint cut (n : nat) (l : list nat) : option (list nat * list nat) :=
  match l with
  | [] => None
  | g :: r => if g =? n then Some ([g], r)
              else match cut n r with
                   | None => None
                   | Some (a, b) => Some (g :: a, b)
                   end
  end.

(** MoveAllToFront of each further generation in turn, lib/type-heap.c:
    188-202 and 346-350: later generations of the chain end up first. *)
Fixpoint merged (gs : nat -> option gen) (f : gen -> list nat) (acc : list nat)
         (l : list nat) : list nat :=
  match l with
  | [] => acc
  | g :: r => merged gs f (match gs g with
                           | Some G => f G ++ acc
                           | None => acc
                           end) r
  end.

Definition mem (g : nat) (l : list nat) : bool := existsb (Nat.eqb g) l.

(** The end of a cycle, lib/type-heap.c:327-360. *)
Definition end_cycle (h : theap) : option theap :=
  match gens h (gc h), gens h (new h), cut (next h) (new h :: olds h) with
  | Some G, Some N, Some (taken, rest) =>
      let free' := g_non G ++ freel h in
      let roots' := merged (gens h) g_roots (g_roots N) (tl taken) in
      let non' := merged (gens h) g_non (g_non N) (tl taken) in
      let gens1 := fun k =>
        if mem k (gcs h) then None
        else if k =? new h then Some (MkGen GC roots' non')
        else if mem k taken then Some (empty_gen GC)
        else gens h k in
      let '(gens2, n2, olds2) :=
        match rest with
        | [] => (upd gens1 (ngens h) (Some (empty_gen (OLD 0))),
                 S (ngens h), [ngens h])
        | _ :: _ => (gens1, ngens h, rest)
        end in
      Some (MkHeap (upd gens2 n2 (Some (empty_gen NEW))) (S n2)
                   (objs h) (nobjs h) olds2 (mark h) taken (save h)
                   n2 n2 free')
  | _, _, _ => None
  end.

(** Starting the next older generation, lib/type-heap.c:290-296. *)
Definition next_old (h : theap) : option theap :=
  match gens h (old h) with
  | None => None
  | Some Og =>
      if gen_is_empty Og then Some h
      else
        let i := match g_id Og with OLD n => OLD (S n) | j => j end in
        Some (MkHeap (upd (gens h) (ngens h) (Some (empty_gen i)))
                     (S (ngens h)) (objs h) (nobjs h) (ngens h :: olds h)
                     (mark h) (gcs h) (save h) (new h) (next h) (freel h))
  end.

(** The traversal part of IncrGc, lib/type-heap.c:272-360. *)
Definition gc_step (h : theap) : option (bool * theap) :=
  let ret (b : bool) (r : option theap) :=
    match r with None => None | Some h' => Some (b, h') end in
  match gens h (mark h) with
  | None => None
  | Some M =>
    match g_non M with
    | x :: _ => ret false (traverse h x false (old h) NonRoots)
    | [] =>
      match g_roots M with
      | x :: _ => ret false (traverse h x false (old h) Roots)
      | [] =>
        match next_old h with
        | None => None
        | Some h1 =>
          match gens h1 (gc h1), gens h1 (save h1) with
          | Some G, Some V =>
            match g_roots G with
            | x :: _ => ret false (traverse_root h1 x)
            | [] =>
              match g_roots V with
              | x :: _ => ret false (traverse_root h1 x)
              | [] =>
                match g_non V with
                | x :: _ => ret false (traverse h1 x true (new h1) NonRoots)
                | [] => ret true (end_cycle h1)
                end
              end
            end
          | _, _ => None
          end
        end
      end
    end
  end.

(** IncrGc, lib/type-heap.c:236-360: free up to two objects, then traverse
    one.  [true] when this completed a cycle. *)
Definition incr_gc (h : theap) : option (bool * theap) :=
  match free_one h with
  | None => None
  | Some h1 => match free_one h1 with
               | None => None
               | Some h2 => gc_step h2
               end
  end.

(** FbleNewTypeHeap, lib/type-heap.c:362-379. *)
Definition new_heap : theap :=
  MkHeap (fun k => match k with
                   | 0 => Some (empty_gen (OLD 0))
                   | 1 => Some (empty_gen MARK)
                   | 2 => Some (empty_gen GC)
                   | 3 => Some (empty_gen SAVE)
                   | 4 => Some (empty_gen NEW)
                   | _ => None
                   end)
         5 (fun _ => None) 0 [0] 1 [2] 3 4 4 [].

(** FbleAllocType, lib/type-heap.c:404-418.  The new object has no references
    yet. *)
Definition alloc (h : theap) : option (nat * theap) :=
  match incr_gc h with
  | None => None
  | Some (_, h1) =>
      match gens h1 (new h1) with
      | None => None
      | Some N =>
          let o := nobjs h1 in
          Some (o, MkHeap (upd (gens h1) (new h1)
                            (Some (MkGen (g_id N) (o :: g_roots N) (g_non N))))
                          (ngens h1)
                          (upd (objs h1) o (Some (MkObj (new h1) 1 [])))
                          (S (nobjs h1)) (olds h1) (mark h1) (gcs h1) (save h1)
                          (new h1) (next h1) (freel h1))
      end
  end.

(** [obj->gen], made canonical if it is one of the [gc] generations,
    lib/type-heap.c:430-434 and 453-457. *)
Definition canonical (h : theap) (g : nat) : option nat :=
  match gens h g with
  | None => None
  | Some G => Some (if gid_eqb (g_id G) GC then gc h else g)
  end.

(** FbleRetainType, lib/type-heap.c:420-440; [None] as argument is NULL. *)
Definition retain (h : theap) (t : option nat) : option theap :=
  match t with
  | None => Some h
  | Some o =>
      match objs h o with
      | None => None
      | Some b =>
          if o_rc b =? 0 then
            match canonical h (o_gen b) with
            | None => None
            | Some g =>
                move_to (set_objs h (upd (objs h) o
                           (Some (MkObj g (S (o_rc b)) (o_refs b)))))
                        false g Roots o
            end
          else Some (set_objs h (upd (objs h) o
                       (Some (MkObj (o_gen b) (S (o_rc b)) (o_refs b)))))
      end
  end.

(** FbleReleaseType, lib/type-heap.c:442-468; the assertion that the count is
    positive is undefined behaviour when it fails. *)
Definition release (h : theap) (t : option nat) : option theap :=
  match t with
  | None => Some h
  | Some o =>
      match objs h o with
      | None => None
      | Some b =>
          match o_rc b with
          | 0 => None
          | 1 =>
              match canonical h (o_gen b) with
              | None => None
              | Some g =>
                  match gens h g, gens h (next h), gens h (old h) with
                  | Some G, Some N, Some Og =>
                      let h1 :=
                        if (gid_ltb (g_id G) (g_id N) && gid_leb (g_id G) (g_id Og)
                            && match g_roots G with r :: _ => r =? o | [] => false end)%bool
                        then set_next h g else h in
                      move_to (set_objs h1 (upd (objs h1) o
                                 (Some (MkObj g 0 (o_refs b)))))
                              false g NonRoots o
                  | _, _, _ => None
                  end
              end
          | S n => Some (set_objs h (upd (objs h) o
                           (Some (MkObj (o_gen b) n (o_refs b)))))
          end
      end
  end.

(** Storing a reference to [dst] in a field of [src] and telling the heap so,
    as every client does: for example lib/type.c:957-972 (FbleAssignVarType)
    and lib/type.c:985-994.  No heap operation comes between the store and
    the FbleTypeAddRef. *)
Definition store (h : theap) (src dst : nat) : option theap :=
  match objs h src with
  | None => None
  | Some s =>
      add_ref (set_objs h (upd (objs h) src
                 (Some (MkObj (o_gen s) (o_rc s) (o_refs s ++ [dst])))))
              src dst
  end.

(** [while (!IncrGc(heap));], lib/type-heap.c:535 and 543.  The fuel bounds
    the number of iterations; running out of it is [None]. *)
Fixpoint run_cycle (fuel : nat) (h : theap) : option theap :=
  match fuel with
  | 0 => None
  | S f => match incr_gc h with
           | None => None
           | Some (true, h') => Some h'
           | Some (false, h') => run_cycle f h'
           end
  end.

(** [while (heap->free.next != &heap->free)], lib/type-heap.c:547-553. *)
Fixpoint free_all (fuel : nat) (h : theap) : option theap :=
  match freel h with
  | [] => Some h
  | _ :: _ => match fuel with
              | 0 => None
              | S f => match free_one h with
                       | None => None
                       | Some h' => free_all f h'
                       end
              end
  end.

(** The [do ... while (!done)] of FullGc, lib/type-heap.c:541-554. *)
Fixpoint gc_rounds (fuel : nat) (h : theap) : option theap :=
  match fuel with
  | 0 => None
  | S f =>
      match run_cycle fuel h with
      | None => None
      | Some h1 =>
          let done := match freel h1 with [] => true | _ :: _ => false end in
          match free_all fuel h1 with
          | None => None
          | Some h2 => if done then Some h2 else gc_rounds f h2
          end
      end
  end.

(** FullGc, lib/type-heap.c:532-555. *)
Definition full_gc (fuel : nat) (h : theap) : option theap :=
  match run_cycle fuel h with
  | None => None
  | Some h1 => gc_rounds fuel h1
  end.

(** FbleFree of a list of generations. *)
Fixpoint free_gens (gs : nat -> option gen) (l : list nat)
  : option (nat -> option gen) :=
  match l with
  | [] => Some gs
  | g :: r => match gs g with
              | None => None
              | Some _ => free_gens (upd gs g None) r
              end
  end.

(** FbleFreeTypeHeap, lib/type-heap.c:381-402: a full collection, then every
    generation is freed.  What is left of [gens] and [objs] is leaked. *)
Definition free_heap (fuel : nat) (h : theap) : option theap :=
  match full_gc fuel h with
  | None => None
  | Some h1 =>
      match free_gens (gens h1) (olds h1 ++ [mark h1] ++ gcs h1 ++ [save h1; new h1]) with
      | None => None
      | Some gs => Some (set_gens h1 gs)
      end
  end.
