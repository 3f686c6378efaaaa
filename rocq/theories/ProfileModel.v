(** * lib/profile.c: the profiler. *)
From Coq Require Import ZArith List Bool Lia.
Import ListNotations.
Local Open Scope list_scope.

(** Reading memory that was not allocated or not written, or following NULL, is [None]. *)
Definition bind {A B} (x : option A) (f : A -> option B) : option B :=
  match x with Some a => f a | None => None end.
Notation "x <- a ;; b" := (bind a (fun x => b)) (at level 61, a at next level, right associativity).

(** Writing to an array element; the write is outside the array if i is not less than
    the length, which every user of [upd] checks by reading the element first. *)
Fixpoint upd {A} (l : list A) (i : nat) (x : A) : list A :=
  match l, i with
  | [], _ => []
  | _ :: r, O => x :: r
  | y :: r, S k => y :: upd r k x
  end.

(** uint64_t arithmetic. *)
Definition w64 (x : Z) : Z := (x mod 2 ^ 64)%Z.

(** include/fble/fble-profile.h:44-48 FbleCallData. *)
Record calldata := CD { cd_id : nat; cd_count : Z; cd_time : Z }.

(** include/fble/fble-profile.h:72-77 FbleBlockProfile.  The embedded [block] has the
    index of the block as its id (profile.c:544); only count and time are kept.  callees
    holds the addresses of call data.  Names are kept as numbers, not as text. *)
Record blockp := BP { bp_name : nat; bp_self : Z; bp_count : Z; bp_time : Z; bp_callees : list nat }.

(** include/fble/fble-profile.h:96-99 FbleProfile, and the call data allocated so far:
    the address of a call data is its index. *)
Record profile := PR { blocks : list blockp; cds : list calldata; enabled : bool }.

(** lib/profile.c:91-94 Call; a field that has not been written is [None]. *)
Record entry := Entry { e_id : option nat; e_exit : option nat }.

(** lib/profile.c:107-113 CallStack: top and end are indexes into data. *)
Record chunk := CK { ck_top : nat; ck_end : nat; ck_data : list entry }.

(** lib/profile.c:153-157 CallDataEV: xs has room for capacity addresses, the first size
    of which are the list. *)
Record ev := EV { ev_capacity : nat; ev_xs : list nat }.

(** lib/profile.c:177-184 FbleProfileThread.  The doubly linked list of chunks is a list,
    bottom first, [cur] is the index of the chunk thread->calls points to, and its next is
    NULL if it is the last one.  [lost] counts chunks that are no longer reachable but were
    not freed.  [samples] is sample.xs up to sample.size: (caller, address of call data).
    The length of [sset] is sample_set_size. *)
Record thread := TH {
  chunks : list chunk; cur : nat; lost : nat;
  samples : list (nat * nat); sample_capacity : nat;
  sset : list ev; ttrs : Z }.

Definition with_chunks (th : thread) (l : list chunk) (c lo : nat) : thread :=
  TH l c lo (samples th) (sample_capacity th) (sset th) (ttrs th).
Definition with_samples (th : thread) (l : list (nat * nat)) (c : nat) : thread :=
  TH (chunks th) (cur th) (lost th) l c (sset th) (ttrs th).
Definition with_sset (th : thread) (s : list ev) : thread :=
  TH (chunks th) (cur th) (lost th) (samples th) (sample_capacity th) s (ttrs th).
Definition with_ttrs (th : thread) (t : Z) : thread :=
  TH (chunks th) (cur th) (lost th) (samples th) (sample_capacity th) (sset th) t.

Definition uninit : entry := Entry None None.

(** lib/profile.c:218-233 CallStackPush. *)
Definition push (th : thread) : option thread :=
  c <- nth_error (chunks th) (cur th) ;;
  let l := upd (chunks th) (cur th) (CK (S (ck_top c)) (ck_end c) (ck_data c)) in
  if Nat.eqb (S (ck_top c)) (ck_end c) then
    let l := if Nat.ltb (S (cur th)) (length l) then l
             else l ++ [CK 0 (2 * ck_end c) (repeat uninit (2 * ck_end c))] in
    Some (with_chunks th l (S (cur th)) (lost th))
  else Some (with_chunks th l (cur th) (lost th)).

(** lib/profile.c:243-253 CallStackPop.  Freeing calls->next loses whatever comes after
    it. *)
Definition pop (th : thread) : option thread :=
  c <- nth_error (chunks th) (cur th) ;;
  th <- (if Nat.eqb (ck_top c) 0 then
           let l := firstn (S (cur th)) (chunks th) in
           let lo := lost th + (length (chunks th) - S (S (cur th))) in
           match cur th with
           | O => None
           | S k => Some (with_chunks th l k lo)
           end
         else Some th) ;;
  c <- nth_error (chunks th) (cur th) ;;
  match ck_top c with
  | O => None
  | S k => Some (with_chunks th (upd (chunks th) (cur th) (CK k (ck_end c) (ck_data c))) (cur th) (lost th))
  end.

(** *thread->calls->top. *)
Definition top_entry (th : thread) : option entry :=
  c <- nth_error (chunks th) (cur th) ;; nth_error (ck_data c) (ck_top c).
Definition set_top (th : thread) (e : entry) : option thread :=
  c <- nth_error (chunks th) (cur th) ;;
  _ <- nth_error (ck_data c) (ck_top c) ;;
  Some (with_chunks th (upd (chunks th) (cur th) (CK (ck_top c) (ck_end c) (upd (ck_data c) (ck_top c) e)))
          (cur th) (lost th)).

(** lib/profile.c:278-291: the binary search of GetCallData.  [inl]: the address found,
    [inr]: lo. *)
Fixpoint bsearch (fuel : nat) (p : profile) (xs : list nat) (callee lo hi : nat) : option (nat + nat) :=
  match fuel with
  | O => None
  | S k =>
    if Nat.ltb lo hi then
      let mid := Nat.div2 (lo + hi) in
      x <- nth_error xs mid ;;
      d <- nth_error (cds p) x ;;
      if Nat.ltb (cd_id d) callee then bsearch k p xs callee (S mid) hi
      else if Nat.eqb (cd_id d) callee then Some (inl x)
      else bsearch k p xs callee lo mid
    else Some (inr lo)
  end.

(** lib/profile.c:299-306: the loop that makes room (n more elements to go, at i): the array
    and the last value of data. *)
Fixpoint shift (n : nat) (xs : list nat) (i : nat) (data : nat) : option (list nat * nat) :=
  match n with
  | O => Some (xs, data)
  | S k => tmp <- nth_error xs i ;; shift k (upd xs i data) (S i) tmp
  end.

Definition with_callees (b : blockp) (l : list nat) : blockp :=
  BP (bp_name b) (bp_self b) (bp_count b) (bp_time b) l.

(** lib/profile.c:272-310 GetCallData. *)
Definition get_call_data (p : profile) (caller callee : nat) : option (profile * nat) :=
  b <- nth_error (blocks p) caller ;;
  let xs := bp_callees b in
  r <- bsearch (S (length xs)) p xs callee 0 (length xs) ;;
  match r with
  | inl x => Some (p, x)
  | inr lo =>
    let x := length (cds p) in
    r <- shift (length xs - lo) xs lo x ;;
    let (xs, data) := r : list nat * nat in
    Some (PR (upd (blocks p) caller (with_callees b (xs ++ [data])))
             (cds p ++ [CD callee 0 0]) (enabled p), x)
  end.

(** lib/profile.c:472-481: the search of sample_set[caller]. *)
Fixpoint find_call (p : profile) (xs : list nat) (callee : nat) : option (option nat) :=
  match xs with
  | [] => Some None
  | x :: r =>
    d <- nth_error (cds p) x ;;
    if Nat.eqb (cd_id d) callee then Some (Some x) else find_call p r callee
  end.

Definition inc_block (p : profile) (i : nat) : option profile :=
  b <- nth_error (blocks p) i ;;
  Some (PR (upd (blocks p) i (BP (bp_name b) (bp_self b) (w64 (bp_count b + 1)) (bp_time b) (bp_callees b)))
           (cds p) (enabled p)).
Definition inc_call (p : profile) (x : nat) : option profile :=
  d <- nth_error (cds p) x ;;
  Some (PR (blocks p) (upd (cds p) x (CD (cd_id d) (w64 (cd_count d + 1)) (cd_time d))) (enabled p)).

(** lib/profile.c:460-470: sample_set is made as long as the blocks of the profile if it has
    no element for the caller. *)
Definition resize (p : profile) (th : thread) (caller : nat) : thread :=
  if Nat.leb (length (sset th)) caller then
    with_sset th (firstn (length (blocks p)) (sset th) ++
                  repeat (EV 0 []) (length (blocks p) - length (sset th)))
  else th.

(** lib/profile.c:497-505: a sample is appended to the sample stack. *)
Definition push_sample (th : thread) (caller x : nat) : option thread :=
  let cap := if Nat.eqb (length (samples th)) (sample_capacity th)
             then sample_capacity th * 2 else sample_capacity th in
  if Nat.ltb (length (samples th)) cap
  then Some (with_samples th (samples th ++ [(caller, x)]) cap) else None.

(** lib/profile.c:507-515: and to sample_set. *)
Definition push_ev (v : ev) (x : nat) : option ev :=
  let v := if Nat.eqb (ev_capacity v) 0 then EV 1 []
           else if Nat.eqb (length (ev_xs v)) (ev_capacity v) then EV (ev_capacity v * 2) (ev_xs v) else v in
  if Nat.ltb (length (ev_xs v)) (ev_capacity v) then Some (EV (ev_capacity v) (ev_xs v ++ [x])) else None.

(** lib/profile.c:453-517 EnterBlock. *)
Definition enter_block (p : profile) (th : thread) (block : nat) (replace : bool) : option (profile * thread) :=
  call <- top_entry th ;;
  caller <- e_id call ;;
  let callee := block in
  p <- inc_block p callee ;;
  let th := resize p th caller in
  callees <- nth_error (sset th) caller ;;
  found <- find_call p (ev_xs callees) callee ;;
  got <- (match found with
          | Some x => Some (p, x, true)
          | None => r <- get_call_data p caller callee ;; Some (fst r, snd r, false)
          end) ;;
  let '(p, data, call_running) := got : profile * nat * bool in
  p <- inc_call p data ;;
  th <- (if replace then Some th else
         th <- push th ;;
         call <- top_entry th ;;
         set_top th (Entry (e_id call) (Some 0))) ;;
  call <- top_entry th ;;
  th <- set_top th (Entry (Some callee) (e_exit call)) ;;
  if call_running then Some (p, th)
  else
    th <- push_sample th caller data ;;
    call <- top_entry th ;;
    exit <- e_exit call ;;
    th <- set_top th (Entry (e_id call) (Some (S exit))) ;;
    callees <- nth_error (sset th) caller ;;
    callees <- push_ev callees data ;;
    Some (p, with_sset th (upd (sset th) caller callees)).

(** lib/profile.c:538-550 FbleAddBlockToProfile. *)
Definition add_block (p : profile) (name : nat) : profile * nat :=
  (PR (blocks p ++ [BP name 0 0 0 []]) (cds p) (enabled p), length (blocks p)).

(** lib/profile.c:552-559 FbleAddBlocksToProfile. *)
Definition add_blocks (p : profile) (names : list nat) : profile * nat :=
  (fold_left (fun p n => fst (add_block p n)) names p, length (blocks p)).

(** lib/profile.c:520-535 FbleNewProfile; the name of the root block is 0. *)
Definition new_profile (en : bool) : profile := fst (add_block (PR [] [] en) 0).

(** lib/profile.c:578-607 FbleNewProfileThread; r is the value of rand(). *)
Definition new_thread (p : profile) (r : Z) : option (profile * option thread) :=
  if enabled p then
    let th := TH [CK 0 8 (upd (repeat uninit 8) 0 (Entry (Some 0) (Some 0)))] 0 0 [] 8
                 (repeat (EV 0 []) (length (blocks p))) (r mod 2048)%Z in
    p <- inc_block p 0 ;;
    Some (p, Some th)
  else Some (p, None).

(** lib/profile.c:610-634 FbleFreeProfileThread: how many chunks it frees. *)
Definition free_thread (th : option thread) : nat :=
  match th with
  | None => 0
  | Some th => if Nat.ltb (S (cur th)) (length (chunks th)) then S (S (cur th)) else S (cur th)
  end.

Definition charge_self (p : profile) (i : nat) (t : Z) : option profile :=
  b <- nth_error (blocks p) i ;;
  Some (PR (upd (blocks p) i (BP (bp_name b) (w64 (bp_self b + t)) (bp_count b) (bp_time b) (bp_callees b)))
           (cds p) (enabled p)).
Definition charge_block (p : profile) (i : nat) (t : Z) : option profile :=
  b <- nth_error (blocks p) i ;;
  Some (PR (upd (blocks p) i (BP (bp_name b) (bp_self b) (bp_count b) (w64 (bp_time b + t)) (bp_callees b)))
           (cds p) (enabled p)).
Definition charge_call (p : profile) (x : nat) (t : Z) : option profile :=
  d <- nth_error (cds p) x ;;
  Some (PR (blocks p) (upd (cds p) x (CD (cd_id d) (cd_count d) (w64 (cd_time d + t)))) (enabled p)).

(** lib/profile.c:645-657: the loop of FbleProfileSample; [seen] is block_seen. *)
Fixpoint charge_samples (ss : list (nat * nat)) (seen : list bool) (p : profile) (t : Z) : option profile :=
  match ss with
  | [] => Some p
  | (_, x) :: r =>
    d <- nth_error (cds p) x ;;
    let callee := cd_id d in
    s <- nth_error seen callee ;;
    ps <- (if s : bool then Some (p, seen)
           else p <- charge_block p callee t ;; Some (p, upd seen callee true)) ;;
    let (p, seen) := ps : profile * list bool in
    p <- charge_call p x t ;;
    charge_samples r seen p t
  end.

(** lib/profile.c:637-660 FbleProfileSample (thread not NULL). *)
Definition sample (p : profile) (th : thread) (t : Z) : option profile :=
  call <- top_entry th ;;
  id <- e_id call ;;
  p <- charge_self p id t ;;
  p <- charge_samples (samples th) (repeat false (length (blocks p))) p t ;;
  charge_block p 0 t.

(** int32_t arithmetic: converting to int32_t wraps around (implementation-defined, gcc). *)
Definition i32 (x : Z) : Z := ((x + 2 ^ 31) mod 2 ^ 32 - 2 ^ 31)%Z.

(** lib/profile.c:670-673: the loop of FbleProfileRandomSample; [rs] are the values rand()
    will return, None: they ran out. *)
Fixpoint random_loop (p : profile) (th : thread) (tt : Z) (rs : list Z) : option (profile * thread * list Z) :=
  if (tt <=? 0)%Z then
    match rs with
    | [] => None
    | r :: rs =>
      p <- sample p th 1 ;;
      random_loop p th (i32 (tt + r mod 2048)) rs
    end
  else Some (p, with_ttrs th tt, rs).

(** lib/profile.c:663-674 FbleProfileRandomSample (thread not NULL): ttrs -= count is done
    in size_t. *)
Definition random_sample (p : profile) (th : thread) (count : Z) (rs : list Z) : option (profile * thread * list Z) :=
  random_loop p th (i32 (w64 (ttrs th - count))) rs.

(** lib/profile.c:702-707: the loop of FbleProfileExitBlock. *)
Fixpoint exit_loop (fuel : nat) (th : thread) : option thread :=
  call <- top_entry th ;;
  exit <- e_exit call ;;
  match exit with
  | O => Some th
  | S e =>
    match fuel with
    | O => None
    | S fuel =>
      th <- set_top th (Entry (e_id call) (Some e)) ;;
      match length (samples th) with
      | O => None
      | S n =>
        s <- nth_error (samples th) n ;;
        let th := with_samples th (firstn n (samples th)) (sample_capacity th) in
        v <- nth_error (sset th) (fst s) ;;
        match length (ev_xs v) with
        | O => None
        | S m => exit_loop fuel (with_sset th (upd (sset th) (fst s) (EV (ev_capacity v) (firstn m (ev_xs v)))))
        end
      end
    end
  end.

(** lib/profile.c:695-710 FbleProfileExitBlock (thread not NULL); the loop ends after as
    many rounds as there are samples, or the stack is empty. *)
Definition exit_block (th : thread) : option thread :=
  th <- exit_loop (length (samples th)) th ;; pop th.

(** A history: what the rest of the system does with a profile while a thread runs. *)
Inductive op := AddBlock (name : nat) | Enter (b : nat) | Replace (b : nat) | Exit | Sample (t : Z).

(** lib/profile.c:637-710: the public operations, which do nothing if the thread is
    NULL. *)
Definition step (p : profile) (th : option thread) (o : op) : option (profile * option thread) :=
  match o, th with
  | AddBlock n, _ => Some (fst (add_block p n), th)
  | _, None => Some (p, None)
  | Enter b, Some th => r <- enter_block p th b false ;; Some (fst r, Some (snd r))
  | Replace b, Some th => r <- enter_block p th b true ;; Some (fst r, Some (snd r))
  | Exit, Some th => th <- exit_block th ;; Some (p, Some th)
  | Sample t, Some th => p <- sample p th t ;; Some (p, Some th)
  end.
Fixpoint run (p : profile) (th : option thread) (os : list op) : option (profile * option thread) :=
  match os with
  | [] => Some (p, th)
  | o :: r => q <- step p th o ;; run (fst q) (snd q) r
  end.

(** The order of two call data: lib/profile.c:360-372. *)
Inductive order := ASCENDING | DESCENDING.
Definition first_ok (o : order) (a b : calldata) : bool :=
  match o with ASCENDING => (cd_time a <=? cd_time b)%Z | DESCENDING => (cd_time b <=? cd_time a)%Z end.

(** lib/profile.c:351-381: the merge; d receives what s1 and s2 hold. *)
Fixpoint merge (o : order) (s1 : list calldata) : list calldata -> list calldata :=
  match s1 with
  | [] => fun s2 => s2
  | x :: r1 =>
    fix go (s2 : list calldata) : list calldata :=
      match s2 with
      | [] => s1
      | y :: r2 => if first_ok o x y then x :: merge o r1 s2 else y :: go r2
      end
  end.

(** lib/profile.c:330-382 MergeSortCallData on arrays a and b of the same size (the call data
    the pointers point to are not changed by sorting, so pointers are their call data): the
    contents of a and b afterwards. *)
Fixpoint merge_sort (fuel : nat) (o : order) (in_place : bool) (a b : list calldata) : option (list calldata * list calldata) :=
  match fuel with
  | O => None
  | S fuel =>
    match a with
    | [] => Some (a, b)
    | [x] => if in_place then Some (a, b) else Some (a, [x])
    | _ =>
      let size1 := Nat.div2 (length a) in
      r1 <- merge_sort fuel o (negb in_place) (firstn size1 a) (firstn size1 b) ;;
      r2 <- merge_sort fuel o (negb in_place) (skipn size1 a) (skipn size1 b) ;;
      let (a1, b1) := r1 : list calldata * list calldata in
      let (a2, b2) := r2 : list calldata * list calldata in
      if in_place then Some (merge o b1 b2, b1 ++ b2)
      else Some (a1 ++ a2, merge o a1 a2)
    end
  end.

(** lib/profile.c:393-397 SortCallData; scratch is whatever is on the C stack. *)
Definition sort (o : order) (data scratch : list calldata) : option (list calldata) :=
  r <- merge_sort (S (length data)) o true data scratch ;; Some (fst r).

(** A line of the report: PrintCallData, profile.c:425-438: whether it is the highlighted
    one, count, time, self for the highlighted one, block. *)
Record line := Line { l_block : bool; l_count : Z; l_time : Z; l_self : option Z; l_id : nat }.
Definition print_call (p : profile) (block : bool) (c : calldata) : option line :=
  b <- nth_error (blocks p) (cd_id c) ;;
  Some (Line block (cd_count c) (cd_time c) (if block then Some (bp_self b) else None) (cd_id c)).
Fixpoint print_calls (p : profile) (block : bool) (l : list calldata) : option (list line) :=
  match l with
  | [] => Some []
  | c :: r => x <- print_call p block c ;; y <- print_calls p block r ;; Some (x :: y)
  end.

(** The callees of a block as call data. *)
Fixpoint load (p : profile) (xs : list nat) : option (list calldata) :=
  match xs with
  | [] => Some []
  | x :: r => d <- nth_error (cds p) x ;; l <- load p r ;; Some (d :: l)
  end.

(** lib/profile.c:739-745: the callees of block i are added to the callers of the blocks
    they call. *)
Fixpoint add_callers (i : nat) (l : list calldata) (callers : list (list calldata)) : option (list (list calldata)) :=
  match l with
  | [] => Some callers
  | c :: r =>
    v <- nth_error callers (cd_id c) ;;
    add_callers i r (upd callers (cd_id c) (v ++ [CD i (cd_count c) (cd_time c)]))
  end.

(** What the loop of profile.c:731-755 has computed: calls, selfs, covered, total and
    callers. *)
Record totals := Totals {
  t_calls : list calldata; t_selfs : list calldata; t_covered : nat; t_total : Z;
  t_callers : list (list calldata) }.
Fixpoint collect (p : profile) (i : nat) (bs : list blockp) (t : totals) : option totals :=
  match bs with
  | [] => Some t
  | b :: r =>
    l <- load p (bp_callees b) ;;
    callers <- add_callers i l (t_callers t) ;;
    collect p (S i) r
      (Totals (t_calls t ++ [CD i (bp_count b) (bp_time b)])
              (t_selfs t ++ [CD i 0 (bp_self b)])
              (if (0 <? bp_count b)%Z then S (t_covered t) else t_covered t)
              (w64 (t_total t + bp_self b)) callers)
  end.

(** An entry of the call graph: profile.c:792-817; none for a block that was not
    executed. *)
Definition graph_entry (p : profile) (callers : list (list calldata)) (c : calldata) : option (list line) :=
  let id := cd_id c in
  block <- nth_error (blocks p) id ;;
  if (0 <? bp_count block)%Z then
    v <- nth_error callers id ;;
    v <- sort ASCENDING v v ;;
    above <- print_calls p false v ;;
    here <- print_call p true c ;;
    callees <- load p (bp_callees block) ;;
    callees <- sort DESCENDING callees callees ;;
    below <- print_calls p false callees ;;
    Some (above ++ here :: below)
  else Some [].
Fixpoint graph (p : profile) (callers : list (list calldata)) (l : list calldata) : option (list (list line)) :=
  match l with
  | [] => Some []
  | c :: r => x <- graph_entry p callers c ;; y <- graph p callers r ;; Some (x :: y)
  end.

(** lib/profile.c:713-833 FbleGenerateProfileReport for an enabled profile.  The report is
    the numbers and blocks it prints, not the text: the blocks executed and the number of
    blocks, the flat profile by overall time, the flat profile by self time (self time and
    block; percentages, which are of [r_total], are left out), the call graph and the names
    of the blocks.  The scratch arrays are taken to hold the array itself, which makes no
    difference: [merge_sort] is proved not to depend on what they hold. *)
Record report := Report {
  r_covered : nat; r_blocks : nat; r_total : Z; r_flat : list line; r_self : list (Z * nat);
  r_graph : list (list line); r_locations : list nat }.
Definition generate_report (p : profile) : option report :=
  t <- collect p 0 (blocks p) (Totals [] [] 0 0 (repeat [] (length (blocks p)))) ;;
  calls <- sort DESCENDING (t_calls t) (t_calls t) ;;
  selfs <- sort DESCENDING (t_selfs t) (t_selfs t) ;;
  flat <- print_calls p true calls ;;
  g <- graph p (t_callers t) calls ;;
  Some (Report (t_covered t) (length (blocks p)) (t_total t) flat
          (map (fun c => (cd_time c, cd_id c)) selfs) g (map bp_name (blocks p))).
