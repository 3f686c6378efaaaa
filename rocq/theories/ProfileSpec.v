(** * What a profile should record, said without the profiler's data structures
    (C23-C25). *)
From Coq Require Import ZArith List Bool Lia.
From Verif Require Import ProfileModel.
Import ListNotations.
Local Open Scope list_scope.

(** The calls in progress, the innermost first.  Each has the block that is now running in
    it and the (caller, callee) steps it is made of: the call that entered it and the tail
    calls that replaced the block since. *)
Definition stack := list (nat * list (nat * nat)).

(** A new thread is in the root block. *)
Definition start : stack := [(0, [])].

Definition current (st : stack) : nat := match st with (b, _) :: _ => b | [] => 0 end.

Definition after (st : stack) (o : op) : stack :=
  match o, st with
  | Enter b, (a, _) :: _ => (b, [(a, b)]) :: st
  | Replace b, (a, es) :: r => (b, (a, b) :: es) :: r
  | Exit, _ :: r => r
  | _, _ => st
  end.

Definition eqp (e f : nat * nat) : bool := Nat.eqb (fst e) (fst f) && Nat.eqb (snd e) (snd f).

(** Is a step from a to b part of a call in progress? *)
Definition calling (st : stack) (a b : nat) : bool :=
  existsb (fun f => existsb (eqp (a, b)) (snd f)) st.

(** Was b called as part of a call in progress? *)
Definition called (st : stack) (b : nat) : bool :=
  existsb (fun f => existsb (fun e => Nat.eqb (snd e) b) (snd f)) st.

(** The sum of f over a history that starts with the calls st in progress. *)
Fixpoint total (f : stack -> op -> Z) (st : stack) (os : list op) : Z :=
  match os with
  | [] => 0%Z
  | o :: r => (f st o + total f (after st o) r)%Z
  end.

Definition if_ (c : bool) (t : Z) : Z := if c then t else 0%Z.

(** Time is charged as self time to the block that is running. *)
Definition self_time (b : nat) (st : stack) (o : op) : Z :=
  match o with Sample t => if_ (Nat.eqb (current st) b) t | _ => 0%Z end.
(** Time is charged once to every block called in the calls in progress, however often,
    and to the root block. *)
Definition block_time (b : nat) (st : stack) (o : op) : Z :=
  match o with Sample t => if_ (called st b || Nat.eqb b 0) t | _ => 0%Z end.
(** Time is charged once to every (caller, callee) pair in the calls in progress. *)
Definition call_time (a b : nat) (st : stack) (o : op) : Z :=
  match o with Sample t => if_ (calling st a b) t | _ => 0%Z end.
(** Every call and every tail call is counted. *)
Definition block_count (b : nat) (st : stack) (o : op) : Z :=
  match o with Enter c | Replace c => if_ (Nat.eqb b c) 1 | _ => 0%Z end.
Definition call_count (a b : nat) (st : stack) (o : op) : Z :=
  match o with
  | Enter c | Replace c => if_ (Nat.eqb a (current st) && Nat.eqb b c) 1
  | _ => 0%Z
  end.

(** The histories a program may have: it uses blocks the profile has (n, to begin with), and
    leaves only calls it entered (depth of them). *)
Fixpoint allowed (n depth : nat) (os : list op) : bool :=
  match os with
  | [] => true
  | AddBlock _ :: r => allowed (S n) depth r
  | Enter b :: r => Nat.ltb b n && allowed n (S depth) r
  | Replace b :: r => Nat.ltb b n && allowed n depth r
  | Exit :: r => match depth with O => false | S d => allowed n d r end
  | Sample _ :: r => allowed n depth r
  end.

(** What a profile says. *)
Definition self_of (p : profile) (b : nat) : Z :=
  match nth_error (blocks p) b with Some x => bp_self x | None => 0 end.
Definition time_of (p : profile) (b : nat) : Z :=
  match nth_error (blocks p) b with Some x => bp_time x | None => 0 end.
Definition count_of (p : profile) (b : nat) : Z :=
  match nth_error (blocks p) b with Some x => bp_count x | None => 0 end.

(** The records of the calls a block made. *)
Definition records (p : profile) (a : nat) : list calldata :=
  match nth_error (blocks p) a with
  | Some x => flat_map (fun i => match nth_error (cds p) i with Some d => [d] | None => [] end) (bp_callees x)
  | None => []
  end.
Definition call_of (p : profile) (a b : nat) : option calldata :=
  find (fun d => Nat.eqb (cd_id d) b) (records p a).
Definition call_count_of (p : profile) (a b : nat) : Z :=
  match call_of p a b with Some d => cd_count d | None => 0 end.
Definition call_time_of (p : profile) (a b : nat) : Z :=
  match call_of p a b with Some d => cd_time d | None => 0 end.

(** The number of blocks of a profile. *)
Definition size (p : profile) : nat := length (blocks p).
