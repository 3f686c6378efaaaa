(** * fbld/markup.c and fbld/eval.c: documents in memory and their evaluation. *)
From Coq Require Import ZArith String Ascii List Arith Bool.
Import ListNotations.
Local Open Scope list_scope.
Notation length := List.length.

(** Characters without NUL. *)
Definition text := list Z.
Definition txt (s : string) : text := map (fun a => Z.of_nat (nat_of_ascii a)) (list_ascii_of_string s).
Definition text_eqb (a b : text) : bool := if list_eq_dec Z.eq_dec a b then true else false.

(** ** Memory *)

(** fbld/fbld.h:99-115 FbldMarkupTag, FbldMarkup.  The FbldText of a markup belongs to it alone
    and is part of the node here; locations are left out.  Markups and environments are
    numbered in the order they are allocated, numbers are not used again; [None] is NULL. *)
Inductive tag := TPlain | TCommand | TSequence.
Record node := mk_node { n_tag : tag; n_text : text; n_kids : list (option nat); n_rc : nat }.

(** fbld/eval.c:26-32 Env; [e_args] is [None] for args.xs = NULL. *)
Record enode := mk_env { e_rc : nat; e_name : text; e_args : option (list text); e_body : option nat; e_next : option nat }.

Record heap := mk_heap { mh : nat -> option node; nm : nat; eh : nat -> option enode; ne : nat }.

Definition upd {A} (f : nat -> option A) (a : nat) (x : option A) : nat -> option A := fun b => if b =? a then x else f b.
Definition set_node (h : heap) (a : nat) (x : option node) : heap := mk_heap (upd (mh h) a x) (nm h) (eh h) (ne h).
Definition set_env (h : heap) (a : nat) (x : option enode) : heap := mk_heap (mh h) (nm h) (upd (eh h) a x) (ne h).
Definition new_node (h : heap) (x : node) : heap * nat := (mk_heap (upd (mh h) (nm h) (Some x)) (S (nm h)) (eh h) (ne h), nm h).
Definition new_env (h : heap) (x : enode) : heap * nat := (mk_heap (mh h) (nm h) (upd (eh h) (ne h) (Some x)) (S (ne h)), ne h).

(** How an operation can end early: an access to memory that is not allocated (any more), the
    use of a NULL pointer, a failed assertion, a write past the end of a buffer, or not before
    the given number of steps. *)
Inductive stop := Dangling | NullDeref | AssertFail | Overflow | Timeout.
Inductive out (A : Type) := Ok (a : A) | Stop (w : stop).
Arguments Ok {A}. Arguments Stop {A}.
Definition bind {A B} (x : out A) (k : A -> out B) : out B := match x with Ok a => k a | Stop w => Stop w end.
Notation "'do' p <- x ; k" := (bind x (fun p => k)) (at level 200, p pattern, x at level 100, k at level 200).

Definition node_at (h : heap) (a : nat) : out node := match mh h a with Some n => Ok n | None => Stop Dangling end.
Definition env_at (h : heap) (e : nat) : out enode := match eh h e with Some n => Ok n | None => Stop Dangling end.
(** [p->...] *)
Definition deref (h : heap) (p : option nat) : out node := match p with None => Stop NullDeref | Some a => node_at h a end.

Definition with_rc (n : node) (r : nat) : node := mk_node (n_tag n) (n_text n) (n_kids n) r.
Definition with_erc (n : enode) (r : nat) : enode := mk_env r (e_name n) (e_args n) (e_body n) (e_next n).

(** fbld/markup.c:98-106 FbldCopyMarkup. *)
Definition copy (h : heap) (p : option nat) : out heap :=
  match p with
  | None => Ok h
  | Some a => do n <- node_at h a; Ok (set_node h a (Some (with_rc n (S (n_rc n)))))
  end.

(** fbld/markup.c:75-95 FbldFreeMarkup, for the markups [ws] one after the other; the children
    of a markup whose count becomes 0 are the next ones.  (The code frees the node after its
    children.) *)
Fixpoint free_list (f : nat) (h : heap) (ws : list (option nat)) : out heap :=
  match f with
  | O => Stop Timeout
  | S f' =>
    match ws with
    | [] => Ok h
    | None :: r => free_list f' h r
    | Some a :: r =>
      do n <- node_at h a;
      match n_rc n with
      | O => Stop Dangling
      | S O => free_list f' (set_node h a None) (n_kids n ++ r)
      | S (S k) => free_list f' (set_node h a (Some (with_rc n (S k)))) r
      end
    end
  end.
Definition free (f : nat) (h : heap) (p : option nat) : out heap := free_list f h [p].

(** fbld/eval.c:206-212 CopyEnv. *)
Definition copy_env (h : heap) (p : option nat) : out heap :=
  match p with
  | None => Ok h
  | Some e => do n <- env_at h e; Ok (set_env h e (Some (with_erc n (S (e_rc n)))))
  end.
(** fbld/eval.c:221-239 FreeEnv (which frees the entry after its body). *)
Fixpoint free_env (f : nat) (h : heap) (p : option nat) : out heap :=
  match f with
  | O => Stop Timeout
  | S f' =>
    match p with
    | None => Ok h
    | Some e =>
      do n <- env_at h e;
      match e_rc n with
      | O => Stop Dangling
      | S O => do h1 <- free f' (set_env h e None) (e_body n); free_env f' h1 (e_next n)
      | S (S k) => Ok (set_env h e (Some (with_erc n (S k))))
      end
    end
  end.

(** fbld/markup.c:64-72 FbldNewPlainMarkup. *)
Definition new_plain (h : heap) (t : text) : heap * nat := new_node h (mk_node TPlain t [] 1).

(** ** Text *)

(** The text made so far, the bytes allocated for it and [capacity]. *)
Record buf := mk_buf { b_text : text; b_alloc : nat; b_cap : nat }.

(** fbld/markup.c:175-184: for the children one after the other, until one fails. *)
Definition text_each (go : option nat -> option buf -> out (option (option buf))) : list (option nat) -> option buf -> out (option (option buf)) :=
  fix each (ks : list (option nat)) (b : option buf) : out (option (option buf)) :=
    match ks with
    | [] => Ok (Some b)
    | k :: r =>
      do x <- go k b;
      match x with None => Ok None | Some b' => each r b' end
    end.
(** fbld/markup.c:139-190 TextOfMarkup; the result is [None] for false. *)
Fixpoint text_acc (f : nat) (h : heap) (p : option nat) (b : option buf) : out (option (option buf)) :=
  match f with
  | O => Stop Timeout
  | S f' =>
    match p with
    | None => Ok None
    | Some a =>
      do n <- node_at h a;
      match n_tag n with
      | TPlain =>
        let src := length (n_text n) in
        match b with
        | None => Ok (Some (Some (mk_buf (n_text n) (src + 1) 0)))
        | Some b =>
          let len := length (b_text b) in
          do b <- (if b_cap b <=? src then
                     let size := len + b_cap b in
                     let nsize := 2 * (len + src) in
                     if src <? nsize - size then Ok (mk_buf (b_text b) nsize (nsize - size)) else Stop AssertFail
                   else Ok b);
          if len + src + 1 <=? b_alloc b then Ok (Some (Some (mk_buf (b_text b ++ n_text n) (b_alloc b) (b_cap b - src))))
          else Stop Overflow
        end
      | TCommand => Ok None
      | TSequence =>
        text_each (text_acc f' h) (n_kids n) b
      end
    end
  end.
(** fbld/markup.c:193-208 FbldTextOfMarkup. *)
Definition text_of (f : nat) (h : heap) (p : option nat) : out (option text) :=
  do x <- text_acc f h p None;
  match x with
  | None => Ok None
  | Some None => Ok (Some [])
  | Some (Some b) => Ok (Some (b_text b))
  end.

(** fbld/eval.c:288-296. *)
Definition head_each (go : option nat -> out (option (option Z))) : list (option nat) -> out (option (option Z)) :=
  fix each (ks : list (option nat)) : out (option (option Z)) :=
    match ks with
    | [] => Ok (Some None)
    | k :: r =>
      do x <- go k;
      match x with Some None => each r | _ => Ok x end
    end.
(** fbld/eval.c:271-301 HeadOf: the result is [None] for false, [Some None] for NUL. *)
Fixpoint head_of (f : nat) (h : heap) (p : option nat) : out (option (option Z)) :=
  match f with
  | O => Stop Timeout
  | S f' =>
    match p with
    | None => Ok None
    | Some a =>
      do n <- node_at h a;
      match n_tag n with
      | TPlain => Ok (Some (hd_error (n_text n)))
      | TCommand => Ok None
      | TSequence =>
        head_each (head_of f' h) (n_kids n)
      end
    end
  end.

Definition copy_all (h : heap) (ps : list (option nat)) : out heap :=
  fold_left (fun x p => do h <- x; copy h p) ps (Ok h).

(** fbld/eval.c:340-369. *)
Definition tail_each (go : option nat -> out (heap * option (option nat))) (h : heap) : list (option nat) -> out (heap * option (option nat)) :=
  fix each (ks : list (option nat)) : out (heap * option (option nat)) :=
    match ks with
    | [] => Ok (h, Some None)
    | k :: r =>
      do x <- go k;
      match x with
      | (h', None) => Ok (h', None)
      | (_, Some None) => each r
      | (h', Some (Some c)) =>
        match r with
        | [] => Ok (h', Some (Some c))
        | _ =>
          do h2 <- copy_all h' r;
          let '(h3, a) := new_node h2 (mk_node TSequence [] (Some c :: r) 1) in Ok (h3, Some (Some a))
        end
      end
    end.
(** fbld/eval.c:321-374 TailOf: [None] for false. *)
Fixpoint tail_of (f : nat) (h : heap) (p : option nat) : out (heap * option (option nat)) :=
  match f with
  | O => Stop Timeout
  | S f' =>
    do n <- deref h p;
    match n_tag n with
    | TPlain =>
      match n_text n with
      | [] => Ok (h, Some None)
      | _ :: t => let '(h', a) := new_plain h t in Ok (h', Some (Some a))
      end
    | TCommand => Ok (h, None)
    | TSequence =>
      tail_each (tail_of f' h) h (n_kids n)
    end
  end.

(** fbld/eval.c:387-450 Eq, from the loop on; [None] for false. *)
Fixpoint eq_loop (f : nat) (h : heap) (a b : option nat) : out (heap * option bool) :=
  match f with
  | O => Stop Timeout
  | S f' =>
    let finish (h : heap) (r : option bool) := (do h1 <- free f' h a; do h2 <- free f' h1 b; Ok (h2, r)) in
    do ha <- head_of f' h a;
    match ha with
    | None => finish h None
    | Some ca =>
      do hb <- head_of f' h b;
      match hb with
      | None => finish h None
      | Some cb =>
        match ca, cb with
        | None, None => finish h (Some true)
        | Some x, Some y =>
          if (x =? y)%Z then
            do ta <- tail_of f' h a;
            match ta with
            | (h1, None) => finish h1 None
            | (h1, Some None) => Stop AssertFail
            | (h1, Some (Some na)) =>
              do tb <- tail_of f' h1 b;
              match tb with
              | (h2, None) => finish h2 None
              | (h2, Some None) => Stop AssertFail
              | (h2, Some (Some nb)) => do h3 <- free f' h2 a; do h4 <- free f' h3 b; eq_loop f' h4 (Some na) (Some nb)
              end
            end
          else finish h (Some false)
        | _, _ => finish h (Some false)
        end
      end
    end
  end.
Definition eq (f : nat) (h : heap) (a b : option nat) : out (heap * option bool) :=
  do h1 <- copy h a; do h2 <- copy h1 b; eq_loop f h2 a b.

(** fbld/eval.c:486-488. *)
Definition map_each (go : heap -> option nat -> out (heap * nat)) : list (option nat) -> heap -> out (heap * list (option nat)) :=
  fix each (ks : list (option nat)) (h : heap) : out (heap * list (option nat)) :=
    match ks with
    | [] => Ok (h, [])
    | k :: r => do (h1, a) <- go h k; do (h2, l) <- each r h1; Ok (h2, Some a :: l)
    end.
(** fbld/eval.c:461-496 MapPlain. *)
Fixpoint map_plain (f : nat) (g : text) (h : heap) (p : option nat) : out (heap * nat) :=
  match f with
  | O => Stop Timeout
  | S f' =>
    do n <- deref h p;
    match n_tag n with
    | TPlain => do h1 <- copy h p; Ok (new_node h1 (mk_node TCommand g [p] 1))
    | TCommand => match p with Some a => do h1 <- copy h p; Ok (h1, a) | None => Stop NullDeref end
    | TSequence =>
      do (h1, ks) <- map_each (map_plain f' g) (n_kids n) h;
      Ok (new_node h1 (mk_node TSequence [] ks 1))
    end
  end.

(** ** Commands *)

(** fbld/eval.c:35-185: the commands.  All their markups are in [c_marks], in the order of the
    C structs; [c_env] is NULL for ErrorCmd, HeadCmd and TailCmd.  Commands are numbered as
    they are allocated. *)
Inductive kind := KEval | KDefine | KLet | KIf | KError | KHead | KTail | KPlain.
(** Where a result goes: the variable of FbldEval, a field of a command, an element of a
    sequence or the body of an environment. *)
Inductive dest := DResult | DField (id i : nat) | DKid (a i : nat) | DBody (e : nat).
Record cmd := mk_cmd { c_id : nat; c_dest : dest; c_kind : kind; c_marks : list (option nat); c_env : option nat }.

Record st := mk_st { hp : heap; stack : list cmd; nc : nat; err : bool; res : option nat }.

Definition with_heap (s : st) (h : heap) : st := mk_st h (stack s) (nc s) (err s) (res s).
Definition with_stack (s : st) (k : list cmd) : st := mk_st (hp s) k (nc s) (err s) (res s).
Definition with_err (s : st) : st := mk_st (hp s) (stack s) (nc s) true (res s).

Fixpoint set_nth {A} (l : list A) (i : nat) (x : A) : option (list A) :=
  match l, i with
  | [], _ => None
  | _ :: r, O => Some (x :: r)
  | y :: r, S j => match set_nth r j x with Some r' => Some (y :: r') | None => None end
  end.
Fixpoint set_field (k : list cmd) (id i : nat) (p : option nat) : option (list cmd) :=
  match k with
  | [] => None
  | c :: r =>
    if c_id c =? id then
      match set_nth (c_marks c) i p with Some m => Some (mk_cmd (c_id c) (c_dest c) (c_kind c) m (c_env c) :: r) | None => None end
    else match set_field r id i p with Some r' => Some (c :: r') | None => None end
  end.

(** [*dest = p]. *)
Definition store (s : st) (d : dest) (p : option nat) : out st :=
  match d with
  | DResult => Ok (mk_st (hp s) (stack s) (nc s) (err s) p)
  | DField id i => match set_field (stack s) id i p with Some k => Ok (with_stack s k) | None => Stop Dangling end
  | DKid a i =>
    do n <- node_at (hp s) a;
    match set_nth (n_kids n) i p with
    | Some ks => Ok (with_heap s (set_node (hp s) a (Some (mk_node (n_tag n) (n_text n) ks (n_rc n)))))
    | None => Stop Dangling
    end
  | DBody e =>
    do n <- env_at (hp s) e;
    Ok (with_heap s (set_env (hp s) e (Some (mk_env (e_rc n) (e_name n) (e_args n) p (e_next n)))))
  end.

(** fbld/eval.c:251-260 PushEval. *)
Definition push (s : st) (d : dest) (k : kind) (marks : list (option nat)) (env : option nat) : st :=
  mk_st (hp s) (mk_cmd (nc s) d k marks env :: stack s) (S (nc s)) (err s) (res s).
Definition push_eval (s : st) (env m : option nat) (d : dest) : out st :=
  do h1 <- copy_env (hp s) env; do h2 <- copy h1 m; Ok (push (with_heap s h2) d KEval [m] env).

Definition free_m (f : nat) (s : st) (p : option nat) : out st := do h <- free f (hp s) p; Ok (with_heap s h).
Fixpoint free_ms (f : nat) (s : st) (ps : list (option nat)) : out st :=
  match ps with [] => Ok s | p :: r => do s1 <- free_m f s p; free_ms f s1 r end.
Definition free_e (f : nat) (s : st) (p : option nat) : out st := do h <- free_env f (hp s) p; Ok (with_heap s h).

(** fbld/eval.c:538-541: the first entry of that name. *)
Fixpoint find_env (f : nat) (h : heap) (p : option nat) (x : text) : out (option (nat * enode)) :=
  match f with
  | O => Stop Timeout
  | S f' =>
    match p with
    | None => Ok None
    | Some e => do n <- env_at h e; if text_eqb x (e_name n) then Ok (Some (e, n)) else find_env f' h (e_next n) x
    end
  end.

(** fbld/eval.c:564-576: the environment of the body of a function and its new entries. *)
Fixpoint env_chain (h : heap) (next : option nat) (params : list text) : heap * option nat * list nat :=
  match params with
  | [] => (h, next, [])
  | x :: r =>
    let '(h1, e) := new_env h (mk_env 1 x None None next) in
    let '(h2, last, es) := env_chain h1 (Some e) r in (h2, last, e :: es)
  end.

(** fbld/eval.c:594-852: the builtin commands other than \@eval: their number of arguments, the
    command to allocate, how many of the arguments are to be evaluated, which other ones it
    keeps, and whether it keeps the environment. *)
Record builtin := mk_builtin { b_args : nat; b_kind : kind; b_eval : nat; b_keep : list nat; b_env : bool }.
Definition builtins : list (text * builtin) :=
  [ (txt "error",  mk_builtin 1 KError  1 []     false)   (* 594-620 *)
  ; (txt "define", mk_builtin 4 KDefine 2 [2; 3] true)    (* 622-652 *)
  ; (txt "let",    mk_builtin 3 KLet    2 [2]    true)    (* 654-684 *)
  ; (txt "head",   mk_builtin 1 KHead   1 []     false)   (* 686-711 *)
  ; (txt "tail",   mk_builtin 1 KTail   1 []     false)   (* 713-738 *)
  ; (txt "ifeq",   mk_builtin 4 KIf     2 [2; 3] true)    (* 740-770 *)
  ; (txt "ifneq",  mk_builtin 4 KIf     2 [3; 2] true)    (* 772-802 *)
  ; (txt "plain",  mk_builtin 2 KPlain  2 []     true) ]. (* 822-852 *)
Definition find_builtin (x : text) : option builtin :=
  match find (fun p => text_eqb x (fst p)) builtins with Some (_, b) => Some b | None => None end.

(** Commands to evaluate the [args] into the [ds]: the last one comes first. *)
Fixpoint push_evals (s : st) (env : option nat) (ds : list dest) (args : list (option nat)) : out st :=
  match ds, args with
  | d :: ds', m :: r => do s1 <- push_eval s env m d; push_evals s1 env ds' r
  | _, _ => Ok s
  end.

Definition pick (l : list (option nat)) (is : list nat) : list (option nat) := map (fun i => nth i l None) is.

(** fbld/eval.c:510-888: the EVAL_CMD [c], which has been popped, and of which [m] is the
    markup.  A command that the code changes and leaves on the stack, to evaluate the body of a
    function or the result of an evaluation, is a new one here, and a call allocates all its
    environment entries first. *)
Definition step_eval (f : nat) (s : st) (c : cmd) (m : option nat) : out st :=
  match m with
  | None => if err s then free_e f s (c_env c) else Stop AssertFail
  | Some a =>
    do n <- node_at (hp s) a;
    let fail (s : st) := (do s1 <- free_e f (with_err s) (c_env c); free_m f s1 m) in
    match n_tag n with
    | TPlain => do s1 <- store s (c_dest c) m; free_e f s1 (c_env c)
    | TSequence =>
      let '(h, q) := new_node (hp s) (mk_node TSequence [] (map (fun _ => None) (n_kids n)) 1) in
      do s1 <- store (with_heap s h) (c_dest c) (Some q);
      do s2 <- push_evals s1 (c_env c) (map (DKid q) (seq 0 (length (n_kids n)))) (n_kids n);
      do s3 <- free_m f s2 m; free_e f s3 (c_env c)
    | TCommand =>
      do found <- find_env f (hp s) (c_env c) (n_text n);
      match found with
      | Some (e, en) =>
        if negb (length (n_kids n) =? match e_args en with Some l => length l | None => 0 end) then fail s
        else
          match e_args en with
          | None =>
            do h <- copy (hp s) (e_body en);
            do s1 <- store (with_heap s h) (c_dest c) (e_body en);
            do s2 <- free_e f s1 (c_env c); free_m f s2 m
          | Some params =>
            do h <- copy_env (hp s) (Some e);
            let '(h1, next, es) := env_chain h (Some e) params in
            do s2 <- push_evals (push (with_heap s h1) (c_dest c) KEval [None] next) (c_env c) (map DBody es) (n_kids n);
            do s3 <- free_e f s2 (c_env c);
            do s4 <- free_m f s3 m;
            do en' <- env_at (hp s4) e;
            do h5 <- copy (hp s4) (e_body en');
            store (with_heap s4 h5) (DField (nc s) 0) (e_body en')
          end
      | None =>
        match find_builtin (n_text n) with
        | Some b =>
          if length (n_kids n) =? b_args b then
            let keep := pick (n_kids n) (b_keep b) in
            let env := if b_env b then c_env c else None in
            do h <- copy_all (hp s) keep;
            do h1 <- copy_env h env;
            let s1 := push (with_heap s h1) (c_dest c) (b_kind b) (repeat None (b_eval b) ++ keep) env in
            do s2 <- push_evals s1 (c_env c) (map (DField (nc s)) (seq 0 (b_eval b))) (firstn (b_eval b) (n_kids n));
            do s3 <- free_e f s2 (c_env c); free_m f s3 m
          else fail s
        | None =>
          if text_eqb (n_text n) (txt "eval") then   (* 804-820 *)
            match n_kids n with
            | [k] =>
              do s1 <- push_eval (push s (c_dest c) KEval [None] (c_env c)) (c_env c) k (DField (nc s) 0);
              free_m f s1 m
            | _ => fail s
            end
          else do s1 <- store s (c_dest c) m; free_e f s1 (c_env c)
        end
      end
    end
  end.

(** ctype's isspace; of a char less than 0 its result is not defined: false is taken here. *)
Definition is_space (c : Z) : bool := ((c =? 32) || ((9 <=? c) && (c <=? 13)))%Z.
(** fbld/eval.c:926-950: the parameters; [w] is the word read so far. *)
Fixpoint split_args (t w : text) : list text :=
  match t with
  | [] => match w with [] => [] | _ => [w] end
  | c :: r => if is_space c then match w with [] => split_args r [] | _ => w :: split_args r [] end else split_args r (w ++ [c])
  end.

(** fbld/eval.c:509-1114: one command. *)
Definition step (f : nat) (s : st) : out st :=
  match stack s with
  | [] => Ok s
  | c :: rest =>
    let s := with_stack s rest in
    let fail := (do s1 <- free_ms f (with_err s) (c_marks c); free_e f s1 (c_env c)) in
    match c_kind c, c_marks c with
    | KEval, [m] => step_eval f s c m
    | KDefine, [name; args; def; body] =>   (* 890-959 *)
      do x <- text_of f (hp s) name;
      match x with
      | None => fail
      | Some nm =>
        do s1 <- free_m f s name;
        do y <- text_of f (hp s1) args;
        match y with
        | None => do s2 <- free_ms f (with_err s1) [args; def; body]; free_e f s2 (c_env c)
        | Some t =>
          do s2 <- free_m f s1 args;
          let '(h, e) := new_env (hp s2) (mk_env 1 nm (Some (split_args t [])) def (c_env c)) in
          do s3 <- push_eval (with_heap s2 h) (Some e) body (c_dest c);
          do s4 <- free_e f s3 (Some e); free_m f s4 body
        end
      end
    | KLet, [name; def; body] =>   (* 961-990 *)
      do x <- text_of f (hp s) name;
      match x with
      | None => fail
      | Some nm =>
        do s1 <- free_m f s name;
        let '(h, e) := new_env (hp s1) (mk_env 1 nm None def (c_env c)) in
        do s2 <- push_eval (with_heap s1 h) (Some e) body (c_dest c);
        do s3 <- free_e f s2 (Some e); free_m f s3 body
      end
    | KIf, [a; b; if_eq; if_ne] =>   (* 992-1014 *)
      do (h, r) <- eq f (hp s) a b;
      do s1 <- match r with
               | Some e => push_eval (with_heap s h) (c_env c) (if e then if_eq else if_ne) (c_dest c)
               | None => Ok (with_err (with_heap s h))
               end;
      do s2 <- free_ms f s1 (c_marks c); free_e f s2 (c_env c)
    | KError, [msg] =>   (* 1016-1035 *)
      do x <- text_of f (hp s) msg; free_m f (with_err s) msg
    | KHead, [a] =>   (* 1037-1062 *)
      do x <- head_of f (hp s) a;
      match x with
      | None => free_m f (with_err s) a
      | Some None => store s (c_dest c) a
      | Some (Some ch) =>
        let '(h, q) := new_plain (hp s) [ch] in
        do s1 <- store (with_heap s h) (c_dest c) (Some q); free_m f s1 a
      end
    | KTail, [a] =>   (* 1064-1089 *)
      do (h, x) <- tail_of f (hp s) a;
      match x with
      | None => do s1 <- store (with_err (with_heap s h)) (c_dest c) None; free_m f s1 a
      | Some None => store (with_heap s h) (c_dest c) a
      | Some (Some q) => do s1 <- store (with_heap s h) (c_dest c) (Some q); free_m f s1 a
      end
    | KPlain, [g; body] =>   (* 1091-1113 *)
      do x <- text_of f (hp s) g;
      match x with
      | None => fail
      | Some t =>
        do (h, q) <- map_plain f t (hp s) body;
        do s1 <- free_ms f (with_heap s h) [g; body];
        do s2 <- push_eval s1 (c_env c) (Some q) (c_dest c);
        do s3 <- free_m f s2 (Some q); free_e f s3 (c_env c)
      end
    | _, _ => Stop Dangling
    end
  end.

(** The loop, [n] times at most. *)
Fixpoint run (f n : nat) (s : st) : out st :=
  match stack s with
  | [] => Ok s
  | _ => match n with O => Stop Timeout | S n' => do s1 <- step f s; run f n' s1 end
  end.

(** fbld/eval.c:1121-1130 FbldEval: the heap afterwards, and the result. *)
Definition start (h : heap) (m : option nat) : out st := push_eval (mk_st h [] 0 false None) None m DResult.
Definition fbld_eval (f n : nat) (h : heap) (m : option nat) : out (heap * option nat) :=
  do s0 <- start h m;
  do s <- run f n s0;
  if err s then do h1 <- free f (hp s) (res s); Ok (h1, None) else Ok (hp s, res s).
