(** * lib/arg-parse.c and the command lines of the programs that use it. *)
From Coq Require Import ZArith List Bool Ascii String.
From Verif Require Import PathModel.
Import ListNotations.
Local Open Scope list_scope.

(** Text of the source as a C string. *)
Fixpoint text (s : string) : str :=
  match s with
  | EmptyString => []
  | String c r => Z.of_nat (nat_of_ascii c) :: text r
  end.

(** strcmp(a, b) == 0. *)
Definition same (a b : str) : bool := (strcmp a b =? 0)%Z.

(** The remaining arguments are a list: argc is its length, argv points to its first
    element (that the two agree is the contract of main).  [None]: argv[0] is read though
    there is no argument.  What is printed is left out. *)

(** lib/arg-parse.c:14-25 FbleParseBoolArg: the result, dest and the arguments (error is
    not touched). *)
Definition parse_bool (name : str) (dest : bool) (argv : list str) : option (bool * bool * list str) :=
  match argv with
  | [] => None
  | a :: r => if same name a then Some (true, true, r) else Some (false, dest, argv)
  end.

(** lib/arg-parse.c:28-48 FbleParseStringArg: the result, dest, the arguments and error. *)
Definition parse_string (name : str) (dest : option str) (argv : list str) (error : bool) : option (bool * option str * list str * bool) :=
  match argv with
  | [] => None
  | a :: r =>
    if same name a then
      match r with
      | [] => Some (true, dest, argv, true)
      | v :: r' =>
        match dest with
        | Some _ => Some (true, dest, argv, true)
        | None => Some (true, Some v, r', error)
        end
      end
    else Some (false, dest, argv, error)
  end.

Section module_arg.
  (** FbleFindPackage (LoadModel.find_package) and FbleParseModulePath
      (PathModel.parse_module_path; [None]: it returns NULL). *)
  Variable find_package : str -> option str.
  Variable parse_path : str -> option path.

  (** include/fble/fble-arg-parse.h FbleModuleArg. *)
  Record module_arg := mk_ma { ma_search : list str; ma_module : option path }.

  (** lib/arg-parse.c:87-92: [argv[0][0] == '-' && argv[0][1] == 'I']; the text after
      that. *)
  Definition after_I (a : str) : option str :=
    match a with
    | c :: d :: r => if (c =? 45)%Z && (d =? 73)%Z then Some r else None
    | _ => None
    end.

  (** lib/arg-parse.c:94-107, for the name [name]; [None] inside: not this option. *)
  Definition parse_package (name : str) (dest : module_arg) (argv : list str) (error : bool) : option (bool * module_arg * list str * bool) :=
    match parse_string name None argv error with
    | None => None
    | Some (false, _, argv', error') => Some (false, dest, argv', error')
    | Some (true, p, argv', error') =>
      if error' then Some (true, dest, argv', error')
      else match p with
           | None => None
           | Some p =>
             match find_package p with
             | Some d => Some (true, mk_ma (ma_search dest ++ [d]) (ma_module dest), argv', error')
             | None => Some (true, dest, argv', true)
             end
           end
    end.

  (** lib/arg-parse.c:109-126, for the name [name]. *)
  Definition parse_module (name : str) (dest : module_arg) (argv : list str) (error : bool) : option (bool * module_arg * list str * bool) :=
    match parse_string name None argv error with
    | None => None
    | Some (false, _, argv', error') => Some (false, dest, argv', error')
    | Some (true, m, argv', error') =>
      if error' then Some (true, dest, argv', error')
      else match ma_module dest with
           | Some _ => Some (true, dest, argv', true)
           | None =>
             match m with
             | None => None
             | Some m =>
               match parse_path m with
               | Some p => Some (true, mk_ma (ma_search dest) (Some p), argv', error')
               | None => Some (true, dest, argv', true)
               end
             end
           end
    end.

  (** [a || b] where both may update the state. *)
  Definition or_else (r : option (bool * module_arg * list str * bool)) (k : module_arg -> list str -> bool -> option (bool * module_arg * list str * bool)) :=
    match r with
    | Some (false, d, a, e) => k d a e
    | _ => r
    end.

  (** lib/arg-parse.c:73-130 FbleParseModuleArg. *)
  Definition parse_module_arg (dest : module_arg) (argv : list str) (error : bool) : option (bool * module_arg * list str * bool) :=
    match argv with
    | [] => None
    | a :: r =>
      if same (text "-I") a then
        match r with
        | [] => Some (true, dest, argv, true)
        | d :: r' => Some (true, mk_ma (ma_search dest ++ [d]) (ma_module dest), r', error)
        end
      else
        match after_I a with
        | Some d => Some (true, mk_ma (ma_search dest ++ [d]) (ma_module dest), r, error)
        | None =>
          or_else (parse_package (text "--package") dest argv error) (fun dest argv error =>
          or_else (parse_package (text "-p") dest argv error) (fun dest argv error =>
          or_else (parse_module (text "--module") dest argv error) (fun dest argv error =>
          or_else (parse_module (text "-m") dest argv error) (fun dest argv error =>
          Some (false, dest, argv, error)))))
        end
    end.

  (** ** The loops of the programs *)

  (** What the loop of a program has read: the flags that are set, the strings of the string
      options, the module argument. *)
  Record state := mk_state { s_argv : list str; s_flags : list nat; s_strings : list (nat * str); s_module : module_arg; s_error : bool; s_end : bool }.

  (** One line of the loop: the variable of a flag or a string is a number.  EAppend is
      bin/fble-perf-profile.c:156-165 (the NULL it appends in case of error is left out). *)
  Inductive entry :=
  | EBool (name : str) (id : nat)
  | EString (name : str) (id : nat)
  | EAppend (name : str) (id : nat)
  | EModule
  | EInvalid
  | EEnd.                             (** pkgs/core/stdio.fble.c:429-433 *)

  Definition lookup (id : nat) (l : list (nat * str)) : option str :=
    match find (fun e => fst e =? id) l with Some e => Some (snd e) | None => None end.

  (** [if (...) continue;]: the flag tells whether it continues. *)
  Definition do_entry (e : entry) (s : state) : option (bool * state) :=
    match e with
    | EBool name id =>
      match parse_bool name (existsb (Nat.eqb id) (s_flags s)) (s_argv s) with
      | Some (r, d, a) => Some (r, mk_state a (if r then id :: s_flags s else s_flags s) (s_strings s) (s_module s) (s_error s) (s_end s))
      | None => None
      end
    | EString name id =>
      match parse_string name (lookup id (s_strings s)) (s_argv s) (s_error s) with
      | Some (r, d, a, err) =>
        Some (r, mk_state a (s_flags s) (match lookup id (s_strings s), d with None, Some v => (id, v) :: s_strings s | _, _ => s_strings s end) (s_module s) err (s_end s))
      | None => None
      end
    | EAppend name id =>
      match parse_string name None (s_argv s) (s_error s) with
      | Some (r, d, a, err) =>
        Some (r, mk_state a (s_flags s) (match d with Some v => (id, v) :: s_strings s | None => s_strings s end) (s_module s) err (s_end s))
      | None => None
      end
    | EModule =>
      match parse_module_arg (s_module s) (s_argv s) (s_error s) with
      | Some (r, m, a, err) => Some (r, mk_state a (s_flags s) (s_strings s) m err (s_end s))
      | None => None
      end
    | EInvalid =>  (** lib/arg-parse.c:133-140 FbleParseInvalidArg *)
      match s_argv s with
      | [] => None
      | _ => Some (true, mk_state (s_argv s) (s_flags s) (s_strings s) (s_module s) true (s_end s))
      end
    | EEnd =>
      match s_argv s with
      | [] => None
      | a :: r => Some (true, mk_state (if same a (text "--") then r else s_argv s) (s_flags s) (s_strings s) (s_module s) (s_error s) true)
      end
    end.

  (** The body of the loop. *)
  Fixpoint body (es : list entry) (s : state) : option state :=
    match es with
    | [] => Some s
    | e :: r =>
      match do_entry e s with
      | None => None
      | Some (true, s') => Some s'
      | Some (false, s') => body r s'
      end
    end.

  (** Flags 0 and 1 are help and version. *)
  Definition stop_flag (s : state) : bool := existsb (fun i => i <? 2) (s_flags s).

  (** [while (!(help || error || version) && !end_of_options && argc > 0)]; outer [None]:
      not ended after [n] iterations; inner [None]: a read out of bounds. *)
  Fixpoint run (n : nat) (es : list entry) (s : state) : option (option state) :=
    if stop_flag s || s_error s || s_end s || match s_argv s with [] => true | _ => false end then Some (Some s)
    else
      match n with
      | O => None
      | S k =>
        match body es s with
        | None => Some None
        | Some s' => run k es s'
        end
      end.

  Definition start (argv : list str) : state := mk_state argv [] [] (mk_ma [] None) false false.

  Definition help_version : list entry :=
    [EBool (text "-h") 0; EBool (text "--help") 0; EBool (text "-v") 1; EBool (text "--version") 1].

  (** bin/fble-compile.c:51-65 *)
  Definition compile_options : list entry :=
    help_version ++ [EModule; EString (text "-t") 0; EString (text "--target") 0; EBool (text "-c") 2; EBool (text "--compile") 2;
     EString (text "-e") 1; EString (text "--export") 1; EString (text "--main") 2; EInvalid].
  (** bin/fble-deps.c:45-54 *)
  Definition deps_options : list entry :=
    help_version ++ [EModule; EString (text "-t") 0; EString (text "--target") 0; EInvalid].
  (** bin/fble-disassemble.c:41-48 *)
  Definition disassemble_options : list entry := help_version ++ [EModule; EInvalid].
  (** bin/fble-perf-profile.c:153-168 *)
  Definition perf_options : list entry :=
    [EBool (text "-h") 0; EBool (text "--help") 0; EAppend (text "-s") 0; EAppend (text "--squash") 0; EBool (text "-v") 1; EBool (text "--version") 1].
  (** pkgs/core/stdio.fble.c:421-434; [compiled]: the program has a compiled module. *)
  Definition stdio_options (compiled : bool) : list entry :=
    help_version ++ (if compiled then [] else [EModule]) ++ [EString (text "--profile") 0; EEnd].
  (** pkgs/app/app.c:453-468 *)
  Definition app_options (compiled : bool) : list entry :=
    help_version ++ [EBool (text "--fps") 2] ++ (if compiled then [] else [EModule]) ++ [EString (text "--profile") 0; EString (text "--driver") 1; EEnd].

  (** pkgs/core/stdio.fble.c:407-417: options are read only if the module is not compiled or
      the command line has a "--" ([argv] has the name of the program first). *)
  Definition start_compiled (compiled : bool) (argv : list str) : state :=
    mk_state (tl argv) [] [] (mk_ma [] None) false (compiled && negb (existsb (fun a => same a (text "--")) argv)).
End module_arg.
