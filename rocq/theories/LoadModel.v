(** * lib/load.c: finding and loading modules. *)
From Coq Require Import ZArith List Bool.
From Verif Require Import PathModel.
Import ListNotations.
Local Open Scope Z_scope.

Definition slash : Z := 47.
Definition dot_fble : str := [46; 102; 98; 108; 101].

(** lib/load.c:163-175: the length of the array for the file name. *)
Definition filename_len (root : str) (p : path) : nat :=
  fold_left (fun len n => (len + (1 + length (n_str n)))%nat) p (length root + length dot_fble + 1)%nat.

(** lib/load.c:178-186: the text written to it. *)
Definition filename (root : str) (p : path) : str :=
  root ++ flat_map (fun n => slash :: n_str n) p ++ dot_fble.

(** FbleModulePathsEqual, which never reads out of bounds
    (PathProps.module_paths_equal_exact). *)
Definition path_eqb (a b : path) : bool :=
  match paths_equal a b with Some r => r | None => false end.

(** The file system: [access f] if access(f, F_OK) is 0; [parse_file f] is FbleParse on
    file f: whether it returns an expression, and the paths it appends to deps.  Files do
    not change while a program is loaded. *)
Section load.
  Variable access : str -> bool.
  Variable parse_file : str -> bool * list path.

  (** lib/load.c:160-202 FindAt. *)
  Definition find_at (root : str) (p : path) : option str :=
    if existsb (fun n => existsb (Z.eqb slash) (n_str n)) p then None
    else if access (filename root p) then Some (filename root p) else None.

  (** lib/load.c:226-240 Find. *)
  Fixpoint find (search_path : list str) (p : path) : option str :=
    match search_path with
    | [] => None
    | root :: r =>
      match find_at root p with
      | Some f => Some f
      | None => find r p
      end
    end.

  (** FbleLoadedModule (include/fble/fble-load.h:38-43); [m_value] tells whether the value
      expression is not NULL. *)
  Record module := mk_module { m_path : path; m_deps : list path; m_value : bool }.

  (** lib/load.c:43-47 Stack. *)
  Record entry := mk_entry { e_module : module; deps_loaded : nat }.

  (** The locals of FbleLoad; [stack] has its top first. *)
  Record lstate := mk_l { stack : list entry; modules : list module; error : bool; build_deps : list str }.

  Variable search_path : list str.

  (** lib/load.c:323-344 and 261-278: the stack entry for a module and the error and build
      dependencies after looking for it. *)
  Definition enter (p : path) (s : lstate) : lstate :=
    match find search_path p with
    | Some f =>
      let '(ok, deps) := parse_file f in
      mk_l (mk_entry (mk_module p deps ok) (if ok then 0 else length deps)%nat :: stack s)
        (modules s) (if ok then error s else true) (build_deps s ++ [f])
    | None =>
      mk_l (mk_entry (mk_module p [] false) 0%nat :: stack s) (modules s) true (build_deps s)
    end.

  (** lib/load.c:280-345: one iteration of the loop; [None] if the stack is empty or the
      deps vector is read out of bounds. *)
  Definition step (s : lstate) : option lstate :=
    match stack s with
    | [] => None
    | e :: tail =>
      if Nat.eqb (deps_loaded e) (length (m_deps (e_module e))) then
        Some (mk_l tail (modules s ++ [e_module e]) (error s) (build_deps s))
      else
        match nth_error (m_deps (e_module e)) (deps_loaded e) with
        | None => None
        | Some ref =>
          if existsb (fun m => path_eqb ref (m_path m)) (modules s) then
            Some (mk_l (mk_entry (e_module e) (S (deps_loaded e)) :: tail) (modules s) (error s) (build_deps s))
          else if existsb (fun x => path_eqb ref (m_path (e_module x))) (e :: tail) then
            Some (mk_l (mk_entry (e_module e) (length (m_deps (e_module e))) :: tail) (modules s) true (build_deps s))
          else Some (enter ref s)
        end
    end.

  (** The results of a load: NULL or the modules, and the build dependencies. *)
  Inductive result := Running (s : lstate) | Done (r : option (list module)) (files : list str) | Crash.

  Fixpoint run (fuel : nat) (s : lstate) : result :=
    match stack s with
    | [] => Done (if error s then None else Some (modules s)) (build_deps s)
    | _ =>
      match fuel with
      | O => Running s
      | S f => match step s with Some s' => run f s' | None => Crash end
      end
    end.

  (** lib/load.c:243-352 FbleLoad, with at most [fuel] iterations. *)
  Definition load (fuel : nat) (main : path) : result :=
    match find search_path main with
    | None => Done None []
    | Some _ => run fuel (enter main (mk_l [] [] false []))
    end.
End load.

(** ** Packages *)
Section package.
  Variable access : str -> bool.
  Variable package : str.

  (** lib/load.c:95-108 FindPackageAt (the array holds strlen(dir) + strlen(package) + 2
      bytes). *)
  Definition find_package_at (dir : str) : option str :=
    let f := dir ++ [slash] ++ package in if access f then Some f else None.

  Definition colon : Z := 58.

  (** lib/load.c:116-134: the loop over FBLE_PACKAGE_PATH; [dir] is the reversed text from
      s to the current position, [rest] the text from there to the end. *)
  Fixpoint find_in_package_path (dir rest : str) : option str :=
    match rest with
    | [] => find_package_at (rev dir)
    | c :: r =>
      if (c =? colon)%Z then
        match find_package_at (rev dir) with
        | Some f => Some f
        | None => match r with [] => None | _ => find_in_package_path [] r end
        end
      else find_in_package_path (c :: dir) r
    end.

  (** lib/load.c:111-138 FbleFindPackage; [env] is getenv("FBLE_PACKAGE_PATH"), [default]
      is FbleDefaultPackagePath. *)
  Definition find_package (env : option str) (default : str) : option str :=
    match env with
    | None => find_package_at default
    | Some p =>
      match find_in_package_path [] p with
      | Some f => Some f
      | None => find_package_at default
      end
    end.
End package.
