(** * lib/link.c: from compiled modules to a program. *)
From Coq Require Import List Arith Bool.
From Verif Require Import PathModel LoadModel FuncModel CodeModel.
Import ListNotations.

(** What the linker reads of an FbleCompiledModule (include/fble/fble-compile.h:33-39): its
    path, the paths of its dependencies and its code; and what FbleAddBlocksToProfile
    returns for its profile blocks. *)
Record cmodule := mk_cmodule { c_path : path; c_deps : list path; c_code : code; c_block : nat }.

(** lib/link.c:82-88: the loop over v for one dependency [d]: the index of the first of
    the modules [ms] (number [v] and on) that has this path. *)
Fixpoint find_module (d : path) (ms : list cmodule) (v : nat) : option nat :=
  match ms with
  | [] => None
  | m :: r => if path_eqb d (c_path m) then Some v else find_module d r (S v)
  end.

(** lib/link.c:81-89: the arguments; dependencies that are not found add none. *)
Fixpoint link_args (deps : list path) (before : list cmodule) : list var :=
  match deps with
  | [] => []
  | d :: r =>
    match find_module d before 0 with
    | Some v => Local v :: link_args r before
    | None => link_args r before
    end
  end.

(** lib/link.c:68-94: the loop over the modules; [before] are those before.  [None]: the
    assertion in line 90 fails. *)
Fixpoint link_calls (before ms : list cmodule) : option (list (list prof_op * instr)) :=
  match ms with
  | [] => Some []
  | m :: r =>
    let args := link_args (c_deps m) before in
    if length args =? length (c_deps m) then
      match link_calls (before ++ [m]) r with
      | Some l => Some (([], ICall (Static (length before)) args (length before)) :: l)
      | None => None
      end
    else None
  end.

(** lib/link.c:57-99: the code of the program. *)
Definition link_code (main_id : nat) (ms : list cmodule) : option code :=
  match link_calls [] ms with
  | Some l => Some (Code 0 (length ms) (length ms) main_id (l ++ [([], IReturn (Local (length ms - 1)))]))
  | None => None
  end.

(** lib/link.c:72: the function of a module (it has no statics). *)
Definition module_func (m : cmodule) : cval := VFunc (code_num_args (c_code m)) (c_code m) (c_block m) [].

(** lib/link.c:40-105 LinkInterpreted after FbleCompileProgram.  The profile block of the
    program is 0 here, not the block <main> that was added for it (line 102). *)
Definition link_interpreted (main_id : nat) (ms : list cmodule) : option cval :=
  match link_code main_id ms with
  | Some c => Some (VFunc 0 c 0 (map module_func ms))
  | None => None
  end.

(** include/fble/fble-generate.h:47-52 FbleGeneratedModule: static data, so the modules it
    refers to form a finite tree.  The executable is that of the code it was generated from
    (generated C and its linking: GenModel). *)
Inductive gmodule := GModule (p : path) (deps : list gmodule) (c : code) (block : nat).
Definition g_path (g : gmodule) := let 'GModule p _ _ _ := g in p.
Definition g_deps (g : gmodule) := let 'GModule _ d _ _ := g in d.
Definition g_module (g : gmodule) : cmodule := let 'GModule p d c b := g in mk_cmodule p (map g_path d) c b.

(** lib/link.c:118-133 LoadGenerated. *)
Fixpoint load_generated (loaded : list gmodule) (g : gmodule) : list gmodule :=
  if existsb (fun m => path_eqb (g_path m) (g_path g)) loaded then loaded
  else
    (match g with
     | GModule _ deps _ _ =>
       (fix deps_loop (loaded : list gmodule) (deps : list gmodule) : list gmodule :=
          match deps with
          | [] => loaded
          | d :: r => deps_loop (load_generated loaded d) r
          end) loaded deps
     end) ++ [g].

(** lib/link.c:150-219 LinkGenerated; [None]: an assertion fails.  (That the blocks are
    added to the profile in the order of the list is left out: they are given.) *)
Definition link_generated (main_id : nat) (g : gmodule) : option cval :=
  let gs := load_generated [] g in
  if forallb (fun g => (code_num_statics (c_code (g_module g)) =? 0) && (length (g_deps g) =? code_num_args (c_code (g_module g)))) gs then
    match link_code main_id (map g_module gs) with
    | Some c => Some (VFunc 0 c main_id (map (fun g => module_func (g_module g)) gs))
    | None => None
    end
  else None.
