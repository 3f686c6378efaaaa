(** * Model of the C side of the core package: int, char and string conversions. *)
From Coq Require Import ZArith List Bool.
From Verif Require Import PackModel.
Import ListNotations.
Local Open Scope Z_scope.

(** int64_t arithmetic: [None] is signed overflow (undefined behaviour). *)
Definition int64 (z : Z) : option Z :=
  if (- 2^63 <=? z) && (z <? 2^63) then Some z else None.

(** pkgs/core/int.fble.c:27-36 MakeIntP.  [fuel] bounds the recursion (an int64_t
    can be halved at most 63 times); [assert(x > 0)] failing is [None]. *)
Fixpoint make_intp (ub : Z -> Z -> Z) (fuel : nat) (m : mem) (x : Z) : option (Z * mem) :=
  match fuel with
  | O => None
  | S f =>
    if negb (0 <? x) then None
    else if x =? 1 then
      match new_enum ub m 0 with
      | None => None
      | Some b => Some (b_val b, b_mem b)
      end
    else
      match make_intp ub f m (Z.quot x 2) with
      | None => None
      | Some (p, m1) =>
        match new_union ub m1 (Z.to_nat (1 + Z.rem x 2)) p with
        | None => None
        | Some b => Some (b_val b, b_mem b)
        end
      end
  end.

(** pkgs/core/int.fble.c:49-57 ReadIntP; 2*r and 2*r+1 in int64_t. *)
Fixpoint read_intp (ub : Z -> Z -> Z) (fuel : nat) (m : mem) (x : Z) : option Z :=
  match fuel with
  | O => None
  | S f =>
    match union_tag m x with
    | Some (Some 0%nat) => Some 1
    | Some (Some 1%nat) =>
      match union_arg ub m x with
      | None => None
      | Some a => match read_intp ub f m a with Some r => int64 (2 * r) | None => None end
      end
    | Some (Some 2%nat) =>
      match union_arg ub m x with
      | None => None
      | Some a =>
        match read_intp ub f m a with
        | Some r => match int64 (2 * r) with Some r2 => int64 (r2 + 1) | None => None end
        | None => None
        end
      end
    | _ => None
    end
  end.

Definition int_fuel : nat := 64.

(** pkgs/core/int.fble.c:60-74 FbleNewIntValue. *)
Definition new_int (ub : Z -> Z -> Z) (m : mem) (x : Z) : option (Z * mem) :=
  if x <? 0 then
    match int64 (- x) with
    | None => None
    | Some nx =>
      match make_intp ub int_fuel m nx with
      | None => None
      | Some (p, m1) =>
        match new_union ub m1 0 p with
        | None => None
        | Some b => Some (b_val b, b_mem b)
        end
      end
    end
  else if x =? 0 then
    match new_enum ub m 1 with
    | None => None
    | Some b => Some (b_val b, b_mem b)
    end
  else
    match make_intp ub int_fuel m x with
    | None => None
    | Some (p, m1) =>
      match new_union ub m1 2 p with
      | None => None
      | Some b => Some (b_val b, b_mem b)
      end
    end.

(** pkgs/core/int.fble.c:77-85 FbleIntValueAccess. *)
Definition int_access (ub : Z -> Z -> Z) (m : mem) (x : Z) : option Z :=
  match union_tag m x with
  | Some (Some 0%nat) =>
    match union_arg ub m x with
    | None => None
    | Some a => match read_intp ub int_fuel m a with Some r => int64 (- r) | None => None end
    end
  | Some (Some 1%nat) => Some 0
  | Some (Some 2%nat) =>
    match union_arg ub m x with
    | None => None
    | Some a => read_intp ub int_fuel m a
    end
  | _ => None
  end.

(** pkgs/core/char.fble.c:14-19 Chars, as ASCII codes. *)
Definition chars : list Z :=
  [10; 9; 32; 33; 34; 35; 36; 37; 38; 39; 40; 41; 42; 43; 44; 45; 46; 47;
   48; 49; 50; 51; 52; 53; 54; 55; 56; 57; 58; 59; 60; 61; 62; 63; 64;
   65; 66; 67; 68; 69; 70; 71; 72; 73; 74; 75; 76; 77; 78; 79; 80; 81; 82; 83;
   84; 85; 86; 87; 88; 89; 90;
   91; 92; 93; 94; 95; 96;
   97; 98; 99; 100; 101; 102; 103; 104; 105; 106; 107; 108; 109; 110; 111; 112;
   113; 114; 115; 116; 117; 118; 119; 120; 121; 122;
   123; 124; 125; 126].

(** strchr on [chars], for non-NUL [c]: position of the first occurrence. *)
Fixpoint index_of (c : Z) (l : list Z) : option nat :=
  match l with
  | [] => None
  | x :: l' => if x =? c then Some O else option_map S (index_of c l')
  end.

(** pkgs/core/char.fble.c:22-32 FbleNewCharValue, including its recursive call
    with '?' (63). *)
Definition char_tag (c : Z) : option nat :=
  match (if c =? 0 then None else index_of c chars) with
  | Some t => Some t
  | None => index_of 63 chars
  end.

Definition new_char (ub : Z -> Z -> Z) (m : mem) (c : Z) : option built :=
  match char_tag c with
  | None => None
  | Some t => new_enum ub m t
  end.

(** pkgs/core/char.fble.c:35-38 FbleCharValueAccess. *)
Definition char_access (m : mem) (w : Z) : option Z :=
  match union_tag m w with
  | Some (Some t) => nth_error chars t
  | _ => None
  end.

(** Loop of FbleNewStringValue, pkgs/core/string.fble.c:39-43, [rs] in loop order
    (last character first). *)
Fixpoint string_loop (ub : Z -> Z -> Z) (m : mem) (rs : list Z) (tail : Z) : option (Z * mem) :=
  match rs with
  | [] => Some (tail, m)
  | c :: rest =>
    match new_char ub m c with
    | None => None
    | Some cv =>
      match new_struct ub (b_mem cv) [b_val cv; tail] with
      | None => None
      | Some cp =>
        match new_union ub (b_mem cp) 0 (b_val cp) with
        | None => None
        | Some t => string_loop ub (b_mem t) rest (b_val t)
        end
      end
    end
  end.

(** pkgs/core/string.fble.c:35-45 FbleNewStringValue; [s] is the C string without
    its terminator. *)
Definition new_string (ub : Z -> Z -> Z) (m : mem) (s : list Z) : option (Z * mem) :=
  match new_enum ub m 1 with
  | None => None
  | Some e => string_loop ub (b_mem e) (rev s) (b_val e)
  end.

(** pkgs/core/string.fble.c:16-32 FbleStringValueAccess; [fuel] bounds the while
    loop, the result is the C string without its terminator. *)
Fixpoint string_access (ub : Z -> Z -> Z) (fuel : nat) (m : mem) (str : Z) : option (list Z) :=
  match union_tag m str with
  | Some (Some 0%nat) =>
    match fuel with
    | O => None
    | S f =>
      match union_arg ub m str with
      | None => None
      | Some cp =>
        match struct_field ub m cp 0, struct_field ub m cp 1 with
        | Some cv, Some rest =>
          match char_access m cv, string_access ub f m rest with
          | Some c, Some s => Some (c :: s)
          | _, _ => None
          end
        | _, _ => None
        end
      end
    end
  | Some _ => Some []
  | None => None
  end.
