(** * Kinds: lib/kind.h, lib/type.c. *)
From Coq Require Import ZArith List Bool Arith Decimal DecimalNat.
Import ListNotations.

(** lib/kind.h:60-80 FbleBasicKind, FblePolyKind (location and reference count dropped:
    KindHeap.v is about the reference counts). *)
Inductive kind := Basic (level : nat) | Poly (arg rkind : kind).

(** lib/type.c:867-890 FbleKindsEqual. *)
Fixpoint kinds_equal (a b : kind) : bool :=
  match a, b with
  | Basic i, Basic j => i =? j
  | Poly x r, Poly y s => kinds_equal x y && kinds_equal r s
  | _, _ => false
  end.

(** lib/type.c:85-113 LevelAdjustedKind; [None]: the assertion fails.  Levels are taken to be
    small enough for the int arithmetic not to overflow. *)
Fixpoint level_adjusted (k : kind) (increment : Z) : option kind :=
  match k with
  | Basic l => if (0 <=? Z.of_nat l + increment)%Z then Some (Basic (Z.to_nat (Z.of_nat l + increment))) else None
  | Poly a r =>
    match level_adjusted r increment with
    | Some r' => Some (Poly a r')
    | None => None
    end
  end.

(** lib/type.c:849-864 FbleGetKindLevel. *)
Fixpoint kind_level (k : kind) : nat :=
  match k with Basic l => l | Poly _ r => kind_level r end.

(** What FbleGetKind looks at in a type (lib/type.h): the other fields do not matter to it. *)
Inductive ktype :=
| KPlain                                (** FBLE_DATA_TYPE, FBLE_FUNC_TYPE, FBLE_PACKAGE_TYPE, FBLE_ABSTRACT_TYPE *)
| KPoly (arg body : ktype)
| KPolyApply (poly : ktype)
| KVar (k : kind)
| KType (t : ktype).

(** lib/type.c:784-846 FbleGetKind; [None]: an assertion fails. *)
Fixpoint get_kind (t : ktype) : option kind :=
  match t with
  | KPlain => Some (Basic 0)
  | KPoly a b =>
    match get_kind a with
    | Some ka =>
      match level_adjusted ka 1, get_kind b with
      | Some ka', Some kb => Some (Poly ka' kb)
      | _, _ => None
      end
    | None => None
    end
  | KPolyApply p =>
    match get_kind p with
    | Some (Poly _ r) => Some r
    | _ => None
    end
  | KVar k => Some k
  | KType t =>
    match get_kind t with
    | Some k => level_adjusted k 1
    | None => None
    end
  end.

(** Decimal digits. *)
Fixpoint digits (u : Decimal.uint) : list Z :=
  match u with
  | Nil => []
  | D0 u => 48%Z :: digits u | D1 u => 49%Z :: digits u | D2 u => 50%Z :: digits u | D3 u => 51%Z :: digits u | D4 u => 52%Z :: digits u
  | D5 u => 53%Z :: digits u | D6 u => 54%Z :: digits u | D7 u => 55%Z :: digits u | D8 u => 56%Z :: digits u | D9 u => 57%Z :: digits u
  end.

(** lib/type.c:893-920 FblePrintKind, as the bytes printed.  [basic_text] is lines 898-902;
    [poly_text] is the loop in lines 907-913, from its second iteration. *)
Definition basic_text (l : nat) : list Z :=
  match l with
  | 0 => [37%Z]
  | 1 => [64%Z]
  | _ => 64%Z :: digits (Nat.to_uint l)
  end.
Fixpoint print_kind (k : kind) : list Z :=
  match k with
  | Basic l => basic_text l
  | Poly a r =>
    [60%Z] ++ print_kind a ++
    (fix poly_text (k : kind) : list Z :=
       match k with
       | Poly a r => [44%Z; 32%Z] ++ print_kind a ++ poly_text r
       | Basic l => [62%Z] ++ basic_text l
       end) r
  end.
