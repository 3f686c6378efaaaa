(** * Specification side of value packing: abstract data and its documented bit format. *)

From Coq Require Import ZArith List Bool.
From Verif Require Import PackModel.
Import ListNotations.
Local Open Scope Z_scope.

(** Pure fble data: structs of data and unions of data. *)
Inductive data : Type :=
| DStruct (fields : list data)
| DUnion (tag : nat) (arg : data).

(** The packed format as documented at lib/value.c:190-232, least significant bit
    first: structs are "0", the number of fields in unary ("1...10"), then the fields;
    unions are "1", the tag in unary, then the argument. *)
Fixpoint enc (d : data) : list bool :=
  match d with
  | DStruct ds => false :: repeat true (length ds) ++ false :: flat_map enc ds
  | DUnion t a => true :: repeat true t ++ false :: enc a
  end.

(** The low bits of the (infinite two's complement) integer [w] are [bs]. *)
Definition holds (w : Z) (bs : list bool) : Prop :=
  forall i, (i < length bs)%nat -> Z.testbit w (Z.of_nat i) = nth i bs false.

(** [w] is a 64-bit word. *)
Definition is_word (w : Z) : Prop := -2^63 <= w < 2^63.

(** [w] is a packed word for the data [d]: pack marker "1" then the format of [d];
    higher bits are unconstrained (field access leaves left-over bits there). *)
Definition packed_as (w : Z) (d : data) : Prop :=
  is_word w /\ holds w (true :: enc d) /\ (length (enc d) <= 64)%nat.

(** Size helper for [DStruct] nesting. *)
Fixpoint data_size (d : data) : nat :=
  match d with
  | DStruct ds => S (list_sum (map data_size ds))
  | DUnion _ a => S (data_size a)
  end.

(** Access paths into data and what they reach. *)
Inductive step := SField (i : nat) | SArg.

Fixpoint subdata (d : data) (p : list step) : option data :=
  match p with
  | [] => Some d
  | SField i :: p' =>
    match d with
    | DStruct ds => match nth_error ds i with Some d' => subdata d' p' | None => None end
    | DUnion _ _ => None
    end
  | SArg :: p' =>
    match d with
    | DUnion _ a => subdata a p'
    | DStruct _ => None
    end
  end.

(** Legal arguments of constructors: any allocated (or NULL) value, or a packed
    word in the documented format. *)
Definition valid_arg (w : Z) : Prop := is_packed w = false \/ exists d, packed_as w d.

(** Two words are the same value: identical, or packed words for the same data. *)
Definition same_value (w w' : Z) : Prop :=
  w = w' \/ exists d, packed_as w d /\ packed_as w' d.

(** Build data bottom-up with the public constructors. *)
Fixpoint build (ub : Z -> Z -> Z) (m : mem) (d : data) : option (Z * mem) :=
  match d with
  | DStruct ds =>
    match (fix go (m : mem) (ds : list data) : option (list Z * mem) :=
             match ds with
             | [] => Some ([], m)
             | d :: ds' =>
               match build ub m d with
               | None => None
               | Some (w, m1) =>
                 match go m1 ds' with
                 | None => None
                 | Some (ws, m2) => Some (w :: ws, m2)
                 end
               end
             end) m ds with
    | None => None
    | Some (ws, m1) =>
      match new_struct ub m1 ws with
      | None => None
      | Some b => Some (b_val b, b_mem b)
      end
    end
  | DUnion t a =>
    match build ub m a with
    | None => None
    | Some (w, m1) =>
      match new_union ub m1 t w with
      | None => None
      | Some b => Some (b_val b, b_mem b)
      end
    end
  end.

(** Follow an access path with the public accessors. *)
Fixpoint access (ub : Z -> Z -> Z) (m : mem) (w : Z) (p : list step) : option Z :=
  match p with
  | [] => Some w
  | SField i :: p' =>
    match struct_field ub m w i with Some w' => access ub m w' p' | None => None end
  | SArg :: p' =>
    match union_arg ub m w with Some w' => access ub m w' p' | None => None end
  end.

(** [w] reads as a list with the given elements, through the public accessors: tag 1
    is the empty list, tag 0 carries a struct of head and tail. *)
Inductive list_of (ub : Z -> Z -> Z) (m : mem) : Z -> list Z -> Prop :=
| lo_nil w : union_tag m w = Some (Some 1%nat) -> list_of ub m w []
| lo_cons w c x t xs :
    union_tag m w = Some (Some 0%nat) -> union_arg ub m w = Some c ->
    struct_field ub m c 0 = Some x -> struct_field ub m c 1 = Some t ->
    list_of ub m t xs -> list_of ub m w (x :: xs).

(** The data of a list. *)
Definition data_list (ds : list data) : data :=
  fold_right (fun d t => DUnion 0 (DStruct [d; t])) (DUnion 1 (DStruct [])) ds.
