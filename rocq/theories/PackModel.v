(** * Model of the value API of lib/value.c: packing, structs, unions, lists, refs.

    [FbleValue*] is modelled by its 64-bit machine word, a [Z] read as a signed
    two's-complement [intptr_t].  Even non-zero words are addresses of allocated
    values.  Where an allocated value lives (stack or GC heap) and when it is moved or
    freed is not modelled here (see GcModel.v); here memory only grows, and the
    [i]th allocation gets address [16*(i+1)], standing for any fresh aligned
    address.  FbleNewFuncValue / FbleNewNativeValue are represented by opaque
    objects. *)

From Coq Require Import ZArith List Bool.
Import ListNotations.
Local Open Scope Z_scope.

(** Signed 64-bit wrap-around (intptr_t arithmetic as compiled by gcc/clang; the
    ISO C undefinedness of signed left-shift overflow is ignored, the one of
    shift counts >= 64 is not, see [shl]). *)
Definition wrap64 (z : Z) : Z := (z + 2^63) mod 2^64 - 2^63.

(** [w << k] for an intptr_t [w].  [k >= 64] is undefined behaviour: the result is
    then whatever the oracle [ub] says.  Used in lib/value.c:1249-1250, 1259-1263,
    1335-1340. *)
Definition shl (ub : Z -> Z -> Z) (w k : Z) : Z :=
  if k <? 64 then wrap64 (Z.shiftl w k) else ub w k.

(** [w >> k] for an intptr_t (arithmetic shift); [None] is undefined behaviour. *)
Definition shr (w k : Z) : option Z :=
  if k <? 64 then Some (Z.shiftr w k) else None.

(** lib/value.c:775-778 IsPacked. *)
Definition is_packed (w : Z) : bool := Z.testbit w 0.

(** lib/value.c:785-788 IsAlloced. *)
Definition is_alloced (w : Z) : bool := negb (is_packed w) && negb (w =? 0).

(** lib/value.c:204 (fble-value.h) FbleWrongUnionTag and lib/value.c:493
    TailCallSentinel. *)
Definition wrong_union_tag : Z := 2.
Definition tail_call_sentinel : Z := 2.

(** lib/value.c:1234 FbleGenericTypeValue. *)
Definition generic_type_value : Z := 1.

(** [while (data & 1) { data >>= 1; n++; }], lib/value.c:811-814, 823-826,
    1307-1309, 1374-1377, 1401-1403, 1433-1437.  Returns the count and the
    remaining data; [None] when the loop does not stop within [fuel] iterations
    (only possible for words whose bits from some point on are all ones). *)
Fixpoint skip_ones (fuel : nat) (data : Z) : option (nat * Z) :=
  if Z.testbit data 0 then
    match fuel with
    | O => None
    | S f =>
      match skip_ones f (Z.shiftr data 1) with
      | Some (n, d) => Some (S n, d)
      | None => None
      end
    end
  else Some (O, data).

(** A word has 64 bits, so 64 iterations either find a zero bit or never will. *)
Definition ones_fuel : nat := 64.

(** lib/value.c:804-831 PackedValueLength.  [fuel] bounds the C recursion depth;
    [None] is non-termination or an undefined shift. *)
Fixpoint packed_len (fuel : nat) (data : Z) {struct fuel} : option nat :=
  match fuel with
  | O => None
  | S f =>
    if negb (Z.testbit data 0) then
      (* struct value *)
      match skip_ones ones_fuel (Z.shiftr data 1) with
      | None => None
      | Some (argc, d1) =>
        (fix args (n : nat) (d : Z) (len : nat) {struct n} : option nat :=
           match n with
           | O => Some len
           | S n' =>
             match packed_len f d with
             | None => None
             | Some l =>
               match shr d (Z.of_nat l) with
               | None => None
               | Some d' => args n' d' (len + l)%nat
               end
             end
           end) argc (Z.shiftr d1 1) (2 + argc)%nat
      end
    else
      (* union value *)
      match skip_ones ones_fuel (Z.shiftr data 1) with
      | None => None
      | Some (tag, d1) =>
        match packed_len f (Z.shiftr d1 1) with
        | None => None
        | Some l => Some (2 + tag + l)%nat
        end
      end
  end.

(** Every value takes at least two bits, so 64 levels are plenty for a word. *)
Definition len_fuel : nat := 64.
Definition packed_value_length (data : Z) : option nat := packed_len len_fuel data.

(** Allocated objects: lib/value.c:206-286 (StructValue, UnionValue, RefValue);
    [OOther] stands for FuncValue and NativeValue. *)
Inductive obj : Type :=
| OStruct (fields : list Z)
| OUnion (tag : nat) (arg : Z)
| ORef (value : Z)          (* 0 = NULL, not yet assigned *)
| OOther (id : nat).

Definition mem := list obj.

Definition addr_of (i : nat) : Z := 16 * (Z.of_nat i + 1).

Definition lookup (m : mem) (a : Z) : option obj :=
  if (0 <? a) && (a mod 16 =? 0)
  then nth_error m (Z.to_nat (a / 16 - 1)) else None.

(** NewValueRaw / NewGcValueRaw (lib/value.c:640-673), reduced to "fresh address". *)
Definition alloc (m : mem) (o : obj) : Z * mem := (addr_of (length m), m ++ [o]).

(** Result of a constructor: the word, the memory and whether an undefined shift
    was executed on the way. *)
Record built := mk_built { b_val : Z; b_mem : mem; b_ub : bool }.

(** The optimistic packing loop, lib/value.c:1240-1255.  [rargs] are the arguments
    in the order the loop visits them (last argument first).  Returns
    (data, num_bits, undefined-shift flag); [None] if PackedValueLength diverges. *)
Fixpoint pack_loop (ub : Z -> Z -> Z) (rargs : list Z) (data num_bits : Z) (u : bool)
  : option (Z * Z * bool) :=
  match rargs with
  | [] => Some (data, num_bits, u)
  | arg :: rest =>
    if is_packed arg then
      let argdata := Z.shiftr arg 1 in
      match packed_value_length argdata with
      | None => None
      | Some l =>
        let arglen := Z.of_nat l in
        let mask := wrap64 (shl ub 1 arglen - 1) in
        let data' := Z.lor (shl ub data arglen) (Z.land mask argdata) in
        pack_loop ub rest data' (num_bits + arglen) (u || (64 <=? arglen))
      end
    else Some (data, num_bits + 64, u)
  end.

(** [data = (data << 1) | 1], iterated [n] times: lib/value.c:1260-1262, 1336-1338. *)
Fixpoint push_ones (ub : Z -> Z -> Z) (n : nat) (data : Z) : Z :=
  match n with
  | O => data
  | S n' => push_ones ub n' (Z.lor (shl ub data 1) 1)
  end.

(** lib/value.c:1237-1276 FbleNewStructValue (and FbleNewStructValue_ 1279-1289,
    which only gathers varargs).  size_t sums are not wrapped: argc and bit counts
    are far below 2^64. *)
Definition new_struct (ub : Z -> Z -> Z) (m : mem) (args : list Z) : option built :=
  match pack_loop ub (rev args) 0 0 false with
  | None => None
  | Some (data, num_bits, u) =>
    let argc := length args in
    if num_bits + Z.of_nat argc + 1 <? 64 then
      let d1 := shl ub data 1 in
      let d2 := push_ones ub argc d1 in
      let d3 := Z.lor (shl ub d2 2) 1 in
      Some (mk_built d3 m u)
    else
      let (a, m') := alloc m (OStruct args) in
      Some (mk_built a m' u)
  end.

(** lib/value.c:848-855 StrictValue.  The C loop follows references without bound;
    [None] is a loop longer than the number of objects in memory (that is, a cycle
    of references), or a dangling pointer. *)
Fixpoint strict_loop (fuel : nat) (m : mem) (w : Z) : option Z :=
  if is_alloced w then
    match lookup m w with
    | Some (ORef v) =>
      match fuel with
      | O => None
      | S f => strict_loop f m v
      end
    | Some _ => Some w
    | None => None
    end
  else Some w.

Definition strict (m : mem) (w : Z) : option Z := strict_loop (length m) m w.

(** [for (i = 0; i < field; ++i) data >>= PackedValueLength(data);] lib/value.c:1313-1315 *)
Fixpoint skip_fields (n : nat) (data : Z) : option Z :=
  match n with
  | O => Some data
  | S n' =>
    match packed_value_length data with
    | None => None
    | Some l =>
      match shr data (Z.of_nat l) with
      | None => None
      | Some d => skip_fields n' d
      end
    end
  end.

(** [data = (data << 1) | 1; return data], lib/value.c:1318-1319, 1407-1408, 1447-1448 *)
Definition repack (ub : Z -> Z -> Z) (data : Z) : Z := Z.lor (shl ub data 1) 1.

(** lib/value.c:1292-1326 FbleStructValueField.  [None]: a failed assertion or
    undefined behaviour; [Some 0]: NULL. *)
Definition struct_field (ub : Z -> Z -> Z) (m : mem) (object : Z) (field : nat) : option Z :=
  match strict m object with
  | None => None
  | Some object =>
    if object =? 0 then Some 0
    else if is_packed object then
      match skip_ones ones_fuel (Z.shiftr object 2) with
      | None => None
      | Some (_, d1) =>
        match skip_fields field (Z.shiftr d1 1) with
        | None => None
        | Some d => Some (repack ub d)
        end
      end
    else
      match lookup m object with
      | Some (OStruct fields) => nth_error fields field
      | _ => None
      end
  end.

(** lib/value.c:1329-1349 FbleNewUnionValue. *)
Definition new_union (ub : Z -> Z -> Z) (m : mem) (tag : nat) (arg : Z) : option built :=
  let fallback :=
    let (a, m') := alloc m (OUnion tag arg) in mk_built a m' false in
  if is_packed arg then
    let data := Z.shiftr arg 1 in
    match packed_value_length data with
    | None => None
    | Some l =>
      if Z.of_nat l + Z.of_nat tag + 1 <? 64 then
        let d1 := shl ub data 1 in
        let d2 := push_ones ub tag d1 in
        let d3 := Z.lor (shl ub d2 2) 3 in
        Some (mk_built d3 m false)
      else Some fallback
    end
  else Some fallback.

(** lib/value.c:1351-1356 FbleNewEnumValue. *)
Definition new_enum (ub : Z -> Z -> Z) (m : mem) (tag : nat) : option built :=
  match new_struct ub m [] with
  | None => None
  | Some unit => new_union ub (b_mem unit) tag (b_val unit)
  end.

(** lib/value.c:1359-1385 FbleUnionValueTag.  The C result [(size_t)-1] for an
    undefined value is [Some None]. *)
Definition union_tag (m : mem) (object : Z) : option (option nat) :=
  match strict m object with
  | None => None
  | Some object =>
    if object =? 0 then Some None
    else if is_packed object then
      match skip_ones ones_fuel (Z.shiftr object 2) with
      | None => None
      | Some (tag, _) => Some (Some tag)
      end
    else
      match lookup m object with
      | Some (OUnion tag _) => Some (Some tag)
      | _ => None
      end
  end.

(** lib/value.c:1388-1416 FbleUnionValueArg. *)
Definition union_arg (ub : Z -> Z -> Z) (m : mem) (object : Z) : option Z :=
  match strict m object with
  | None => None
  | Some object =>
    if object =? 0 then Some 0
    else if is_packed object then
      match skip_ones ones_fuel (Z.shiftr object 2) with
      | None => None
      | Some (_, d1) => Some (repack ub (Z.shiftr d1 1))
      end
    else
      match lookup m object with
      | Some (OUnion _ arg) => Some arg
      | _ => None
      end
  end.

(** lib/value.c:1419-1454 FbleUnionValueField. *)
Definition union_field (ub : Z -> Z -> Z) (m : mem) (object : Z) (field : nat) : option Z :=
  match strict m object with
  | None => None
  | Some object =>
    if object =? 0 then Some 0
    else if is_packed object then
      match skip_ones ones_fuel (Z.shiftr object 2) with
      | None => None
      | Some (tag, d1) =>
        if negb (Nat.eqb tag field) then Some wrong_union_tag
        else Some (repack ub (Z.shiftr d1 1))
      end
    else
      match lookup m object with
      | Some (OUnion tag arg) =>
        if Nat.eqb tag field then Some arg else Some wrong_union_tag
      | _ => None
      end
  end.

(** Loop body of FbleNewListValue, lib/value.c:1740-1745; [rargs] is in loop order. *)
Fixpoint list_loop (ub : Z -> Z -> Z) (m : mem) (rargs : list Z) (tail : Z) : option (Z * mem) :=
  match rargs with
  | [] => Some (tail, m)
  | arg :: rest =>
    match new_struct ub m [arg; tail] with
    | None => None
    | Some cell =>
      match new_union ub (b_mem cell) 0 (b_val cell) with
      | None => None
      | Some t => list_loop ub (b_mem t) rest (b_val t)
      end
    end
  end.

(** lib/value.c:1736-1747 FbleNewListValue. *)
Definition new_list (ub : Z -> Z -> Z) (m : mem) (args : list Z) : option (Z * mem) :=
  match new_struct ub m [] with
  | None => None
  | Some unit =>
    match new_union ub (b_mem unit) 1 (b_val unit) with
    | None => None
    | Some tail => list_loop ub (b_mem tail) (rev args) (b_val tail)
    end
  end.

(** Loop body of FbleNewLiteralValue, lib/value.c:1767-1772. *)
Fixpoint literal_loop (ub : Z -> Z -> Z) (m : mem) (rletters : list nat) (unit tail : Z)
  : option (Z * mem) :=
  match rletters with
  | [] => Some (tail, m)
  | letter :: rest =>
    match new_union ub m letter unit with
    | None => None
    | Some arg =>
      match new_struct ub (b_mem arg) [b_val arg; tail] with
      | None => None
      | Some cell =>
        match new_union ub (b_mem cell) 0 (b_val cell) with
        | None => None
        | Some t => literal_loop ub (b_mem t) rest unit (b_val t)
        end
      end
    end
  end.

(** lib/value.c:1763-1774 FbleNewLiteralValue. *)
Definition new_literal (ub : Z -> Z -> Z) (m : mem) (letters : list nat) : option (Z * mem) :=
  match new_struct ub m [] with
  | None => None
  | Some unit =>
    match new_union ub (b_mem unit) 1 (b_val unit) with
    | None => None
    | Some tail => literal_loop ub (b_mem tail) (rev letters) (b_val unit) (b_val tail)
    end
  end.

(** lib/value.c:1777-1782 FbleNewRefValue. *)
Definition new_ref (m : mem) : Z * mem := alloc m (ORef 0).

(** The unwrap loop of FbleAssignRefValue, lib/value.c:1792-1796:
    [while (!IsPacked(value) && value->tag == REF_VALUE && unwrap->value != NULL)].
    Dereferencing NULL or a dangling address is undefined ([None]). *)
Fixpoint unwrap_loop (fuel : nat) (m : mem) (w : Z) : option Z :=
  if is_packed w then Some w
  else
    match lookup m w with
    | None => None
    | Some (ORef v) =>
      if v =? 0 then Some w
      else match fuel with O => None | S f => unwrap_loop f m v end
    | Some _ => Some w
    end.

Fixpoint update (m : mem) (i : nat) (o : obj) : mem :=
  match m, i with
  | [], _ => []
  | _ :: m', O => o :: m'
  | x :: m', S i' => x :: update m' i' o
  end.

Definition store (m : mem) (a : Z) (o : obj) : mem := update m (Z.to_nat (a / 16 - 1)) o.

(** lib/value.c:1785-1806 FbleAssignRefValue.  The GcRealloc of the assigned value
    (which does not change what it means, see GcModel.v) is omitted. *)
Definition assign_ref (m : mem) (ref value : Z) : option (bool * mem) :=
  match unwrap_loop (length m) m value with
  | None => None
  | Some v =>
    if v =? ref then Some (false, m)
    else
      match lookup m ref with
      | Some (ORef _) => Some (true, store m ref (ORef v))
      | _ => None
      end
  end.
