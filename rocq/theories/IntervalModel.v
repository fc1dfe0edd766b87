(** One-dimensional intervals.  Models numeric/interval.hpp. *)
From Verif Require Import Base CmpModel.

(** numeric/interval.hpp:40-137, [detail::interval_storage]: two bounds.  The
    open/closed tag of [interval] (lines 222-227) is carried by the class but read
    by none of the member functions modelled here. *)
Record ival : Type := mkival { lower : Q; upper : Q }.

(** numeric/interval.hpp:45-48: the default interval of a type without infinity. *)
Definition ival_default : ival := mkival 1 0.

(** numeric/interval.hpp:60-63. *)
Definition is_empty (i : ival) : bool := negb (Qleb (lower i) (upper i)).

(** numeric/interval.hpp:259-269, [interval::expand(v)]. *)
Definition expand (i : ival) (v : Q) : ival :=
  let was_empty := is_empty i in
  if negb was_empty && Qltb v (lower i) then mkival v (upper i)
  else if negb was_empty && Qgtb v (upper i) then mkival (lower i) v
  else if was_empty then mkival v v
  else i.

(** numeric/interval.hpp:271-279, [interval::expand(v, cmp)]. *)
Definition expand_cmp (cmp : policy) (i : ival) (v : Q) : ival :=
  if less_than cmp v (lower i) then mkival v (upper i)
  else if greater_than cmp v (upper i) then mkival (lower i) v
  else i.

(** numeric/interval.hpp:281-291, [interval::intersects] (exact and with policy). *)
Definition intersects (i rhs : ival) : bool :=
  Qltb (lower rhs) (upper i) && Qltb (lower i) (upper rhs).
Definition intersects_cmp (cmp : policy) (i rhs : ival) : bool :=
  less_than cmp (lower rhs) (upper i) && less_than cmp (lower i) (upper rhs).

(** numeric/interval.hpp:84-131, compound assignment operators. *)
Definition add_scalar (i : ival) (v : Q) : ival := mkival (lower i + v) (upper i + v).
Definition sub_scalar (i : ival) (v : Q) : ival := mkival (lower i - v) (upper i - v).
Definition mul_scalar (i : ival) (v : Q) : ival := mkival (lower i * v) (upper i * v).
Definition add_ival (i j : ival) : ival := mkival (lower i + lower j) (upper i + upper j).
Definition sub_ival (i j : ival) : ival := mkival (lower i - lower j) (upper i - upper j).
(** Division by a zero scalar is undefined. *)
Definition div_scalar (i : ival) (v : Q) : option ival :=
  if Qeqb v 0 then None else Some (mkival (lower i / v) (upper i / v)).

(** numeric/detail/friend_ordered_field_operators.hpp:73-77: [scalar - interval]
    builds the degenerate interval of the scalar and subtracts. *)
Definition scalar_sub_ival (v : Q) (i : ival) : ival := sub_ival (mkival v v) i.

(** utility/utilities.hpp:834-853, [min_copy], [max_copy], [clamp]. *)
Definition min_copy (a b : Q) : Q := if Qltb a b then a else b.
Definition max_copy (a b : Q) : Q := if Qgtb a b then a else b.
Definition clamp (n mn mx : Q) : Q := if Qltb n mn then mn else if Qgtb n mx then mx else n.

(** utility/utilities.hpp:855-859, [sign]. *)
Definition sign (v : Q) : Z := if Qgeb v 0 then 1%Z else (-1)%Z.
