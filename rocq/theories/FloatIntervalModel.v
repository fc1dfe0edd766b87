(** One-dimensional intervals of IEEE doubles.  Models numeric/interval.hpp instantiated with double; the
    arithmetic is that of FloatModel. *)
From Coq Require Import Floats Bool.
From Verif Require Import FloatModel.
Local Open Scope float_scope.

(** numeric/interval.hpp:40-137, [detail::interval_storage]: two bounds; the open/closed tag of [interval] is read by
    none of the members modelled here. *)
Record fival : Type := mkfival { flower : float; fupper : float }.
(** interval.hpp:45-48: double has infinities. *)
Definition fival_default : fival := mkfival infinity neg_infinity.
(** interval.hpp:60-63. *)
Definition fis_empty (i : fival) : bool := negb (flower i <=? fupper i).
(** interval.hpp:259-269, [expand(v)]. *)
Definition fexpand (i : fival) (v : float) : fival :=
  let was_empty := fis_empty i in
  if negb was_empty && (v <? flower i) then mkfival v (fupper i)
  else if negb was_empty && (fupper i <? v) then mkfival (flower i) v
  else if was_empty then mkfival v v
  else i.
(** interval.hpp:271-279, [expand(v, cmp)]. *)
Definition fexpand_cmp (cmp : fpolicy) (i : fival) (v : float) : fival :=
  if f_lt cmp v (flower i) then mkfival v (fupper i)
  else if f_gt cmp v (fupper i) then mkfival (flower i) v
  else i.
(** interval.hpp:281-291, [intersects]. *)
Definition fintersects (i rhs : fival) : bool := (flower rhs <? fupper i) && (flower i <? fupper rhs).
Definition fintersects_cmp (cmp : fpolicy) (i rhs : fival) : bool := f_lt cmp (flower rhs) (fupper i) && f_lt cmp (flower i) (fupper rhs).
(** interval.hpp:84-131. *)
Definition fadd_scalar (i : fival) (v : float) : fival := mkfival (flower i + v) (fupper i + v).
Definition fsub_scalar (i : fival) (v : float) : fival := mkfival (flower i - v) (fupper i - v).
Definition fmul_scalar (i : fival) (v : float) : fival := mkfival (flower i * v) (fupper i * v).
Definition fdiv_scalar (i : fival) (v : float) : fival := mkfival (flower i / v) (fupper i / v).
Definition fadd_ival (i j : fival) : fival := mkfival (flower i + flower j) (fupper i + fupper j).
Definition fsub_ival (i j : fival) : fival := mkfival (flower i - flower j) (fupper i - fupper j).
