(** The order of points and the tests of boxes on IEEE doubles.  Models utility/utilities.hpp
    (lexicographical_comparer), tensor/numeric_sequence_compare.hpp and primitive/axis_aligned_bounding_box.hpp
    instantiated with double. *)
From Coq Require Import Floats List Bool.
From Verif Require Import FloatModel.
Import ListNotations.
Local Open Scope float_scope.

(** utilities.hpp:372-428; coordinates of any dimension, sequences of different dimension do not type-check. *)
Fixpoint flexicographical (cmp : fpolicy) (lhs rhs : list float) : bool :=
  match lhs, rhs with
  | l :: lhs', r :: rhs' =>
      if f_lt cmp l r then true
      else if f_eq cmp l r then flexicographical cmp lhs' rhs'
      else false
  | _, _ => false
  end.
(** numeric_sequence_compare.hpp:22-88. *)
Fixpoint fsequence_equals (cmp : fpolicy) (lhs rhs : list float) : bool :=
  match lhs, rhs with
  | [], [] => true
  | l :: lhs', r :: rhs' => fsequence_equals cmp lhs' rhs' && f_eq cmp l r
  | _, _ => false
  end.

(** axis_aligned_bounding_box.hpp:201-212: two corner points of the same dimension. *)
Record fbox : Type := mkfbox { flow : list float; fhigh : list float }.
(** axis_aligned_bounding_box.hpp:65-95, for a point; the C++ goes from the last coordinate to the first. *)
Fixpoint fdim_point (cmp : fpolicy) (n lo hi : list float) : bool :=
  match n, lo, hi with
  | x :: n', l :: lo', h :: hi' => fdim_point cmp n' lo' hi' && negb (f_lt cmp x l || f_gt cmp x h)
  | _, _, _ => true
  end.
(** axis_aligned_bounding_box.hpp:76-101, for two boxes. *)
Fixpoint fdim_box (cmp : fpolicy) (alo ahi blo bhi : list float) : bool :=
  match alo, ahi, blo, bhi with
  | al :: alo', ah :: ahi', bl :: blo', bh :: bhi' => fdim_box cmp alo' ahi' blo' bhi' && negb (f_lt cmp ah bl || f_gt cmp al bh)
  | _, _, _, _ => true
  end.
(** axis_aligned_bounding_box.hpp:231-254, [intersects] of a point and of a box. *)
Definition fbox_point (cmp : fpolicy) (b : fbox) (p : list float) : bool := fdim_point cmp p (flow b) (fhigh b).
Definition fbox_box (cmp : fpolicy) (a b : fbox) : bool := fdim_box cmp (flow a) (fhigh a) (flow b) (fhigh b).
(** axis_aligned_bounding_box.hpp:256-271, [contains]. *)
Definition fcontains (cmp : fpolicy) (a b : fbox) : bool := fbox_point cmp a (fhigh b) && fbox_point cmp a (flow b).
(** axis_aligned_bounding_box.hpp:153-197 and 309-314, [expand]. *)
Fixpoint fupdate_lo (b1 b2 : list float) : list float :=
  match b1, b2 with x1 :: r1, x2 :: r2 => (if x2 <? x1 then x2 else x1) :: fupdate_lo r1 r2 | _, _ => b1 end.
Fixpoint fupdate_hi (b1 b2 : list float) : list float :=
  match b1, b2 with x1 :: r1, x2 :: r2 => (if x1 <? x2 then x2 else x1) :: fupdate_hi r1 r2 | _, _ => b1 end.
Definition fexpand_box (a b : fbox) : fbox := mkfbox (fupdate_lo (flow a) (flow b)) (fupdate_hi (fhigh a) (fhigh b)).
