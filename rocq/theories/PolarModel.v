(** Conversion between Cartesian, polar and neutral reference frames, over the reals, in every
    dimension from 2 on.  Models space/cartesian_polar_transformation.hpp,
    space/polar_cartesian_transformation.hpp, space/reference_frame_transformation.hpp and
    space/{cartesian,polar}_access_traits.hpp.  A sequence of coordinates is the list of its
    values; the angles are plain numbers (the units of polar_reference_frame.hpp are not
    modelled). *)
From Verif Require Import RBase AngleModel.

(** cartesian_polar_transformation.hpp:35-58, [term_calculator<D, I>] for I from 2 to D, the
    coordinates from index I on being the list: the angles stored at the indices from I on and the
    radius stored at index 0. *)
Fixpoint upper_angles (sum : R) (from : rvec) : rvec * R :=
  match from with
  | [] => ([], sqrt sum)
  | x :: from =>
    let a := atan2 (sqrt sum) x in
    let '(angles, radius) := upper_angles (sum + x * x) from in
    (a :: angles, radius)
  end.
(** cartesian_polar_transformation.hpp:60-71 and 90-99, [transform]: [term_calculator<D, 1>] with
    the sum 0.  Dimension 1 does not compile ([term_calculator<1, 1>] is ambiguous). *)
Definition cartesian_to_polar (from : rvec) : option rvec :=
  match from with
  | x :: y :: from =>
    let a := atan2 y x in
    let '(angles, radius) := upper_angles (0 + x * x + y * y) from in
    Some (radius :: a :: angles)
  | _ => None
  end.

(** polar_cartesian_transformation.hpp:38-62, [term_calculator<D, I>] for I = n + 2: the
    coordinates stored at the indices below I. *)
Fixpoint terms (from : rvec) (n : nat) (sum : R) : rvec :=
  match n with
  | O => [sum * cos (nth 1 from 0); sum * sin (nth 1 from 0)]
  | S n' => terms from n' (sum * sin (nth (S n) from 0)) ++ [sum * cos (nth (S n) from 0)]
  end.
(** polar_cartesian_transformation.hpp:78-88, [transform]; dimension 1 does not compile. *)
Definition polar_to_cartesian (from : rvec) : option rvec :=
  match length from with
  | S (S n) => Some (terms from n (nth 0 from 0))
  | _ => None
  end.

(** The frames of space/. *)
Inductive frame : Type := Cartesian | Polar | Neutral.
(** reference_frame_transformation.hpp:37-99 and the two headers above: the transformation used
    when an adaptor is built from or assigned an adaptor of another frame
    (primitive/point_traits.hpp:199-224, tensor/vector_traits.hpp:177-202). *)
Definition transform (origin destination : frame) (p : rvec) : option rvec :=
  match origin, destination with
  | Cartesian, Polar => cartesian_to_polar p
  | Polar, Cartesian => polar_to_cartesian p
  | _, _ => Some p
  end.
(** [transform_coordinate]: cartesian_polar_transformation.hpp:101-112,
    polar_cartesian_transformation.hpp:90-101, reference_frame_transformation.hpp:44-48; used by
    cartesian_access_traits.hpp:26-47 and polar_access_traits.hpp:43-64. *)
Definition transform_coordinate (origin destination : frame) (index : nat) (p : rvec) : option R :=
  match origin, destination with
  | Cartesian, Polar => match cartesian_to_polar p with Some s => nth_error s index | None => None end
  | Polar, Cartesian => match polar_to_cartesian p with Some s => nth_error s index | None => None end
  | _, _ => nth_error p index
  end.

(** Conversion of a real to an integer type, toward zero. *)
Definition to_int (x : R) : Z := if Rltb x 0 then (- Int_part (- x))%Z else Int_part x.
(** [transform] when the destination has integer coordinates: the state array
    (cartesian_polar_transformation.hpp:26-30) has the type of the destination's coordinates. *)
Definition cartesian_to_polar_int (from : list Z) : option (list Z) :=
  match cartesian_to_polar (map IZR from) with Some s => Some (map to_int s) | None => None end.
