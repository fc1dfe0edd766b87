(** Angles, rotations and directions in the plane, and spherical interpolation, over the reals.
    Models utility/utilities.hpp (angles), algorithm/rotation.hpp and arithmetic/vector/
    {bisect,is_antiparallel,lerp,slerp}.hpp. *)
From Verif Require Import RBase.

(** utility/utilities.hpp:81-97, [normalize_angle_0_2pi] ([std::floor] is [Int_part]). *)
Definition normalize_angle_0_2pi (angle : R) : R :=
  let twoPI := 2 * PI in
  if Rltb twoPI angle || Rltb angle 0 then
    let n := IZR (Int_part (angle / twoPI)) in
    let angle := if negb (Reqb n 0) then angle - twoPI * n else angle in
    if Rltb twoPI angle then angle - twoPI
    else if Rltb angle 0 then angle + twoPI
    else angle
  else angle.
(** utility/utilities.hpp:109-121, [normalize_angle_minus_pi_to_pi]. *)
Definition normalize_angle_minus_pi_to_pi (angle : R) : R :=
  let angle := normalize_angle_0_2pi angle in
  if Rltb PI angle then angle - 2 * PI
  else if Rleb angle (- PI) then angle + 2 * PI
  else angle.

(** [std::atan2] without signed zeros. *)
Definition atan2 (y x : R) : R :=
  if Rltb 0 x then atan (y / x)
  else if Rltb x 0 then (if Rleb 0 y then atan (y / x) + PI else atan (y / x) - PI)
  else if Rltb 0 y then PI / 2
  else if Rltb y 0 then - (PI / 2)
  else 0.

(** Points and vectors of the plane. *)
Definition plane : Type := (R * R)%type.
Definition p_sub (a b : plane) : plane := (fst a - fst b, snd a - snd b).
Definition p_add (a b : plane) : plane := (fst a + fst b, snd a + snd b).
Definition p_scale (k : R) (a : plane) : plane := (k * fst a, k * snd a).
Definition p_neg (a : plane) : plane := (- fst a, - snd a).
Definition p_dot (a b : plane) : R := fst a * fst b + snd a * snd b.
(** algebra/exterior_product.hpp:79-85, [exterior_product_area]. *)
Definition p_cross (a b : plane) : R := fst a * snd b - snd a * fst b.
Definition p_norm (a : plane) : R := sqrt (p_dot a a).
(** arithmetic/vector/normalize.hpp:33-45. *)
Definition p_normalize (a : plane) : plane := p_scale (1 / p_norm a) a.

(** utility/utilities.hpp:70-78, [vector_angle]. *)
Definition vector_angle (v : plane) : R := atan2 (snd v) (fst v).
(** utility/utilities.hpp:41-55, [angle_from_a_to_b]. *)
Definition angle_from_a_to_b (A B : plane) : R := atan2 (snd B - snd A) (fst B - fst A).

(** algorithm/rotation.hpp:23-34, [make_rotation_matrix]: the two rows. *)
Definition matrix2 : Type := (plane * plane)%type.
Definition make_rotation_matrix (v1 v2 : plane) : matrix2 :=
  let cosa := p_dot v1 v2 in let sina := p_cross v1 v2 in
  ((cosa, - sina), (sina, cosa)).
Definition mat_vec (m : matrix2) (v : plane) : plane := (p_dot (fst m) v, p_dot (snd m) v).
(** rotation.hpp:36-46, [rotate_point]. *)
Definition rotate_point (p : plane) (rot : matrix2) (origin : plane) : plane :=
  p_add (mat_vec rot (p_sub p origin)) origin.
(** rotation.hpp:48-58, [rotate_vector]. *)
Definition rotate_vector (v : plane) (rot : matrix2) : plane := mat_vec rot v.
(** rotation.hpp:60-70, [rotate_points]. *)
Definition rotate_points (poly : list plane) (v1 v2 origin : plane) : list plane :=
  let rot := make_rotation_matrix v1 v2 in
  map (fun p => p_add (mat_vec rot (p_sub p origin)) origin) poly.
(** rotation.hpp:72-81 and 83-88, [rotate_translate_points]. *)
Definition rotate_translate_points (poly : list plane) (rot : matrix2) (translation origin : plane) : list plane :=
  map (fun p => p_add (p_add (mat_vec rot (p_sub p origin)) origin) translation) poly.

(** arithmetic/vector/perp.hpp:54-61, [right_normal]. *)
Definition right_normal (v : plane) : plane := (snd v, - fst v).
(** arithmetic/vector/bisect.hpp:30-51.  [get_orientation(lo, hi)] is [oriented_right] when the
    exterior product is negative. *)
Definition bisect (lo hi : plane) : plane :=
  let nlo := p_normalize lo in
  let nhi := p_normalize hi in
  let dp := p_dot nlo nhi in
  if Rltb (-1) dp && Rltb dp 1 then
    if negb (Rltb (p_cross lo hi) 0) then p_normalize (p_scale (1 / 2) (p_add lo hi))
    else p_normalize (p_scale (1 / 2) (p_sub (p_neg lo) hi))
  else if Reqb dp (-1) then right_normal nhi
  else p_neg hi.
(** bisect.hpp:55-66, [bisect_not_antiparallel]. *)
Definition bisect_not_antiparallel (lo hi : plane) : plane :=
  if negb (Rltb (p_cross lo hi) 0) then p_normalize (p_scale (1 / 2) (p_add lo hi))
  else p_normalize (p_scale (1 / 2) (p_sub (p_neg lo) hi)).

(** arithmetic/vector/is_antiparallel.hpp:21-26, any dimension. *)
Definition is_antiparallel (cmp : rpolicy) (u v : rvec) : bool :=
  req cmp (rdot (rnormalize u) (rnormalize v)) (-1).
(** arithmetic/vector/lerp.hpp:26-30, any dimension. *)
Definition vector_lerp (u v : rvec) (t : R) : rvec := rnormalize (radd u (rscale t (rsub v u))).
(** arithmetic/vector/slerp.hpp:27-48, any dimension; [None]: division by zero.  (The header
    lacks a [typename] and is accepted by some compilers only.) *)
Definition slerp (u v : rvec) (t : R) : option rvec :=
  let d := rdot u v in
  if Rltb d 1 then
    let theta := acos d in
    if Reqb (sin theta) 0 then None
    else
      let rSinTheta := 1 / sin theta in
      Some (radd (rscale (sin ((1 - t) * theta)) (rscale rSinTheta u)) (rscale (sin (t * theta)) (rscale rSinTheta v)))
  else Some (rnormalize (radd u (rscale t (rsub v u)))).
