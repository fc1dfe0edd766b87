(** Products of vectors over the reals: algebra/exterior_product.hpp, algebra/vector_projection.hpp. *)
From Verif Require Import RBase.

(** A vector of space by its coordinates. *)
Record v3 : Type := mkv3 { g0 : R; g1 : R; g2 : R }.

(** algebra/functions/cross_product.hpp:51-150, the coordinates of [A ^ B]. *)
Definition cross_product (A B : v3) : v3 :=
  mkv3 (g1 A * g2 B - g2 A * g1 B) (g2 A * g0 B - g0 A * g2 B) (g0 A * g1 B - g1 A * g0 B).
(** algebra/dot_product.hpp:20-39, dimension 3. *)
Definition dot_product (A B : v3) : R := g0 A * g0 B + g1 A * g1 B + g2 A * g2 B.

(** algebra/exterior_product.hpp:63-76: [exterior_product_area] of vectors of space (through :97-102). *)
Definition exterior_product_area3 (A B : v3) : R :=
  (g1 A * g2 B - g2 A * g1 B) - (g0 A * g2 B - g2 A * g0 B) + (g0 A * g1 B - g1 A * g0 B).
(** algebra/exterior_product.hpp:78-86: [exterior_product_area] of vectors of the plane. *)
Definition exterior_product_area2 (A B : R * R) : R := fst A * snd B - snd A * fst B.
(** algebra/exterior_product.hpp:88-97 and :104-110, [exterior_product_volume]. *)
Definition exterior_product_volume (A B C : v3) : R := dot_product (cross_product A B) C.

(** algebra/vector_projection.hpp:31-40, any dimension.  [None]: [normalize] divides by zero
    (arithmetic/vector/normalize.hpp:33-45 asserts that it does not).  [scalar_projection]
    (algebra/dot_product.hpp:41-60) is the dot product. *)
Definition vector_projection (v1 v2 : rvec) : option rvec :=
  if Reqb (rnorm v2) 0 then None
  else
    let vp := rnormalize v2 in
    let a := rdot v1 vp in
    Some (rscale a vp).
