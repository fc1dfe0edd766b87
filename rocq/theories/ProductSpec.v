(** Specification of the products. *)
From Verif Require Import RBase ProductModel.

Definition v3_zero : v3 := mkv3 0 0 0.
Definition v3_add (a b : v3) : v3 := mkv3 (g0 a + g0 b) (g1 a + g1 b) (g2 a + g2 b).
Definition v3_scale (k : R) (a : v3) : v3 := mkv3 (k * g0 a) (k * g1 a) (k * g2 a).
Definition v3_len (a : v3) : R := sqrt (g0 a * g0 a + g1 a * g1 a + g2 a * g2 a).

(** Three vectors are in one plane through the origin: some combination of them with weights that are
    not all zero is the zero vector. *)
Definition coplanar (A B C : v3) : Prop :=
  exists a b c, ~ (a = 0 /\ b = 0 /\ c = 0) /\ v3_add (v3_scale a A) (v3_add (v3_scale b B) (v3_scale c C)) = v3_zero.

(** Two vectors are on one line through the origin. *)
Definition parallel2 (A B : R * R) : Prop :=
  exists a b, ~ (a = 0 /\ b = 0) /\ a * fst A + b * fst B = 0 /\ a * snd A + b * snd B = 0.
Definition parallel3 (A B : v3) : Prop :=
  exists a b, ~ (a = 0 /\ b = 0) /\ v3_add (v3_scale a A) (v3_scale b B) = v3_zero.

(** The square of the area of the parallelogram with the sides A and B. *)
Definition area2_sqr (A B : R * R) : R :=
  (fst A * fst A + snd A * snd A) * (fst B * fst B + snd B * snd B) - (fst A * fst B + snd A * snd B) * (fst A * fst B + snd A * snd B).
Definition area3_sqr (A B : v3) : R :=
  dot_product A A * dot_product B B - dot_product A B * dot_product A B.
