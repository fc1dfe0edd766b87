(** Length and direction of vectors of IEEE doubles in the plane.  Models arithmetic/vector/magnitude.hpp and
    normalize.hpp instantiated with double; the arithmetic is that of FloatModel. *)
From Coq Require Import Floats.
From Verif Require Import FloatPolyModel.
Local Open Scope float_scope.

(** magnitude.hpp:72-83 and 117-122, [magnitude_sqrd] in the plane; the two components are those of [fpt]. *)
Definition fmagnitude_sqrd (v : fpt) : float := fx v * fx v + fy v * fy v.
(** magnitude.hpp:125-131, [magnitude]. *)
Definition fmagnitude (v : fpt) : float := sqrt (fmagnitude_sqrd v).
(** normalize.hpp:36-49, [normalize]: the assertion that the length is not zero fails ([None]), or the vector is
    multiplied by the reciprocal. *)
Definition fnormalize (v : fpt) : option fpt :=
  if fmagnitude v =? 0 then None
  else let factor := 1 / fmagnitude v in Some (mkfpt (fx v * factor) (fy v * factor)).
