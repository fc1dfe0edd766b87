(** Specification for grids on doubles. *)
From Coq Require Import Reals Floats.
From Verif Require Import FloatModel FloatSpec FloatPolyModel FloatPolySpec FloatGridModel.
Local Open Scope R_scope.

(** The asserted preconditions of the constructors, and what they returned. *)
Definition built (xmin xmax ymin ymax w : float) (g : fgrid) : Prop :=
  finite xmin /\ finite xmax /\ finite ymin /\ finite ymax /\ finite w /\
  val xmin < val xmax /\ val ymin < val ymax /\ 0 < val w /\ make_fgrid xmin xmax ymin ymax w = Some g.
(** [p] has no coordinate outside the box with corners [lo] and [hi]. *)
Definition inside_box (lo hi p : fpt) : Prop :=
  val (fx lo) <= val (fx p) <= val (fx hi) /\ val (fy lo) <= val (fy p) <= val (fy hi).
