(** Uniform grids on IEEE doubles.  Models algorithm/grid_traits.hpp and algorithm/grid_2d.hpp instantiated
    with double; the arithmetic is that of FloatModel. *)
From Coq Require Import Floats ZArith List Bool.
From Verif Require Import FloatPolyModel.
Import ListNotations.
Local Open Scope float_scope.

(** The integer part, toward zero. *)
Definition ftrunc (v : float) : Z :=
  match Prim2SF v with
  | S754_finite s m e =>
    let n := (if (0 <=? e)%Z then Zpos m * 2 ^ e else Zpos m / 2 ^ (- e))%Z in if s then (- n)%Z else n
  | _ => 0%Z
  end.
(** Conversion of a double to [uint32_t]: outside (-1, 2^32), and for NaN, the [static_cast] is undefined and
    [boost::numeric_cast] throws ([None]). *)
Definition fto_uint32 (v : float) : option Z := if (-1 <? v) && (v <? 4294967296) then Some (ftrunc v) else None.

(** grid_traits.hpp:156-166, the data members. *)
Record fgrid : Type := mkfgrid {
  h_xmin : float; h_xmax : float; h_ymin : float; h_ymax : float; h_width : float; h_divisor : float; h_nx : Z; h_ny : Z }.
(** grid_traits.hpp:36-64, both constructors.  The preconditions 0 < cellWidth, xmin < xmax and ymin < ymax
    are only asserted.  The addition of 1 is that of [uint32_t]. *)
Definition make_fgrid (xmin xmax ymin ymax w : float) : option fgrid :=
  let d := 1 / w in
  match fto_uint32 ((xmax - xmin) * d), fto_uint32 ((ymax - ymin) * d) with
  | Some nx, Some ny => Some (mkfgrid xmin xmax ymin ymax w d ((nx + 1) mod 2 ^ 32) ((ny + 1) mod 2 ^ 32))
  | _, _ => None
  end.
(** grid_traits.hpp:72-82. *)
Definition fx_index (g : fgrid) (x : float) : option Z := fto_uint32 ((x - h_xmin g) * h_divisor g).
Definition fy_index (g : fgrid) (y : float) : option Z := fto_uint32 ((y - h_ymin g) * h_divisor g).
(** grid_traits.hpp:87-92. *)
Definition fcontained (g : fgrid) (p : fpt) : bool :=
  (h_xmin g <=? fx p) && (fx p <=? h_xmax g) && (h_ymin g <=? fy p) && (fy p <=? h_ymax g).
(** The double of an unsigned integer; [i] below 2^32 is exact. *)
Definition of_index (i : Z) : float := PrimFloat.of_uint63 (Uint63.of_Z i).
(** grid_traits.hpp:94-97; [i + 0.5] is computed on doubles. *)
Definition fcell_centroid (g : fgrid) (i j : Z) : fpt :=
  mkfpt (h_xmin g + (of_index i + 0x1p-1) * h_width g) (h_ymin g + (of_index j + 0x1p-1) * h_width g).
(** grid_traits.hpp:109-117, the lower and the upper corner; [i + 1] is that of [uint32_t]. *)
Definition fcell_aabb (g : fgrid) (i j : Z) : fpt * fpt :=
  (mkfpt (h_xmin g + of_index i * h_width g) (h_ymin g + of_index j * h_width g),
   mkfpt (h_xmin g + of_index ((i + 1) mod 2 ^ 32) * h_width g) (h_ymin g + of_index ((j + 1) mod 2 ^ 32) * h_width g)).

(** ** grid_2d *)
Section Dense.
Variable D : Type.
(** grid_2d.hpp:31-34 and 75-76: the columns of a [boost::multi_array]; the cells are value-initialised. *)
Definition fdense_new (g : fgrid) (d0 : D) : list (list D) := repeat (repeat d0 (Z.to_nat (h_ny g))) (Z.to_nat (h_nx g)).
(** grid_2d.hpp:37-43 and 52-58: an undefined index or one outside the array is undefined ([None]). *)
Definition fget_cell (g : fgrid) (cells : list (list D)) (p : fpt) : option D :=
  match fx_index g (fx p), fy_index g (fy p) with
  | Some i, Some j => match nth_error cells (Z.to_nat i) with Some column => nth_error column (Z.to_nat j) | None => None end
  | _, _ => None
  end.
End Dense.
