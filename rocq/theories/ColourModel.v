(** Random indices and integers, and colours from hue, saturation and value.  Models utility/random_generator.hpp and
    utility/golden_ratio_color_generator.hpp. *)
From Coq Require Import ZArith.
From Verif Require Import Base.
From Coq Require Import Qround.

(** boost::uniform_int<std::size_t>(lo, hi): some value of the closed range (which one depends on the engine and its seed). *)
Definition uniform_int (lo hi x : Z) : Prop := (lo <= x <= hi)%Z.
(** random_generator.hpp:18-35: a value that operator() can return. *)
Definition random_index (maxIndex x : Z) : Prop := uniform_int 0 maxIndex x.
(** random_generator.hpp:103-109: a position that random_element can return for a range of [size] elements; position
    [size] is the end of the range; beyond it std::advance is undefined ([None]). *)
Definition random_element (size maxIndex : Z) (r : option Z) : Prop :=
  exists x, random_index maxIndex x /\ r = if (x <=? size)%Z then Some x else None.
(** random_generator.hpp:69-78: [None] is the division by zero. *)
Definition size_max : Z := 18446744073709551615.
Definition random_integer (N : Z) (r : option Z) : Prop :=
  exists x, uniform_int 0 size_max x /\ r = if (N =? 0)%Z then None else Some (x mod N)%Z.

(** Conversion of a floating point number to std::uint8_t: truncation; undefined when that is no value of the type. *)
Definition truncate (x : Q) : Z := if Qleb 0 x then Qfloor x else (- Qfloor (- x))%Z.
Definition to_uint8 (x : Q) : option Z := let t := truncate x in if (0 <=? t)%Z && (t <=? 255)%Z then Some t else None.
(** golden_ratio_color_generator.hpp:22-43, exact numbers instead of float; int is taken wide enough for the hue. *)
Definition hsv2rgb (h s v : Q) : option (Z * Z * Z * Z) :=
  let i := Qfloor (h * 6) in
  let f := h * 6 - inject_Z i in
  let p := v * (1 - s) in
  let q := v * (1 - f * s) in
  let t := v * (1 - (1 - f) * s) in
  let '(r, g, b) :=
    match Z.rem i 6 with
    | 0%Z => (v, t, p)
    | 1%Z => (q, v, p)
    | 2%Z => (p, v, t)
    | 3%Z => (p, q, v)
    | 4%Z => (t, p, v)
    | 5%Z => (v, p, q)
    | _ => (0, 0, 0)
    end in
  match to_uint8 (r * 255), to_uint8 (g * 255), to_uint8 (b * 255) with
  | Some r', Some g', Some b' => Some (255%Z, r', g', b')
  | _, _, _ => None
  end.
