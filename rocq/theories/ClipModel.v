(** Clipping a segment to a box.  Models algorithm/cohen_sutherland_line_clipping.hpp. *)
From Verif Require Import Base CmpModel BoxModel.

(** cohen_sutherland_line_clipping.hpp:20-57: a set of four flags, one bit each; the value
    "invalid" is never used. *)
Record out_code : Type := mkcode { oc_left : bool; oc_right : bool; oc_bottom : bool; oc_top : bool }.

(** cohen_sutherland_line_clipping.hpp:59-82; the window is the box [xmin,xmax] x [ymin,ymax]. *)
Definition compute_out_classification (cmp : policy) (p : pt) (w : box2) : out_code :=
  let left := less_than cmp (px p) (px (lb2 w)) in
  let bottom := less_than cmp (py p) (py (lb2 w)) in
  mkcode left (negb left && greater_than cmp (px p) (px (ub2 w)))
         bottom (negb bottom && greater_than cmp (py p) (py (ub2 w))).

(** [!(a | b)] and [a & b]. *)
Definition code_any (c : out_code) : bool := oc_left c || oc_right c || oc_bottom c || oc_top c.
Definition code_common (a b : out_code) : bool :=
  oc_left a && oc_left b || oc_right a && oc_right b || oc_bottom a && oc_bottom b || oc_top a && oc_top b.

(** What the loop can end in: accepted with the clipped ends, rejected (the ends keep
    whatever the loop made of them), a division by zero, or more passes than [fuel]. *)
Inductive clip_result : Type :=
| Clipped (p q : pt)
| Rejected
| ClipUndefined
| ClipNoFuel.

(** cohen_sutherland_line_clipping.hpp:120-144: the point in which the line through p0 and p1
    leaves the side of the window named by the code; [None]: division by zero. *)
Definition clip_point (w : box2) (c : out_code) (p0 p1 : pt) : option pt :=
  let x0 := px p0 in let y0 := py p0 in let x1 := px p1 in let y1 := py p1 in
  if oc_top c then
    if Qeqb (y1 - y0) 0 then None else Some (mkpt (x0 + (x1 - x0) * (py (ub2 w) - y0) / (y1 - y0)) (py (ub2 w)))
  else if oc_bottom c then
    if Qeqb (y1 - y0) 0 then None else Some (mkpt (x0 + (x1 - x0) * (py (lb2 w) - y0) / (y1 - y0)) (py (lb2 w)))
  else if oc_right c then
    if Qeqb (x1 - x0) 0 then None else Some (mkpt (px (ub2 w)) (y0 + (y1 - y0) * (px (ub2 w) - x0) / (x1 - x0)))
  else
    if Qeqb (x1 - x0) 0 then None else Some (mkpt (px (lb2 w)) (y0 + (y1 - y0) * (px (lb2 w) - x0) / (x1 - x0))).

(** cohen_sutherland_line_clipping.hpp:98-161.  The outside point is p0 when its code is not
    empty; the test "code of the outside point equals code 0" at 148 then picks p0, and
    p1 otherwise (its code is not empty, that of p0 is). *)
Fixpoint clip_loop (cmp : policy) (w : box2) (fuel : nat) (p0 p1 : pt) : clip_result :=
  let c0 := compute_out_classification cmp p0 w in
  let c1 := compute_out_classification cmp p1 w in
  match fuel with
  | O => ClipNoFuel
  | S fuel' =>
    if negb (code_any c0 || code_any c1) then Clipped p0 p1
    else if code_common c0 c1 then Rejected
    else if code_any c0 then
      match clip_point w c0 p0 p1 with
      | None => ClipUndefined
      | Some p => clip_loop cmp w fuel' p p1
      end
    else
      match clip_point w c1 p0 p1 with
      | None => ClipUndefined
      | Some p => clip_loop cmp w fuel' p0 p
      end
  end.
Definition cohen_sutherland_line_clip (cmp : policy) (fuel : nat) (p0 p1 : pt) (w : box2) : clip_result :=
  clip_loop cmp w fuel p0 p1.
