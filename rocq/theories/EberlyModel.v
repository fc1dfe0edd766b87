(** The other distance of two segments of the plane.  Models
    algorithm/distance/eberly_segment_segment_distance.hpp. *)
From Verif Require Import Base DistModel.

(** Lines 121-129 (and 136-143, 152-159, 204-212): s is 1. *)
Definition on_s_one (b c e : Q) : option (Q * Q) :=
  let tmp := b + e in
  if Qgtb tmp 0 then Some (1, 0)
  else if Qgtb (- tmp) c then Some (1, 1)
  else match qdiv_opt (- tmp) c with Some t => Some (1, t) | None => None end.
(** Lines 163-186 (and 191-214, 224-248, 252-276): t is 1, or s is. *)
Definition on_t_one (a b c d e : Q) : option (Q * Q) :=
  let tmp := b + d in
  if Qltb (- tmp) a then
    if Qgtb tmp 0 then Some (0, 1)
    else match qdiv_opt (- tmp) a with Some s => Some (s, 1) | None => None end
  else
    let tmp2 := b + e in
    if Qltb (- tmp2) c then
      if Qgtb tmp2 0 then Some (1, 0)
      else match qdiv_opt (- tmp2) c with Some t => Some (1, t) | None => None end
    else Some (1, 1).
(** Lines 58-104, the lines are parallel. *)
Definition parallel_params (a b d : Q) : option (Q * Q) :=
  let last s :=
    let tmp := a + d in
    if Qgeb (- tmp) b then Some (s, 1)
    else match qdiv_opt (- tmp) b with Some t => Some (s, t) | None => None end in
  if Qgtb b 0 then
    if Qgeb d 0 then Some (0, 0)
    else if Qleb (- d) a then match qdiv_opt (- d) a with Some s => Some (s, 0) | None => None end
    else last 1
  else
    if Qgeb (- d) a then Some (1, 0)
    else if Qleb d 0 then match qdiv_opt (- d) a with Some s => Some (s, 0) | None => None end
    else last 0.
(** Lines 105-278. *)
Definition crossing_params (a b c d e det s t : Q) : option (Q * Q) :=
  if Qgeb s 0 then
    if Qleb s det then
      if Qgeb t 0 then
        if Qleb t det then match qdiv_opt 1 det with Some i => Some (s * i, t * i) | None => None end
        else on_s_one b c e
      else on_s_one b c e
    else
      if Qgeb t 0 then
        if Qleb t det then on_s_one b c e
        else on_t_one a b c d e
      else on_t_one a b c d e
  else
    if Qgeb t 0 then
      if Qleb t det then on_s_one b c e
      else on_t_one a b c d e
    else on_t_one a b c d e.
(** Lines 37-307.  [None]: a division by zero.  The branches of lines 280-306 choose between equal
    expressions for the end points; the model uses the last one. *)
Definition eberly_segment_segment_distance_sqrd (p1 p2 p3 p4 : pt) : option Q :=
  let v1 := vsub p2 p1 in
  let v2 := vsub p4 p3 in
  let a := dist2 p1 p2 in
  let b := dot (vneg v1) v2 in
  let c := dist2 p3 p4 in
  let vd := vsub p1 p3 in
  let d := dot v1 vd in
  let e := dot (vneg v2) vd in
  let det := cross v1 v2 in
  let s := b * e - c * d in
  let t := b * d - a * e in
  match (if Qeqb det 0 then parallel_params a b d else crossing_params a b c d e det s t) with
  | None => None
  | Some (s, t) =>
    let x := vsub (vadd p1 (vscale s v1)) (vadd p3 (vscale t v2)) in
    Some (dot x x)
  end.
