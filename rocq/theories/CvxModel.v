(** The common part of two convex polygons by advancing around both.  Models
    algorithm/intersection/convex_polygon_polygon_intersection.hpp. *)
From Verif Require Import Base CmpModel OrientModel LinIntModel PolygonModel.

(** convex_polygon_polygon_intersection.hpp:28-34; [vertex] is never returned. *)
Inductive polygon_intersection_type : Type := px_none | px_face | px_overlapping.
(** convex_polygon_polygon_intersection.hpp:49-54. *)
Inductive in_out_state : Type := pgon1_in | pgon2_in | in_unknown.
(** The calls made to the visitor, in order, and the type returned; [CxUndefined]: remainder by zero, a point
    index out of range or a division by zero. *)
Inductive cx_result : Type :=
| CxDone (t : polygon_intersection_type) (visited : list pt)
| CxUndefined
| CxNoFuel.
(** The variables of the loop, convex_polygon_polygon_intersection.hpp:58-62 and 69; [cx_out] are the points visited
    so far, the last one first. *)
Record cx_state : Type := mkcx { cx_a : nat; cx_b : nat; cx_aa : nat; cx_ba : nat; cx_in : in_out_state; cx_n : nat; cx_out : list pt }.

(** The comparisons of the enumerations. *)
Definition is_pgon1_in (s : in_out_state) : bool := match s with pgon1_in => true | _ => false end.
Definition is_pgon2_in (s : in_out_state) : bool := match s with pgon2_in => true | _ => false end.
Definition is_in_unknown (s : in_out_state) : bool := match s with in_unknown => true | _ => false end.
Definition cx_is_left (o : orientation_type) : bool := match o with oriented_left => true | _ => false end.
Definition cx_is_right (o : orientation_type) : bool := match o with oriented_right => true | _ => false end.
Definition cx_is_collinear (o : orientation_type) : bool := match o with oriented_collinear => true | _ => false end.

(** convex_polygon_polygon_intersection.hpp:57, [advance] (its [int n] is taken not to overflow) for the first and for the second polygon, after a
    call of the visitor for the points [vs] (counted). *)
Definition advance_a (n : nat) (vs : list pt) (s : cx_state) : cx_state :=
  mkcx ((cx_a s + 1) mod n) (cx_b s) (cx_aa s + 1) (cx_ba s) (cx_in s) (cx_n s + length vs) (rev vs ++ cx_out s).
Definition advance_b (m : nat) (vs : list pt) (s : cx_state) : cx_state :=
  mkcx (cx_a s) ((cx_b s + 1) mod m) (cx_aa s) (cx_ba s + 1) (cx_in s) (cx_n s + length vs) (rev vs ++ cx_out s).

(** convex_polygon_polygon_intersection.hpp:84-95: a crossing at [x]. *)
Definition record_crossing (aHB bHA : orientation_type) (x : pt) (s : cx_state) : cx_state :=
  let k := (cx_n s + 1)%nat in
  let reset := is_in_unknown (cx_in s) && Nat.eqb k 1 in
  mkcx (cx_a s) (cx_b s) (if reset then 0%nat else cx_aa s) (if reset then 0%nat else cx_ba s)
    (if cx_is_left aHB then pgon1_in else if cx_is_left bHA then pgon2_in else cx_in s) k (x :: cx_out s).

(** convex_polygon_polygon_intersection.hpp:104-154: [None] for the [return none] at :104-105.  [pa], [pb] are the
    points a and b. *)
Definition cx_advance (n m : nat) (AB aHB bHA : orientation_type) (pa pb : pt) (s : cx_state) : option cx_state :=
  if cx_is_collinear AB && cx_is_right aHB && cx_is_right bHA then None
  else if cx_is_collinear AB && cx_is_collinear aHB && cx_is_collinear bHA then
    Some (if is_pgon1_in (cx_in s) then advance_b m [] s else advance_a n [] s)
  else
    let step_a := advance_a n (if is_pgon1_in (cx_in s) then [pa] else []) s in
    let step_b := advance_b m (if is_pgon2_in (cx_in s) then [pb] else []) s in
    if negb (cx_is_right AB) then Some (if cx_is_left bHA then step_a else step_b)
    else Some (if cx_is_left aHB then step_b else step_a).

(** One turn of the loop, convex_polygon_polygon_intersection.hpp:72-154: the next state, or the result returned. *)
Definition cx_step (cmp : policy) (P Q : list pt) (s : cx_state) : cx_state + cx_result :=
  let n := length P in
  let m := length Q in
  let a1 := ((cx_a s + n - 1) mod n)%nat in
  let b1 := ((cx_b s + m - 1) mod m)%nat in
  match nth_error P a1, nth_error P (cx_a s), nth_error Q b1, nth_error Q (cx_b s) with
  | Some pa1, Some pa, Some pb1, Some pb =>
    let A := vsub pa pa1 in
    let B := vsub pb pb1 in
    let AB := get_orientation_v cmp A B in
    let aHB := get_orientation cmp pb1 pb pa in
    let bHA := get_orientation cmp pa1 pa pb in
    let go s :=
      match cx_advance n m AB aHB bHA pa pb s with
      | None => inr (CxDone px_none (rev (cx_out s)))
      | Some s => inl s
      end in
    match segment_segment_intersection cmp pa1 pa pb1 pb with
    | None => inr CxUndefined
    | Some (ty, pts) =>
      match ty, pts with
      | e_crossing, x :: _ | e_endpoint, x :: _ => go (record_crossing aHB bHA x s)
      | e_overlapping, x0 :: x1 :: _ =>
        if Qltb (dot A B) 0 then inr (CxDone px_face (rev (x1 :: x0 :: cx_out s))) else go s
      | _, _ => go s
      end
    end
  | _, _, _, _ => inr CxUndefined
  end.

(** convex_polygon_polygon_intersection.hpp:163-164 and 169-170, [for (i = 0; i < m; ++i) visitor(get_point(i))]: the first [m] points, [None] if there are fewer. *)
Definition first_points (m : nat) (P : list pt) : option (list pt) := if Nat.leb m (length P) then Some (firstn m P) else None.

(** convex_polygon_polygon_intersection.hpp:157-175, without the assertion at :159; point_in_polygon is the
    model of PolygonModel. *)
Definition cx_finish (P Q : list pt) (s : cx_state) : cx_result :=
  let m := length Q in
  let last := CxDone (if Nat.eqb (cx_n s) 0 then px_none else px_overlapping) (rev (cx_out s)) in
  if is_in_unknown (cx_in s) then
    match P, Q with
    | p0 :: _, q0 :: _ =>
      if point_in_polygon p0 Q then
        match first_points m P with Some l => CxDone px_overlapping (rev (cx_out s) ++ l) | None => CxUndefined end
      else if point_in_polygon q0 P then
        match first_points m Q with Some l => CxDone px_overlapping (rev (cx_out s) ++ l) | None => CxUndefined end
      else last
    | _, _ => CxUndefined
    end
  else last.

(** convex_polygon_polygon_intersection.hpp:70-155. *)
Fixpoint cx_loop (cmp : policy) (P Q : list pt) (fuel : nat) (s : cx_state) : cx_result :=
  match fuel with
  | O => CxNoFuel
  | S fuel' =>
    match cx_step cmp P Q s with
    | inr r => r
    | inl s =>
      let n := length P in
      let m := length Q in
      if (Nat.ltb (cx_aa s) n || Nat.ltb (cx_ba s) m) && Nat.ltb (cx_aa s) (n * 2) && Nat.ltb (cx_ba s) (m * 2)
      then cx_loop cmp P Q fuel' s
      else cx_finish P Q s
    end
  end.

(** convex_polygon_polygon_intersection.hpp:36-176; no point at all is the remainder by zero at :72-73. *)
Definition convex_polygon_polygon_intersection (cmp : policy) (fuel : nat) (P Q : list pt) : cx_result :=
  match P, Q with
  | [], _ | _, [] => CxUndefined
  | _, _ => cx_loop cmp P Q fuel (mkcx 0 0 0 0 in_unknown 0 [])
  end.
