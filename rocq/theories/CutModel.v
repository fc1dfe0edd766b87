(** A polygon in space cut by a plane.  Models the polygon overload of split_simplex of
    algorithm/solid_leaf_bsp_tree.hpp and algorithm/classify_simplex_to_plane.hpp, for exact numbers and direct comparison. *)
From Verif Require Import Base DistModel BoxIntModel.
From Verif Require SolidModel.
Import SolidModel(plane_orientation(..)).

(** primitive/plane.hpp: the normal (of length 1 in the code; only signs and quotients of the values below are used) and
    the distance to the origin. *)
Record plane3 : Type := mkplane3 { pl_normal : pt3; pl_dist : Q }.

(** classify_simplex_to_plane.hpp:25-44. *)
Definition classify_point_to_plane (p : pt3) (pl : plane3) : plane_orientation :=
  let dist := dot3 p (pl_normal pl) - pl_dist pl in
  if Qltb 0 dist then in_front_of_plane else if Qltb dist 0 then in_back_of_plane else coplanar_with_plane.

(** classify_simplex_to_plane.hpp:48-86. *)
Definition count_side (o : plane_orientation) (ps : list pt3) (pl : plane3) : nat :=
  length (filter (fun p => match classify_point_to_plane p pl, o with
    | in_front_of_plane, in_front_of_plane => true | in_back_of_plane, in_back_of_plane => true | _, _ => false end) ps).
Definition classify_simplex_to_plane (ps : list pt3) (pl : plane3) : plane_orientation :=
  let numInFront := count_side in_front_of_plane ps pl in
  let numBehind := count_side in_back_of_plane ps pl in
  if negb (Nat.eqb numBehind 0) && negb (Nat.eqb numInFront 0) then straddling_plane
  else if negb (Nat.eqb numInFront 0) then in_front_of_plane
  else if negb (Nat.eqb numBehind 0) then in_back_of_plane
  else coplanar_with_plane.

(** solid_leaf_bsp_tree.hpp:160-162, 175-177: the point written by segment_plane_intersection; [None] when there is none (the
    assertion fails) or the division is by zero. *)
Definition crossing_point (b a : pt3) (pl : plane3) : option pt3 :=
  match segment_plane_intersection b a (pl_normal pl) (pl_dist pl) with
  | Some (true, _, Some x) => Some x
  | _ => None
  end.
(** solid_leaf_bsp_tree.hpp:150-196, one turn of the loop: the vertices pushed to the front list and to the back list. *)
Definition split_edge (pl : plane3) (a : pt3) (aSide : plane_orientation) (b : pt3) (bSide : plane_orientation) : option (list pt3 * list pt3) :=
  match bSide with
  | in_front_of_plane =>
    match aSide with
    | in_back_of_plane => match crossing_point b a pl with None => None | Some x => Some ([x; b], [x]) end
    | _ => Some ([b], [])
    end
  | in_back_of_plane =>
    match aSide with
    | in_front_of_plane => match crossing_point b a pl with None => None | Some x => Some ([x], [x; b]) end
    | coplanar_with_plane => Some ([], [a; b])
    | _ => Some ([], [b])
    end
  | _ =>
    match aSide with
    | in_back_of_plane => Some ([b], [b])
    | _ => Some ([b], [])
    end
  end.
(** solid_leaf_bsp_tree.hpp:149-200. *)
Fixpoint split_loop (pl : plane3) (a : pt3) (aSide : plane_orientation) (ps : list pt3) : option (list pt3 * list pt3) :=
  match ps with
  | [] => Some ([], [])
  | b :: ps' =>
    let bSide := classify_point_to_plane b pl in
    match split_edge pl a aSide b bSide with
    | None => None
    | Some (fs, bs) =>
      match split_loop pl b bSide ps' with
      | None => None
      | Some (fs', bs') => Some (fs ++ fs', bs ++ bs')
      end
    end
  end.
(** solid_leaf_bsp_tree.hpp:136-205: front polygon and back polygon.  A polygon without vertices has no last vertex. *)
Definition split_polygon (ps : list pt3) (pl : plane3) : option (list pt3 * list pt3) :=
  match ps with
  | [] => None
  | p :: _ => let a := last ps p in split_loop pl a (classify_point_to_plane a pl) ps
  end.
