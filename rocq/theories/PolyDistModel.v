(** Distance between two polylines and between two polygons by branch and bound over
    index ranges.  Models algorithm/distance/polyline_polyline_distance.hpp,
    polygon_polygon_distance.hpp, polyline_polyline_closest_point.hpp and
    polygon_polygon_closest_point.hpp. *)
From Verif Require Import Base CmpModel BoxModel DistModel.

(** [std::tuple<std::size_t, std::size_t>]: first and last point index. *)
Definition range : Type := nat * nat.

(** polyline_polyline_distance.hpp:101-105, the [split] lambda. *)
Definition split_range (r : range) : range * range :=
  let m := ((snd r + fst r) / 2)%nat in ((fst r, m), (m, snd r)).

(** The loop [for (i = lo, j = lo + 1; j <= hi; ++i, ++j)] over a sub-range, [n] = hi - lo
    steps: polyline_polyline_distance.hpp:49-50, 83-84.  Reading past the end is
    undefined ([None]). *)
Fixpoint sub_edges_from (ps : list pt) (i n : nat) : option (list (nat * (pt * pt))) :=
  match n with
  | O => Some []
  | S n' =>
    match nth_error ps i, nth_error ps (S i), sub_edges_from ps (S i) n' with
    | Some a, Some b, Some es => Some ((i, (a, b)) :: es)
    | _, _, _ => None
    end
  end.
Definition sub_edges (ps : list pt) (r : range) : option (list (nat * (pt * pt))) :=
  sub_edges_from ps (fst r) (snd r - fst r).

(** [std::min] with infinity as [None]. *)
Definition min_inf (a b : option Q) : option Q :=
  match b with None => a | Some d => take_min a d end.

(** polyline_polyline_distance.hpp:55-70 and 72-87, polygon_polygon_distance.hpp:57-71 and
    73-88: the double loop over two lists of edges.  Outer [None]: division by zero;
    inner [None]: infinity. *)
Fixpoint edges_edges_distance (cmp : policy) (best : option Q) (es1 es2 : list (nat * (pt * pt))) : option (option Q) :=
  match es1 with
  | [] => Some best
  | (_, (A, B)) :: es =>
    match segment_edges_distance cmp A B None es2 with
    | None => None
    | Some d => edges_edges_distance cmp (min_inf best d) es es2
    end
  end.

(** polyline_polyline_closest_point.hpp:32-61 and 63-92 (polygons: 32-62 and 64-93): the
    same loop, also recording both segment indices, the parameters and the points. *)
Definition pair_hit : Type := nat * nat * ssc.
Definition hit_d2 (h : pair_hit) : Q := ss_d2 (snd h).
Fixpoint edges_edges_closest (cmp : policy) (best : option pair_hit) (es1 es2 : list (nat * (pt * pt))) : option (option pair_hit) :=
  match es1 with
  | [] => Some best
  | (i, (A, B)) :: es =>
    match segment_edges_closest cmp A B None es2 with
    | None => None
    | Some None => edges_edges_closest cmp best es es2
    | Some (Some (j, r)) =>
      let best' := if less_inf (ss_d2 r) (match best with None => None | Some h => Some (hit_d2 h) end)
                   then Some (i, j, r) else best in
      edges_edges_closest cmp best' es es2
    end
  end.

(** axis_aligned_bounding_box.hpp:331-341 and 362-372: the planar box of a point sequence or
    of an inclusive index range of it; [HI] and [LO] are the extreme values of the
    coordinate type. *)
Definition to_coords (p : pt) : coords := [px p; py p].
Definition box_of_bounds (b : list (Q * Q)) : option box2 :=
  match b with
  | [(xl, xh); (yl, yh)] => Some (mkbox2 (mkpt xl yl) (mkpt xh yh))
  | _ => None
  end.
Definition whole_box (cmp : policy) (HI LO : Q) (ps : list pt) : option box2 :=
  box_of_bounds (get_bounds cmp HI LO 2 (map to_coords ps)).
Definition range_box (cmp : policy) (HI LO : Q) (ps : list pt) (r : range) : option box2 :=
  match get_bounds_range cmp HI LO 2 (map to_coords ps) (fst r) (snd r) with
  | None => None
  | Some b => box_of_bounds b
  end.

(** A work item: two ranges and the squared distance of their boxes
    (polyline_polyline_distance.hpp:98-99). *)
Record item : Type := mkitem { it1 : range; it2 : range; it_d2 : Q }.

(** What a run of the loop can end in. *)
Inductive run (A : Type) : Type :=
| Done (a : A)
| Undefined
| NoFuel.
Arguments Done {A} _.
Arguments Undefined {A}.
Arguments NoFuel {A}.

(** [std::priority_queue] with the greater-than comparison of the third component
    (polyline_polyline_distance.hpp:107-112) is modelled by a list and a function [pop]
    giving the top element and the remaining ones.  Any [pop] that returns an element of
    least [it_d2] and leaves the others will do ([heap_pop] in the specification), so
    the order in which ties are broken is left open. *)
Section Search.
Variable O : Type.
Variable pop : list item -> option (item * list item).
(** What a pair of small ranges contributes: distance and outputs. *)
Variable leaf : range -> range -> option (option (Q * O)).
Variable box1 box2 : range -> option BoxModel.box2.

(** polyline_polyline_distance.hpp:144-158: [if (d2 <= minDist2) Q.emplace(...)]. *)
Definition push (best : Q) (r1 r2 : range) (d2 : Q) (q : list item) : list item :=
  if Qleb d2 best then mkitem r1 r2 d2 :: q else q.

(** polyline_polyline_distance.hpp:117-159, the loop; [fuel] bounds the number of iterations.
    Ranges satisfy lo <= hi, so the unsigned subtraction is that of [nat]. *)
Fixpoint search (fuel : nat) (q : list item) (best : Q) (out : option O) : run (Q * option O) :=
  match fuel with
  | 0%nat => NoFuel
  | S fuel' =>
    match pop q with
    | None => Done (best, out)
    | Some (mkitem r1 r2 d2, q') =>
      if Qgeb d2 best then Done (best, out)
      else if Nat.ltb (snd r1 - fst r1) 5 || Nat.ltb (snd r2 - fst r2) 5 then
        match leaf r1 r2 with
        | None => Undefined
        | Some None => search fuel' q' best out
        | Some (Some (d, o)) => if Qltb d best then search fuel' q' d (Some o) else search fuel' q' best out
        end
      else
        let (r1A, r1B) := split_range r1 in
        let (r2A, r2B) := split_range r2 in
        match box1 r1A, box1 r1B, box2 r2A, box2 r2B with
        | Some b1A, Some b1B, Some b2A, Some b2B =>
          let q1 := push best r1A r2A (aabb_aabb_distance_sqrd b1A b2A) q' in
          let q2 := push best r1A r2B (aabb_aabb_distance_sqrd b1A b2B) q1 in
          let q3 := push best r1B r2A (aabb_aabb_distance_sqrd b1B b2A) q2 in
          let q4 := push best r1B r2B (aabb_aabb_distance_sqrd b1B b2B) q3 in
          search fuel' q4 best out
        | _, _, _, _ => Undefined
        end
    end
  end.
End Search.
Arguments search {O} _ _ _ _ _ _ _ _.

(** The leaves of the two searches. *)
Definition distance_leaf (cmp : policy) (p1 p2 : list pt) (r1 r2 : range) : option (option (Q * unit)) :=
  match sub_edges p1 r1, sub_edges p2 r2 with
  | Some es1, Some es2 =>
    match edges_edges_distance cmp None es1 es2 with
    | None => None
    | Some None => Some None
    | Some (Some d) => Some (Some (d, tt))
    end
  | _, _ => None
  end.
Definition closest_leaf (cmp : policy) (p1 p2 : list pt) (r1 r2 : range) : option (option (Q * pair_hit)) :=
  match sub_edges p1 r1, sub_edges p2 r2 with
  | Some es1, Some es2 =>
    match edges_edges_closest cmp None es1 es2 with
    | None => None
    | Some None => Some None
    | Some (Some h) => Some (Some (hit_d2 h, h))
    end
  | _, _ => None
  end.

(** polyline_polyline_distance.hpp:92-115: the start of the search. *)
Definition search_all {O : Type} (pop : list item -> option (item * list item)) (cmp : policy) (HI LO : Q) (fuel : nat)
  (leaf : range -> range -> option (option (Q * O))) (p1 p2 : list pt) : run (Q * option O) :=
  match nth_error p1 0, nth_error p2 0, whole_box cmp HI LO p1, whole_box cmp HI LO p2 with
  | Some a, Some b, Some b1, Some b2 =>
    search pop leaf (range_box cmp HI LO p1) (range_box cmp HI LO p2) fuel
      [mkitem (0, length p1 - 1)%nat (0, length p2 - 1)%nat (aabb_aabb_distance_sqrd b1 b2)] (dist2 a b) None
  | _, _, _, _ => Undefined
  end.

Definition of_brute {A : Type} (r : option A) : run A := match r with None => Undefined | Some a => Done a end.
Definition small (p1 p2 : list pt) : bool := Nat.ltb (length p1) 6 || Nat.ltb (length p2) 6.

(** polyline_polyline_distance.hpp:89-162; infinity is [None]. *)
Definition polyline_polyline_distance_sqrd pop cmp HI LO fuel (p1 p2 : list pt) : run (option Q) :=
  if small p1 p2 then of_brute (edges_edges_distance cmp None (polyline_edges p1) (polyline_edges p2))
  else match search_all pop cmp HI LO fuel (distance_leaf cmp p1 p2) p1 p2 with
       | Done (d, _) => Done (Some d)
       | Undefined => Undefined
       | NoFuel => NoFuel
       end.
(** polygon_polygon_distance.hpp:90-165: as above; only the brute force loops treat the
    sequence as closed. *)
Definition polygon_polygon_distance_sqrd pop cmp HI LO fuel (p1 p2 : list pt) : run (option Q) :=
  if small p1 p2 then of_brute (edges_edges_distance cmp None (polygon_edges p1) (polygon_edges p2))
  else match search_all pop cmp HI LO fuel (distance_leaf cmp p1 p2) p1 p2 with
       | Done (d, _) => Done (Some d)
       | Undefined => Undefined
       | NoFuel => NoFuel
       end.

(** polyline_polyline_closest_point.hpp:94-186: the returned squared distance (infinity is
    [None]) and the assigned outputs ([None]: all six output parameters keep whatever
    value they had before the call). *)
Definition brute_closest (r : option (option pair_hit)) : run (option Q * option pair_hit) :=
  match r with
  | None => Undefined
  | Some None => Done (None, None)
  | Some (Some h) => Done (Some (hit_d2 h), Some h)
  end.
Definition polyline_polyline_closest_point pop cmp HI LO fuel (p1 p2 : list pt) : run (option Q * option pair_hit) :=
  if small p1 p2 then brute_closest (edges_edges_closest cmp None (polyline_edges p1) (polyline_edges p2))
  else match search_all pop cmp HI LO fuel (closest_leaf cmp p1 p2) p1 p2 with
       | Done (d, o) => Done (Some d, o)
       | Undefined => Undefined
       | NoFuel => NoFuel
       end.
(** polygon_polygon_closest_point.hpp:95-187. *)
Definition polygon_polygon_closest_point pop cmp HI LO fuel (p1 p2 : list pt) : run (option Q * option pair_hit) :=
  if small p1 p2 then brute_closest (edges_edges_closest cmp None (polygon_edges p1) (polygon_edges p2))
  else match search_all pop cmp HI LO fuel (closest_leaf cmp p1 p2) p1 p2 with
       | Done (d, o) => Done (Some d, o)
       | Undefined => Undefined
       | NoFuel => NoFuel
       end.

(** A priority queue that scans for the first least element; used for examples only. *)
Fixpoint scan_min (m : item) (acc l : list item) : item * list item :=
  match l with
  | [] => (m, rev acc)
  | x :: l' => if Qltb (it_d2 x) (it_d2 m) then scan_min x (m :: acc) l' else scan_min m (x :: acc) l'
  end.
Definition scan_pop (l : list item) : option (item * list item) :=
  match l with [] => None | x :: l' => Some (scan_min x [] l') end.
