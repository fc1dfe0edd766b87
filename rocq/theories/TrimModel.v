(** Splitting a polyline at its self-intersections and dropping the parts that meet another
    polyline: the second half of [liu_polyline_offset],
    algorithm/point_sequence/polyline_offset.hpp:130-298.  (The first half, the untrimmed offset,
    is in OffsetModel.v.)  [None]: a point index out of range, an empty [std::set] dereferenced,
    or a division by zero. *)
From Verif Require Import Base CmpModel DistModel LinIntModel PolygonModel PlanarModel.

(** A place on a polyline where it is to be cut: the index of the side, and the point. *)
Definition cut : Type := (nat * pt)%type.

(** polyline_offset.hpp:137-148, [point_closer_to_vertex_cmp::operator()]: by side, then by the
    squared distance from the side's first point.  Exact comparison ([<] in the code).  Line 146
    reads the point at the side's index; an index out of range does not occur in the calls
    modelled here and reads the default point. *)
Definition d2 (a b : pt) : Q := (px a - px b) * (px a - px b) + (py a - py b) * (py a - py b).
Definition cut_less (ps : list pt) (l r : cut) : bool :=
  let (il, xl) := l in
  let (ir, xr) := r in
  if negb (Nat.eqb il ir) then Nat.ltb il ir
  else let p := nth il ps (mkpt 0 0) in Qltb (d2 p xl) (d2 p xr).

(** [std::set::insert] with that order (lines 153-154), the set as the list of its elements in
    order: an element equivalent to one present is not inserted. *)
Fixpoint set_insert (ps : list pt) (c : cut) (s : list cut) : list cut :=
  match s with
  | [] => [c]
  | h :: s' => if cut_less ps c h then c :: s else if cut_less ps h c then h :: set_insert ps c s' else s
  end.

(** polyline_offset.hpp:161-172: what the visitor inserts for one reported intersection.  The
    points it is given are those listed; xp2 is used for [e_overlapping] only, where there are
    two. *)
Definition insert_report (ps : list pt) (s : list cut) (r : nat * nat * itype * list pt) : list cut :=
  let '(i, j, t, xs) := r in
  match xs with
  | [] => s
  | xp1 :: rest =>
    let s2 := set_insert ps (j, xp1) (set_insert ps (i, xp1) s) in
    match t, rest with
    | e_overlapping, xp2 :: _ => set_insert ps (j, xp2) (set_insert ps (i, xp2) s2)
    | _, _ => s2
    end
  end.
(** polyline_offset.hpp:156-175, [self_intersection_set]. *)
Definition self_intersection_set (cmp : policy) (ps : list pt) : option (list cut) :=
  match polyline_self_intersection cmp ps with
  | None => None
  | Some (_, l) => Some (fold_left (insert_report ps) l [])
  end.

(** polyline_offset.hpp:192-196 (and 218-222, 236-240): a point is appended unless it equals the
    last one. *)
Definition push_new (cmp : policy) (pi : list pt) (p : pt) : list pt :=
  if point_equals cmp p (last pi (mkpt 0 0)) then pi else pi ++ [p].
(** The points of the polyline from index [a] on, [k] of them, appended that way. *)
Fixpoint push_range (cmp : policy) (ps : list pt) (k a : nat) (pi : list pt) : option (list pt) :=
  match k with
  | O => Some pi
  | S k' => match nth_error ps a with None => None | Some p => push_range cmp ps k' (S a) (push_new cmp pi p) end
  end.
(** polyline_offset.hpp:205-206 (and 230-231, 243-244). *)
Definition keep_piece (pi : list pt) (results : list (list pt)) : list (list pt) :=
  if Nat.ltb 1 (length pi) then results ++ [pi] else results.

(** polyline_offset.hpp:209-232: the cuts after the first.  The test of line 216 does not matter:
    for an equal index the loop of line 218 is empty. *)
Fixpoint split_loop (cmp : policy) (ps : list pt) (cuts : list cut) (lastIndex : nat) (lastPoint : pt) (results : list (list pt)) : option (nat * pt * list (list pt)) :=
  match cuts with
  | [] => Some (lastIndex, lastPoint, results)
  | (cIndex, xPoint) :: cuts' =>
    match push_range cmp ps (cIndex - lastIndex) (S lastIndex) [lastPoint] with
    | None => None
    | Some pi => split_loop cmp ps cuts' cIndex xPoint (keep_piece (push_new cmp pi xPoint) results)
    end
  end.
(** polyline_offset.hpp:177-247, [split]. *)
Definition split_pieces (cmp : policy) (cuts : list cut) (ps : list pt) : option (list (list pt)) :=
  match cuts with
  | [] => None
  | (cIndex, xPoint) :: cuts' =>
    match nth_error ps 0 with
    | None => None
    | Some p0 =>
      match push_range cmp ps cIndex 1 [p0] with
      | None => None
      | Some pi =>
        match split_loop cmp ps cuts' cIndex xPoint (keep_piece (push_new cmp pi xPoint) []) with
        | None => None
        | Some (lastIndex, lastPoint, results) =>
          match push_range cmp ps (length ps - S lastIndex) (S lastIndex) [lastPoint] with
          | None => None
          | Some pi => Some (keep_piece pi results)
          end
        end
      end
    end
  end.

(** polyline_offset.hpp:264-281: the parts, sorted into [tmpArray1].  Lines 270-276: the visitor
    asks to stop when the side of [pline] it is told is neither the first nor the last ... of the
    points; lines 280-282: the others go into [tmpArray2], which nothing is done with. *)
Definition reject (size : nat) (hits : list (nat * hit)) : bool :=
  match last (map (fun h => Some (snd h)) hits) None with
  | Some h => Nat.ltb 0 (h_i h) && Nat.ltb (S (h_i h)) size
  | None => false
  end.
Fixpoint sort_pieces (cmp : policy) (pline : list pt) (splits tmpArray1 : list (list pt)) : option (list (list pt)) :=
  match splits with
  | [] => Some tmpArray1
  | pi :: splits' =>
    match polyline_polyline_intersect cmp (reject (length pline)) pi pline with
    | None => None
    | Some (b, _) => sort_pieces cmp pline splits' (if b then tmpArray1 else tmpArray1 ++ [pi])
    end
  end.
(** polyline_offset.hpp:249-298, [liu_polyline_offset_impl], after the untrimmed offset [pline1]
    of [pline] has been computed (line 255). *)
Definition trim (cmp : policy) (pline pline1 : list pt) : option (list (list pt)) :=
  match self_intersection_set cmp pline1 with
  | None => None
  | Some [] => Some [pline1]
  | Some iset =>
    match split_pieces cmp iset pline1 with
    | None => None
    | Some splits => sort_pieces cmp pline splits []
    end
  end.
