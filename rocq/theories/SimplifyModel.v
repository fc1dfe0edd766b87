(** Removing collinear and repeated vertices.  Models
    algorithm/point_sequence/remove_collinear_points.hpp. *)
From Verif Require Import Base CmpModel OrientModel.

(** The new point sequence is kept in reverse: [b :: a :: ...] with [b] the last point. *)

(** remove_collinear_points.hpp:82-104, one pass of the loop.  The sequence has at least two
    points when the loop runs. *)
Definition collinear_step (cmp : policy) (acc : list pt) (c : pt) : list pt :=
  match acc with
  | b :: a :: rest => if is_collinear cmp a b c then c :: a :: rest else c :: acc
  | _ => acc
  end.
Definition remove_collinear_points_polyline (cmp : policy) (ps : list pt) : list pt :=
  match ps with
  | p0 :: p1 :: p2 :: rest => rev (fold_left (collinear_step cmp) (p2 :: rest) [p1; p0])
  | _ => ps
  end.

(** remove_collinear_points.hpp:54-79.  [front] is the first point of the given polygon; the pass
    for the last point ([i + 1 == size]) also tests the closing edge. *)
Fixpoint collinear_polygon_loop (cmp : policy) (front : pt) (acc : list pt) (cs : list pt) : list pt :=
  match cs with
  | [] => acc
  | c :: cs' =>
    match acc with
    | b :: a :: rest =>
      let acc' :=
        if negb (is_collinear cmp a b c) then
          if (match cs' with [] => false | _ => true end) || negb (is_collinear cmp b c front) then c :: acc else acc
        else c :: a :: rest in
      collinear_polygon_loop cmp front acc' cs'
    | _ => acc
    end
  end.
Definition remove_collinear_points_polygon (cmp : policy) (ps : list pt) : list pt :=
  match ps with
  | p0 :: p1 :: p2 :: p3 :: rest => rev (collinear_polygon_loop cmp p0 [p1; p0] (p2 :: p3 :: rest))
  | _ => ps
  end.

(** remove_collinear_points.hpp:20-51: the same loop; the indices put into the set, ascending. *)
Fixpoint identify_collinear_loop (cmp : policy) (front : pt) (acc : list pt) (i : nat) (cs : list pt) : list nat :=
  match cs with
  | [] => []
  | c :: cs' =>
    match acc with
    | b :: a :: rest =>
      if negb (is_collinear cmp a b c) then
        if (match cs' with [] => false | _ => true end) || negb (is_collinear cmp b c front)
        then identify_collinear_loop cmp front (c :: acc) (S i) cs'
        else i :: identify_collinear_loop cmp front acc (S i) cs'
      else i :: identify_collinear_loop cmp front (c :: a :: rest) (S i) cs'
    | _ => []
    end
  end.
Definition identify_collinear_points_polygon (cmp : policy) (ps : list pt) : list nat :=
  match ps with
  | p0 :: p1 :: p2 :: p3 :: rest => identify_collinear_loop cmp p0 [p1; p0] 2 (p2 :: p3 :: rest)
  | _ => []
  end.

(** remove_collinear_points.hpp:164-184. *)
Definition apart (cmp : policy) (a b : pt) : bool := greater_than cmp (dist2 a b) 0.
Definition coalesce_step (cmp : policy) (acc : list pt) (b : pt) : list pt :=
  match acc with
  | a :: _ => if apart cmp a b then b :: acc else acc
  | [] => acc
  end.
Definition coalesce_adjacent_points_polyline (cmp : policy) (ps : list pt) : list pt :=
  match ps with
  | p0 :: p1 :: p2 :: rest => rev (fold_left (coalesce_step cmp) (p1 :: p2 :: rest) [p0])
  | _ => ps
  end.
(** remove_collinear_points.hpp:107-130. *)
Fixpoint coalesce_polygon_loop (cmp : policy) (front : pt) (acc : list pt) (bs : list pt) : list pt :=
  match bs with
  | [] => acc
  | b :: bs' =>
    match acc with
    | a :: _ =>
      let acc' :=
        if apart cmp a b then
          if (match bs' with [] => false | _ => true end) || apart cmp b front then b :: acc else acc
        else acc in
      coalesce_polygon_loop cmp front acc' bs'
    | [] => acc
    end
  end.
Definition coalesce_adjacent_points_polygon (cmp : policy) (ps : list pt) : list pt :=
  match ps with
  | p0 :: p1 :: p2 :: p3 :: rest => rev (coalesce_polygon_loop cmp p0 [p0] (p1 :: p2 :: p3 :: rest))
  | _ => ps
  end.
(** remove_collinear_points.hpp:133-161. *)
Fixpoint identify_adjacent_loop (cmp : policy) (front : pt) (a : pt) (i : nat) (bs : list pt) : list nat :=
  match bs with
  | [] => []
  | b :: bs' =>
    if apart cmp a b && ((match bs' with [] => false | _ => true end) || apart cmp b front)
    then identify_adjacent_loop cmp front b (S i) bs'
    else i :: identify_adjacent_loop cmp front a (S i) bs'
  end.
Definition identify_adjacent_points_polygon (cmp : policy) (ps : list pt) : list nat :=
  match ps with
  | p0 :: p1 :: p2 :: p3 :: rest => identify_adjacent_loop cmp p0 p0 1 (p1 :: p2 :: p3 :: rest)
  | _ => []
  end.

(** remove_collinear_points.hpp:187-196. *)
Definition clean_polygon (cmp : policy) (ps : list pt) : list pt :=
  coalesce_adjacent_points_polygon cmp (remove_collinear_points_polygon cmp ps).
Definition clean_polyline (cmp : policy) (ps : list pt) : list pt :=
  coalesce_adjacent_points_polyline cmp (remove_collinear_points_polyline cmp ps).
