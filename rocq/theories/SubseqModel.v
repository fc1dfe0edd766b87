(** The side of a polygon a point lies on or is closest to.  Models the searches of
    algorithm/point_sequence/find_subsequence.hpp. *)
From Verif Require Import Base CmpModel OrientModel DistModel PlanarModel.

(** find_subsequence.hpp:27-40.  [None]: a point out of range; [Some None]: boost::none. *)
Fixpoint containing_loop (cmp : policy) (ps : list pt) (p : pt) (idx : list (nat * nat)) : option (option nat) :=
  match idx with
  | [] => Some None
  | (i, j) :: idx' =>
    match nth_error ps i, nth_error ps j with
    | Some a, Some b => if is_between cmp a b p true then Some (Some i) else containing_loop cmp ps p idx'
    | _, _ => None
    end
  end.
Definition find_containing_polygon_border_segment (cmp : policy) (ps : list pt) (p : pt) : option (option nat) :=
  containing_loop cmp ps p (border_indices (length ps) 0 1 (length ps)).

(** find_subsequence.hpp:52-57; the best segment so far, with its distance; [None]: infinity and the
    greatest index, taken as no index. *)
Definition take_index (best : option (Q * nat)) (d : Q) (i : nat) : option (Q * nat) :=
  if less_inf d (option_map fst best) then Some (d, i) else best.
(** find_subsequence.hpp:42-60. *)
Fixpoint closest_loop (ps : list pt) (p : pt) (best : option (Q * nat)) (idx : list (nat * nat)) : option (option nat) :=
  match idx with
  | [] => Some (option_map snd best)
  | (i, j) :: idx' =>
    match nth_error ps i, nth_error ps j with
    | Some a, Some b => closest_loop ps p (take_index best (point_segment_distance_sqrd p a b) i) idx'
    | _, _ => None
    end
  end.
Definition find_closest_polygon_border_segment (ps : list pt) (p : pt) : option (option nat) :=
  closest_loop ps p None (border_indices (length ps) 0 1 (length ps)).

(** find_subsequence.hpp:62-83. *)
Fixpoint containing_or_closest_loop (cmp : policy) (ps : list pt) (p : pt) (best : option (Q * nat)) (idx : list (nat * nat)) : option (option nat) :=
  match idx with
  | [] => Some (option_map snd best)
  | (i, j) :: idx' =>
    match nth_error ps i, nth_error ps j with
    | Some a, Some b =>
      if is_between cmp a b p true then Some (Some i)
      else containing_or_closest_loop cmp ps p (take_index best (point_segment_distance_sqrd p a b) i) idx'
    | _, _ => None
    end
  end.
Definition find_containing_or_closest_polygon_border_segment (cmp : policy) (ps : list pt) (p : pt) : option (option nat) :=
  containing_or_closest_loop cmp ps p None (border_indices (length ps) 0 1 (length ps)).

