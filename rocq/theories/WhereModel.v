(** Where a point is on a polyline: algorithm/point_sequence/length.hpp:58-95,
    [point_on_polyline_length_characteristics], over the reals. *)
From Verif Require Import RBase PathModel.

Definition c0 (p : rvec) : R := nth 0 p 0.
Definition c1 (p : rvec) : R := nth 1 p 0.

(** utility/utilities.hpp:132-148, [is_collinear] (points of the plane). *)
Definition pt_collinear (cmp : rpolicy) (A B C : rvec) : bool :=
  req cmp ((c0 B - c0 A) * (c1 C - c1 A) - (c1 B - c1 A) * (c0 C - c0 A)) 0.
(** utility/utilities.hpp:171-214, [is_collinear_point_between]; its assertion holds where it is
    called below. *)
Definition collinear_between (cmp : rpolicy) (A B C : rvec) (includeBounds : bool) : bool :=
  let between a b c :=
    if includeBounds then (rle cmp a c && rle cmp c b) || (rge cmp a c && rge cmp c b)
    else (rlt cmp a c && rlt cmp c b) || (rgt cmp a c && rgt cmp c b) in
  if negb (req cmp (c0 A) (c0 B)) then between (c0 A) (c0 B) (c0 C) else between (c1 A) (c1 B) (c1 C).
(** utility/utilities.hpp:150-167, [is_between]. *)
Definition pt_between (cmp : rpolicy) (A B C : rvec) (includeBounds : bool) : bool :=
  pt_collinear cmp A B C && collinear_between cmp A B C includeBounds.

(** length.hpp:73-91: the loop.  [index] is [None] while it has the largest value of its type;
    [i] counts the sides, A is the last point seen. *)
Fixpoint where_loop (cmp : rpolicy) (p A : rvec) (rest : list rvec) (i : nat) (len post : R) (index : option nat) : R * R * option nat :=
  match rest with
  | [] => (len, post, index)
  | B :: rest' =>
    match index with
    | None =>
      if negb (pt_between cmp A B p true) then where_loop cmp p B rest' (S i) (len + rdist A B) post None
      else where_loop cmp p B rest' (S i) (len + rdist A p) (post + rdist p B) (Some i)
    | Some k => where_loop cmp p B rest' (S i) len (post + rdist A B) (Some k)
    end
  end.
(** length.hpp:62-95. *)
Definition point_on_polyline_length_characteristics (cmp : rpolicy) (poly : list rvec) (p : rvec) : R * R * option nat :=
  match poly with
  | [] => (0, 0, None)
  | A :: rest => where_loop cmp p A rest 0 0 0 None
  end.
