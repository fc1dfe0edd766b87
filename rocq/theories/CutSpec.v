(** Specification of the cut of a polygon in space by a plane. *)
From Verif Require Import Base LinIntSpec CutModel.

(** Signed distance from the plane, times the length of the normal. *)
Definition above (pl : plane3) (X : pt3) : Q := dot3 (pl_normal pl) X - pl_dist pl.
Definition in_front (pl : plane3) (X : pt3) : Prop := 0 < above pl X.
Definition behind (pl : plane3) (X : pt3) : Prop := above pl X < 0.

(** The edges of a closed polygon, the one from the last vertex to the first one at the beginning. *)
Definition closed_edges (ps : list pt3) : list (pt3 * pt3) :=
  match ps with [] => [] | p :: _ => combine (last ps p :: ps) ps end.
Definition on_border (ps : list pt3) (X : pt3) : Prop := exists A B, In (A, B) (closed_edges ps) /\ on_segment3 A B X.

(** The passages of the border through the parallel plane at height [c] above the cutting plane, in order: upwards
    ([true]) or downwards, and where. *)
Definition passage (pl : plane3) (c : Q) (e : pt3 * pt3) : list (bool * pt3) :=
  let '(A, B) := e in
  let Y := lerp3 A B ((c - above pl A) / (above pl B - above pl A)) in
  if Qleb (above pl A) c && Qltb c (above pl B) then [(true, Y)]
  else if Qleb (above pl B) c && Qltb c (above pl A) then [(false, Y)]
  else [].
Definition passages (pl : plane3) (c : Q) (ps : list pt3) : list (bool * pt3) := flat_map (passage pl c) (closed_edges ps).
Definition same_passage (p q : bool * pt3) : Prop := fst p = fst q /\ pt3eq (snd p) (snd q).
(** How often the border winds around [q]: the passages through the plane of [q] parallel to the cutting plane that lie
    in direction [u] from [q], upwards minus downwards.  For a polygon in a plane and [u] in both planes this is the
    winding number. *)
Definition winding (pl : plane3) (u q : pt3) (ps : list pt3) : Z :=
  fold_right (fun (p : bool * pt3) (s : Z) => if Qltb 0 (dot3 u (vsub3 (snd p) q)) then (s + if fst p then 1 else -1)%Z else s) 0%Z (passages pl (above pl q) ps).

(** The convex hull: weighted averages of the vertices. *)
Definition weight (l : list (Q * pt3)) : Q := fold_right (fun p s => fst p + s) 0 l.
Definition combination (l : list (Q * pt3)) : pt3 := fold_right (fun p s => vadd3 (vscale3 (fst p) (snd p)) s) (mkpt3 0 0 0) l.
Definition in_hull3 (ps : list pt3) (X : pt3) : Prop :=
  exists l, (forall w v, In (w, v) l -> 0 <= w /\ In v ps) /\ weight l == 1 /\ pt3eq X (combination l).
Definition cross3 (a b : pt3) : pt3 := mkpt3 (y3 a * z3 b - z3 a * y3 b) (z3 a * x3 b - x3 a * z3 b) (x3 a * y3 b - y3 a * x3 b).
(** A convex polygon in a plane with normal [m]: any three vertices in order turn left, seen from the tip of [m]. *)
Definition turn (m A B C : pt3) : Q := dot3 m (cross3 (vsub3 B A) (vsub3 C A)).
Definition convex_polygon (ps : list pt3) : Prop :=
  (3 <= length ps)%nat /\
  exists m e, (forall v, In v ps -> dot3 m v == e) /\
    forall i j k A B C, (i < j < k)%nat -> nth_error ps i = Some A -> nth_error ps j = Some B -> nth_error ps k = Some C -> 0 < turn m A B C.
