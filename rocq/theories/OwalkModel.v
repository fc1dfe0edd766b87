(** The walk along a segment guided by the side of the cell corners.  Models algorithm/orientation_grid_traversal.hpp. *)
From Verif Require Import Base CmpModel OrientModel BoxModel ClipModel GridModel.

(** orientation_grid_traversal.hpp:86-91 (column) and 98-103 (row): [++] of a [uint32_t] until the end. *)
Fixpoint up_strip (mk : Z -> key) (e : Z) (fuel : nat) (k : Z) : trav key :=
  match fuel with
  | O => TravNoFuel
  | S fuel' => if Z.eqb k e then Visited [] else let k := uint_succ k in visit (mk k) (up_strip mk e fuel' k)
  end.

(** orientation_grid_traversal.hpp:112-128. *)
Definition corner_side (cmp : policy) (g : grid) (s t : pt) (up : bool) (i j : Z) : orientation_type :=
  if up then get_orientation cmp s t (get_cell_corner2 g i j)
  else
    match get_orientation cmp s t (get_cell_corner1 g i j) with
    | oriented_left => oriented_right
    | oriented_right => oriented_left
    | oriented_collinear => oriented_collinear
    end.
(** orientation_grid_traversal.hpp:130-163: the next position, [None] for the [break]. *)
Definition advance (cmp : policy) (up : bool) (o : orientation_type) (x2 y2 x y : Q) : option (Q * Q) :=
  let xdiff := x2 - x in
  let ydiff := y2 - y in
  let x_is_over := less_than cmp xdiff 0 in
  let y_is_over := if up then less_than cmp ydiff 0 else greater_than cmp ydiff 0 in
  let x' := x + qmin 1 xdiff in
  let y' := y + (if up then qmin 1 ydiff else qmax (-1) ydiff) in
  match o with
  | oriented_left => if x_is_over || equals cmp xdiff 0 then None else Some (x', y)
  | oriented_collinear => if (x_is_over && y_is_over) || (equals cmp xdiff 0 && equals cmp ydiff 0) then None else Some (x', y')
  | oriented_right => if y_is_over || equals cmp ydiff 0 then None else Some (x, y')
  end.
(** orientation_grid_traversal.hpp:107-174.  [i], [j] are also [old_i], [old_j]. *)
Fixpoint corner_loop (cmp : policy) (g : grid) (s t : pt) (up : bool) (x2 y2 : Q) (fuel : nat) (i j : Z) (x y : Q) : trav key :=
  match fuel with
  | O => TravNoFuel
  | S fuel' =>
    match advance cmp up (corner_side cmp g s t up i j) x2 y2 x y with
    | None => Visited []
    | Some (x, y) =>
      match to_uint32 x, to_uint32 y with
      | Some i', Some j' =>
        let r := corner_loop cmp g s t up x2 y2 fuel' i' j' x y in
        if Z.eqb i i' && Z.eqb j j' then r else visit (i', j') r
      | _, _ => Overflow
      end
    end
  end.
(** orientation_grid_traversal.hpp:62-175, from the (possibly clipped) ends [p], [q] of the segment [s], [t]. *)
Definition corner_walk (cmp : policy) (fuel : nat) (g : grid) (s t p q : pt) : trav key :=
  let x1 := get_scaled_grid_coordinate_x g (px p) in
  let y1 := get_scaled_grid_coordinate_y g (py p) in
  let x2 := get_scaled_grid_coordinate_x g (px q) in
  let y2 := get_scaled_grid_coordinate_y g (py q) in
  let up := greater_than_or_equal cmp y2 y1 in
  match to_uint32 x1, to_uint32 y1, to_uint32 x2, to_uint32 y2 with
  | Some i, Some j, Some i_end, Some j_end =>
    visit (i, j)
      (if (i =? i_end)%Z then
         if (j =? j_end)%Z then Visited [] else up_strip (fun j => (i, j)) j_end fuel j
       else if (j =? j_end)%Z then up_strip (fun i => (i, j)) i_end fuel i
       else corner_loop cmp g s t up x2 y2 fuel i j x1 y1)
  | _, _, _, _ => Overflow
  end.
(** orientation_grid_traversal.hpp:25-60. *)
Definition orientation_segment_traversal (cmp : policy) (fuel : nat) (g : grid) (s t : pt) : trav key :=
  let '(s, t) := if lexicographical cmp [px s; py s] [px t; py t] then (s, t) else (t, s) in
  if Qltb (px s) (g_xmin g) || Qgtb (px s) (g_xmax g) || Qltb (py s) (g_ymin g) || Qgtb (py s) (g_ymax g) ||
     Qltb (px t) (g_xmin g) || Qgtb (px t) (g_xmax g) || Qltb (py t) (g_ymin g) || Qgtb (py t) (g_ymax g)
  then
    match cohen_sutherland_line_clip cmp fuel s t (mkbox2 (mkpt (g_xmin g) (g_ymin g)) (mkpt (g_xmax g) (g_ymax g))) with
    | Clipped p q => corner_walk cmp fuel g s t p q
    | Rejected => Visited []
    | ClipUndefined => Overflow
    | ClipNoFuel => TravNoFuel
    end
  else corner_walk cmp fuel g s t s t.
