(** Filling a convex polygon, possibly with holes, on a grid.  Models the two free functions of
    algorithm/floodfill_grid_traversal.hpp (the boundary walks, the bounds of the columns and the scan). *)
From Verif Require Import Base CmpModel GridModel VoxelModel FloodModel.

(** floodfill_grid_traversal.hpp:279-286, the parts read here: the colours, [m_boundMap] as a list of columns with their
    lowest and highest marked row, [m_holeBoundMap], [m_visited] and the calls of the visitor, latest first. *)
Record pfill : Type := mkpf { pf_color : key -> Z; pf_bound : list (Z * (Z * Z)); pf_holes : Z -> option (list (Z * Z));
  pf_visited : list key; pf_calls : list key }.
(** floodfill_grid_traversal.hpp:42-48. *)
Definition pf_new : pfill := mkpf (fun _ => 0%Z) [] (fun _ => None) [] [].
(** The calls in order; undefined when a walk along an edge is. *)
Inductive pf_result : Type := PfDone (calls : list key) | PfUndefined | PfNoFuel.

(** floodfill_grid_traversal.hpp:185-192; also 149-153, on the map of one hole. *)
Fixpoint update_bound (i j : Z) (m : list (Z * (Z * Z))) : list (Z * (Z * Z)) :=
  match m with
  | [] => [(i, (j, j))]
  | (i', (lo, hi)) :: m' => if (i =? i')%Z then (i', (Z.min lo j, Z.max hi j)) :: m' else (i', (lo, hi)) :: update_bound i j m'
  end.
(** floodfill_grid_traversal.hpp:267-277. *)
Definition pf_visit (k : key) (s : pfill) : pfill :=
  let (visited, calls) := visit_cell k (pf_visited s) (pf_calls s) in mkpf (pf_color s) (pf_bound s) (pf_holes s) visited calls.
(** floodfill_grid_traversal.hpp:126-131. *)
Definition pf_mark (s : pfill) (k : key) : pfill :=
  pf_visit k (mkpf (set_color (pf_color s) k BOUNDARY) (update_bound (fst k) (snd k) (pf_bound s)) (pf_holes s) (pf_visited s) (pf_calls s)).
(** floodfill_grid_traversal.hpp:146-155: the same for a hole, whose columns are kept in a map of their own. *)
Definition pf_mark_hole (s : pfill * list (Z * (Z * Z))) (k : key) : pfill * list (Z * (Z * Z)) :=
  let f := fst s in
  (pf_visit k (mkpf (set_color (pf_color f) k BOUNDARY) (pf_bound f) (pf_holes f) (pf_visited f) (pf_calls f)),
   update_bound (fst k) (snd k) (snd s)).

(** floodfill_grid_traversal.hpp:132-137 and 156-161: the walks along the edges, over the indices of their first points;
    [mark] is the visitor of the cells. *)
Section Edges.
Variables (St : Type) (mark : St -> key -> St).
Fixpoint mark_edges (cmp : policy) (fuel : nat) (g : grid) (ps : list pt) (is : list nat) (s : St) : St + pf_result :=
  match is with
  | [] => inl s
  | i :: is' =>
    match nth_error ps i, nth_error ps ((i + 1) mod length ps) with
    | Some p, Some q =>
      match fast_voxel_grid_traversal cmp fuel g p q with
      | Visited l => mark_edges cmp fuel g ps is' (fold_left mark l s)
      | Overflow => inr PfUndefined
      | TravNoFuel => inr PfNoFuel
      end
    | _, _ => inr PfUndefined
    end
  end.
End Edges.
Arguments mark_edges {St} _ _ _ _ _ _ _.

(** std::less on pairs of rows, and insertion into a boost::container::flat_set of them. *)
Definition rows_less (a b : Z * Z) : bool := (fst a <? fst b)%Z || ((fst a =? fst b)%Z && (snd a <? snd b)%Z).
Fixpoint rows_insert (e : Z * Z) (l : list (Z * Z)) : list (Z * Z) :=
  match l with
  | [] => [e]
  | a :: l' => if rows_less a e then a :: rows_insert e l' else if rows_less e a then e :: l else l
  end.
(** floodfill_grid_traversal.hpp:162-163: one column of a hole. *)
Definition add_hole_rows (holes : Z -> option (list (Z * Z))) (e : Z * (Z * Z)) : Z -> option (list (Z * Z)) :=
  fun i => if (i =? fst e)%Z then Some (rows_insert (snd e) (match holes i with Some l => l | None => [] end)) else holes i.
(** floodfill_grid_traversal.hpp:140-164.  The columns are listed in the order in which they were met, not in their own
    order: each occurs once, and the map they are put into is only asked for single columns. *)
Definition mark_hole (cmp : policy) (fuel : nat) (g : grid) (ps : list pt) (s : pfill) : pfill + pf_result :=
  match mark_edges pf_mark_hole cmp fuel g ps (seq 0 (length ps)) (s, []) with
  | inr r => inr r
  | inl (s, m) => inl (mkpf (pf_color s) (pf_bound s) (fold_left add_hole_rows m (pf_holes s)) (pf_visited s) (pf_calls s))
  end.
(** floodfill_grid_traversal.hpp:308-309. *)
Fixpoint mark_holes (cmp : policy) (fuel : nat) (g : grid) (holes : list (list pt)) (s : pfill) : pfill + pf_result :=
  match holes with
  | [] => inl s
  | h :: holes' => match mark_hole cmp fuel g h s with inr r => inr r | inl s => mark_holes cmp fuel g holes' s end
  end.

(** floodfill_grid_traversal.hpp:242-243, 259-260. *)
Definition scan_cell (i k : Z) (s : pfill) : pfill := if (pf_color s (i, k) =? BOUNDARY)%Z then s else pf_visit (i, k) s.
(** floodfill_grid_traversal.hpp:241-243: the loop over the rows of a column without holes, [n] bounds the turns. *)
Fixpoint scan_rows (n : nat) (i k jmax : Z) (s : pfill) : pfill :=
  match n with
  | O => s
  | S n' => if (k <? jmax)%Z then scan_rows n' i (uint_succ k) jmax (scan_cell i k s) else s
  end.
(** floodfill_grid_traversal.hpp:251-262: the loop over the rows of a column with holes; [bits] are the rows of the holes
    not yet skipped. *)
Fixpoint scan_rows_holes (n : nat) (i k jmax : Z) (bits : list (Z * Z)) (s : pfill) : pfill :=
  match n with
  | O => s
  | S n' =>
    if (k <? jmax)%Z then
      match bits with
      | (lo, hi) :: bits' =>
        if (lo <=? k)%Z && (k <=? hi)%Z then scan_rows_holes n' i (uint_succ hi) jmax bits' s
        else scan_rows_holes n' i (uint_succ k) jmax bits (scan_cell i k s)
      | [] => scan_rows_holes n' i (uint_succ k) jmax [] (scan_cell i k s)
      end
    else s
  end.
(** floodfill_grid_traversal.hpp:236-263. *)
Definition scan_column (s : pfill) (e : Z * (Z * Z)) : pfill :=
  let '(i, (jmin, jmax)) := e in
  match pf_holes s i with
  | None => scan_rows (Z.to_nat jmax) i (uint_succ jmin) jmax s
  | Some bits => scan_rows_holes (Z.to_nat jmax) i (uint_succ jmin) jmax bits s
  end.

(** floodfill_grid_traversal.hpp:291-300 ([holes] empty) and 303-314.  The columns are kept in an unordered map: [order]
    is the order in which it lists them (231-234). *)
Definition floodfill_polygon (order : list (Z * (Z * Z)) -> list (Z * (Z * Z))) (cmp : policy) (fuel : nat) (g : grid)
  (ps : list pt) (holes : list (list pt)) : pf_result :=
  match mark_edges pf_mark cmp fuel g ps (seq 0 (length ps)) pf_new with
  | inr r => r
  | inl s =>
    match mark_holes cmp fuel g holes s with
    | inr r => r
    | inl s => PfDone (rev (pf_calls (fold_left scan_column (order (pf_bound s)) s)))
    end
  end.
