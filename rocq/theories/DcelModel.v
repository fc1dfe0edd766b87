(** Chains recovered from segments.  Models algorithm/doubly_connected_edge_list.hpp for points of
    the plane, exact numbers and direct comparison.

    The graphs of boost are not part of the repository; what they do here is modelled as documented:
    vertices are numbered in the order they are added, parallel edges are kept, out edges are listed
    in the order they were added, connected components are numbered by their first vertices.  The
    edge weights and edge numbers are never read and are left out. *)
From Verif Require Import Base CmpModel.
From Coq Require Import Arith.

(** utility/utilities.hpp:372-428, the order of the map from points to vertices. *)
Definition point_less (a b : pt) : bool := lexicographical direct [px a; py a] [px b; py b].
(** Lines 262-266: the entry found by lower_bound and not behind [p].  The map is ordered by
    [point_less]; the entry is searched for in the order of the vertices here. *)
Fixpoint find_vertex (p : pt) (positions : list pt) (v : nat) : option nat :=
  match positions with
  | [] => None
  | q :: rest => if negb (point_less q p) && negb (point_less p q) then Some v else find_vertex p rest (S v)
  end.

(** The members of the class, lines 279-284: the positions of the vertices stand for the map and
    the vertex properties; m_halfEdgeList; m_componentGraph as its number of vertices and edges. *)
Record dcel : Type := mkdcel {
  positions : list pt; half_edges : list (nat * nat);
  comp_vertices : nat; comp_edges : list (nat * nat);
  polygons : list (list pt); polylines : list (list pt) }.

(** Lines 71-77. *)
Definition empty_dcel : dcel := mkdcel [] [] 0 [] [] [].

(** Lines 260-277. *)
Definition add_vertex (d : dcel) (p : pt) : nat * dcel :=
  match find_vertex p (positions d) 0 with
  | Some v => (v, d)
  | None => (length (positions d),
             mkdcel (positions d ++ [p]) (half_edges d) (S (comp_vertices d)) (comp_edges d) (polygons d) (polylines d))
  end.
(** Lines 105-122.  boost::add_edge on a graph with its vertices in a vector adds missing vertices. *)
Definition add_edge (d : dcel) (e : pt * pt) : dcel :=
  let (s, d1) := add_vertex d (fst e) in
  let (t, d2) := add_vertex d1 (snd e) in
  mkdcel (positions d2) (half_edges d2 ++ [(s, t)]) (max (comp_vertices d2) (S (max s t))) (comp_edges d2 ++ [(s, t)])
    (polygons d2) (polylines d2).

(** boost::connected_components, called in line 144: every vertex is labelled with the first vertex
    of its component. *)
Definition relabel (labels : list nat) (e : nat * nat) : list nat :=
  let a := nth (fst e) labels 0%nat in
  let b := nth (snd e) labels 0%nat in
  map (fun l => if Nat.eqb l (max a b) then min a b else l) labels.
Definition component_labels (n : nat) (edges : list (nat * nat)) : list nat := fold_left relabel edges (seq 0 n).
Definition component_roots (n : nat) (edges : list (nat * nat)) : list nat :=
  filter (fun v => Nat.eqb (nth v (component_labels n edges) 0%nat) v) (seq 0 n).

(** Lines 143-150: the components as ascending lists of vertices.  Vertices the component graph
    does not have keep the component number 0.  Out of range accesses are [None]. *)
Definition components (d : dcel) : option (list (list nat)) :=
  let n := length (positions d) in
  let m := comp_vertices d in
  let labels := component_labels m (comp_edges d) in
  match component_roots m (comp_edges d) with
  | [] => None
  | r0 :: roots =>
      if Nat.ltb n m then None
      else Some (map (fun r => filter (fun v => Nat.eqb (nth v labels r0) r) (seq 0 n)) (r0 :: roots))
  end.

(** Lines 247-257. *)
Definition in_degree (edges : list (nat * nat)) (v : nat) : nat := length (filter (fun e => Nat.eqb (snd e) v) edges).
Definition find_start (edges : list (nat * nat)) (comp : list nat) : option nat :=
  find (fun v => Nat.eqb (in_degree edges v) 0) comp.
(** Lines 174-180: the target of the first out edge. *)
Definition first_out (edges : list (nat * nat)) (t : nat) : option nat :=
  option_map snd (find (fun e => Nat.eqb (fst e) t) edges).
(** Lines 172-190 and 200-218, which are the same loop.  [None] when the steps run out. *)
Fixpoint walk (fuel : nat) (edges : list (nat * nat)) (comp : list nat) (t : nat) (chain : list nat) : option (list nat) :=
  match comp with
  | [] => Some chain
  | _ :: _ =>
      match fuel with
      | O => None
      | S fuel' =>
          match first_out edges t with
          | None => Some chain
          | Some t' =>
              if existsb (Nat.eqb t') comp
              then walk fuel' edges (filter (fun v => negb (Nat.eqb v t')) comp) t' (chain ++ [t'])
              else walk fuel' edges comp t' chain
          end
      end
  end.

Inductive outcome : Type := Done (d : dcel) | Undefined | Endless.

(** Lines 163-222.  Components are never empty. *)
Fixpoint sequences (fuel : nat) (edges : list (nat * nat)) (comps : list (list nat)) : option (list (list nat) * list (list nat)) :=
  match comps with
  | [] => Some ([], [])
  | comp :: rest =>
      let start := match find_start edges comp with Some t => t | None => hd 0%nat comp end in
      match walk fuel edges (filter (fun v => negb (Nat.eqb v start)) comp) start [start], sequences fuel edges rest with
      | Some chain, Some (lines, gons) =>
          match find_start edges comp with
          | Some _ => Some (chain :: lines, gons)
          | None => Some (lines, chain :: gons)
          end
      | _, _ => None
      end
  end.
Definition position (d : dcel) (v : nat) : pt := nth v (positions d) (mkpt 0 0).
(** Lines 134-223.  [fuel] bounds the steps of each walk; [Endless] when a walk needs more. *)
Definition calculate_point_sequences (fuel : nat) (d : dcel) : outcome :=
  let put gons lines := Done (mkdcel (positions d) (half_edges d) (comp_vertices d) (comp_edges d) gons lines) in
  match positions d with
  | [] => put [] []
  | _ :: _ =>
      match components d with
      | None => Undefined
      | Some comps =>
          match sequences fuel (half_edges d) comps with
          | None => Endless
          | Some (lines, gons) => put (map (map (position d)) gons) (map (map (position d)) lines)
          end
      end
  end.
(** Lines 95-103 and 288-292. *)
Definition make_dcel (fuel : nat) (segs : list (pt * pt)) : outcome :=
  calculate_point_sequences fuel (fold_left add_edge segs empty_dcel).
(** Lines 79-85: the copy has no component graph. *)
Definition copy_dcel (d : dcel) : dcel := mkdcel (positions d) (half_edges d) 0 [] (polygons d) (polylines d).
(** Lines 235-243: the assigned list keeps its own component graph. *)
Definition assign_dcel (self other : dcel) : dcel :=
  mkdcel (positions other) (half_edges other) (comp_vertices self) (comp_edges self) (polygons other) (polylines other).
