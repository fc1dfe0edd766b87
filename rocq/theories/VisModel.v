(** The search of a triangle mesh, and the vertices of the mesh visible from a point.  Models
    algorithm/mesh_2d.hpp (search) and algorithm/visible_vertices_mesh_search.hpp.  The adjacency matrix and the shared
    side are those of MeshModel. *)
From Verif Require Import Base CmpModel OrientModel DistModel RangeModel.
From Verif Require MeshModel.

(** mesh_2d.hpp:220-232: the points and the index triples; [get_triangle_vertices] are the points of the triple
    (mesh_2d.hpp:183-184). *)
Record vmesh : Type := mkvmesh { vm_points : list pt; vm_tris : list MeshModel.itriple }.
Definition triangle_vertex (m : vmesh) (t : MeshModel.itriple) (s : nat) : option pt := nth_error (vm_points m) (MeshModel.side t s).

(** visible_vertices_mesh_search.hpp:59-77.  [from] is [None] for the largest size_t (the start).  [range] is [None] for
    the pair of infinite vectors that stands for all directions. *)
Record vitem : Type := mkvitem { v_from : option nat; v_to : nat; v_range : option (pt * pt) }.
(** visible_vertices_mesh_search.hpp:79-82. *)
Definition get_start (start : nat) : vitem := mkvitem None start None.

Definition index_in (i : nat) (t : MeshModel.itriple) : bool :=
  Nat.eqb (MeshModel.side t 0) i || Nat.eqb (MeshModel.side t 1) i || Nat.eqb (MeshModel.side t 2) i.
(** visible_vertices_mesh_search.hpp:97-106, one corner of the triangle. *)
Definition visit_corner (cmp : policy) (m : vmesh) (origin lo hi : pt) (fromT toT : MeshModel.itriple) (s : nat) : option (list nat) :=
  let i := MeshModel.side toT s in
  if index_in i fromT then Some []
  else
    match triangle_vertex m toT s with
    | None => None
    | Some p => Some (if is_vector_between cmp lo hi (vsub p origin) true then [i] else [])
    end.
(** visible_vertices_mesh_search.hpp:85-110: the indices pushed.  [None] is an index out of range. *)
Definition visit (cmp : policy) (m : vmesh) (origin : pt) (item : vitem) : option (list nat) :=
  match nth_error (vm_tris m) (v_to item) with
  | None => None
  | Some toT =>
    match v_range item with
    | None => Some [MeshModel.side toT 0; MeshModel.side toT 1; MeshModel.side toT 2]
    | Some (lo, hi) =>
      match v_from item with
      | None => None
      | Some f =>
        match nth_error (vm_tris m) f with
        | None => None
        | Some fromT =>
          match visit_corner cmp m origin lo hi fromT toT 0, visit_corner cmp m origin lo hi fromT toT 1, visit_corner cmp m origin lo hi fromT toT 2 with
          | Some a, Some b, Some c => Some (a ++ b ++ c)
          | _, _, _ => None
          end
        end
      end
    end
  end.

(** utility/utilities.hpp, numeric_sequence_equals_2d. *)
Definition same_point (cmp : policy) (a b : pt) : bool := equals cmp (px a) (px b) && equals cmp (py a) (py b).
(** visible_vertices_mesh_search.hpp:147-173: the range of the next item, [Some None] for none. *)
Definition next_range (cmp : policy) (origin pointLo pointHi : pt) (range : option (pt * pt)) : option (option (pt * pt)) :=
  if negb (same_point cmp origin pointLo) && negb (same_point cmp origin pointHi) then
    let vecLo := vsub pointLo origin in
    let vecHi := vsub pointHi origin in
    let '(vecLo, vecHi) :=
      match range with
      | None => (vecLo, vecHi)
      | Some (lo, hi) => (if is_vector_between cmp lo hi vecLo false then vecLo else lo, if is_vector_between cmp lo hi vecHi false then vecHi else hi)
      end in
    match get_orientation_v cmp vecHi vecLo with
    | oriented_left => None
    | _ => Some (Some (vecLo, vecHi))
    end
  else Some None.
(** visible_vertices_mesh_search.hpp:113-180.  The outer option is an index out of range or a division by zero, the
    inner one the returned optional.  [norm] is the length by which [is_segment_in_range_2d] divides a direction. *)
Definition prepare_adjacent_traversal (cmp : policy) (norm : pt -> Q) (m : vmesh) (origin : pt) (next : nat) (item : vitem) : option (option vitem) :=
  match nth_error (vm_tris m) (v_to item), nth_error (vm_tris m) next with
  | Some fromT, Some toT =>
    match MeshModel.get_triangle_adjacent_side fromT toT with
    | None => None
    | Some s =>
      match triangle_vertex m fromT s, triangle_vertex m fromT ((s + 1) mod 3)%nat with
      | Some p0, Some p1 =>
        let '(pointLo, pointHi) := if Qltb (cross (vsub p1 p0) (vsub origin p0)) 0 then (p1, p0) else (p0, p1) in
        let inside :=
          match v_range item with
          | None => Some true
          | Some (lo, hi) => is_segment_in_range_2d (norm lo) (norm hi) pointLo pointHi lo hi origin
          end in
        match inside with
        | None => None
        | Some false => Some None
        | Some true =>
          match next_range cmp origin pointLo pointHi (v_range item) with
          | None => Some None
          | Some r => Some (Some (mkvitem (Some (v_to item)) next r))
          end
        end
      | _, _ => None
      end
    end
  | _, _ => None
  end.

(** mesh_2d.hpp:301-323, for one side of the triangle: the stack after it. *)
Definition push_side (cmp : policy) (norm : pt -> Q) (m : vmesh) (origin : pt) (item : vitem) (s : nat) (stack : list vitem) : option (list vitem) :=
  match MeshModel.create_adjacency_matrix (vm_tris m) (v_to item) s with
  | None => Some stack
  | Some adjTrig =>
    if match v_from item with Some f => Nat.eqb adjTrig f | None => false end then Some stack
    else
      match prepare_adjacent_traversal cmp norm m origin adjTrig item with
      | None => None
      | Some None => Some stack
      | Some (Some n) => Some (n :: stack)
      end
  end.

Inductive vresult : Type := Undefined | OutOfFuel | Found (vertices : list nat).
(** One turn of the loop of mesh_2d.hpp:293-325. *)
Definition search_step (cmp : policy) (norm : pt -> Q) (m : vmesh) (origin : pt) (item : vitem) (rest : list vitem) : option (list nat * list vitem) :=
  match visit cmp m origin item with
  | None => None
  | Some vs =>
    match push_side cmp norm m origin item 0 rest with
    | None => None
    | Some s0 =>
      match push_side cmp norm m origin item 1 s0 with
      | None => None
      | Some s1 =>
        match push_side cmp norm m origin item 2 s1 with
        | None => None
        | Some s2 => Some (vs, s2)
        end
      end
    end
  end.
Fixpoint search_loop (fuel : nat) (cmp : policy) (norm : pt -> Q) (m : vmesh) (origin : pt) (stack : list vitem) (vertices : list nat) : vresult :=
  match stack with
  | [] => Found vertices
  | item :: rest =>
    match fuel with
    | O => OutOfFuel
    | S fuel' =>
      match search_step cmp norm m origin item rest with
      | None => Undefined
      | Some (vs, stack') => search_loop fuel' cmp norm m origin stack' (vertices ++ vs)
      end
    end
  end.
(** mesh_2d.hpp:281-326 with the visitor; [get_vertices()] afterwards. *)
Definition visible_vertices (fuel : nat) (cmp : policy) (norm : pt -> Q) (m : vmesh) (origin : pt) (start : nat) : vresult :=
  search_loop fuel cmp norm m origin [get_start start] [].
