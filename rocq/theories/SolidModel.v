(** The solid-leaf partition tree of segments in the plane.  Models
    algorithm/solid_leaf_bsp_tree.hpp, classify_simplex_to_plane.hpp and
    hyperplane_partition_policies.hpp for segments, exact numbers and direct comparison, with the
    identity extractor and back_solid_leaf_bsp_traits.  The nodes, kept in parallel vectors by the
    code, are a tree here.  Undefined behaviour is [None].  Not modelled here: the polygon overload of
    split_simplex (CutModel), the random selector (which the tree cannot call). *)
From Verif Require Import Base CmpModel LinIntModel DistModel BspModel.

(** primitive/line.hpp:49-61, the normal without its normalisation: the code divides it by the
    length of the segment.  Only signs and quotients of the values below are used, except in the
    distance query, which divides by the squared length. *)
Definition normal (s : seg) : pt := mkpt (- (py (snd s) - py (fst s))) (px (snd s) - px (fst s)).
Definition distance_to_origin (s : seg) : Q := dot (fst s) (normal s).
(** classify_simplex_to_plane.hpp:32: the signed distance of a point from a plane, times the
    length. *)
Definition plane_dist (s : seg) (p : pt) : Q := dot p (normal s) - distance_to_origin s.

Inductive plane_orientation : Type := coplanar_with_plane | in_front_of_plane | in_back_of_plane | straddling_plane.
(** classify_simplex_to_plane.hpp:25-44. *)
Definition classify_point_to_plane (p : pt) (plane : seg) : plane_orientation :=
  let dist := plane_dist plane p in
  if Qltb 0 dist then in_front_of_plane else if Qltb dist 0 then in_back_of_plane else coplanar_with_plane.
(** classify_simplex_to_plane.hpp:48-87. *)
Definition classify_simplex_to_plane (e plane : seg) : plane_orientation :=
  let count o := fun p => match classify_point_to_plane p plane, o with
    | in_front_of_plane, in_front_of_plane => 1%nat | in_back_of_plane, in_back_of_plane => 1%nat | _, _ => 0%nat end in
  let numInFront := (count in_front_of_plane (fst e) + count in_front_of_plane (snd e))%nat in
  let numBehind := (count in_back_of_plane (fst e) + count in_back_of_plane (snd e))%nat in
  if negb (Nat.eqb numBehind 0) && negb (Nat.eqb numInFront 0) then straddling_plane
  else if negb (Nat.eqb numInFront 0) then in_front_of_plane
  else if negb (Nat.eqb numBehind 0) then in_back_of_plane
  else coplanar_with_plane.

(** segment_plane_intersection.hpp:21-39: the point, [None] when there is none or the division is
    by zero. *)
Definition plane_hit (a b : pt) (plane : seg) : option pt :=
  let ab := vsub b a in
  let den := dot (normal plane) ab in
  if Qeqb den 0 then None
  else
    let t := (distance_to_origin plane - dot (normal plane) a) / den in
    if Qleb 0 t && Qleb t 1 then Some (vadd a (vscale t ab)) else None.
(** solid_leaf_bsp_tree.hpp:73-134: front part and back part of a straddling segment; in the
    cases that end in an assertion, [None]. *)
Definition split_simplex (e plane : seg) : option (seg * seg) :=
  let a := fst e in
  let b := snd e in
  match classify_point_to_plane a plane, classify_point_to_plane b plane with
  | in_front_of_plane, in_back_of_plane => match plane_hit b a plane with Some x => Some ((a, x), (x, b)) | None => None end
  | in_back_of_plane, in_front_of_plane => match plane_hit b a plane with Some x => Some ((x, b), (a, x)) | None => None end
  | _, _ => None
  end.

(** A segment or piece of one, its bit in usedBits, the index of the segment it comes from. *)
Definition item : Type := (seg * bool * nat)%type.
Definition it_seg (it : item) : seg := fst (fst it).
Definition it_used (it : item) : bool := snd (fst it).
Definition it_index (it : item) : nat := snd it.

Definition no_seg : seg := (mkpt 0 0, mkpt 0 0).
(** solid_leaf_bsp_tree.hpp:443-489: the front list, the back list and the coplanar indices;
    [planes] are the segments of m_planes. *)
Fixpoint partition_items (planes : list seg) (plane : seg) (items : list item) : option (list item * list item * list nat) :=
  match items with
  | [] => Some ([], [], [])
  | (e, used, i) :: items' =>
    match partition_items planes plane items' with
    | None => None
    | Some (front, back, co) =>
      match classify_simplex_to_plane e plane with
      | coplanar_with_plane =>
        let dp := dot (normal (nth i planes no_seg)) (normal plane) in
        if Qltb dp 0 then Some (front, (e, used, i) :: back, i :: co) else Some ((e, used, i) :: front, back, i :: co)
      | in_front_of_plane => Some ((e, used, i) :: front, back, co)
      | in_back_of_plane => Some (front, (e, used, i) :: back, co)
      | straddling_plane =>
        match split_simplex e plane with
        | None => None
        | Some (f, b) => Some ((f, used, i) :: front, (b, used, i) :: back, co)
        end
      end
    end
  end.

(** A leaf with its solid flag and m_indices, or a node with the index of its plane, m_indices and
    its children. *)
Inductive solid_bsp : Type := Leaf (solid : bool) (indices : list nat) | Split (plane : nat) (indices : list nat) (front back : solid_bsp).
Inductive node_orientation : Type := o_front | o_back | o_root.
Definition is_back (o : node_orientation) : bool := match o with o_back => true | _ => false end.
(** The selector sets the bit of the element it returns. *)
Fixpoint set_used (k : nat) (items : list item) : list item :=
  match items, k with
  | [], _ => []
  | (e, _, i) :: items', O => (e, true, i) :: items'
  | it :: items', S k' => it :: set_used k' items'
  end.
(** solid_leaf_bsp_tree.hpp:407-501.  The selector gives the position of the segment chosen,
    [None] for end().  [None]: not finished after [fuel] nested calls, or undefined. *)
Fixpoint build_tree (planes : list seg) (selector : list item -> option nat) (fuel : nat) (o : node_orientation) (items : list item) : option solid_bsp :=
  match fuel with
  | O => None
  | S fuel' =>
    match items with
    | [] => Some (Leaf (is_back o) [])
    | _ =>
      match selector items with
      | None => Some (Leaf (is_back o) (map it_index items))
      | Some k =>
        match nth_error items k with
        | None => None
        | Some it =>
          let sIndex := it_index it in
          match partition_items planes (nth sIndex planes no_seg) (set_used k items) with
          | None => None
          | Some (front, back, co) =>
            match build_tree planes selector fuel' o_front front, build_tree planes selector fuel' o_back back with
            | Some f, Some b => Some (Split sIndex co f b)
            | _, _ => None
            end
          end
        end
      end
    end
  end.
(** solid_leaf_bsp_tree.hpp:289-302. *)
Definition solid_leaf_bsp_tree (segs : list seg) (selector : list item -> option nat) (fuel : nat) : option solid_bsp :=
  build_tree segs selector fuel o_root (map (fun i => (nth i segs no_seg, false, i)) (seq 0 (length segs))).

(** hyperplane_partition_policies.hpp:38-55. *)
Fixpoint autopartition_from (k : nat) (items : list item) : option nat :=
  match items with
  | [] => None
  | it :: items' => if it_used it then autopartition_from (S k) items' else Some k
  end.
Definition autopartition_policy (items : list item) : option nat := autopartition_from 0 items.
(** hyperplane_partition_policies.hpp:116-146: the score of element [k]; the factor K = 0.8 is exact
    here. *)
Fixpoint count_items (f : seg -> bool) (k n : nat) (items : list item) : Z :=
  match items with
  | [] => 0%Z
  | it :: items' => ((if negb (Nat.eqb n k) && f (it_seg it) then 1 else 0) + count_items f k (S n) items')%Z
  end.
Definition score (items : list item) (k : nat) (s : seg) : Q :=
  let front := count_items (fun e => match classify_simplex_to_plane e s with coplanar_with_plane | in_front_of_plane => true | _ => false end) k 0 items in
  let behind := count_items (fun e => match classify_simplex_to_plane e s with in_back_of_plane => true | _ => false end) k 0 items in
  let straddling := count_items (fun e => match classify_simplex_to_plane e s with straddling_plane => true | _ => false end) k 0 items in
  (4 # 5) * inject_Z straddling + (1 # 5) * inject_Z (Z.abs (front - behind)).
(** hyperplane_partition_policies.hpp:94-157. *)
Fixpoint scored_loop (all : list item) (k : nat) (items : list item) (best : option (Q * nat)) : option nat :=
  match items with
  | [] => match best with Some (_, i) => Some i | None => None end
  | it :: items' =>
    if it_used it then scored_loop all (S k) items' best
    else
      let sc := score all k (it_seg it) in
      match best with
      | Some (b, _) => if Qltb sc b then scored_loop all (S k) items' (Some (sc, k)) else scored_loop all (S k) items' best
      | None => scored_loop all (S k) items' (Some (sc, k))
      end
  end.
Definition scored_selector_policy (items : list item) : option nat := scored_loop items 0 items None.

Inductive solid_class : Type := in_solid | in_empty_space | on_boundary.
Definition solid_class_eqb (a b : solid_class) : bool :=
  match a, b with in_solid, in_solid | in_empty_space, in_empty_space | on_boundary, on_boundary => true | _, _ => false end.
(** solid_leaf_bsp_tree.hpp:516-548. *)
Fixpoint point_in_solid_space (planes : list seg) (t : solid_bsp) (p : pt) : solid_class :=
  match t with
  | Leaf solid _ => if solid then in_solid else in_empty_space
  | Split i _ front back =>
    let dist := plane_dist (nth i planes no_seg) p in
    if Qltb 0 dist then point_in_solid_space planes front p
    else if Qltb dist 0 then point_in_solid_space planes back p
    else
      let f := point_in_solid_space planes front p in
      let b := point_in_solid_space planes back p in
      if solid_class_eqb f b then f else on_boundary
  end.
(** solid_leaf_bsp_tree.hpp:604-618, private and not called. *)
Fixpoint point_in_solid_space_no_boundary (planes : list seg) (t : solid_bsp) (p : pt) : solid_class :=
  match t with
  | Leaf solid _ => if solid then in_solid else in_empty_space
  | Split i _ front back =>
    if Qleb (plane_dist (nth i planes no_seg) p) 0 then point_in_solid_space_no_boundary planes back p
    else point_in_solid_space_no_boundary planes front p
  end.

(** ** Distance to the walls *)
(** solid_leaf_bsp_tree.hpp:574-582: the least squared distance so far, [None] for infinity, with the
    index of its segment. *)
Fixpoint scan_indices (segs : list seg) (p : pt) (indices : list nat) (best : option (Q * nat)) : option (Q * nat) :=
  match indices with
  | [] => best
  | i :: indices' =>
    let s := nth i segs no_seg in
    let d2 := point_segment_distance_sqrd p (fst s) (snd s) in
    scan_indices segs p indices' (match best with
      | None => Some (d2, i)
      | Some (m, _) => if Qltb d2 m then Some (d2, i) else best
      end)
  end.
(** solid_leaf_bsp_tree.hpp:566-601.  [None]: not finished after [fuel] turns of the loop. *)
Fixpoint min_distance_loop (segs : list seg) (p : pt) (fuel : nat) (stack : list solid_bsp) (best : option (Q * nat)) : option (option (Q * nat)) :=
  match fuel with
  | O => None
  | S fuel' =>
    match stack with
    | [] => Some best
    | Leaf _ indices :: stack' => min_distance_loop segs p fuel' stack' (scan_indices segs p indices best)
    | Split i indices front back :: stack' =>
      let best' := scan_indices segs p indices best in
      let plane := nth i segs no_seg in
      let dist := plane_dist plane p in
      let dist2 := dist * dist / dot (normal plane) (normal plane) in
      let closer := match best' with None => true | Some (m, _) => Qltb dist2 m end in
      let stack1 := if closer || negb (Qltb 0 dist) then back :: stack' else stack' in
      let stack2 := if closer || negb (Qltb dist 0) then front :: stack1 else stack1 in
      min_distance_loop segs p fuel' stack2 best'
    end
  end.
Fixpoint solid_nodes (t : solid_bsp) : nat :=
  match t with Leaf _ _ => 1 | Split _ _ f b => S (solid_nodes f + solid_nodes b) end.
(** solid_leaf_bsp_tree.hpp:351-355, 550-602; as many turns as the tree has nodes are allowed. *)
Definition get_min_distance_sqrd_to_solid (segs : list seg) (t : solid_bsp) (p : pt) : option (option (Q * nat)) :=
  min_distance_loop segs p (S (solid_nodes t)) [t] None.

(** ** Rays *)
(** std::set<index_type> as an increasing list. *)
Fixpoint insert_index (i : nat) (l : list nat) : list nat :=
  match l with
  | [] => [i]
  | j :: l' => if Nat.ltb i j then i :: l else if Nat.eqb i j then l else j :: insert_index i l'
  end.
Definition index_set (l : list nat) : list nat := fold_right insert_index [] l.
(** solid_leaf_bsp_tree.hpp:207-212, 620-636; [None]: undefined_index, for the index, and
    numeric_limits::max, for the distance. *)
Fixpoint find_closest_hit (segs : list seg) (p d : pt) (indices : list nat) (minDist : option Q) (minIndex : option nat) : option nat :=
  match indices with
  | [] => minIndex
  | i :: indices' =>
    let s := nth i segs no_seg in
    match ray_segment_intersection direct p d (fst s) (snd s) with
    | Some (e_non_crossing, _, _) | None | Some (_, None, _) => find_closest_hit segs p d indices' minDist minIndex
    | Some (_, Some t, _) =>
      if match minDist with None => true | Some m => Qltb t m end then find_closest_hit segs p d indices' (Some t) (Some i)
      else find_closest_hit segs p d indices' minDist minIndex
    end
  end.
(** The distance of a hit ([None]: numeric_limits::max) and the index ([None]: undefined_index). *)
Definition solid_hit : Type := (option Q * option nat)%type.
(** solid_leaf_bsp_tree.hpp:640-715.  [tmax] is [None] for numeric_limits::max; a moved-from set is
    empty.  [None]: not finished after [fuel] turns of the loop; [Some None]: no hit. *)
Fixpoint ray_loop (segs : list seg) (p d : pt) (onlyBorder : bool) (fuel : nat) (node : solid_bsp) (tmin : Q) (tmax : option Q) (minIndices maxIndices : list nat)
    (nodeStack : list (solid_bsp * option Q * list nat)) : option (option solid_hit) :=
  match fuel with
  | O => None
  | S fuel' =>
    match node with
    | Split i indices front back =>
      let plane := nth i segs no_seg in
      let denom := dot d (normal plane) in
      let dist := distance_to_origin plane - dot p (normal plane) in
      let nearIndex := Qltb 0 dist in
      let near := if nearIndex then back else front in
      let far := if negb nearIndex then back else front in
      if negb (Qeqb denom 0) then
        let t := dist / denom in
        if Qleb 0 t && match tmax with None => true | Some m => Qleb t m end then
          if Qleb tmin t then ray_loop segs p d onlyBorder fuel' near tmin (Some t) minIndices (index_set indices) ((far, tmax, maxIndices) :: nodeStack)
          else ray_loop segs p d onlyBorder fuel' far tmin tmax minIndices maxIndices nodeStack
        else ray_loop segs p d onlyBorder fuel' near tmin tmax minIndices maxIndices nodeStack
      else ray_loop segs p d onlyBorder fuel' near tmin tmax minIndices maxIndices nodeStack
    | Leaf solid _ =>
      if solid then
        if negb (match minIndices with [] => true | _ => false end) || negb onlyBorder then Some (Some (Some tmin, find_closest_hit segs p d minIndices None None))
        else Some (Some (tmax, find_closest_hit segs p d maxIndices None None))
      else
        match nodeStack, tmax with
        | [], _ => Some None
        | (node', tmax', maxIndices') :: nodeStack', Some tm => ray_loop segs p d onlyBorder fuel' node' tm tmax' maxIndices maxIndices' nodeStack'
        | _ :: _, None => None
        end
    end
  end.
(** solid_leaf_bsp_tree.hpp:339-349; as many turns as the tree has nodes are allowed. *)
Definition ray_intersection (segs : list seg) (t : solid_bsp) (p d : pt) (onlyBorder : bool) : option (option solid_hit) :=
  ray_loop segs p d onlyBorder (S (solid_nodes t)) t 0 None [] [] [].
