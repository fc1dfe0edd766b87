(** Triangle meshes.  Models algorithm/mesh_2d.hpp and
    algorithm/eberly_triangle_aabb_intersection.hpp over the reals. *)
From Verif Require Import RBase AngleModel.

Definition triangle : Type := (plane * plane * plane)%type.
Definition itriple : Type := (nat * nat * nat)%type.

(** algorithm/orientation.hpp:20-49, the test for [oriented_right]. *)
Definition is_oriented_right (cmp : rpolicy) (A B C : plane) : bool :=
  let u := p_sub B A in let v := p_sub C A in rlt cmp (fst u * snd v) (snd u * fst v).
(** tensor/numeric_sequence_compare.hpp:22-88 in the plane. *)
Definition p_equals (cmp : rpolicy) (a b : plane) : bool := req cmp (snd a) (snd b) && req cmp (fst a) (fst b).

(** mesh_2d.hpp:165-190: the triangles of the mesh.  Indices come in threes, a rest of one or two
    is ignored.  [None]: an index out of range (only asserted). *)
Fixpoint mesh_triangles (cmp : rpolicy) (points : list plane) (indices : list nat) : option (list (itriple * triangle)) :=
  match indices with
  | i0 :: i1 :: i2 :: rest =>
    match nth_error points i0, nth_error points i1, nth_error points i2 with
    | Some a0, Some a1, Some a2 =>
      let '(i1, i2, a1, a2) := if is_oriented_right cmp a0 a1 a2 then (i2, i1, a2, a1) else (i1, i2, a1, a2) in
      match mesh_triangles cmp points rest with
      | Some l =>
        if p_equals cmp a0 a1 || p_equals cmp a1 a2 || p_equals cmp a2 a0 then Some l
        else Some (((i0, i1, i2), (a0, a1, a2)) :: l)
      | None => None
      end
    | _, _, _ => None
    end
  | _ => Some []
  end.

(** primitive/point_sequence_utilities.hpp:101-148, [get_area] of a triangle (mesh_2d.hpp:111-121). *)
Definition get_area (t : triangle) : R :=
  let '(a, b, c) := t in Rabs ((p_cross a b + p_cross b c + p_cross c a) * (1 / 2)).

(** The arithmetic used for the weights, so that it can be exact or in double precision. *)
Record arith (T : Type) : Type := mkarith { a_zero : T; a_add : T -> T -> T; a_div : T -> T -> T; a_lt : T -> T -> bool }.
Arguments mkarith {T}. Arguments a_zero {T}. Arguments a_add {T}. Arguments a_div {T}. Arguments a_lt {T}.
Definition exact : arith R := mkarith 0 Rplus Rdiv Rltb.
(** mesh_2d.hpp:163, 188: the total weight. *)
Definition total_weight {T} (A : arith T) (ws : list T) : T := fold_left (a_add A) ws (a_zero A).
(** mesh_2d.hpp:193-200: m_integral. *)
Fixpoint integral_from {T} (A : arith T) (total last : T) (ws : list T) : list T :=
  match ws with
  | [] => []
  | w :: ws' => let last := a_add A last (a_div A w total) in last :: integral_from A total last ws'
  end.
Definition integral {T} (A : arith T) (ws : list T) : list T := integral_from A (total_weight A ws) (a_zero A) ws.
(** [std::lower_bound] on an ascending sequence: the index of the first element not less than [v],
    the length if there is none. *)
Fixpoint lower_bound {T} (A : arith T) (l : list T) (v : T) : nat :=
  match l with
  | [] => 0
  | x :: l' => if a_lt A x v then S (lower_bound A l' v) else 0
  end.

(** mesh_2d.hpp:217-220, the data members of mesh_2d_base. *)
Record mesh : Type := mkmesh { m_points : list plane; m_indices : list itriple; m_triangles : list triangle; m_integral : list R }.
(** mesh_2d.hpp:157-201, the constructor with the default weight policy. *)
Definition make_mesh (cmp : rpolicy) (points : list plane) (indices : list nat) : option mesh :=
  match mesh_triangles cmp points indices with
  | Some l => Some (mkmesh points (map fst l) (map snd l) (integral exact (map get_area (map snd l))))
  | None => None
  end.

(** mesh_2d.hpp:204-219.  [None]: the index is out of range (only asserted). *)
Definition get_random_position (m : mesh) (rT r1 r2 : R) : option plane :=
  let iTri := lower_bound exact (m_integral m) rT in
  match nth_error (m_triangles m) iTri with
  | Some (a, b, c) =>
    let sqrt_r1 := sqrt r1 in
    Some (p_add (p_add (p_scale (1 - sqrt_r1) a) (p_scale (sqrt_r1 * (1 - r2)) b)) (p_scale (sqrt_r1 * r2) c))
  | None => None
  end.

(** ** Adjacency *)
(** mesh_2d.hpp:334: [std::map] from directed edges to (triangle, side), kept in key order. *)
Definition edge_key : Type := (nat * nat)%type.
Definition adj_item : Type := (nat * nat)%type.
Definition key_lt (a b : edge_key) : bool := Nat.ltb (fst a) (fst b) || (Nat.eqb (fst a) (fst b) && Nat.ltb (snd a) (snd b)).
Definition key_eq (a b : edge_key) : bool := Nat.eqb (fst a) (fst b) && Nat.eqb (snd a) (snd b).
Definition edge_map : Type := list (edge_key * list adj_item).
(** adjTriangles[key].push_back(item) *)
Fixpoint push_back (m : edge_map) (k : edge_key) (x : adj_item) : edge_map :=
  match m with
  | [] => [(k, [x])]
  | (k', xs) :: m' => if key_eq k' k then (k', xs ++ [x]) :: m' else if key_lt k k' then (k, [x]) :: m else (k', xs) :: push_back m' k x
  end.
Fixpoint find_edge (m : edge_map) (k : edge_key) : option (list adj_item) :=
  match m with
  | [] => None
  | (k', xs) :: m' => if key_eq k' k then Some xs else find_edge m' k
  end.
(** mesh_2d.hpp:340-346. *)
Fixpoint edges_of (i : nat) (l : list itriple) (m : edge_map) : edge_map :=
  match l with
  | [] => m
  | (i0, i1, i2) :: l' =>
    edges_of (S i) l' (push_back (push_back (push_back m (i0, i1) (i, 0%nat)) (i1, i2) (i, 1%nat)) (i2, i0) (i, 2%nat))
  end.
(** The matrix, as a function of triangle and side; [None] is the largest size_t. *)
Definition adjacency : Type := nat -> nat -> option nat.
Definition set_adj (a : adjacency) (x : adj_item) (j : nat) : adjacency :=
  fun i s => if Nat.eqb i (fst x) && Nat.eqb s (snd x) then Some j else a i s.
(** mesh_2d.hpp:348-366. *)
Definition link (a : adjacency) (ij : adj_item * adj_item) : adjacency :=
  set_adj (set_adj a (fst ij) (fst (snd ij))) (snd ij) (fst (fst ij)).
Definition link_item (all : edge_map) (a : adjacency) (item : edge_key * list adj_item) : adjacency :=
  let '(key, itrigs) := item in
  match find_edge all (snd key, fst key) with
  | Some l => fold_left (fun a i => fold_left (fun a j => link a (i, j)) l a) itrigs a
  | None => a
  end.
Definition create_adjacency_matrix (l : list itriple) : adjacency :=
  let all := edges_of 0 l [] in
  fold_left (link_item all) all (fun _ _ => None).

(** mesh_2d.hpp:373-377; [side t j] is t[j]. *)
Definition side (t : itriple) (j : nat) : nat :=
  let '(i0, i1, i2) := t in match j with 0%nat => i0 | 1%nat => i1 | _ => i2 end.
Definition is_adjacent_side (i j : nat) (tri1 tri2 : itriple) : bool :=
  Nat.eqb (side tri1 i) (side tri2 ((j + 1) mod 3)) && Nat.eqb (side tri1 ((i + 1) mod 3)) (side tri2 j).
(** mesh_2d.hpp:380-393; [None] is the largest size_t. *)
Definition get_triangle_adjacent_side (tri1 tri2 : itriple) : option nat :=
  if is_adjacent_side 0 0 tri1 tri2 || is_adjacent_side 0 1 tri1 tri2 || is_adjacent_side 0 2 tri1 tri2 then Some 0%nat
  else if is_adjacent_side 1 0 tri1 tri2 || is_adjacent_side 1 1 tri1 tri2 || is_adjacent_side 1 2 tri1 tri2 then Some 1%nat
  else if is_adjacent_side 2 0 tri1 tri2 || is_adjacent_side 2 1 tri1 tri2 || is_adjacent_side 2 2 tri1 tri2 then Some 2%nat
  else None.

(** ** Triangle against box *)
(** [std::max], [std::min]. *)
Definition std_max (a b : R) : R := if Rltb a b then b else a.
Definition std_min (a b : R) : R := if Rltb b a then b else a.
(** eberly_triangle_aabb_intersection.hpp:54-61 and so on: does the axis [a] separate? *)
Definition separates (cmp : rpolicy) (v0 v1 v2 a : plane) (r : R) : bool :=
  let p0 := p_dot v0 a in let p1 := p_dot v1 a in let p2 := p_dot v2 a in
  rlt cmp (std_max p0 (std_max p1 p2)) (- r) || rgt cmp (std_min p0 (std_min p1 p2)) r.
(** The axis perpendicular to an edge: a = (f_y, -f_x) with f the normalized edge.  Normalizing the zero
    vector gives NaN, and every comparison with NaN is false. *)
Definition edge_separates (cmp : rpolicy) (v0 v1 v2 edge : plane) (e0 e1 : R) : bool :=
  if Reqb (fst edge) 0 && Reqb (snd edge) 0 then false
  else
    let f := p_normalize edge in
    let a := (snd f, - fst f) in
    separates cmp v0 v1 v2 a (e0 * Rabs (p_dot (1, 0) a) + e1 * Rabs (p_dot (0, 1) a)).
(** eberly_triangle_aabb_intersection.hpp:22-108. *)
Definition eberly_triangle_aabb_intersection_2d (cmp : rpolicy) (A B C lower upper : plane) : bool :=
  let c := p_scale (1 / 2) (p_add lower upper) in
  let e0 := (fst upper - fst lower) * (1 / 2) in
  let e1 := (snd upper - snd lower) * (1 / 2) in
  let v0 := p_sub A c in let v1 := p_sub B c in let v2 := p_sub C c in
  if edge_separates cmp v0 v1 v2 (p_sub v0 v1) e0 e1 then false
  else if edge_separates cmp v0 v1 v2 (p_sub v1 v2) e0 e1 then false
  else if edge_separates cmp v0 v1 v2 (p_sub v2 v0) e0 e1 then false
  else if separates cmp v0 v1 v2 (1, 0) e0 then false
  else if separates cmp v0 v1 v2 (0, 1) e1 then false
  else true.

(** ** The triangle cache *)
(** Bounds (xmin, xmax, ymin, ymax). *)
Definition bounds : Type := (R * R * R * R)%type.
(** primitive/point_sequence_utilities.hpp:227-255, [get_bounds].  The limits of the number type the
    bounds start from are replaced by the first point, which always replaces them. *)
Definition upd_bounds (cmp : rpolicy) (b : bounds) (p : plane) : bounds :=
  let '(xmin, xmax, ymin, ymax) := b in
  let x := fst p in let y := snd p in
  ((if rlt cmp x xmin then x else xmin), (if rgt cmp x xmax then x else xmax),
   (if rlt cmp y ymin then y else ymin), (if rgt cmp y ymax then y else ymax)).
Definition get_bounds (cmp : rpolicy) (p : plane) (ps : list plane) : bounds :=
  fold_left (upd_bounds cmp) ps (fst p, fst p, snd p, snd p).
(** The conversion of a real number to uint32_t: undefined (or a thrown error) outside (-1, 2^32). *)
Definition uint32_of (v : R) : option Z :=
  if Rltb (-1) v && Rltb v 4294967296 then Some (if Rltb v 0 then 0%Z else Int_part v) else None.
(** algorithm/grid_traits.hpp:53-67 with cells of width one: the lower corner, the upper corner and the
    numbers of cells. *)
Record rgrid : Type := mkrgrid { g_lo : plane; g_hi : plane; g_nx : Z; g_ny : Z }.
Definition make_rgrid (lo hi : plane) : option rgrid :=
  match uint32_of ((fst hi - fst lo) * (1 / 1)), uint32_of ((snd hi - snd lo) * (1 / 1)) with
  | Some nx, Some ny => Some (mkrgrid lo hi ((nx + 1) mod 4294967296)%Z ((ny + 1) mod 4294967296)%Z)
  | _, _ => None
  end.
(** grid_traits.hpp:72-92. *)
Definition rx_index (g : rgrid) (x : R) : option Z := uint32_of ((x - fst (g_lo g)) * (1 / 1)).
Definition ry_index (g : rgrid) (y : R) : option Z := uint32_of ((y - snd (g_lo g)) * (1 / 1)).
Definition rcontained (g : rgrid) (p : plane) : bool :=
  Rleb (fst (g_lo g)) (fst p) && Rleb (fst p) (fst (g_hi g)) && Rleb (snd (g_lo g)) (snd p) && Rleb (snd p) (snd (g_hi g)).
(** grid_traits.hpp:121-137, corners 0 and 2. *)
Definition corner0 (g : rgrid) (i j : Z) : plane := (fst (g_lo g) + IZR i * 1, snd (g_lo g) + IZR j * 1).
Definition corner2 (g : rgrid) (i j : Z) : plane :=
  (fst (g_lo g) + IZR ((i + 1) mod 4294967296) * 1, snd (g_lo g) + IZR ((j + 1) mod 4294967296) * 1).
(** grid_2d of flat_set<size_t>: the contents as a function, with the range check of the array. *)
Definition cells : Type := Z -> Z -> list nat.
Definition in_range (g : rgrid) (i j : Z) : bool := (0 <=? i)%Z && (i <? g_nx g)%Z && (0 <=? j)%Z && (j <? g_ny g)%Z.
(** flat_set::insert. *)
Fixpoint set_insert (s : list nat) (x : nat) : list nat :=
  match s with
  | [] => [x]
  | y :: s' => if Nat.ltb y x then y :: set_insert s' x else if Nat.eqb y x then s else x :: s
  end.
Definition insert_at (cs : cells) (i j : Z) (x : nat) : cells :=
  fun i' j' => if (i' =? i)%Z && (j' =? j)%Z then set_insert (cs i' j') x else cs i' j'.
(** for( k = start; count times; ++k ): [None] as soon as a body fails. *)
Fixpoint for_z {S : Type} (count : nat) (k : Z) (body : Z -> S -> option S) (s : S) : option S :=
  match count with
  | O => Some s
  | Datatypes.S n => match body k s with Some s' => for_z n (k + 1)%Z body s' | None => None end
  end.
(** mesh_2d.hpp:83-91: the body of the two loops. *)
Definition cache_cell (g : rgrid) (x : nat) (t : triangle) (col row : Z) (cs : cells) : option cells :=
  let '(a, b, c) := t in
  if eberly_triangle_aabb_intersection_2d (rabsolute (1 / 10000000000)) a b c (corner0 g col row) (corner2 g col row) then
    if in_range g col row then Some (insert_at cs col row x) else None
  else Some cs.
(** mesh_2d.hpp:74-92: one triangle. *)
Definition cache_triangle (g : rgrid) (x : nat) (t : triangle) (cs : cells) : option cells :=
  let '(a, b, c) := t in
  let '(xmin, xmax, ymin, ymax) := get_bounds (rabsolute 0) a [b; c] in
  match rx_index g xmin, rx_index g xmax, ry_index g ymin, ry_index g ymax with
  | Some imin, Some imax, Some jmin, Some jmax =>
    for_z (Z.to_nat (imax + 1 - imin)) imin (fun col cs =>
      for_z (Z.to_nat (jmax + 1 - jmin)) jmin (fun row cs => cache_cell g x t col row cs) cs) cs
  | _, _, _, _ => None
  end.
Fixpoint cache_triangles (g : rgrid) (x : nat) (ts : list triangle) (cs : cells) : option cells :=
  match ts with
  | [] => Some cs
  | t :: ts' => match cache_triangle g x t cs with Some cs' => cache_triangles g (S x) ts' cs' | None => None end
  end.
(** mesh_2d.hpp:52-93, the constructor of triangle_grid_cache.  [None]: no points, all points equal
    (normalizing the zero vector), or a mesh so large that an index leaves the range of uint32_t. *)
Definition make_cache (points : list plane) (ts : list triangle) : option (rgrid * cells) :=
  match points with
  | [] => None
  | p :: ps =>
    let '(xmin, xmax, ymin, ymax) := get_bounds (rabsolute 0) p ps in
    let lowerLeft := (xmin, ymin) in let upperRight := (xmax, ymax) in
    if Reqb xmin xmax && Reqb ymin ymax then None
    else
      let lowerLeft := p_add lowerLeft (p_scale (sqrt 2) (p_normalize (p_sub lowerLeft upperRight))) in
      let upperRight := p_add upperRight (p_scale (sqrt 2) (p_normalize (p_sub upperRight lowerLeft))) in
      match make_rgrid lowerLeft upperRight with
      | Some g => match cache_triangles g 0 ts (fun _ _ => []) with Some cs => Some (g, cs) | None => None end
      | None => None
      end
  end.
(** mesh_2d.hpp:95-103.  The outer [None]: an index out of range. *)
Definition find_indices (g : rgrid) (cs : cells) (p : plane) : option (list nat) :=
  if rcontained g p then
    match rx_index g (fst p), ry_index g (snd p) with
    | Some i, Some j => if in_range g i j then Some (cs i j) else None
    | _, _ => None
    end
  else Some [].
(** algorithm/point_in_polygon.hpp:175-198. *)
Definition pseudo_cross (u v : plane) : R := snd u * fst v - fst u * snd v.
Definition rpoint_in_triangle (cmp : rpolicy) (p : plane) (t : triangle) : bool :=
  let '(A, B, C) := t in
  if rlt cmp (pseudo_cross (p_sub p A) (p_sub B A)) 0 then false
  else if rlt cmp (pseudo_cross (p_sub p B) (p_sub C B)) 0 then false
  else if rlt cmp (pseudo_cross (p_sub p C) (p_sub A C)) 0 then false
  else true.
(** mesh_2d.hpp:267-278.  The outer [None]: undefined; the inner [None]: boost::none. *)
Fixpoint first_triangle (cmp : rpolicy) (ts : list triangle) (p : plane) (data : list nat) : option (option nat) :=
  match data with
  | [] => Some None
  | ti :: data' =>
    match nth_error ts ti with
    | Some t => if rpoint_in_triangle cmp p t then Some (Some ti) else first_triangle cmp ts p data'
    | None => None
    end
  end.
Definition find_triangle (cmp : rpolicy) (m : mesh) (cache : rgrid * cells) (p : plane) : option (option nat) :=
  match find_indices (fst cache) (snd cache) p with
  | Some data => first_triangle cmp (m_triangles m) p data
  | None => None
  end.
