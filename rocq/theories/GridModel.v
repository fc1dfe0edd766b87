(** Uniform grids.  Models algorithm/grid_traits.hpp, algorithm/grid_2d.hpp,
    algorithm/hash_grid_2d.hpp and algorithm/bresenham_grid_traversal.hpp. *)
From Verif Require Import Base BoxModel.

(** Conversion of a floating point number to [uint32_t]: truncation toward zero; outside
    (-1, 2^32) the [static_cast] is undefined and [boost::numeric_cast] throws ([None]). *)
Definition two32 : Z := 4294967296.
Definition trunc (v : Q) : Z := Z.quot (Qnum v) (Zpos (Qden v)).
Definition to_uint32 (v : Q) : option Z :=
  if Qltb (-1) v && Qltb v (inject_Z two32) then Some (trunc v) else None.

(** grid_traits.hpp:156-166, the data members. *)
Record grid : Type := mkgrid {
  g_xmin : Q; g_xmax : Q; g_ymin : Q; g_ymax : Q; g_width : Q; g_divisor : Q; g_nx : Z; g_ny : Z }.

(** grid_traits.hpp:36-64, both constructors.  The preconditions 0 < cellWidth, xmin < xmax and
    ymin < ymax are only asserted.  The addition of 1 is that of [uint32_t]. *)
Definition make_grid (xmin xmax ymin ymax w : Q) : option grid :=
  let d := 1 / w in
  match to_uint32 ((xmax - xmin) * d), to_uint32 ((ymax - ymin) * d) with
  | Some nx, Some ny => Some (mkgrid xmin xmax ymin ymax w d ((nx + 1) mod two32) ((ny + 1) mod two32))
  | _, _ => None
  end.

(** grid_traits.hpp:72-82. *)
Definition get_x_index (g : grid) (x : Q) : option Z := to_uint32 ((x - g_xmin g) * g_divisor g).
Definition get_y_index (g : grid) (y : Q) : option Z := to_uint32 ((y - g_ymin g) * g_divisor g).
(** grid_traits.hpp:87-92. *)
Definition is_contained (g : grid) (p : pt) : bool :=
  Qgeb (px p) (g_xmin g) && Qleb (px p) (g_xmax g) && Qgeb (py p) (g_ymin g) && Qleb (py p) (g_ymax g).
(** grid_traits.hpp:94-97. *)
Definition get_cell_centroid (g : grid) (i j : Z) : pt :=
  mkpt (g_xmin g + (inject_Z i + (1 # 2)) * g_width g) (g_ymin g + (inject_Z j + (1 # 2)) * g_width g).
(** [i + 1] below is that of [uint32_t]. *)
Definition uint_succ (i : Z) : Z := (i + 1) mod two32.
(** grid_traits.hpp:99-107. *)
Definition get_cell_polygon (g : grid) (i j : Z) : list pt :=
  let xmax := g_xmin g + inject_Z (uint_succ i) * g_width g in
  let ymax := g_ymin g + inject_Z (uint_succ j) * g_width g in
  let xmin := g_xmin g + inject_Z i * g_width g in
  let ymin := g_ymin g + inject_Z j * g_width g in
  [mkpt xmin ymin; mkpt xmax ymin; mkpt xmax ymax; mkpt xmin ymax].
(** grid_traits.hpp:109-117. *)
Definition get_cell_aabb (g : grid) (i j : Z) : box2 :=
  let xmax := g_xmin g + inject_Z (uint_succ i) * g_width g in
  let ymax := g_ymin g + inject_Z (uint_succ j) * g_width g in
  let xmin := g_xmin g + inject_Z i * g_width g in
  let ymin := g_ymin g + inject_Z j * g_width g in
  mkbox2 (mkpt xmin ymin) (mkpt xmax ymax).
(** grid_traits.hpp:121-143. *)
Definition get_cell_corner0 (g : grid) (i j : Z) : pt :=
  mkpt (g_xmin g + inject_Z i * g_width g) (g_ymin g + inject_Z j * g_width g).
Definition get_cell_corner1 (g : grid) (i j : Z) : pt :=
  mkpt (g_xmin g + inject_Z (uint_succ i) * g_width g) (g_ymin g + inject_Z j * g_width g).
Definition get_cell_corner2 (g : grid) (i j : Z) : pt :=
  mkpt (g_xmin g + inject_Z (uint_succ i) * g_width g) (g_ymin g + inject_Z (uint_succ j) * g_width g).
Definition get_cell_corner3 (g : grid) (i j : Z) : pt :=
  mkpt (g_xmin g + inject_Z i * g_width g) (g_ymin g + inject_Z (uint_succ j) * g_width g).
(** grid_traits.hpp:145-152. *)
Definition get_scaled_grid_coordinate_x (g : grid) (x : Q) : Q := (x - g_xmin g) * g_divisor g.
Definition get_scaled_grid_coordinate_y (g : grid) (y : Q) : Q := (y - g_ymin g) * g_divisor g.

(** ** grid_2d: a dense array of width x height cells *)
Section Dense.
Variable D : Type.
(** grid_2d.hpp:75-76: [boost::multi_array] as the list of its columns. *)
Definition dense : Type := list (list D).
(** grid_2d.hpp:31-34; the cells are value-initialised. *)
Definition dense_new (g : grid) (d0 : D) : dense := repeat (repeat d0 (Z.to_nat (g_ny g))) (Z.to_nat (g_nx g)).
(** grid_2d.hpp:46-49, 61-64: an index outside the array is undefined ([None]). *)
Definition dense_get (a : dense) (i j : Z) : option D :=
  if (i <? 0)%Z || (j <? 0)%Z then None
  else match nth_error a (Z.to_nat i) with None => None | Some col => nth_error col (Z.to_nat j) end.
Fixpoint list_set {A : Type} (l : list A) (n : nat) (v : A) : option (list A) :=
  match l, n with
  | [], _ => None
  | _ :: l', O => Some (v :: l')
  | x :: l', S n' => match list_set l' n' v with None => None | Some r => Some (x :: r) end
  end.
Definition dense_set (a : dense) (i j : Z) (v : D) : option dense :=
  if (i <? 0)%Z || (j <? 0)%Z then None
  else match nth_error a (Z.to_nat i) with
       | None => None
       | Some col => match list_set col (Z.to_nat j) v with None => None | Some col' => list_set a (Z.to_nat i) col' end
       end.
(** grid_2d.hpp:36-44, 51-59: access by point. *)
Definition dense_get_at (g : grid) (a : dense) (p : pt) : option D :=
  match get_x_index g (px p), get_y_index g (py p) with Some i, Some j => dense_get a i j | _, _ => None end.
Definition dense_set_at (g : grid) (a : dense) (p : pt) (v : D) : option dense :=
  match get_x_index g (px p), get_y_index g (py p) with Some i, Some j => dense_set a i j v | _, _ => None end.
End Dense.
Arguments dense_new {D} _ _.
Arguments dense_get {D} _ _ _.
Arguments dense_set {D} _ _ _ _.
Arguments dense_get_at {D} _ _ _.
Arguments dense_set_at {D} _ _ _ _.

(** ** hash_grid_2d: a hash map from index pairs to cells *)
Section Sparse.
Variable D : Type.
Variable d0 : D.
Definition key : Type := Z * Z.
Definition key_eqb (a b : key) : bool := ((fst a =? fst b) && (snd a =? snd b))%Z.
(** hash_grid_2d.hpp:27-28 and 135-136: the nodes of the [std::unordered_map], each with its
    key, an address and the data.  The order of nodes is that of insertion; nothing the
    class offers depends on it.  [h_next] is an address not yet handed out: the model does
    not reuse addresses of erased nodes. *)
Record node : Type := mknode { n_key : key; n_addr : nat; n_data : D }.
Record hgrid : Type := mkhgrid { h_nodes : list node; h_next : nat }.
Definition hgrid_new : hgrid := mkhgrid [] 0.
Fixpoint lookup (k : key) (l : list node) : option node :=
  match l with [] => None | n :: l' => if key_eqb (n_key n) k then Some n else lookup k l' end.
(** hash_grid_2d.hpp:79-94: a pointer to the data of the node, or null. *)
Definition find_cell (h : hgrid) (i j : Z) : option nat :=
  match lookup (i, j) (h_nodes h) with None => None | Some n => Some (n_addr n) end.
(** hash_grid_2d.hpp:106-114. *)
Definition get_cell (h : hgrid) (i j : Z) : nat * hgrid :=
  match lookup (i, j) (h_nodes h) with
  | Some n => (n_addr n, h)
  | None => (h_next h, mkhgrid (mknode (i, j) (h_next h) d0 :: h_nodes h) (S (h_next h)))
  end.
(** hash_grid_2d.hpp:125-130. *)
Fixpoint remove_key (k : key) (l : list node) : list node :=
  match l with [] => [] | n :: l' => if key_eqb (n_key n) k then l' else n :: remove_key k l' end.
Definition erase (h : hgrid) (i j : Z) : hgrid :=
  match lookup (i, j) (h_nodes h) with
  | Some _ => mkhgrid (remove_key (i, j) (h_nodes h)) (h_next h)
  | None => h
  end.
(** hash_grid_2d.hpp:132. *)
Definition clear (h : hgrid) : hgrid := mkhgrid [] (h_next h).
(** Reading and writing through a pointer or reference; a dangling one is undefined ([None]). *)
Fixpoint read (h : list node) (a : nat) : option D :=
  match h with [] => None | n :: l => if Nat.eqb (n_addr n) a then Some (n_data n) else read l a end.
Fixpoint write (h : list node) (a : nat) (v : D) : option (list node) :=
  match h with
  | [] => None
  | n :: l =>
    if Nat.eqb (n_addr n) a then Some (mknode (n_key n) (n_addr n) v :: l)
    else match write l a v with None => None | Some r => Some (n :: r) end
  end.
Definition deref (h : hgrid) (a : nat) : option D := read (h_nodes h) a.
Definition assign (h : hgrid) (a : nat) (v : D) : option hgrid :=
  match write (h_nodes h) a v with None => None | Some l => Some (mkhgrid l (h_next h)) end.
(** hash_grid_2d.hpp:59-77, 96-104: access by point. *)
Definition find_cell_at (g : grid) (h : hgrid) (p : pt) : option (option nat) :=
  match get_x_index g (px p), get_y_index g (py p) with Some i, Some j => Some (find_cell h i j) | _, _ => None end.
Definition get_cell_at (g : grid) (h : hgrid) (p : pt) : option (nat * hgrid) :=
  match get_x_index g (px p), get_y_index g (py p) with Some i, Some j => Some (get_cell h i j) | _, _ => None end.
End Sparse.
Arguments mknode {D} _ _ _.
Arguments n_key {D} _.
Arguments n_addr {D} _.
Arguments n_data {D} _.
Arguments mkhgrid {D} _ _.
Arguments h_nodes {D} _.
Arguments h_next {D} _.
Arguments hgrid_new {D}.
Arguments lookup {D} _ _.
Arguments find_cell {D} _ _ _.
Arguments get_cell {D} _ _ _ _.
Arguments remove_key {D} _ _.
Arguments erase {D} _ _ _.
Arguments clear {D} _.
Arguments read {D} _ _.
Arguments write {D} _ _ _.
Arguments deref {D} _ _.
Arguments assign {D} _ _ _.
Arguments find_cell_at {D} _ _ _.
Arguments get_cell_at {D} _ _ _ _.

(** ** Bresenham's traversal *)

(** The arithmetic is that of [int] (32 bits); overflow is undefined. *)
Definition int_ok (v : Z) : bool := ((-2147483648 <=? v) && (v <=? 2147483647))%Z.
Definition ints_ok (l : list Z) : bool := forallb int_ok l.
Inductive trav (A : Type) : Type := Visited (l : list A) | Overflow | TravNoFuel.
Arguments Visited {A} _.
Arguments Overflow {A}.
Arguments TravNoFuel {A}.
Definition visit {A : Type} (c : A) (r : trav A) : trav A :=
  match r with Visited l => Visited (c :: l) | Overflow => Overflow | TravNoFuel => TravNoFuel end.

(** bresenham_grid_traversal.hpp:38-57: the loops of a horizontal or vertical line: coordinate
    [b] moves by [s] until it is [e]; [mk] makes the cell. *)
Fixpoint straight_loop (mk : Z -> key) (s e : Z) (fuel : nat) (b : Z) : trav key :=
  match fuel with
  | O => TravNoFuel
  | S fuel' =>
    if Z.eqb b e then Visited []
    else let b := (b + s)%Z in if int_ok b then visit (mk b) (straight_loop mk s e fuel' b) else Overflow
  end.
(** bresenham_grid_traversal.hpp:68-86 and 88-107, the two loops: [a] is the driving coordinate,
    [b] the other one. *)
Fixpoint slope_loop (mk : Z -> Z -> key) (sa sb e const1 const2 : Z) (fuel : nat) (a b p : Z) : trav key :=
  match fuel with
  | O => TravNoFuel
  | S fuel' =>
    if Z.eqb a e then Visited []
    else
      let a := (a + sa)%Z in
      if (p <? 0)%Z then
        let p := (p + const1)%Z in
        if ints_ok [a; p] then visit (mk a b) (slope_loop mk sa sb e const1 const2 fuel' a b p) else Overflow
      else
        let p := (p + const2)%Z in
        let b := (b + sb)%Z in
        if ints_ok [a; b; p] then visit (mk a b) (slope_loop mk sa sb e const1 const2 fuel' a b p) else Overflow
  end.
(** bresenham_grid_traversal.hpp:24-108, on the indices of the two cells. *)
Definition bresenham (fuel : nat) (x1 y1 x2 y2 : Z) : trav key :=
  let dx := (x2 - x1)%Z in
  let dy := (y2 - y1)%Z in
  if negb (ints_ok [x1; y1; x2; y2; dx; dy]) then Overflow
  else if (dx =? 0)%Z && (dy =? 0)%Z then Visited [(x1, y1)]
  else if (dy =? 0)%Z then
    if negb (int_ok (Z.abs dx)) then Overflow
    else visit (x1, y1) (straight_loop (fun x => (x, y1)) (Z.quot dx (Z.abs dx)) x2 fuel x1)
  else if (dx =? 0)%Z then
    if negb (int_ok (Z.abs dy)) then Overflow
    else visit (x1, y1) (straight_loop (fun y => (x1, y)) (Z.quot dy (Z.abs dy)) y2 fuel y1)
  else
    let xsign := Z.quot dx (Z.abs dx) in
    let ysign := Z.quot dy (Z.abs dy) in
    let dx := Z.abs dx in
    let dy := Z.abs dy in
    if negb (ints_ok [dx; dy]) then Overflow
    else if (dx <? dy)%Z then
      let p := (2 * dx - dy)%Z in
      let const1 := (2 * dx)%Z in
      let const2 := (2 * (dx - dy))%Z in
      if negb (ints_ok [p; const1; dx - dy; const2])%Z then Overflow
      else visit (x1, y1) (slope_loop (fun a b => (b, a)) ysign xsign y2 const1 const2 fuel y1 x1 p)
    else
      let p := (2 * dy - dx)%Z in
      let const2 := (2 * (dy - dx))%Z in
      let const1 := (2 * dy)%Z in
      if negb (ints_ok [p; const1; dy - dx; const2])%Z then Overflow
      else visit (x1, y1) (slope_loop (fun a b => (a, b)) xsign ysign x2 const1 const2 fuel x1 y1 p).
(** bresenham_grid_traversal.hpp:18-31: the indices are converted from [uint32_t] to [int]; a
    value above the largest int is implementation-defined, treated as [Overflow] above. *)
Definition bresenham_segment_traversal (fuel : nat) (g : grid) (s t : pt) : trav key :=
  match get_x_index g (px s), get_y_index g (py s), get_x_index g (px t), get_y_index g (py t) with
  | Some x1, Some y1, Some x2, Some y2 => bresenham fuel x1 y1 x2 y2
  | _, _, _, _ => Overflow
  end.
