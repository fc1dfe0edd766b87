(** Segments, polylines and polygons meeting each other, self-intersection, simplicity and
    containment.  Models
    algorithm/intersection/segment_polyline_intersection.hpp,
    algorithm/intersection/polyline_polyline_intersection.hpp,
    algorithm/intersection/segment_polygon_intersection.hpp (the border intersection),
    algorithm/point_sequence/self_intersection.hpp,
    algorithm/point_sequence/is_polygon_simple.hpp,
    algorithm/intersection/segment_projects_outside_polygon.hpp,
    algorithm/point_sequence/polygon_polyline_containment.hpp,
    algorithm/point_sequence/polygon_polygon_containment.hpp and
    algorithm/segment_mid_point.hpp.
    [None] everywhere: a point index out of range, or a division by zero. *)
From Verif Require Import Base CmpModel DistModel LinIntModel PolygonModel.

(** What the visitor is told: the type, the side i -> j, and the points. *)
Record hit := mkhit { h_type : itype; h_i : nat; h_j : nat; h_points : list pt }.
(** The visitor may carry state: whether it asks to stop is a function of everything it has been
    told so far, the latest hit last. *)
Definition visitor := list hit -> bool.

Definition is_non_crossing (t : itype) : bool := match t with e_non_crossing => true | _ => false end.

(** segment_polyline_intersection.hpp:38-52 and segment_polygon_intersection.hpp:90-105: the
    loop over the sides given by their indices. *)
Fixpoint sides_loop (cmp : policy) (stop : visitor) (A B : pt) (ps : list pt) (idx : list (nat * nat))
    (intersected : bool) (hits : list hit) : option (bool * list hit) :=
  match idx with
  | [] => Some (intersected, hits)
  | (i, j) :: idx' =>
    match nth_error ps i, nth_error ps j with
    | Some C, Some D =>
      match segment_segment_intersection cmp A B C D with
      | None => None
      | Some (iType, xPoints) =>
        if is_non_crossing iType then sides_loop cmp stop A B ps idx' intersected hits
        else
          let hits' := hits ++ [mkhit iType i j xPoints] in
          if stop hits' then Some (true, hits') else sides_loop cmp stop A B ps idx' true hits'
      end
    | _, _ => None
    end
  end.
(** segment_polyline_intersection.hpp:39: i = 0, j = 1; j < size; i = j++. *)
Definition polyline_indices (n : nat) : list (nat * nat) := map (fun i => (i, S i)) (seq 0 (n - 1)).
(** segment_polygon_intersection.hpp:92: i = 0, j = 1; i < size; ++i, j = (j + 1) % size. *)
Fixpoint border_indices (k i j n : nat) : list (nat * nat) :=
  match k with O => [] | S k' => (i, j) :: border_indices k' (S i) (S j mod n) n end.

(** segment_polyline_intersection.hpp:28-53. *)
Definition segment_polyline_intersect (cmp : policy) (stop : visitor) (A B : pt) (ps : list pt) : option (bool * list hit) :=
  sides_loop cmp stop A B ps (polyline_indices (length ps)) false [].
(** segment_polygon_intersection.hpp:80-106. *)
Definition segment_polygon_border_intersect (cmp : policy) (stop : visitor) (A B : pt) (ps : list pt) : option (bool * list hit) :=
  sides_loop cmp stop A B ps (border_indices (length ps) 0 1 (length ps)) false [].

(** polyline_polyline_intersection.hpp:28-58.  The outer visitor is told the index of the side
    of the first polyline as well.  Lines 44-49: the inner visitor records the intersection and
    passes on the request to stop; lines 52-54: the loop ends whenever the inner call answered
    true. *)
Definition visitor2 := list (nat * hit) -> bool.
Fixpoint polyline_loop (cmp : policy) (stop : visitor2) (A B : list pt) (idx : list (nat * nat)) (hits : list (nat * hit)) : option (bool * list (nat * hit)) :=
  match idx with
  | [] => Some (match hits with [] => false | _ => true end, hits)
  | (i1, j1) :: idx' =>
    match nth_error A i1, nth_error A j1 with
    | Some P, Some Q =>
      match segment_polyline_intersect cmp (fun inner => stop (hits ++ map (pair i1) inner)) P Q B with
      | None => None
      | Some (stopped, inner) =>
        let hits' := hits ++ map (pair i1) inner in
        if stopped then Some (match hits' with [] => false | _ => true end, hits')
        else polyline_loop cmp stop A B idx' hits'
      end
    | _, _ => None
    end
  end.
Definition polyline_polyline_intersect (cmp : policy) (stop : visitor2) (A B : list pt) : option (bool * list (nat * hit)) :=
  polyline_loop cmp stop A B (polyline_indices (length A)) [].

(** The first answer true ends a search; an undefined answer ends everything. *)
Fixpoint search {X : Type} (f : X -> option bool) (l : list X) : option bool :=
  match l with
  | [] => Some false
  | x :: l' => match f x with Some true => Some true | Some false => search f l' | None => None end
  end.
(** The intersection of the sides i -> i' and j -> j' of (possibly) two sequences. *)
Definition sides_meet (cmp : policy) (ps qs : list pt) (i i' j j' : nat) : option (itype * list pt) :=
  match nth_error ps i, nth_error ps i', nth_error qs j, nth_error qs j' with
  | Some A, Some B, Some C, Some D => segment_segment_intersection cmp A B C D
  | _, _, _, _ => None
  end.
Definition intersecting (cmp : policy) (ps : list pt) (i i' j j' : nat) : option bool :=
  match sides_meet cmp ps ps i i' j j' with Some (t, _) => Some (negb (is_non_crossing t)) | None => None end.

(** self_intersection.hpp:18-54: the answer and everything the visitor is told. *)
Definition is_overlapping (t : itype) : bool := match t with e_overlapping => true | _ => false end.
Fixpoint self_loop (cmp : policy) (ps : list pt) (idx : list (nat * nat)) : option (list (nat * nat * itype * list pt)) :=
  match idx with
  | [] => Some []
  | (i, j) :: idx' =>
    match sides_meet cmp ps ps i (S i) j (S j) with
    | None => None
    | Some (t, xs) =>
      match self_loop cmp ps idx' with
      | None => None
      | Some rest =>
        let adjacent := Nat.eqb (S i) j || Nat.eqb (S j) i in
        Some (if negb (is_non_crossing t) && (negb adjacent || is_overlapping t) then (i, j, t, xs) :: rest else rest)
      end
    end
  end.
Definition self_indices (n : nat) : list (nat * nat) :=
  flat_map (fun i => map (pair i) (seq (S i) (n - 1 - S i))) (seq 0 (n - 2)).
Definition polyline_self_intersection (cmp : policy) (ps : list pt) : option (bool * list (nat * nat * itype * list pt)) :=
  if Nat.ltb (length ps) 3 then Some (false, [])
  else match self_loop cmp ps (self_indices (length ps)) with
       | None => None
       | Some l => Some (match l with [] => false | _ => true end, l)
       end.

(** is_polygon_simple.hpp:70-93.  With fewer than two points the unsigned [size - 2] wraps
    around and the loop reads out of range. *)
Definition next (n i : nat) : nat := S i mod n.
Definition adjacent (n i j : nat) : bool := Nat.eqb (next n i) j || Nat.eqb (next n j) i.
Definition simple_indices (n : nat) : list (nat * nat) :=
  flat_map (fun i => map (pair i) (seq (i + 2) (n - (i + 2)))) (seq 0 (n - 2)).
Definition is_polygon_simple (cmp : policy) (ps : list pt) : option bool :=
  let n := length ps in
  if Nat.ltb n 2 then None
  else option_map negb (search (fun ij : nat * nat => let (i, j) := ij in
    match intersecting cmp ps i (next n i) j (next n j) with
    | None => None
    | Some b => Some (b && negb (adjacent n i j))
    end) (simple_indices n)).

(** is_polygon_simple.hpp:22-44: the key of a pair of sides; the larger side goes first. *)
Definition side_key : Type := nat * nat.
Definition key_lt (a b : side_key) : bool := Nat.ltb (fst a) (fst b) || (Nat.eqb (fst a) (fst b) && Nat.ltb (snd a) (snd b)).
Definition intersection_key (i j k l : nat) : side_key * side_key :=
  if key_lt (i, j) (k, l) then ((k, l), (i, j)) else ((i, j), (k, l)).
Definition key_eqb (x y : side_key * side_key) : bool :=
  Nat.eqb (fst (fst x)) (fst (fst y)) && Nat.eqb (snd (fst x)) (snd (fst y)) &&
  Nat.eqb (fst (snd x)) (fst (snd y)) && Nat.eqb (snd (snd x)) (snd (snd y)).
(** The cache; utility/memoize.hpp itself is modelled in MemoModel, here the [std::map] is a list
    of entries. *)
Definition answers : Type := list ((side_key * side_key) * bool).
Definition find_answer (c : answers) (key : side_key * side_key) : option bool :=
  match find (fun e => key_eqb (fst e) key) c with Some e => Some (snd e) | None => None end.
Definition memo_intersecting (cmp : policy) (ps : list pt) (c : answers) (i j k l : nat) : option (bool * answers) :=
  let key := intersection_key i j k l in
  match find_answer c key with
  | Some b => Some (b, c)
  | None => match intersecting cmp ps i j k l with Some b => Some (b, (key, b) :: c) | None => None end
  end.
(** is_polygon_simple.hpp:61-64: k = next(j), l = next(k); l != i; k = l, l = next(l).  [None]
    also when the fuel runs out (it does not: l runs through all the indices). *)
Fixpoint memo_inner (fuel : nat) (cmp : policy) (ps : list pt) (i j k l : nat) (c : answers) : option (bool * answers) :=
  if Nat.eqb l i then Some (false, c)
  else match fuel with
       | O => None
       | S fuel' =>
         match memo_intersecting cmp ps c i j k l with
         | None => None
         | Some (true, c') => Some (true, c')
         | Some (false, c') => memo_inner fuel' cmp ps i j l (next (length ps) l) c'
         end
       end.
(** is_polygon_simple.hpp:60-66: i = size - 1, j = 0; j < size; i = j++. *)
Fixpoint memo_outer (cmp : policy) (ps : list pt) (idx : list (nat * nat)) (c : answers) : option bool :=
  match idx with
  | [] => Some true
  | (i, j) :: idx' =>
    let n := length ps in
    match memo_inner n cmp ps i j (next n j) (next n (next n j)) c with
    | None => None
    | Some (true, _) => Some false
    | Some (false, c') => memo_outer cmp ps idx' c'
    end
  end.
Definition memo_indices (n : nat) : list (nat * nat) :=
  map (fun j => (match j with O => (n - 1)%nat | S i => i end, j)) (seq 0 n).
(** is_polygon_simple.hpp:46-68. *)
Definition is_polygon_simple_memoized (cmp : policy) (ps : list pt) : option bool :=
  memo_outer cmp ps (memo_indices (length ps)) [].

(** is_polygon_simple.hpp:95-104; [front()] of an empty polygon is undefined. *)
Definition to_polyline (ps : list pt) : option (list pt) := match ps with [] => None | a :: _ => Some (ps ++ [a]) end.
Fixpoint to_polylines (l : list (list pt)) : option (list (list pt)) :=
  match l with
  | [] => Some []
  | ps :: l' => match to_polyline ps, to_polylines l' with Some p, Some r => Some (p :: r) | _, _ => None end
  end.
(** is_polygon_simple.hpp:128-141. *)
Fixpoint disjoint_loop (cmp : policy) (subjects : list (list pt)) : option bool :=
  match subjects with
  | [] => Some true
  | p :: rest =>
    match search (fun q => option_map fst (polyline_polyline_intersect cmp (fun _ => true) p q)) rest with
    | None => None
    | Some true => Some false
    | Some false => disjoint_loop cmp rest
    end
  end.
(** is_polygon_simple.hpp:106-144. *)
Definition is_polygon_with_holes_simple (cmp : policy) (outer : list pt) (holes : list (list pt)) : option bool :=
  match search (fun ps => option_map negb (is_polygon_simple cmp ps)) (outer :: holes) with
  | None => None
  | Some true => Some false
  | Some false => match to_polylines (outer :: holes) with None => None | Some subjects => disjoint_loop cmp subjects end
  end.

(** segment_mid_point.hpp:51-55. *)
Definition segment_mid_point (a b : pt) : pt := vscale (1 # 2) (vadd a b).

(** The points of a [std::set] ordered by [lexicographical_comparer]: inserted at its place unless
    an equivalent point is there. *)
Definition point_less (cmp : policy) (a b : pt) : bool := lexicographical cmp [px a; py a] [px b; py b].
Fixpoint set_insert (cmp : policy) (p : pt) (l : list pt) : list pt :=
  match l with
  | [] => [p]
  | q :: l' => if point_less cmp q p then q :: set_insert cmp p l'
               else if point_less cmp p q then p :: l else l
  end.
(** segment_projects_outside_polygon.hpp:33-44; line 43 inserts the half-open range of one point. *)
Fixpoint border_points (cmp : policy) (A B : pt) (ps : list pt) (idx : list nat) (s : list pt) : option (list pt) :=
  match idx with
  | [] => Some s
  | i :: idx' =>
    match nth_error ps i, nth_error ps (next (length ps) i) with
    | Some C, Some D =>
      match segment_segment_intersection cmp A B C D with
      | None => None
      | Some (e_crossing, X :: _) | Some (e_endpoint, X :: _) | Some (e_overlapping, X :: _) =>
          border_points cmp A B ps idx' (set_insert cmp X s)
      | Some _ => border_points cmp A B ps idx' s
      end
    | _, _ => None
    end
  end.
Definition is_exterior (c : polygon_containment) : bool := match c with exterior => true | _ => false end.
(** segment_projects_outside_polygon.hpp:51-61. *)
Fixpoint outside_between (cmp : policy) (eps : Q) (ps : list pt) (l : list pt) : bool :=
  match l with
  | a :: ((b :: _) as l') =>
      is_exterior (point_polygon_containment_or_on_border cmp eps (segment_mid_point a b) ps) || outside_between cmp eps ps l'
  | _ => false
  end.
(** segment_projects_outside_polygon.hpp:25-65. *)
Definition segment_projects_outside_polygon (cmp : policy) (eps : Q) (A B : pt) (ps : list pt) : option bool :=
  match border_points cmp A B ps (seq 0 (length ps)) [] with
  | None => None
  | Some [] => Some false
  | Some s => Some (outside_between cmp eps ps (set_insert cmp B (set_insert cmp A s)))
  end.

(** polygon_polyline_containment.hpp:55-74, polygon_polygon_containment.hpp:54-71. *)
Definition is_crossing_out (cmp : policy) (eps : Q) (ps qs : list pt) (i i' j : nat) : option bool :=
  match nth_error ps i, nth_error ps i', nth_error qs j, nth_error qs (next (length qs) j) with
  | Some A, Some B, Some C, Some D =>
    match segment_segment_intersection cmp A B C D with
    | None => None
    | Some (e_non_crossing, _) => Some false
    | Some (e_crossing, _) => Some true
    | Some _ => segment_projects_outside_polygon cmp eps A B qs
    end
  | _, _, _, _ => None
  end.
(** polygon_polyline_containment.hpp:41-52 and 76-86, polygon_polygon_containment.hpp:40-51 and
    73-83; the sides of the first sequence are given by their indices. *)
Definition containment_by (cmp : policy) (eps : Q) (ps qs : list pt) (sides : list (nat * nat)) : option bool :=
  if existsb (fun p => negb (is_exterior (point_polygon_containment_or_on_border cmp eps p qs))) ps then
    option_map negb (search (fun s : nat * nat => search (fun j => is_crossing_out cmp eps ps qs (fst s) (snd s) j) (seq 0 (length qs))) sides)
  else Some false.
(** polygon_polyline_containment.hpp:26-87. *)
Definition polygon_polyline_containment (cmp : policy) (eps : Q) (pline pgon : list pt) : option bool :=
  containment_by cmp eps pline pgon (polyline_indices (length pline)).
(** polygon_polygon_containment.hpp:25-84. *)
Definition polygon_polygon_containment (cmp : policy) (eps : Q) (polygon1 polygon2 : list pt) : option bool :=
  containment_by cmp eps polygon1 polygon2 (map (fun i => (i, next (length polygon1) i)) (seq 0 (length polygon1))).
