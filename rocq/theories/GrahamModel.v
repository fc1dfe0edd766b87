(** The convex hull by Graham's scan.  Models algorithm/convex_hull_graham.hpp.  An index or
    iterator out of range is [None]. *)
From Verif Require Import Base CmpModel OrientModel.
From Coq Require Import Sorting.Permutation Sorting.Sorted.

(** std::swap of the first element and the element [k]. *)
Fixpoint set_nth (k : nat) (v : pt) (l : list pt) : list pt :=
  match l, k with
  | [], _ => []
  | _ :: l', O => v :: l'
  | a :: l', S k' => a :: set_nth k' v l'
  end.
Definition swap_first (k : nat) (l : list pt) : list pt :=
  let a := nth 0 l (mkpt 0 0) in
  let b := nth k l (mkpt 0 0) in
  set_nth k a (set_nth 0 b l).
(** convex_hull_graham.hpp:122-134: [low] is indexLowest, [n] the number of passes left.  The
    reference lowestPoint is bound before indexLowest changes, so the swap is with the old
    lowest point. *)
Fixpoint find_lowest_loop (cmp : policy) (n i low : nat) (ps : list pt) : list pt :=
  match n with
  | O => ps
  | S n' =>
    let lowest := nth low ps (mkpt 0 0) in
    let pi := nth i ps (mkpt 0 0) in
    if less_than cmp (py pi) (py lowest) || (equals cmp (py pi) (py lowest) && greater_than cmp (px pi) (px lowest))
    then find_lowest_loop cmp n' (S i) i (swap_first low ps)
    else find_lowest_loop cmp n' (S i) low ps
  end.
(** convex_hull_graham.hpp:114-136. *)
Definition find_lowest (cmp : policy) (ps : list pt) : list pt := find_lowest_loop cmp (length ps - 1) 1 0 ps.
(** convex_hull_graham.hpp:49-52. *)
Definition graham_compare (cmp : policy) (o p1 p2 : pt) : bool := greater_than cmp (cross (vsub p1 o) (vsub p2 o)) 0.
(** std::sort: some rearrangement in which no element is less than an earlier one.  The order of
    equivalent elements is unspecified. *)
Definition std_sort (less : pt -> pt -> bool) (before after : list pt) : Prop :=
  Permutation before after /\ StronglySorted (fun a b => less b a = false) after.
(** convex_hull_graham.hpp:86-104, the passes for one point pI: those that erase the top of the
    stack, and the one that pushes pI.  The stack is listed from its top. *)
Fixpoint graham_insert (cmp : policy) (stack : list pt) (pi : pt) : option (list pt) :=
  match stack with
  | p2 :: stack' =>
    match stack' with
    | p1 :: _ =>
      match get_orientation cmp p1 p2 pi with
      | oriented_left => Some (pi :: stack)
      | _ => graham_insert cmp stack' pi
      end
    | [] => None
    end
  | [] => None
  end.
Fixpoint graham_loop (cmp : policy) (stack ps : list pt) : option (list pt) :=
  match ps with
  | [] => Some stack
  | p :: ps' => match graham_insert cmp stack p with Some stack' => graham_loop cmp stack' ps' | None => None end
  end.
(** convex_hull_graham.hpp:80-108, on the sorted points; the polygon is built from the stack in
    the order of its list, top first. *)
Definition graham_scan (cmp : policy) (ps : list pt) : option (list pt) :=
  match ps with
  | p0 :: p1 :: rest => graham_loop cmp [p1; p0] rest
  | _ => None
  end.
(** convex_hull_graham.hpp:68-109: what a call may return. *)
Definition get_convex_hull (cmp : policy) (points : list pt) (result : option (list pt)) : Prop :=
  exists p0 rest sorted, find_lowest cmp points = p0 :: rest /\ std_sort (graham_compare cmp p0) rest sorted /\ graham_scan cmp (p0 :: sorted) = result.
