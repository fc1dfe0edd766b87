(** Binary space partition of segments.  Models algorithm/node_bsp_tree_2d.hpp (the bounding box
    m_bounds, negation() and get_partition(), which do not compile, are not modelled). *)
From Verif Require Import Base CmpModel OrientModel LinIntModel.

Definition seg : Type := (pt * pt)%type.
Inductive classification : Type := e_crosses (subPos subNeg : seg) | e_positive | e_negative | e_coincident.

(** node_bsp_tree_2d.hpp:450-516.  [None]: undefined. *)
Definition classify (cmp : policy) (split edge : seg) : option classification :=
  let orientation_start := get_orientation cmp (fst split) (snd split) (fst edge) in
  let orientation_end := get_orientation cmp (fst split) (snd split) (snd edge) in
  let rest :=
    match orientation_start, orientation_end with
    | oriented_left, _ | _, oriented_left => Some e_positive
    | oriented_right, _ | _, oriented_right => Some e_negative
    | _, _ => Some e_coincident
    end in
  match orientation_start, orientation_end with
  | oriented_left, oriented_right | oriented_right, oriented_left =>
    match line_segment_intersect cmp (fst split) (snd split) (fst edge) (snd edge) with
    | None => None
    | Some (e_crossing, Some x) =>
      match orientation_end with
      | oriented_left =>
        if pt_equals cmp (fst edge) x then Some e_positive
        else if pt_equals cmp (snd edge) x then Some e_negative
        else Some (e_crosses (x, snd edge) (fst edge, x))
      | _ =>
        if pt_equals cmp (fst edge) x then Some e_negative
        else if pt_equals cmp (snd edge) x then Some e_positive
        else Some (e_crosses (fst edge, x) (x, snd edge))
      end
    | Some (e_overlapping, _) => Some e_coincident
    | _ => rest
    end
  | _, _ => rest
  end.

(** The loops at :411-439 and :271-299: posList, negList, and the segments added to
    m_coincidentEdges. *)
Fixpoint distribute (cmp : policy) (split : seg) (range : list seg) : option (list seg * list seg * list seg) :=
  match range with
  | [] => Some ([], [], [])
  | s :: range' =>
    match classify cmp split s, distribute cmp split range' with
    | Some c, Some (pos, neg, co) =>
      match c with
      | e_crosses p n => Some (p :: pos, n :: neg, co)
      | e_positive => Some (s :: pos, neg, co)
      | e_negative => Some (pos, s :: neg, co)
      | e_coincident => Some (pos, neg, s :: co)
      end
    | _, _ => None
    end
  end.

(** A node, or the null pointer. *)
Inductive bsp : Type := Null | Node (split : seg) (edges : list seg) (pos neg : bsp).

(** node_bsp_tree_2d.hpp:401-446: [None] when not finished after [fuel] nested constructors. *)
Fixpoint build (cmp : policy) (selector : list seg -> seg) (fuel : nat) (range : list seg) : option bsp :=
  match fuel with
  | O => None
  | S fuel' =>
    let child l := match l with [] => Some Null | _ => build cmp selector fuel' l end in
    let split := selector range in
    match distribute cmp split range with
    | None => None
    | Some (pos, neg, co) =>
      match child pos, child neg with
      | Some p, Some n => Some (Node split co p n)
      | _, _ => None
      end
    end
  end.

(** node_bsp_tree_2d.hpp:265-316. *)
Fixpoint insert (cmp : policy) (selector : list seg -> seg) (fuel : nat) (t : bsp) (range : list seg) : option bsp :=
  match t with
  | Null => match range with [] => Some Null | _ => build cmp selector fuel range end
  | Node split edges pos neg =>
    match distribute cmp split range with
    | None => None
    | Some (lp, ln, co) =>
      match (match lp with [] => Some pos | _ => insert cmp selector fuel pos lp end),
            (match ln with [] => Some neg | _ => insert cmp selector fuel neg ln end) with
      | Some p, Some n => Some (Node split (edges ++ co) p n)
      | _, _ => None
      end
    end
  end.

Inductive location : Type := e_inside | e_outside | e_boundary.
(** node_bsp_tree_2d.hpp:518-562, on a node. *)
Fixpoint locate_point (cmp : policy) (t : bsp) (x : pt) : option location :=
  match t with
  | Null => None
  | Node split edges pos neg =>
    match get_orientation cmp (fst split) (snd split) x with
    | oriented_left => match pos with Null => Some e_inside | _ => locate_point cmp pos x end
    | oriented_right => match neg with Null => Some e_outside | _ => locate_point cmp neg x end
    | oriented_collinear =>
      if existsb (fun s => is_between cmp (fst s) (snd s) x true) edges then Some e_boundary
      else match pos, neg with
           | Null, Null => Some e_boundary
           | Null, _ => locate_point cmp neg x
           | _, _ => locate_point cmp pos x
           end
    end
  end.

(** node_bsp_tree_2d.hpp:577-629: the segments in the order in which they are visited. *)
Fixpoint painters_traversal (cmp : policy) (t : bsp) (x : pt) : list seg :=
  match t with
  | Null => []
  | Node split edges Null Null => edges
  | Node split edges pos neg =>
    match get_orientation cmp (fst split) (snd split) x with
    | oriented_left => painters_traversal cmp neg x ++ edges ++ painters_traversal cmp pos x
    | oriented_right => painters_traversal cmp pos x ++ edges ++ painters_traversal cmp neg x
    | oriented_collinear => painters_traversal cmp pos x ++ painters_traversal cmp neg x
    end
  end.

(** node_bsp_tree_2d.hpp:55-67. *)
Definition first_segment_selector (l : list seg) : seg := hd (mkpt 0 0, mkpt 0 0) l.
