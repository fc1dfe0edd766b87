(** The scored choice of a splitting segment: [scored_segment_selector_policy] of
    algorithm/node_bsp_tree_2d.hpp:95-222. *)
From Verif Require Import Base CmpModel OrientModel LinIntModel BspModel.

Inductive kind : Type := k_crosses | k_positive | k_negative | k_coincident.
(** node_bsp_tree_2d.hpp:167-219, the same decisions as the tree's own [classify] (:450-516) without
    the two pieces. *)
Definition score_classify (cmp : policy) (splittingLine edge : seg) : option kind :=
  match classify cmp splittingLine edge with
  | Some (e_crosses _ _) => Some k_crosses
  | Some e_positive => Some k_positive
  | Some e_negative => Some k_negative
  | Some e_coincident => Some k_coincident
  | None => None
  end.

(** node_bsp_tree_2d.hpp:129-152: the counts for the segment [plane] at position [i]; the call is
    [classify( *j, plane )].  (numInFront, numBehind, numStraddling). *)
Fixpoint score_counts (cmp : policy) (plane : seg) (i j : nat) (r : list seg) : option (Z * Z * Z) :=
  match r with
  | [] => Some (0, 0, 0)%Z
  | sj :: r' =>
    if Nat.eqb i j then score_counts cmp plane i (S j) r'
    else
      match score_classify cmp sj plane, score_counts cmp plane i (S j) r' with
      | Some k, Some (f, b, s) =>
        match k with
        | k_coincident | k_positive => Some (f + 1, b, s)%Z
        | k_negative => Some (f, b + 1, s)%Z
        | k_crosses => Some (f, b, s + 1)%Z
        end
      | _, _ => None
      end
  end.
(** node_bsp_tree_2d.hpp:154-156; the factor 0.8 is exact here. *)
Definition score (f b s : Z) : Q := (4 # 5) * inject_Z s + (1 # 5) * inject_Z (Z.abs (f - b)).

(** node_bsp_tree_2d.hpp:123-161: the loop; [best] is [None] while the best score is the largest
    number. *)
Fixpoint score_loop (cmp : policy) (all : list seg) (i : nat) (r : list seg) (best : option (Q * seg)) : option (option (Q * seg)) :=
  match r with
  | [] => Some best
  | plane :: r' =>
    match score_counts cmp plane i 0 all with
    | None => None
    | Some (f, b, s) =>
      let sc := score f b s in
      let better := match best with Some (bs, _) => Qltb sc bs | None => true end in
      score_loop cmp all (S i) r' (if better then Some (sc, plane) else best)
    end
  end.
(** node_bsp_tree_2d.hpp:112-164.  [None]: an undefined operation, or an empty range (a segment that
    was never set is returned). *)
Definition scored_segment_selector (cmp : policy) (r : list seg) : option seg :=
  match score_loop cmp r 0 r None with
  | Some (Some (_, s)) => Some s
  | _ => None
  end.
