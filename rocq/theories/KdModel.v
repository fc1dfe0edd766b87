(** Model of algorithm/kd_tree.hpp and algorithm/median_partitioning_strategy.hpp. *)
From Coq Require Import Permutation.
From Verif Require Import Base CmpModel BoxModel.

(** utility/utilities.hpp:809-832, [dimension_compare<D>]. *)
Definition dimension_compare (cmp : policy) (D : nat) (lhs rhs : coords) : bool :=
  if less_than cmp (coord D lhs) (coord D rhs) then true
  else if equals cmp (coord D lhs) (coord D rhs) then lexicographical cmp lhs rhs
  else false.

(** [set<D>(p, v)]. *)
Fixpoint set_coord (D : nat) (v : Q) (p : coords) : coords :=
  match p, D with
  | [], _ => []
  | _ :: p', O => v :: p'
  | x :: p', S D' => x :: set_coord D' v p'
  end.

Section Build.
(** [std::nth_element] with [dimension_compare<D>] and nth = begin + k. *)
Variable nth_element : nat -> nat -> list coords -> list coords.
Variable cmp : policy.

(** median_partitioning_strategy.hpp:39-45: how far [median] moves up. *)
Fixpoint run_up (D : nat) (m : coords) (l : list coords) : nat :=
  match l with
  | [] => 0
  | n :: l' => if negb (dimension_compare cmp D m n) then S (run_up D n l') else 0
  end.
(** median_partitioning_strategy.hpp:25-48: the rearranged sequence and the index.  [None]: the
    sequence is empty, and [++next] passes its end. *)
Definition partition (D : nat) (l : list coords) : option (list coords * nat) :=
  let k := Nat.div (length l) 2 in
  let s := nth_element D k l in
  match skipn k s with
  | [] => None
  | m :: rest => Some (s, k + run_up D m rest)%nat
  end.

(** kd_tree.hpp:195-202: [m_pLeaf], or the two children (each may be null), and the region.
    [m_median] is never read after the construction. *)
Inductive kd : Type :=
| Leaf (region : aabb) (p : coords)
| Node (region : aabb) (l r : option kd).
Inductive built (A : Type) : Type := Built (a : A) | BuildUndefined | BuildNoFuel.
Arguments Built {A} _.
Arguments BuildUndefined {A}.
Arguments BuildNoFuel {A}.

(** kd_tree.hpp:84-122 and 125-158 (the two bodies are the same up to the first dimension). *)
Fixpoint build_tree (dim fuel D : nat) (region : aabb) (l : list coords) : built kd :=
  match fuel with
  | O => BuildNoFuel
  | S fuel' =>
    match l with
    | [p] => Built (Leaf region p)
    | _ =>
      match partition D l with
      | None => BuildUndefined
      | Some (s, k) =>
        let median := coord D (nth k s []) in
        let left := firstn k s in
        let right := skipn k s in
        let child (part : list coords) (reg : aabb) : built (option kd) :=
          match part with
          | [] => Built None
          | _ => match build_tree dim fuel' (Nat.modulo (S D) dim) reg part with
                 | Built t => Built (Some t)
                 | BuildUndefined => BuildUndefined
                 | BuildNoFuel => BuildNoFuel
                 end
          end in
        match child left (mkaabb (low region) (set_coord D median (high region))) with
        | Built lt =>
          match child right (mkaabb (set_coord D median (low region)) (high region)) with
          | Built rt => Built (Node region lt rt)
          | BuildUndefined => BuildUndefined
          | BuildNoFuel => BuildNoFuel
          end
        | BuildUndefined => BuildUndefined
        | BuildNoFuel => BuildNoFuel
        end
      end
    end
  end.

(** kd_tree.hpp:57-62: the constructor.  [HI], [LO]: the extreme values of the number type. *)
Definition kd_tree (HI LO : Q) (dim fuel : nat) (ps : list coords) : built kd :=
  build_tree dim fuel 0 (make_aabb direct HI LO dim ps) ps.
End Build.
Arguments Built {A} _.
Arguments BuildUndefined {A}.
Arguments BuildNoFuel {A}.

Definition kd_region (t : kd) : aabb := match t with Leaf r _ => r | Node r _ _ => r end.

(** kd_tree.hpp:180-193, [traverse_subtrees]: the visited points in order. *)
Fixpoint traverse_subtrees (t : kd) : list coords :=
  match t with
  | Leaf _ p => [p]
  | Node _ l r =>
    (match l with Some t => traverse_subtrees t | None => [] end) ++
    (match r with Some t => traverse_subtrees t | None => [] end)
  end.

(** kd_tree.hpp:64-72 and 152-178, [search] (the dimension is passed on but never used). *)
Fixpoint search (cmp : policy) (range : aabb) (t : kd) : list coords :=
  match t with
  | Leaf _ p => [p]
  | Node _ l r =>
    (match l with
     | Some c => if contains_box cmp range (kd_region c) then traverse_subtrees c
                 else if intersects_box cmp range (kd_region c) then search cmp range c else []
     | None => [] end) ++
    (match r with
     | Some c => if contains_box cmp range (kd_region c) then traverse_subtrees c
                 else if intersects_box cmp range (kd_region c) then search cmp range c else []
     | None => [] end)
  end.
