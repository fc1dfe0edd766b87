(** Specification of the removal of vertices. *)
From Verif Require Import Base CmpModel OrientSpec DistSpec PolygonSpec.

(** [r] keeps some elements of [l], in order. *)
Inductive subsequence {A : Type} : list A -> list A -> Prop :=
| sub_nil : subsequence [] []
| sub_keep : forall x r l, subsequence r l -> subsequence (x :: r) (x :: l)
| sub_skip : forall x r l, subsequence r l -> subsequence r (x :: l).

(** A, B, C are successive vertices. *)
Definition successive (ps : list pt) (A B C : pt) : Prop :=
  exists i, nth_error ps i = Some A /\ nth_error ps (S i) = Some B /\ nth_error ps (S (S i)) = Some C.
(** Wherever three successive vertices are on a line, the middle one is strictly between the
    others: the chain never folds back onto itself and never stands still. *)
Definition goes_on (ps : list pt) : Prop :=
  forall A B C, successive ps A B C -> tri2 A B C == 0 -> inside_segment A C B /\ ~ A =p= C.
(** No three successive vertices are on a line. *)
Definition no_straight_vertex (ps : list pt) : Prop := forall A B C, successive ps A B C -> ~ tri2 A B C == 0.
(** The closed polygon as a chain that returns to its first vertex and goes on to the second. *)
Definition around (ps : list pt) : list pt := ps ++ firstn 2 ps.
(** The elements whose index is not listed. *)
Definition without_indices {A : Type} (ix : list nat) (l : list A) : list A :=
  map snd (filter (fun e => negb (existsb (Nat.eqb (fst e)) ix)) (combine (seq 0 (length l)) l)).
(** Successive vertices differ. *)
Definition no_repeated_vertex (ps : list pt) : Prop :=
  forall i A B, nth_error ps i = Some A -> nth_error ps (S i) = Some B -> ~ A =p= B.
(** The points of the chain, its vertices included. *)
Definition touches (ps : list pt) (X : pt) : Prop := (exists v, In v ps /\ X =p= v) \/ on_polyline ps X.
