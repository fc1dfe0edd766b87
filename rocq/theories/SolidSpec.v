(** Specification of the solid-leaf partition tree. *)
From Verif Require Import Base OrientSpec PolygonSpec BspModel BspSpec SolidModel.

(** A rule that picks a segment not used before, and none only when all are used. *)
Definition selects_unused (sel : list item -> option nat) : Prop :=
  forall items, match sel items with
    | Some k => exists it, nth_error items k = Some it /\ it_used it = false
    | None => forall it, In it items -> it_used it = true
    end.
(** [E], the empty space, is to the left of the walls, and changes only there: whoever leaves the
    walls at an inner point of a wall without meeting them again is in E if they left to the left
    and not in E if they left to the right, and no path that avoids the walls leads into or out
    of E. *)
Definition empty_space (walls : list seg) (E : pt -> Prop) : Prop :=
  left_of_boundary walls E /\
  forall P Y, (forall t, 0 <= t <= 1 -> ~ on_any walls (lerp P Y t)) -> (E P <-> E Y).
(** No two of the walls are on one line. *)
Definition no_two_on_a_line (walls : list seg) : Prop :=
  forall i j a b, i <> j -> nth_error walls i = Some a -> nth_error walls j = Some b -> ~ (side a (fst b) == 0 /\ side a (snd b) == 0).

(** [t] is a tree built for the walls, by some rule and with enough steps. *)
Definition solid_tree (segs : list seg) (t : solid_bsp) : Prop :=
  segs <> [] /\ (forall s, In s segs -> proper s) /\ exists sel fuel, selects_unused sel /\ solid_leaf_bsp_tree segs sel fuel = Some t.
(** The point of the ray from [p] along [d] at parameter [s]. *)
Definition at_ray (p d : pt) (s : Q) : pt := vadd p (vscale s d).

(** [n] of the elements other than number [k] have the property. *)
Definition others (items : list item) (k : nat) (P : seg -> Prop) (n : nat) : Prop :=
  exists js, NoDup js /\ length js = n /\ forall j, In j js <-> j <> k /\ exists it, nth_error items j = Some it /\ P (it_seg it).
(** The line of [s] cuts the segment; the segment reaches behind the line only; it does neither. *)
Definition cut_by (s e : seg) : Prop := side s (fst e) * side s (snd e) < 0.
Definition only_behind (s e : seg) : Prop := side s (fst e) <= 0 /\ side s (snd e) <= 0 /\ (side s (fst e) < 0 \/ side s (snd e) < 0).
Definition not_behind (s e : seg) : Prop := 0 <= side s (fst e) /\ 0 <= side s (snd e).
