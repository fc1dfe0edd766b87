(** Specification of the walk guided by cell corners. *)
From Verif Require Import Base GridModel GridSpec FloodSpec VoxelSpec.

(** The part of the segment in the region is the part from [u0] to [u1]. *)
Definition inside_part (xmin xmax ymin ymax : Q) (s t : pt) (u0 u1 : Q) : Prop :=
  0 <= u0 <= u1 /\ u1 <= 1 /\ forall u, 0 <= u <= 1 -> (in_region xmin xmax ymin ymax (lerp s t u) <-> u0 <= u <= u1).
(** Successive cells are different and share an edge or a corner. *)
Definition king_chain (l : list key) : Prop :=
  forall n a b, nth_error l n = Some a -> nth_error l (S n) = Some b ->
    a <> b /\ (Z.abs (fst b - fst a) <= 1)%Z /\ (Z.abs (snd b - snd a) <= 1)%Z.
(** The list runs from the cell of one end of the inside part to the cell of the other. *)
Definition joins_ends (xmin xmax ymin ymax w : Q) (s t : pt) (l : list key) : Prop :=
  exists c c' u0 u1, inside_part xmin xmax ymin ymax s t u0 u1 /\ nth_error l 0 = Some c /\ nth_error l (length l - 1) = Some c' /\
    (in_cell xmin ymin w (fst c) (snd c) (lerp s t u0) /\ in_cell xmin ymin w (fst c') (snd c') (lerp s t u1) \/
     in_cell xmin ymin w (fst c) (snd c) (lerp s t u1) /\ in_cell xmin ymin w (fst c') (snd c') (lerp s t u0)).
Definition good_king_walk (xmin xmax ymin ymax w : Q) (nx ny : Z) (s t : pt) (l : list key) : Prop :=
  covers_segment xmin xmax ymin ymax w s t l /\ touches_segment xmin xmax ymin ymax w s t l /\
  king_chain l /\ NoDup l /\ (forall c, In c l -> in_grid nx ny c) /\ joins_ends xmin xmax ymin ymax w s t l.
(** The inside part stays in one column of cells, with its left end in a higher row than its right end. *)
Definition falls_in_column (xmin xmax ymin ymax w : Q) (s t : pt) : Prop :=
  exists i j j' u0 u1, inside_part xmin xmax ymin ymax s t u0 u1 /\
    (in_cell xmin ymin w i j (lerp s t u0) /\ in_cell xmin ymin w i j' (lerp s t u1) /\
       (px (lerp s t u0) < px (lerp s t u1) /\ (j' < j)%Z \/ px (lerp s t u1) < px (lerp s t u0) /\ (j < j')%Z)).
