(** Specification of grids. *)
From Verif Require Import Base BoxModel BoxSpec GridModel.

(** The half-open cell (i,j) of the lattice with origin (xmin, ymin) and cell width w. *)
Definition in_cell (xmin ymin w : Q) (i j : Z) (p : pt) : Prop :=
  xmin + inject_Z i * w <= px p < xmin + (inject_Z i + 1) * w /\
  ymin + inject_Z j * w <= py p < ymin + (inject_Z j + 1) * w.
(** The closed cell. *)
Definition in_closed_cell (xmin ymin w : Q) (i j : Z) (p : pt) : Prop :=
  xmin + inject_Z i * w <= px p <= xmin + (inject_Z i + 1) * w /\
  ymin + inject_Z j * w <= py p <= ymin + (inject_Z j + 1) * w.
Definition in_region (xmin xmax ymin ymax : Q) (p : pt) : Prop := xmin <= px p <= xmax /\ ymin <= py p <= ymax.
(** The constructor's preconditions, and fewer than 2^32 - 1 cell widths in each direction. *)
Definition good_bounds (xmin xmax ymin ymax w : Q) : Prop :=
  0 < w /\ xmin < xmax /\ ymin < ymax /\
  xmax - xmin < inject_Z (two32 - 1) * w /\ ymax - ymin < inject_Z (two32 - 1) * w.

(** ** Histories of a sparse grid *)
Section Histories.
Variable D : Type.
Inductive op : Type :=
| OGet (i j : Z)                (* get_cell(i,j) *)
| OWrite (i j : Z) (v : D)      (* get_cell(i,j) = v *)
| OFind (i j : Z)               (* find_cell(i,j) *)
| OErase (i j : Z)
| OClear.
(** The contents of cell k after a history (latest operation first), read off the last
    operation that concerns it. *)
Fixpoint contents (d0 : D) (hist : list op) (i j : Z) : option D :=
  match hist with
  | [] => None
  | OClear :: _ => None
  | OFind _ _ :: r => contents d0 r i j
  | OErase i' j' :: r => if key_eqb (i', j') (i, j) then None else contents d0 r i j
  | OWrite i' j' v :: r => if key_eqb (i', j') (i, j) then Some v else contents d0 r i j
  | OGet i' j' :: r =>
    if key_eqb (i', j') (i, j) then
      match contents d0 r i j with None => Some d0 | Some v => Some v end
    else contents d0 r i j
  end.
(** Running operations on the class; [None]: some access was undefined. *)
Definition step (d0 : D) (h : hgrid D) (o : op) : option (hgrid D) :=
  match o with
  | OGet i j => Some (snd (get_cell d0 h i j))
  | OWrite i j v => let (a, h') := get_cell d0 h i j in assign h' a v
  | OFind _ _ => Some h
  | OErase i j => Some (erase h i j)
  | OClear => Some (clear h)
  end.
Fixpoint run_ops (d0 : D) (h : hgrid D) (ops : list op) : option (hgrid D) :=
  match ops with
  | [] => Some h
  | o :: ops' => match step d0 h o with None => None | Some h' => run_ops d0 h' ops' end
  end.
(** Operations that do not destroy cell (i,j). *)
Definition keeps (i j : Z) (o : op) : Prop := o <> OClear /\ o <> OErase i j.
End Histories.
Arguments OGet {D} _ _.
Arguments OWrite {D} _ _ _.
Arguments OFind {D} _ _.
Arguments OErase {D} _ _.
Arguments OClear {D}.
Arguments contents {D} _ _ _ _.
Arguments step {D} _ _ _.
Arguments run_ops {D} _ _ _.
Arguments keeps {D} _ _ _.

(** ** Histories of a dense grid
    A list of writes (latest first) through points; what a read through point q must return. *)
Definition same_cell (xmin ymin w : Q) (p q : pt) : Prop := exists i j, in_cell xmin ymin w i j p /\ in_cell xmin ymin w i j q.
Inductive latest {D : Type} (xmin ymin w : Q) (d0 : D) (q : pt) : list (pt * D) -> D -> Prop :=
| latest_none : latest xmin ymin w d0 q [] d0
| latest_here : forall p v r, same_cell xmin ymin w p q -> latest xmin ymin w d0 q ((p, v) :: r) v
| latest_before : forall p v r u, ~ same_cell xmin ymin w p q -> latest xmin ymin w d0 q r u -> latest xmin ymin w d0 q ((p, v) :: r) u.
Fixpoint write_all {D : Type} (g : grid) (a : dense D) (ws : list (pt * D)) : option (dense D) :=
  match ws with
  | [] => Some a
  | (p, v) :: r => match write_all g a r with None => None | Some a' => dense_set_at g a' p v end
  end.

(** ** A digital line from (x1,y1) to (x2,y2) *)
Definition within_half_cell (x1 y1 x2 y2 : Z) (c : key) : Prop :=
  let dx := (x2 - x1)%Z in let dy := (y2 - y1)%Z in
  (* deviation from the ideal line, measured along the minor axis, at most 1/2 *)
  (2 * Z.abs ((snd c - y1) * dx - (fst c - x1) * dy) <= Z.max (Z.abs dx) (Z.abs dy))%Z.
(** One step to one of the eight neighbours, toward the end cell in every axis. *)
Definition toward (x1 y1 x2 y2 : Z) (c c' : key) : Prop :=
  let sx := (fst c' - fst c)%Z in let sy := (snd c' - snd c)%Z in
  (sx = 0 \/ sx = Z.sgn (x2 - x1))%Z /\ (sy = 0 \/ sy = Z.sgn (y2 - y1))%Z /\
  (if Z.abs (x2 - x1) <? Z.abs (y2 - y1) then sy <> 0 else sx <> 0)%Z.
Definition digital_line (x1 y1 x2 y2 : Z) (l : list key) : Prop :=
  nth_error l 0 = Some (x1, y1) /\ nth_error l (length l - 1) = Some (x2, y2) /\
  Z.of_nat (length l) = (Z.max (Z.abs (x2 - x1)) (Z.abs (y2 - y1)) + 1)%Z /\
  (forall k c c', nth_error l k = Some c -> nth_error l (S k) = Some c' -> toward x1 y1 x2 y2 c c') /\
  (forall c, In c l -> within_half_cell x1 y1 x2 y2 c).
