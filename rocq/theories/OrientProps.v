(** Property theorems: orientation, betweenness, angular order (C15, C16, C17, C50,
    C51, C52). *)
From Coq Require Import Reals Qreals.
From Verif Require Import Base CmpModel OrientModel OrientSpec OrientProof OrientReal.

(** C15: the orientation of three points names the side of the directed line, and
    obeys the symmetry laws and Knuth's axioms for counter-clockwise systems. *)
Theorem C15_orientation_names_the_side : forall A B C, nonzero (vsub B A) ->
  (get_orientation direct A B C = oriented_left <-> left_of A B C) /\
  (get_orientation direct A B C = oriented_right <-> right_of A B C) /\
  (get_orientation direct A B C = oriented_collinear <-> on_line A B C).
Proof. exact orientation_sides. Qed.

Theorem C15_orientation_symmetry : forall A B C v,
  get_orientation direct B C A = get_orientation direct A B C /\
  get_orientation direct A C B = opposite_orientation (get_orientation direct A B C) /\
  get_orientation direct (vadd A v) (vadd B v) (vadd C v) = get_orientation direct A B C.
Proof. exact orientation_laws. Qed.

Theorem C15_orientation_interiority : forall p q r t,
  get_orientation direct t q r = oriented_left -> get_orientation direct p t r = oriented_left ->
  get_orientation direct p q t = oriented_left -> get_orientation direct p q r = oriented_left.
Proof. exact orientation_interiority. Qed.

Theorem C15_orientation_transitivity : forall t s p q r,
  get_orientation direct t s p = oriented_left -> get_orientation direct t s q = oriented_left ->
  get_orientation direct t s r = oriented_left ->
  get_orientation direct t p q = oriented_left -> get_orientation direct t q r = oriented_left ->
  get_orientation direct t p r = oriented_left.
Proof. exact orientation_transitivity. Qed.

Example C15_witness : nonzero (vsub (mkpt 3 1) (mkpt 0 0)) /\
  get_orientation direct (mkpt 0 0) (mkpt 3 1) (mkpt 1 2) = oriented_left /\
  get_orientation direct (mkpt 0 0) (mkpt 3 1) (mkpt 6 2) = oriented_collinear /\
  get_orientation direct (mkpt 0 0) (mkpt 3 1) (mkpt 4 1) = oriented_right.
Proof. repeat split; try (vm_compute; reflexivity). intros [H _]; vm_compute in H; discriminate. Qed.

(** C16: is_between is membership of the segment. *)
Theorem C16_is_between_closed : forall A B C, nonzero (vsub B A) ->
  (is_between direct A B C true = true <-> on_segment A B C).
Proof. exact is_between_true. Qed.

Theorem C16_is_between_open : forall A B C, nonzero (vsub B A) ->
  (is_between direct A B C false = true <-> inside_segment A B C).
Proof. exact is_between_false. Qed.

(** For A = B the closed test accepts the whole horizontal line through A. *)
Theorem C16_degenerate_segment_refuted : forall A C,
  (is_between direct A A C true = true <-> py C == py A) /\ is_between direct A A C false = false.
Proof. exact is_between_degenerate. Qed.

Example C16_witness : is_between direct (mkpt 0 0) (mkpt 4 2) (mkpt 2 1) false = true /\
  is_between direct (mkpt 0 0) (mkpt 4 2) (mkpt 4 2) true = true /\
  is_between direct (mkpt 0 0) (mkpt 4 2) (mkpt 4 2) false = false /\
  is_between direct (mkpt 0 0) (mkpt 4 2) (mkpt 6 3) true = false.
Proof. repeat split; vm_compute; reflexivity. Qed.

(** C17: is_vector_between: c is on a bounding direction, or strictly inside the
    counter-clockwise sweep from a to b. *)
Theorem C17_vector_between : forall a b c incl, nonzero a -> nonzero b -> nonzero c ->
  (is_vector_between direct a b c incl = true <->
   ((same_direction c a \/ same_direction c b) /\ incl = true) \/
   (~ same_direction c a /\ ~ same_direction c b /\ angle_lt a c b)).
Proof. exact is_vector_between_ok. Qed.

(** The same with real polar angles: a at angle th, b at th+be, c at th+ga, both in
    [0,2pi): c is strictly between iff 0 < ga < be. *)
Theorem C17_vector_between_angles : forall a b c th be ga,
  polar a th -> polar b (th + be)%R -> polar c (th + ga)%R ->
  (0 <= be < 2 * PI)%R -> (0 <= ga < 2 * PI)%R ->
  (is_vector_between direct a b c false = true <-> (0 < ga < be)%R).
Proof. exact vector_between_polar. Qed.

Example C17_witness : is_vector_between direct (mkpt 1 0) (mkpt 0 (-1)) (mkpt (-1) (-1)) false = true /\
  is_vector_between direct (mkpt 0 (-1)) (mkpt 1 0) (mkpt (-1) (-1)) false = false /\
  is_vector_between direct (mkpt 0 (-1)) (mkpt 1 0) (mkpt 3 0) true = true.
Proof. repeat split; vm_compute; reflexivity. Qed.

(** C50: angular sorting. *)
Theorem C50_angle_compare_is_polar_order : forall r u v th al be,
  polar r th -> polar u (th + al)%R -> polar v (th + be)%R ->
  (0 <= al < 2 * PI)%R -> (0 <= be < 2 * PI)%R ->
  (vector_angle_compare direct r u v = true <-> (al < be)%R).
Proof. exact angle_compare_polar. Qed.

Theorem C50_every_vector_has_a_polar_angle : forall u, nonzero u ->
  exists al, (0 <= al < 2 * PI)%R /\ polar u al.
Proof. exact polar_exists. Qed.

Theorem C50_angle_compare_strict_weak_order : forall r, nonzero r ->
  (forall u, nonzero u -> vector_angle_compare direct r u u = false) /\
  (forall u v w, nonzero u -> nonzero v -> nonzero w ->
     vector_angle_compare direct r u v = true -> vector_angle_compare direct r v w = true ->
     vector_angle_compare direct r u w = true) /\
  (forall u v, nonzero u -> nonzero v ->
     ((vector_angle_compare direct r u v = false /\ vector_angle_compare direct r v u = false) <-> same_direction u v)).
Proof. exact angle_compare_swo. Qed.

Theorem C50_point_angle_compare : forall o a b al be,
  polar (vsub a o) al -> polar (vsub b o) be -> (0 <= al < 2 * PI)%R -> (0 <= be < 2 * PI)%R ->
  (point_angle_compare direct o a b = true <-> (al < be)%R).
Proof. exact point_angle_compare_polar. Qed.

Theorem C50_pseudo_angle : forall u v, nonzero u -> nonzero v ->
  exists a b, pseudo_angle u = Some a /\ pseudo_angle v = Some b /\ 0 <= a < 4 /\ 0 <= b < 4 /\
    forall al be, polar u al -> polar v be -> (0 <= al < 2 * PI)%R -> (0 <= be < 2 * PI)%R ->
      (a < b <-> (al < be)%R).
Proof. exact pseudo_angle_polar. Qed.

Example C50_witness : vector_angle_compare direct (mkpt 1 0) (mkpt 1 1) (mkpt 0 (-1)) = true /\
  pseudo_angle (mkpt 1 1) = Some (qabs (1 - 1 / (1 + 1))) /\
  polar (mkpt 0 2) (PI / 2)%R.
Proof.
  split; [vm_compute; reflexivity|]. split; [vm_compute; reflexivity|].
  exists 2%R. rewrite cos_PI2, sin_PI2. unfold Q2R; simpl. repeat split; Lra.lra.
Qed.

(** C51: oriented_intersection. *)
Theorem C51_oriented_crossing : forall p1 p2 p3 p4, nonzero (vsub p4 p3) ->
  (oriented_intersection direct p1 p2 p3 p4 = oi_left_right <->
   left_of p3 p4 p1 /\ right_of p3 p4 p2 /\ exists X, on_segment p1 p2 X /\ on_segment p3 p4 X) /\
  (oriented_intersection direct p1 p2 p3 p4 = oi_right_left <->
   right_of p3 p4 p1 /\ left_of p3 p4 p2 /\ exists X, on_segment p1 p2 X /\ on_segment p3 p4 X).
Proof. exact oriented_cross_sides. Qed.

(** A segment that ends in the interior of the other is reported as not meeting it. *)
Theorem C51_t_junction_refuted : exists p1 p2 p3 p4,
  oriented_intersection direct p1 p2 p3 p4 = oi_non_crossing /\
  exists X, on_segment p1 p2 X /\ on_segment p3 p4 X.
Proof.
  exists (mkpt 1 0), (mkpt 1 1), (mkpt 0 0), (mkpt 2 0). split; [vm_compute; reflexivity|].
  exists (mkpt 1 0). split; [exists 0|exists (1#2)]; split; try lra; split; vm_compute; reflexivity.
Qed.

Example C51_witness : nonzero (vsub (mkpt 2 0) (mkpt 0 0)) /\
  oriented_intersection direct (mkpt 1 1) (mkpt 1 (-1)) (mkpt 0 0) (mkpt 2 0) = oi_left_right.
Proof. split; [intros [H _]; vm_compute in H; discriminate|vm_compute; reflexivity]. Qed.

(** C52: a segment is vertical, or horizontal, when its end points share the first, or the second, coordinate:
    exactly, or up to the tolerance. *)
Theorem C52_vertical_horizontal : forall s e,
  (is_vertical direct s e = true <-> px s == px e) /\ (is_horizontal direct s e = true <-> py s == py e) /\
  forall tol, (is_vertical (absolute tol) s e = true <-> - tol <= px s - px e <= tol) /\
              (is_horizontal (absolute tol) s e = true <-> - tol <= py s - py e <= tol).
Proof.
  intros s e. unfold is_vertical, is_horizontal. cbn [equals direct absolute]. rewrite !Qeqb_eq. split; [reflexivity|]. split; [reflexivity|].
  assert (K : forall d tol, Qleb (qabs d) tol = true <-> - tol <= d <= tol).
  { intros d tol. rewrite Qleb_le. unfold qabs. destruct (Qltb_spec d 0); split; intros; lra. }
  intro tol. split; apply K.
Qed.
Example C52_vertical_witness : is_vertical direct (mkpt 1 0) (mkpt 1 5) = true /\ is_horizontal direct (mkpt 1 0) (mkpt 1 5) = false /\ is_horizontal (absolute 1) (mkpt 1 0) (mkpt 4 (1 # 2)) = true /\ is_vertical (absolute 1) (mkpt 1 0) (mkpt 4 (1 # 2)) = false.
Proof. repeat split; vm_compute; reflexivity. Qed.

(** C52: a non-vertical line as a function of x, and inverse. *)
Theorem C52_y_of_x : forall s e x, ~ px s == px e ->
  exists y, y_of_x s e x = Some y /\ on_line s e (mkpt x y) /\
            forall y', on_line s e (mkpt x y') -> y' == y.
Proof. exact y_of_x_ok. Qed.

Theorem C52_x_of_y : forall s e y, ~ px s == px e -> ~ py s == py e ->
  exists x, x_of_y s e y = Some x /\ on_line s e (mkpt x y) /\
            forall x', on_line s e (mkpt x' y) -> x' == x.
Proof. exact x_of_y_ok. Qed.

(** A vertical line is a perfectly good function of y, but the code divides by its
    infinite slope. *)
Theorem C52_x_of_y_vertical_refuted : forall s e y, px s == px e -> x_of_y s e y = None.
Proof. exact x_of_y_vertical. Qed.

Example C52_witness : exists v, x_of_y (mkpt 0 0) (mkpt 2 4) 2 = Some v /\ v == 1.
Proof. eexists; split; [reflexivity|vm_compute; reflexivity]. Qed.

Print Assumptions C15_orientation_names_the_side.
Print Assumptions C15_orientation_transitivity.
Print Assumptions C16_is_between_closed.
Print Assumptions C17_vector_between.
Print Assumptions C17_vector_between_angles.
Print Assumptions C50_angle_compare_is_polar_order.
Print Assumptions C50_angle_compare_strict_weak_order.
Print Assumptions C50_pseudo_angle.
Print Assumptions C51_oriented_crossing.
Print Assumptions C52_y_of_x.
