(** Specification of the vertices of a mesh visible from a point. *)
From Verif Require Import Base OrientSpec PolygonSpec VisModel.
From Verif Require MeshSpec.

(** The triangles are counter-clockwise, not flat, have their corners among the points, and every side belongs to at
    most one triangle in each direction. *)
Definition ok_vmesh (m : vmesh) : Prop :=
  MeshSpec.manifold (vm_tris m) /\
  forall i a b c, nth_error (vm_tris m) i = Some (a, b, c) ->
    exists A B C, nth_error (vm_points m) a = Some A /\ nth_error (vm_points m) b = Some B /\ nth_error (vm_points m) c = Some C /\ 0 < tri2 A B C.
(** The line of sight from [o] in triangle [i] to [V] in triangle [k]: it goes from triangle to triangle through interior
    points of their common sides, outwards. *)
Inductive line_of_sight (m : vmesh) (o V : pt) : nat -> nat -> Prop :=
| los_end : forall i, line_of_sight m o V i i
| los_step : forall i s j s' k ti a b P Q, MeshSpec.shares_edge (vm_tris m) i s j s' ->
    nth_error (vm_tris m) i = Some ti -> MeshSpec.directed_edge ti s = Some (a, b) -> nth_error (vm_points m) a = Some P -> nth_error (vm_points m) b = Some Q ->
    0 < tri2 P Q o -> (exists X, inside_segment o V X /\ inside_segment P Q X) -> line_of_sight m o V j k -> line_of_sight m o V i k.
(** Vertex number [v] can be seen from [o], a point of triangle [start]. *)
Definition visible_from (m : vmesh) (o : pt) (start v : nat) : Prop :=
  exists V k t, nth_error (vm_points m) v = Some V /\ line_of_sight m o V start k /\ nth_error (vm_tris m) k = Some t /\
    exists s, (s < 3)%nat /\ MeshModel.side t s = v.

(** ** Meshes without overlaps and without cycles *)
(** [X] is strictly inside triangle number [i], or in it (its sides included). *)
Definition strictly_in (m : vmesh) (i : nat) (X : pt) : Prop :=
  exists a b c A B C, nth_error (vm_tris m) i = Some (a, b, c) /\ nth_error (vm_points m) a = Some A /\ nth_error (vm_points m) b = Some B /\ nth_error (vm_points m) c = Some C /\
    0 < tri2 A B X /\ 0 < tri2 B C X /\ 0 < tri2 C A X.
Definition in_closed (m : vmesh) (i : nat) (X : pt) : Prop :=
  exists a b c A B C, nth_error (vm_tris m) i = Some (a, b, c) /\ nth_error (vm_points m) a = Some A /\ nth_error (vm_points m) b = Some B /\ nth_error (vm_points m) c = Some C /\
    0 <= tri2 A B X /\ 0 <= tri2 B C X /\ 0 <= tri2 C A X.
Definition no_overlap (m : vmesh) : Prop := forall i j X, i <> j -> strictly_in m i X -> ~ in_closed m j X.
(** [o] is on no line through two vertices. *)
Definition general_position (m : vmesh) (o : pt) : Prop :=
  forall a b A B, a <> b -> nth_error (vm_points m) a = Some A -> nth_error (vm_points m) b = Some B -> ~ tri2 o A B == 0.
(** Triangles with a common side; a walk over neighbours (the last triangle first) that never turns straight back; none
    comes to a triangle twice.  A triangulation of a polygon without holes, with all vertices on its boundary, is so. *)
Definition neighbours (m : vmesh) (i j : nat) : Prop := exists s s', MeshSpec.shares_edge (vm_tris m) i s j s'.
Inductive walk (m : vmesh) : list nat -> Prop :=
| walk_one : forall i, walk m [i]
| walk_two : forall i j, neighbours m i j -> walk m [j; i]
| walk_more : forall i j k l, walk m (j :: i :: l) -> neighbours m j k -> k <> i -> walk m (k :: j :: i :: l).
Definition no_cycle (m : vmesh) : Prop := forall l, walk m l -> NoDup l.
