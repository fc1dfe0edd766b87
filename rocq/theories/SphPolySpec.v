(** Specification for a sphere against a polyline. *)
From Verif Require Import RBase SphereModel SphereSpec SphPolyModel.

(** Edge i of the polyline joins point i to point i + 1. *)
Definition rpolyline_edge (pl : list rvec) (i : nat) (a b : rvec) : Prop := nth_error pl i = Some a /\ nth_error pl (S i) = Some b.
(** Points of the dimension of the sphere, successive points different. *)
Definition good_rpolyline (s : ball) (pl : list rvec) : Prop :=
  (forall p, In p pl -> length p = length (b_center s)) /\ (forall i a b, rpolyline_edge pl i a b -> rdot (rsub b a) (rsub b a) <> 0).
(** The edge meets the surface of the sphere. *)
Definition edge_meets (s : ball) (pl : list rvec) (i : nat) : Prop :=
  exists a b X, rpolyline_edge pl i a b /\ on_rsegment a b X /\ on_rsphere s X.
(** The outputs of a call are right for its edge: the parameters and points of the surface on its line,
    and which of them are on the edge. *)
Definition call_exact (s : ball) (pl : list rvec) (c : sp_call) : Prop :=
  exists a b, rpolyline_edge pl (sp_edge c) a b /\ let d := rsub b a in let h := sp_hits c in
    (forall t, on_rsphere s (along a d t) <-> t = th_t0 h \/ t = th_t1 h) /\ th_t0 h <= th_t1 h /\
    (th_in0 h = true <-> 0 <= th_t0 h <= 1) /\ (th_in1 h = true <-> 0 <= th_t1 h <= 1) /\
    th_q0 h = along a d (th_t0 h) /\ th_q1 h = along a d (th_t1 h).
