(** C146: the intersection of two segments with points of doubles. *)
From Coq Require Import Reals Qreals Floats ZArith QArith Lia Bool List.
Require Import Flocq.Core.Core.
From Verif Require Import Base CmpModel OrientModel OrientSpec DistModel LinIntModel LinIntSpec LinIntProof FloatModel FloatSpec FloatProof FloatProof3 FloatPolyModel FloatLinIntModel FloatLinIntSpec FloatLinIntProof.
From Coq Require Import Lra.
Local Open Scope R_scope.
Import ListNotations.

(** For integer coordinates up to 2^24 the answer on doubles is the one of exact arithmetic, segments of length zero included;
    a point reported is at most 2^-25 away in each coordinate, and the ends of an overlap are exact. *)
Theorem C146_as_exact : forall A B C D a b c d, grid_pt A a -> grid_pt B b -> grid_pt C c -> grid_pt D d -> exists ty fpts pts,
  fsegment_segment_intersection fdirect A B C D = (ty, fpts) /\ segment_segment_intersection direct a b c d = Some (ty, pts) /\
  Forall2 close_pt fpts pts /\ (ty = e_overlapping -> Forall2 grid_pt fpts pts).
Proof. exact intersection_exact. Qed.
Print Assumptions C146_as_exact.
(** So the type says which points the segments have in common. *)
Theorem C146_common_points : forall A B C D a b c d, grid_pt A a -> grid_pt B b -> grid_pt C c -> grid_pt D d ->
  nonzero (vsub b a) -> nonzero (vsub d c) -> exists ty fpts, fsegment_segment_intersection fdirect A B C D = (ty, fpts) /\
  let common := both (on_segment a b) (on_segment c d) in
  match ty with
  | e_invalid_intersection => False
  | e_non_crossing => fpts = [] /\ is_empty_set common
  | e_crossing => exists X x, fpts = [x] /\ close_pt x X /\ is_single_point common X /\ inside_segment a b X /\ inside_segment c d X
  | e_endpoint => exists X x, fpts = [x] /\ close_pt x X /\ is_single_point common X /\ (X =p= a \/ X =p= b \/ X =p= c \/ X =p= d)
  | e_overlapping => exists X Y x y, fpts = [x; y] /\ grid_pt x X /\ grid_pt y Y /\ is_segment_set common X Y
  end.
Proof.
  intros A B C D a b c d GA GB GC GD N1 N2. destruct (intersection_exact A B C D a b c d GA GB GC GD) as (ty & fpts & pts & E1 & E2 & CL & GR).
  destruct (segseg_ok a b c d N1 N2) as (ty' & pts' & R & S). rewrite E2 in R. injection R as <- <-. cbv zeta in S. exists ty, fpts. split; [exact E1|]. cbv zeta. destruct ty.
  - exact S.
  - destruct S as [-> S]. inversion CL; subst. split; [reflexivity|exact S].
  - destruct S as (X & -> & S1 & S2 & S3). inversion CL as [|x l1 l2 l3 HX HR]; subst. inversion HR; subst. exists X, x. auto.
  - destruct S as (X & Y & -> & S1 & _). specialize (GR eq_refl). inversion GR as [|x l1 l2 l3 HX HR]; subst. inversion HR as [|y m1 m2 m3 HY HS]; subst. inversion HS; subst. exists X, Y, x, y. auto.
  - destruct S as (X & -> & S1 & S2 & _). inversion CL as [|x l1 l2 l3 HX HR]; subst. inversion HR; subst. exists X, x. auto.
Qed.
Print Assumptions C146_common_points.
(** For larger integers a common point is missed: here the first point of the second segment is the midpoint of the first one,
    and all coordinates are below 2^29. *)
Theorem C146_missed_refuted : exists A B C D a b c d, 
  (forall P p, In (P, p) [(A, a); (B, b); (C, c); (D, d)] -> exists m n : Z, whole (fx P) m /\ whole (fy P) n /\ (0 <= m < 2 ^ 29)%Z /\ (0 <= n < 2 ^ 29)%Z /\ p = mkpt (inject_Z m) (inject_Z n)) /\
  on_segment a b c /\ on_segment c d c /\ fsegment_segment_intersection fdirect A B C D = (e_non_crossing, []).
Proof.
  assert (W0 : whole 188674025%float 188674025) by (split; [reflexivity|]; rewrite (val_bpow 188674025%float false 6330849742028800 (-25)) by reflexivity; cbn; lra).
  assert (W1 : whole 225287369%float 225287369) by (split; [reflexivity|]; rewrite (val_bpow 225287369%float false 7559389703569408 (-25)) by reflexivity; cbn; lra).
  assert (W2 : whole 304834269%float 304834269) by (split; [reflexivity|]; rewrite (val_bpow 304834269%float false 5114270375215104 (-24)) by reflexivity; cbn; lra).
  assert (W3 : whole 290718267%float 290718267) by (split; [reflexivity|]; rewrite (val_bpow 290718267%float false 4877443160604672 (-24)) by reflexivity; cbn; lra).
  assert (W4 : whole 246754147%float 246754147) by (split; [reflexivity|]; rewrite (val_bpow 246754147%float false 8279695246229504 (-25)) by reflexivity; cbn; lra).
  assert (W5 : whole 258002818%float 258002818) by (split; [reflexivity|]; rewrite (val_bpow 258002818%float false 8657138012389376 (-25)) by reflexivity; cbn; lra).
  assert (W6 : whole 286382214%float 286382214) by (split; [reflexivity|]; rewrite (val_bpow 286382214%float false 4804696262836224 (-24)) by reflexivity; cbn; lra).
  assert (W7 : whole 213615349%float 213615349) by (split; [reflexivity|]; rewrite (val_bpow 213615349%float false 7167741702176768 (-25)) by reflexivity; cbn; lra).
  exists (mkfpt 188674025 225287369), (mkfpt 304834269 290718267), (mkfpt 246754147 258002818), (mkfpt 286382214 213615349), (mkpt (inject_Z 188674025) (inject_Z 225287369)), (mkpt (inject_Z 304834269) (inject_Z 290718267)), (mkpt (inject_Z 246754147) (inject_Z 258002818)), (mkpt (inject_Z 286382214) (inject_Z 213615349)). split; [|split; [|split] ].
  - intros P p [K|[K|[K|[K|[] ] ] ] ]; injection K as <- <-; cbn [fx fy]; do 2 eexists; (split; [eassumption|]); (split; [eassumption|]); (split; [split; [discriminate|reflexivity]|]); (split; [split; [discriminate|reflexivity]|reflexivity]).
  - exists (1 # 2)%Q. split; [split; discriminate|split; reflexivity].
  - exists 0%Q. split; [split; discriminate|split; reflexivity].
  - vm_compute. reflexivity.
Qed.
Print Assumptions C146_missed_refuted.
(** The diagonals of a 3 by 2 rectangle cross at (3/2, 1). *)
Example C146_witness : grid_pt (mkfpt 0 0) (mkpt (inject_Z 0) (inject_Z 0)) /\ grid_pt (mkfpt 3 2) (mkpt (inject_Z 3) (inject_Z 2)) /\
  fsegment_segment_intersection fdirect (mkfpt 0 0) (mkfpt 3 2) (mkfpt 0 2) (mkfpt 3 0) = (e_crossing, [mkfpt 1.5 1]) /\
  fsegment_segment_intersection fdirect (mkfpt 0 0) (mkfpt 3 2) (mkfpt 6 4) (mkfpt 3 2) = (e_overlapping, [mkfpt 3 2; mkfpt 3 2]).
Proof.
  assert (W0 : whole 0%float 0) by (split; [reflexivity|apply FloatProof2.zero_val]).
  assert (W2 : whole 2%float 2) by (split; [reflexivity|]; rewrite (val_bpow 2%float false 4503599627370496 (-51)) by reflexivity; cbn; lra).
  assert (W3 : whole 3%float 3) by (split; [reflexivity|]; rewrite (val_bpow 3%float false 6755399441055744 (-51)) by reflexivity; cbn; lra).
  split; [exists 0%Z, 0%Z|split; [exists 3%Z, 2%Z|split; vm_compute; reflexivity] ]; repeat split; try apply W0; try apply W2; try apply W3; discriminate.
Qed.
