(** C126: cutting a polyline at its self-intersections and keeping the pieces clear of another. *)
From Verif Require Import Base CmpModel CmpProof OrientModel OrientSpec OrientProof DistModel DistSpec LinIntModel LinIntSpec LinIntProof PolygonModel PolygonSpec PolygonProof PolygonBorderProof PlanarModel PlanarSpec PlanarProof PlanarProof2 PlanarProps TrimModel TrimSpec TrimProof TrimProof2 TrimProof3.
From Coq Require Qreals.
From Verif Require OffsetModel TrimReal.
From Coq Require Import Lia Lqa Sorting.Sorted.

Definition clear_of (source p : list pt) : bool := match polyline_polyline_intersect direct (reject (length source)) p source with Some (b, _) => negb b | None => false end.
Lemma clear_ok : forall source p, proper_polyline source -> proper_polyline p -> exists b h, polyline_polyline_intersect direct (reject (length source)) p source = Some (b, h) /\ clear_of source p = negb b /\ (clear_of source p = true <-> ~ polylines_meet p source).
Proof.
  intros source p PS PP. destruct (C94_polylines p source (reject (length source)) PP PS) as (b & h & E & B & _). exists b, h. split; [exact E|]. unfold clear_of. rewrite E. split; [reflexivity|].
  rewrite negb_true_iff. split.
  - intros F M. apply B in M. congruence.
  - intro N. destruct b; [|reflexivity]. exfalso. apply N, B. reflexivity.
Qed.
Lemma sort_pieces_ok : forall source splits acc, proper_polyline source -> Forall proper_polyline splits -> sort_pieces direct source splits acc = Some (acc ++ filter (clear_of source) splits).
Proof.
  intros source splits. induction splits as [|p splits IH]; intros acc PS F; cbn [sort_pieces filter].
  - rewrite app_nil_r. reflexivity.
  - inversion F as [|? ? F1 F2]; subst. destruct (clear_ok source p PS F1) as (b & h & E & EB & _). rewrite E, EB. rewrite IH; [|exact PS|exact F2]. destruct b; cbn [negb]; [reflexivity|]. rewrite <- app_assoc. reflexivity.
Qed.
Lemma runs_through_all : forall ps places pieces (Pr : list pt -> Prop), runs_through ps places pieces -> (forall u v p, runs ps u v p -> Pr p) -> Forall Pr pieces.
Proof.
  intros ps places. induction places as [|u places IH]; intros pieces Pr R H; [destruct pieces; contradiction|]. destruct places as [|v places].
  - destruct pieces; [constructor|contradiction].
  - destruct pieces as [|p pieces]; [contradiction|]. destruct R as [R1 R2]. constructor; [apply (H u v p R1)|apply (IH pieces Pr R2 H)].
Qed.

(** Without a self-intersection the polyline comes back as it is.  With one it is cut exactly
    at its self-intersections, and kept are the pieces with no point in common with the source. *)
Theorem C126_trim : forall source off, (2 <= length off)%nat -> proper_polyline off -> proper_polyline source ->
  (no_self_meeting off -> trim direct source off = Some [off]) /\
  (~ no_self_meeting off -> exists places pieces keep, all_along off places /\ runs_through off places pieces /\ cut_at_meetings off places /\
     trim direct source off = Some (filter keep pieces) /\ forall p, In p pieces -> (keep p = true <-> ~ polylines_meet p source)).
Proof.
  intros source off L PO PS. destruct (cut_set_ok off PO) as (iset & E & O & EM & SO & CO). unfold trim. rewrite E. split.
  - intro N. apply EM in N. subst iset. reflexivity.
  - intro N. assert (NE : iset <> []) by (intro H; apply N, EM, H). destruct (split_ok off iset L PO NE (ordered_upward0 off iset PO O)) as (places & pieces & ES & AL & RT & MEM).
    assert (F : Forall proper_polyline pieces) by (apply (runs_through_all off places pieces proper_polyline RT); intros u v p R; apply (runs_facts off u v p L PO R)).
    exists places, pieces, (clear_of source). split; [exact AL|]. split; [exact RT|]. split.
    { split.
      - intros w LW. apply MEM in LW as [H|[H|H]]; [auto|auto|]. right. right. apply SO, H.
      - intros u v X UV HU HV. destruct (CO u v X UV HU HV) as [[C1 C2]|D]; [|auto]. left. split; apply MEM; auto. }
    split.
    { destruct iset as [|c iset]; [congruence|]. rewrite ES. apply (sort_pieces_ok source pieces [] PS F). }
    intros p IP. rewrite Forall_forall in F. destruct (clear_ok source p PS (F p IP)) as (b & h & _ & _ & H). exact H.
Qed.
Print Assumptions C126_trim.

(** Every piece has at least two points, none repeated in a row, and starts where the one before
    ends; together they cover the polyline and nothing else. *)
Lemma cover_gen : forall ps places pieces u, (2 <= length ps)%nat -> proper_polyline ps -> runs_through ps (u :: places) pieces -> places <> [] ->
  forall X, (exists p, In p pieces /\ on_polyline p X) <-> exists w, u <= w <= last (u :: places) 0 /\ at_place ps w X.
Proof.
  intros ps places. induction places as [|v places IH]; intros pieces u L P R NE X; [congruence|]. clear NE. destruct pieces as [|p pieces]; [contradiction|]. destruct R as [R1 R2].
  destruct (runs_facts ps u v p L P R1) as (_ & _ & _ & _ & ON). destruct places as [|v2 places].
  - destruct pieces; [|contradiction]. cbn [last]. rewrite <- ON. split; [intros (q & [<-|[]] & H); exact H|intro H; exists p; split; [left; reflexivity|exact H]].
  - specialize (IH pieces v L P R2 ltac:(discriminate) X). assert (UV : u < v) by apply R1.
    assert (VL : v <= last (v :: v2 :: places) 0).
    { clear - R2. revert v pieces R2. induction (v2 :: places) as [|x l IH]; intros v pieces R; [cbn; lra|]. destruct pieces as [|q pieces]; [contradiction|]. destruct R as [R1 R2]. specialize (IH x pieces R2). destruct R1 as [L _]. change (last (v :: x :: l) 0) with (last (x :: l) 0). lra. }
    change (last (u :: v :: v2 :: places) 0) with (last (v :: v2 :: places) 0). split.
    + intros (q & [<-|IQ] & H).
      * apply ON in H as (w & W & HW). exists w. split; [lra|exact HW].
      * assert (H' : exists p, In p pieces /\ on_polyline p X) by (exists q; auto). apply IH in H' as (w & W & HW). exists w. split; [lra|exact HW].
    + intros (w & W & HW). destruct (Qlt_le_dec w v) as [C|C].
      * exists p. split; [left; reflexivity|]. apply ON. exists w. split; [lra|exact HW].
      * assert (H' : exists p, In p pieces /\ on_polyline p X) by (apply IH; exists w; split; [lra|exact HW]). destruct H' as (q & IQ & H'). exists q. split; [right; exact IQ|exact H'].
Qed.
Lemma runs_through_nth : forall ps places pieces k p, runs_through ps places pieces -> nth_error pieces k = Some p -> exists u v, nth_error places k = Some u /\ nth_error places (S k) = Some v /\ runs ps u v p.
Proof.
  intros ps places. induction places as [|u places IH]; intros pieces k p R E; [destruct pieces; contradiction|]. destruct places as [|v places].
  - destruct pieces; [destruct k; discriminate|contradiction].
  - destruct pieces as [|q pieces]; [contradiction|]. destruct R as [R1 R2]. destruct k as [|k].
    + injection E as <-. exists u, v. split; [reflexivity|]. split; [reflexivity|exact R1].
    + destruct (IH pieces k p R2 E) as (a & b & E1 & E2 & H). exists a, b. auto.
Qed.
Theorem C126_cover : forall ps places pieces, (2 <= length ps)%nat -> proper_polyline ps -> all_along ps places -> runs_through ps places pieces ->
  (forall X, (exists p, In p pieces /\ on_polyline p X) <-> on_polyline ps X) /\
  (forall p, In p pieces -> (2 <= length p)%nat /\ proper_polyline p) /\
  (forall k p q, nth_error pieces k = Some p -> nth_error pieces (S k) = Some q -> last p (mkpt 0 0) =p= hd (mkpt 0 0) q).
Proof.
  intros ps places pieces L P (SS & HD & LA) RT. split; [|split].
  - intro X. destruct places as [|u places]; [destruct pieces; contradiction|]. cbn in HD. destruct places as [|v places].
    { exfalso. cbn in LA. assert (Q : qn 1 <= qn (length ps - 1)) by (apply (proj2 (qn_le _ _)); lia). rewrite qn_S, qn_0 in Q. lra. }
    rewrite (cover_gen ps (v :: places) pieces u L P RT ltac:(discriminate) X). split.
    + intros (w & _ & (i & A & B & t & EI & T & _ & EX)). exists i, A, B. split; [exact EI|]. exists t. auto.
    + intros (i & A & B & EI & t & T & EX). assert (AP : at_place ps (qn i + t) X) by (exists i, A, B, t; split; [exact EI|]; split; [exact T|]; split; [reflexivity|exact EX]).
      exists (qn i + t). split; [|exact AP]. pose proof (at_place_range _ _ _ AP). lra.
  - intros p IP. assert (F : Forall (fun p => (2 <= length p)%nat /\ proper_polyline p) pieces) by (apply (runs_through_all ps places pieces _ RT); intros u v q R; destruct (runs_facts ps u v q L P R) as (H1 & H2 & _); auto).
    rewrite Forall_forall in F. apply F, IP.
  - intros k p q EK ES. destruct (runs_through_nth ps places pieces k p RT EK) as (u & v & _ & E1 & R1). destruct (runs_through_nth ps places pieces (S k) q RT ES) as (v' & w & E2 & _ & R2). rewrite E1 in E2. injection E2 as <-.
    destruct (runs_facts ps u v p L P R1) as (_ & _ & _ & H1 & _). destruct (runs_facts ps v w q L P R2) as (_ & _ & H2 & _). apply (at_place_fun ps v v _ _ (Qeq_refl v) H1 H2).
Qed.
Print Assumptions C126_cover.

Lemma sorted_nth : forall l i j a b, StronglySorted Qlt l -> (i < j)%nat -> nth_error l i = Some a -> nth_error l j = Some b -> a < b.
Proof.
  induction l as [|x l IH]; intros i j a b SS IJ EI EJ; [destruct i; discriminate|]. inversion SS as [|? ? S1 S2]; subst. destruct j as [|j]; [lia|]. cbn in EJ. destruct i as [|i].
  - injection EI as <-. rewrite Forall_forall in S2. apply S2. apply (nth_error_In _ _ EJ).
  - apply (IH i j a b S1); [lia|exact EI|exact EJ].
Qed.
Lemma listed_between : forall l k a b w, StronglySorted Qlt l -> nth_error l k = Some a -> nth_error l (S k) = Some b -> listed w l -> a <= w <= b -> w == a \/ w == b.
Proof.
  intros l k a b w SS EA EB (x & IX & EX) W. apply In_nth_error in IX as (m & EM). destruct (Nat.lt_total m k) as [H|[H|H]].
  - pose proof (sorted_nth l m k x a SS H EM EA). lra.
  - subst m. rewrite EA in EM. injection EM as <-. left. lra.
  - destruct (Nat.eq_dec m (S k)) as [E|E]; [subst m; rewrite EB in EM; injection EM as <-; right; lra|]. pose proof (sorted_nth l (S k) m b x SS ltac:(lia) EB EM). lra.
Qed.
(** Two pieces have only ends in common, except where the polyline runs along itself. *)
Theorem C126_apart : forall ps places pieces k l p q X, (2 <= length ps)%nat -> proper_polyline ps -> all_along ps places -> runs_through ps places pieces -> cut_at_meetings ps places ->
  k <> l -> nth_error pieces k = Some p -> nth_error pieces l = Some q -> on_polyline p X -> on_polyline q X -> (end_of p X /\ end_of q X) \/ doubled ps X.
Proof.
  intros ps places pieces k l p q X L P (SS & HD & LA) RT (_ & CUT) KL EP EQ.
  assert (MAIN : forall k l p q, (k < l)%nat -> nth_error pieces k = Some p -> nth_error pieces l = Some q -> on_polyline p X -> on_polyline q X -> (end_of p X /\ end_of q X) \/ doubled ps X).
  { clear k l p q KL EP EQ. intros k l p q KL EP EQ OP OQ. destruct (runs_through_nth _ _ _ _ _ RT EP) as (a & b & EA & EB & R1). destruct (runs_through_nth _ _ _ _ _ RT EQ) as (c & d & EC & ED & R2).
    destruct (runs_facts ps a b p L P R1) as (_ & _ & HA & HB & ONP). destruct (runs_facts ps c d q L P R2) as (_ & _ & HC & HDD & ONQ).
    apply ONP in OP as (u & U & HU). apply ONQ in OQ as (v & V & HV).
    assert (BC : b <= c). { destruct (Nat.eq_dec (S k) l) as [E|E]; [subst l; rewrite EB in EC; injection EC as <-; lra|]. pose proof (sorted_nth places (S k) l b c SS ltac:(lia) EB EC). lra. }
    assert (ENDP : forall w, at_place ps w X -> w == a \/ w == b -> end_of p X). { intros w HW [E|E]; [left; apply (at_place_fun ps w a); assumption|right; apply (at_place_fun ps w b); assumption]. }
    assert (ENDQ : forall w, at_place ps w X -> w == c \/ w == d -> end_of q X). { intros w HW [E|E]; [left; apply (at_place_fun ps w c); assumption|right; apply (at_place_fun ps w d); assumption]. }
    destruct (Qlt_le_dec u v) as [UV|UV].
    - destruct (CUT u v X UV HU HV) as [[LU LV]|D]; [|auto]. left. split.
      + apply (ENDP u HU). apply (listed_between places k a b u SS EA EB LU U).
      + apply (ENDQ v HV). apply (listed_between places l c d v SS EC ED LV V).
    - left. split; [apply (ENDP u HU); right; lra|apply (ENDQ v HV); left; lra]. }
  intros OP OQ. destruct (Nat.lt_total k l) as [H|[H|H]]; [apply (MAIN k l p q H EP EQ OP OQ)|contradiction|]. destruct (MAIN l k q p H EQ EP OQ OP) as [[A B]|D]; auto.
Qed.
Print Assumptions C126_apart.

Definition P2 (x y : Q) : pt := mkpt x y.
Lemma no_self_check : forall ps, proper_polyline ps -> self_intersection_set direct ps = Some [] -> no_self_meeting ps.
Proof. intros ps P E. destruct (cut_set_ok ps P) as (iset & E' & _ & EM & _). rewrite E in E'. injection E' as <-. apply EM. reflexivity. Qed.
(** Only pieces are compared with the source: an offset that does not meet itself is returned
    although it runs through the source. *)
Theorem C126_unchecked_refuted : exists source off, proper_polyline source /\ proper_polyline off /\ no_self_meeting off /\
  OffsetModel.untrimmed_offset true (Rdefinitions.Q2R 2) (map TrimReal.toR source) = Some (map TrimReal.toR off) /\ trim direct source off = Some [off] /\ polylines_meet off source.
Proof.
  exists TrimReal.course, TrimReal.copy. assert (PC : proper_polyline TrimReal.course) by (apply proper_polyline_check; vm_compute; reflexivity). assert (PO : proper_polyline TrimReal.copy) by (apply proper_polyline_check; vm_compute; reflexivity).
  assert (NS : no_self_meeting TrimReal.copy) by (apply no_self_check; [exact PO|vm_compute; reflexivity]).
  split; [exact PC|]. split; [exact PO|]. split; [exact NS|]. split; [|split].
  - exact TrimReal.copy_ok.
  - apply C126_trim; [cbn; lia|exact PO|exact PC|exact NS].
  - exists (P2 (21 # 4) 2). split.
    + exists 0%nat, (P2 0 2), (P2 18 2). split; [split; reflexivity|]. exists (7 # 24). split; [lra|split; reflexivity].
    + exists 4%nat, (P2 3 5), (P2 6 1). split; [split; reflexivity|]. exists (3 # 4). split; [lra|split; reflexivity].
Qed.
Print Assumptions C126_unchecked_refuted.


(** A loop: the path comes back through its first side; the source touches the loop. *)
Definition loop : list pt := [P2 0 0; P2 10 0; P2 10 5; P2 5 5; P2 5 (-5)].
Example C126_witness : proper_polyline loop /\ ~ no_self_meeting loop /\ proper_polyline [P2 7 (-1); P2 7 1] /\
  split_pieces direct [(0%nat, P2 5 0); (3%nat, P2 5 0)] loop = Some [[P2 0 0; P2 5 0]; [P2 5 0; P2 10 0; P2 10 5; P2 5 5; P2 5 0]; [P2 5 0; P2 5 (-5)]] /\
  exists a b, trim direct [P2 7 (-1); P2 7 1] loop = Some [a; b] /\ Forall2 pteq a [P2 0 0; P2 5 0] /\ Forall2 pteq b [P2 5 0; P2 5 (-5)].
Proof.
  assert (PO : proper_polyline loop) by (apply proper_polyline_check; vm_compute; reflexivity).
  split; [exact PO|]. split.
  - intro N. destruct (N 0%nat 3%nat (P2 0 0) (P2 10 0) (P2 5 5) (P2 5 (-5)) ltac:(lia)) as [_ H]; [split; reflexivity|split; reflexivity|]. apply H; [lia|]. exists (P2 5 0).
    split; exists (1 # 2); (split; [lra|split; reflexivity]).
  - split; [apply proper_polyline_check; vm_compute; reflexivity|]. split; [vm_compute; reflexivity|]. eexists. eexists. split; [vm_compute; reflexivity|]. split; repeat constructor; cbn; reflexivity.
Qed.
