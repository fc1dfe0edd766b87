From Verif Require Import RBase AngleModel MeshModel MeshSpec.

(** ** Triangles and half planes *)
(** The side of the line PQ a point is on. *)
Definition sidef (P Q p : plane) : R := (fst Q - fst P) * (snd p - snd P) - (snd Q - snd P) * (fst p - fst P).
Lemma sidef_affine : forall P Q A B C u v w p, u + v + w = 1 ->
  fst p = u * fst A + v * fst B + w * fst C -> snd p = u * snd A + v * snd B + w * snd C ->
  sidef P Q p = u * sidef P Q A + v * sidef P Q B + w * sidef P Q C.
Proof. intros P Q A B C u v w p S X Y. unfold sidef. rewrite X, Y. replace u with (1 - v - w) by lra. ring. Qed.
Lemma in_triangle_sides : forall A B C p, 0 <= area2 A B C -> in_triangle p A B C -> 0 <= sidef A B p /\ 0 <= sidef B C p /\ 0 <= sidef C A p.
Proof.
  intros A B C p T (u & v & w & U & V & W & S & X & Y).
  assert (Z : forall P Q, sidef P Q P = 0 /\ sidef P Q Q = 0) by (intros; unfold sidef; split; ring).
  assert (E1 : sidef A B C = area2 A B C) by (unfold sidef, area2; ring).
  assert (E2 : sidef B C A = area2 A B C) by (unfold sidef, area2; ring).
  assert (E3 : sidef C A B = area2 A B C) by (unfold sidef, area2; ring).
  rewrite !(sidef_affine _ _ A B C u v w p S X Y). destruct (Z A B) as [Z1 Z2], (Z B C) as [Z3 Z4], (Z C A) as [Z5 Z6].
  rewrite Z1, Z2, Z3, Z4, Z5, Z6, E1, E2, E3.
  assert (0 <= u * area2 A B C) by (apply Rmult_le_pos; lra). assert (0 <= v * area2 A B C) by (apply Rmult_le_pos; lra). assert (0 <= w * area2 A B C) by (apply Rmult_le_pos; lra). lra.
Qed.
Lemma sides_in_triangle : forall A B C p, 0 < area2 A B C -> 0 <= sidef A B p -> 0 <= sidef B C p -> 0 <= sidef C A p -> in_triangle p A B C.
Proof.
  intros A B C p T S1 S2 S3. set (d := area2 A B C) in *. exists (sidef B C p / d), (sidef C A p / d), (sidef A B p / d).
  assert (P : forall x, 0 <= x -> 0 <= x / d) by (intros; apply Rmult_le_pos; [assumption|left; apply Rinv_0_lt_compat; exact T]).
  split; [apply P, S2|]. split; [apply P, S3|]. split; [apply P, S1|].
  assert (N : d <> 0) by lra. unfold d, area2, sidef in *.
  repeat split; field; exact N.
Qed.
Lemma in_triangle_vertex : forall A B C, in_triangle A A B C /\ in_triangle B A B C /\ in_triangle C A B C.
Proof.
  intros A B C. split; [exists 1, 0, 0|split; [exists 0, 1, 0|exists 0, 0, 1]]; repeat split; lra.
Qed.
Lemma in_triangle_between : forall A B C p q t r, in_triangle p A B C -> in_triangle q A B C -> 0 <= t <= 1 ->
  fst r = fst p + t * (fst q - fst p) -> snd r = snd p + t * (snd q - snd p) -> in_triangle r A B C.
Proof.
  intros A B C p q t r (u & v & w & U & V & W & S & X & Y) (u' & v' & w' & U' & V' & W' & S' & X' & Y') T RX RY.
  exists ((1 - t) * u + t * u'), ((1 - t) * v + t * v'), ((1 - t) * w + t * w').
  assert (M : forall a b, 0 <= a -> 0 <= b -> 0 <= (1 - t) * a + t * b) by (intros a b Ha Hb; assert (0 <= (1 - t) * a) by (apply Rmult_le_pos; lra); assert (0 <= t * b) by (apply Rmult_le_pos; lra); lra).
  repeat split; try (apply M; assumption).
  - transitivity ((1 - t) * (u + v + w) + t * (u' + v' + w')); [ring|]. rewrite S, S'. ring.
  - rewrite RX, X, X'. ring.
  - rewrite RY, Y, Y'. ring.
Qed.
(** Reordering the corners. *)
Lemma in_triangle_swap : forall A B C p, in_triangle p A B C -> in_triangle p A C B.
Proof. intros A B C p (u & v & w & U & V & W & S & X & Y). exists u, w, v. repeat split; lra. Qed.

(** ** Separation of a triangle from a box *)
(** Some edge line has the whole box strictly on one side and the triangle on the other. *)
Definition edge_sep (A B C lo hi : plane) : Prop :=
  exists P Q, ((P = A /\ Q = B) \/ (P = B /\ Q = C) \/ (P = C /\ Q = A)) /\
    (((forall p, in_box p lo hi -> sidef P Q p < 0) /\ (forall p, in_triangle p A B C -> 0 <= sidef P Q p)) \/
     ((forall p, in_box p lo hi -> 0 < sidef P Q p) /\ (forall p, in_triangle p A B C -> sidef P Q p <= 0))).

(** Core: points of the triangle above the box within its x range and to the right of it not above its
    top. *)
Lemma edge_sep_core : forall A B C lo hi P1 P2, fst lo <= fst hi -> snd lo <= snd hi -> 0 <= area2 A B C ->
  (forall p, in_triangle p A B C -> ~ in_box p lo hi) ->
  in_triangle P1 A B C -> fst lo <= fst P1 <= fst hi -> snd hi < snd P1 ->
  in_triangle P2 A B C -> fst hi < fst P2 -> snd P2 <= snd hi -> edge_sep A B C lo hi.
Proof.
  intros A B C lo hi P1 P2 LX LY T DIS I1 X1 Y1 I2 X2 Y2.
  set (c := (fst hi, snd hi)).
  (* the crossing of P1P2 with x = fst hi *)
  set (t := (fst hi - fst P1) / (fst P2 - fst P1)).
  assert (D : 0 < fst P2 - fst P1) by lra.
  assert (T0 : 0 <= t <= 1).
  { unfold t. split; [apply Rmult_le_pos; [lra|left; apply Rinv_0_lt_compat; exact D]|].
    apply (Rmult_le_reg_r (fst P2 - fst P1)); [exact D|]. unfold Rdiv. rewrite Rmult_assoc, Rinv_l by lra. lra. }
  set (q := (fst P1 + t * (fst P2 - fst P1), snd P1 + t * (snd P2 - snd P1))).
  assert (IQ : in_triangle q A B C) by (apply (in_triangle_between A B C P1 P2 t); auto).
  assert (QX : fst q = fst hi) by (unfold q, t; cbn [fst]; field; lra).
  assert (QY : snd hi < snd q).
  { destruct (Rlt_dec (snd hi) (snd q)) as [G|G]; [exact G|]. exfalso.
    (* on P1 q there is a point at the height of the top *)
    set (s := (snd P1 - snd hi) / (snd P1 - snd q)). assert (E : 0 < snd P1 - snd q) by lra.
    assert (S0 : 0 <= s <= 1).
    { unfold s. split; [apply Rmult_le_pos; [lra|left; apply Rinv_0_lt_compat; exact E]|].
      apply (Rmult_le_reg_r (snd P1 - snd q)); [exact E|]. unfold Rdiv. rewrite Rmult_assoc, Rinv_l by lra. lra. }
    set (r := (fst P1 + s * (fst q - fst P1), snd P1 + s * (snd q - snd P1))).
    apply (DIS r); [apply (in_triangle_between A B C P1 q s); auto|].
    assert (RY : snd r = snd hi) by (unfold r, s; cbn [snd]; field; lra).
    assert (RX : fst lo <= fst r <= fst hi).
    { unfold r; cbn [fst]. rewrite QX. assert (0 <= s * (fst hi - fst P1)) by (apply Rmult_le_pos; lra).
      assert (0 <= (1 - s) * (fst hi - fst P1)) by (apply Rmult_le_pos; lra). lra. }
    split; [exact RX|]. rewrite RY. lra. }
  (* an edge with the corner strictly outside *)
  assert (KEY : forall P Q, (forall p, in_triangle p A B C -> 0 <= sidef P Q p) -> sidef P Q c < 0 -> forall p, in_box p lo hi -> sidef P Q p < 0).
  { intros P Q H N p [[_ PX] [_ PY]].
    pose proof (H q IQ) as Hq. pose proof (H P2 I2) as H2. unfold sidef, c in *. cbn [fst snd] in *. rewrite QX in Hq.
    set (dx := fst Q - fst P) in *. set (dy := snd Q - snd P) in *.
    assert (DX : 0 < dx).
    { destruct (Rlt_dec 0 dx) as [G|G]; [exact G|]. exfalso. assert (0 <= (- dx) * (snd q - snd hi)) by (apply Rmult_le_pos; lra). lra. }
    assert (DY : dy < 0).
    { destruct (Rlt_dec dy 0) as [G|G]; [exact G|]. exfalso.
      assert (0 <= dy * (fst P2 - fst hi)) by (apply Rmult_le_pos; lra). assert (0 <= dx * (snd hi - snd P2)) by (apply Rmult_le_pos; lra). lra. }
    assert (0 <= dx * (snd hi - snd p)) by (apply Rmult_le_pos; lra). assert (0 <= (- dy) * (fst hi - fst p)) by (apply Rmult_le_pos; lra). lra. }
  assert (SD : forall p, in_triangle p A B C -> 0 <= sidef A B p /\ 0 <= sidef B C p /\ 0 <= sidef C A p) by (intros p I; apply in_triangle_sides; assumption).
  assert (CB : in_box c lo hi) by (unfold c, in_box; cbn [fst snd]; lra).
  destruct (Rlt_dec 0 (area2 A B C)) as [TP|TZ].
  - destruct (Rlt_dec (sidef A B c) 0) as [G|G]; [exists A, B; split; [auto|]; left; split; [apply KEY; [apply SD|exact G]|apply SD]|].
    destruct (Rlt_dec (sidef B C c) 0) as [G2|G2]; [exists B, C; split; [auto|]; left; split; [apply KEY; [apply SD|exact G2]|apply SD]|].
    destruct (Rlt_dec (sidef C A c) 0) as [G3|G3]; [exists C, A; split; [auto|]; left; split; [apply KEY; [apply SD|exact G3]|apply SD]|].
    exfalso. apply (DIS c); [apply sides_in_triangle; lra|exact CB].
  - (* the corners are collinear: every point of the triangle is on every edge line *)
    assert (TE : area2 A B C = 0) by lra.
    assert (ON : forall P Q, ((P = A /\ Q = B) \/ (P = B /\ Q = C) \/ (P = C /\ Q = A)) -> forall p, in_triangle p A B C -> sidef P Q p = 0).
    { intros P Q PQ p (u & v & w & _ & _ & _ & S & X & Y). rewrite (sidef_affine P Q A B C u v w p S X Y).
      assert (E : sidef P Q A = 0 /\ sidef P Q B = 0 /\ sidef P Q C = 0).
      { unfold area2 in TE. unfold sidef. destruct PQ as [[-> ->]|[[-> ->]|[-> ->]]]; repeat split; lra. }
      destruct E as (-> & -> & ->). ring. }
    assert (EDGE : exists P Q, ((P = A /\ Q = B) \/ (P = B /\ Q = C) \/ (P = C /\ Q = A)) /\ fst P <> fst Q).
    { destruct (Req_dec (fst A) (fst B)) as [E1|E1]; [|exists A, B; auto]. destruct (Req_dec (fst B) (fst C)) as [E2|E2]; [|exists B, C; auto].
      exfalso. destruct I1 as (u & v & w & _ & _ & _ & S & X & _), I2 as (u' & v' & w' & _ & _ & _ & S' & X' & _).
      rewrite <- E2, <- E1 in X, X'. assert (fst P1 = fst A) by (rewrite X; transitivity ((u + v + w) * fst A); [ring|rewrite S; ring]).
      assert (fst P2 = fst A) by (rewrite X'; transitivity ((u' + v' + w') * fst A); [ring|rewrite S'; ring]). lra. }
    destruct EDGE as (P & Q & PQ & NE). exists P, Q. split; [exact PQ|].
    pose proof (ON P Q PQ q IQ) as Hq. pose proof (ON P Q PQ P2 I2) as H2. unfold sidef in Hq, H2. rewrite QX in Hq.
    destruct (Rtotal_order (fst P) (fst Q)) as [G|[G|G]]; [|contradiction|].
    + left. split; [|intros p I; rewrite (ON P Q PQ p I); lra]. apply KEY; [intros p I; rewrite (ON P Q PQ p I); lra|]. unfold sidef, c. cbn [fst snd].
      assert (0 < (fst Q - fst P) * (snd q - snd hi)) by (apply Rmult_lt_0_compat; lra). lra.
    + right. split; [|intros p I; rewrite (ON P Q PQ p I); lra]. intros p [[_ PX] [_ PY]]. unfold sidef.
      set (dx := fst Q - fst P) in *. set (dy := snd Q - snd P) in *. assert (DX : dx < 0) by (unfold dx; lra).
      assert (DY : 0 <= dy).
      { destruct (Rle_dec 0 dy) as [H|H]; [exact H|]. exfalso.
        assert (0 < (- dy) * (fst P2 - fst hi)) by (apply Rmult_lt_0_compat; lra). assert (0 < (- dx) * (snd q - snd P2)) by (apply Rmult_lt_0_compat; lra). lra. }
      assert (0 <= (- dx) * (snd hi - snd p)) by (apply Rmult_le_pos; lra). assert (0 <= dy * (fst hi - fst p)) by (apply Rmult_le_pos; lra).
      assert (0 < (- dx) * (snd q - snd hi)) by (apply Rmult_lt_0_compat; lra). lra.
Qed.

Lemma sidef_rev : forall P Q p, sidef Q P p = - sidef P Q p.
Proof. intros. unfold sidef. ring. Qed.
Lemma edge_sep_swap : forall A B C lo hi, edge_sep A C B lo hi -> edge_sep A B C lo hi.
Proof.
  intros A B C lo hi (P & Q & PQ & H). exists Q, P. split.
  - destruct PQ as [[-> ->]|[[-> ->]|[-> ->]]]; auto.
  - destruct H as [[H1 H2]|[H1 H2]]; [right|left]; split; intros p I; rewrite sidef_rev.
    + specialize (H1 p I). lra.
    + apply in_triangle_swap in I. specialize (H2 p I). lra.
    + specialize (H1 p I). lra.
    + apply in_triangle_swap in I. specialize (H2 p I). lra.
Qed.
Lemma area2_swap : forall A B C, area2 A C B = - area2 A B C.
Proof. intros. unfold area2. ring. Qed.
(** Now for any orientation. *)
Lemma edge_sep_any : forall A B C lo hi P1 P2, fst lo <= fst hi -> snd lo <= snd hi ->
  (forall p, in_triangle p A B C -> ~ in_box p lo hi) ->
  in_triangle P1 A B C -> fst lo <= fst P1 <= fst hi -> snd hi < snd P1 ->
  in_triangle P2 A B C -> fst hi < fst P2 -> snd P2 <= snd hi -> edge_sep A B C lo hi.
Proof.
  intros A B C lo hi P1 P2 LX LY DIS I1 X1 Y1 I2 X2 Y2. destruct (Rle_dec 0 (area2 A B C)) as [T|T].
  - apply (edge_sep_core A B C lo hi P1 P2); assumption.
  - apply edge_sep_swap. apply (edge_sep_core A C B lo hi P1 P2); try assumption.
    + rewrite area2_swap. lra.
    + intros p I. apply DIS, in_triangle_swap, I.
    + apply in_triangle_swap, I1.
    + apply in_triangle_swap, I2.
Qed.
(** Mirror images. *)
Definition mx (p : plane) : plane := (- fst p, snd p).
Definition my (p : plane) : plane := (fst p, - snd p).
Lemma in_triangle_mx : forall p A B C, in_triangle p A B C -> in_triangle (mx p) (mx A) (mx B) (mx C).
Proof. intros p A B C (u & v & w & U & V & W & S & X & Y). exists u, v, w. unfold mx; cbn [fst snd]. repeat split; try assumption. rewrite X. ring. Qed.
Lemma in_triangle_my : forall p A B C, in_triangle p A B C -> in_triangle (my p) (my A) (my B) (my C).
Proof. intros p A B C (u & v & w & U & V & W & S & X & Y). exists u, v, w. unfold my; cbn [fst snd]. repeat split; try assumption. rewrite Y. ring. Qed.
Lemma mx_mx : forall p, mx (mx p) = p.
Proof. intros [x y]. unfold mx; cbn [fst snd]. f_equal. ring. Qed.
Lemma my_my : forall p, my (my p) = p.
Proof. intros [x y]. unfold my; cbn [fst snd]. f_equal. ring. Qed.
Lemma edge_sep_mx : forall A B C lo hi, edge_sep (mx A) (mx B) (mx C) (- fst hi, snd lo) (- fst lo, snd hi) -> edge_sep A B C lo hi.
Proof.
  intros A B C lo hi (P & Q & PQ & H). exists (mx P), (mx Q). split.
  - destruct PQ as [[-> ->]|[[-> ->]|[-> ->]]]; rewrite !mx_mx; auto.
  - assert (E : forall p, sidef (mx P) (mx Q) p = - sidef P Q (mx p)) by (intro p; unfold sidef, mx; cbn [fst snd]; ring).
    assert (BX : forall p, in_box p lo hi -> in_box (mx p) (- fst hi, snd lo) (- fst lo, snd hi)) by (intros p [b1 b2]; unfold in_box, mx; cbn [fst snd]; lra).
    destruct H as [[H1 H2]|[H1 H2]]; [right|left]; split; intros p I; rewrite E.
    + specialize (H1 _ (BX p I)). lra.
    + specialize (H2 _ (in_triangle_mx _ _ _ _ I)). lra.
    + specialize (H1 _ (BX p I)). lra.
    + specialize (H2 _ (in_triangle_mx _ _ _ _ I)). lra.
Qed.
Lemma edge_sep_my : forall A B C lo hi, edge_sep (my A) (my B) (my C) (fst lo, - snd hi) (fst hi, - snd lo) -> edge_sep A B C lo hi.
Proof.
  intros A B C lo hi (P & Q & PQ & H). exists (my P), (my Q). split.
  - destruct PQ as [[-> ->]|[[-> ->]|[-> ->]]]; rewrite !my_my; auto.
  - assert (E : forall p, sidef (my P) (my Q) p = - sidef P Q (my p)) by (intro p; unfold sidef, my; cbn [fst snd]; ring).
    assert (BX : forall p, in_box p lo hi -> in_box (my p) (fst lo, - snd hi) (fst hi, - snd lo)) by (intros p [b1 b2]; unfold in_box, my; cbn [fst snd]; lra).
    destruct H as [[H1 H2]|[H1 H2]]; [right|left]; split; intros p I; rewrite E.
    + specialize (H1 _ (BX p I)). lra.
    + specialize (H2 _ (in_triangle_my _ _ _ _ I)). lra.
    + specialize (H1 _ (BX p I)). lra.
    + specialize (H2 _ (in_triangle_my _ _ _ _ I)). lra.
Qed.
(** Left or right of the box. *)
Lemma edge_sep_above : forall A B C lo hi P1 P2, fst lo <= fst hi -> snd lo <= snd hi ->
  (forall p, in_triangle p A B C -> ~ in_box p lo hi) ->
  in_triangle P1 A B C -> fst lo <= fst P1 <= fst hi -> snd hi < snd P1 ->
  in_triangle P2 A B C -> snd lo <= snd P2 <= snd hi -> edge_sep A B C lo hi.
Proof.
  intros A B C lo hi P1 P2 LX LY DIS I1 X1 Y1 I2 Y2.
  destruct (Rlt_dec (fst hi) (fst P2)) as [R|R]; [apply (edge_sep_any A B C lo hi P1 P2); lra || assumption|].
  destruct (Rlt_dec (fst P2) (fst lo)) as [L|L]; [|exfalso; apply (DIS P2 I2); unfold in_box; lra].
  apply edge_sep_mx. apply (edge_sep_any _ _ _ _ _ (mx P1) (mx P2)); try (apply in_triangle_mx; assumption); unfold mx; cbn [fst snd]; try lra.
  intros p I Bx. apply in_triangle_mx in I. fold (mx A) in I. fold (mx B) in I. fold (mx C) in I. rewrite !mx_mx in I. apply (DIS _ I).
  unfold in_box, mx in *; cbn [fst snd] in *. lra.
Qed.
Lemma edge_sep_all : forall A B C lo hi P1 P2, fst lo <= fst hi -> snd lo <= snd hi ->
  (forall p, in_triangle p A B C -> ~ in_box p lo hi) ->
  in_triangle P1 A B C -> fst lo <= fst P1 <= fst hi -> in_triangle P2 A B C -> snd lo <= snd P2 <= snd hi -> edge_sep A B C lo hi.
Proof.
  intros A B C lo hi P1 P2 LX LY DIS I1 X1 I2 Y2.
  destruct (Rlt_dec (snd hi) (snd P1)) as [R|R]; [apply (edge_sep_above A B C lo hi P1 P2); lra || assumption|].
  destruct (Rlt_dec (snd P1) (snd lo)) as [L|L]; [|exfalso; apply (DIS P1 I1); unfold in_box; lra].
  apply edge_sep_my. apply (edge_sep_above _ _ _ _ _ (my P1) (my P2)); try (apply in_triangle_my; assumption); unfold my; cbn [fst snd]; try lra.
  intros p I Bx. apply in_triangle_my in I. fold (my A) in I. fold (my B) in I. fold (my C) in I. rewrite !my_my in I. apply (DIS _ I).
  unfold in_box, my in *; cbn [fst snd] in *. lra.
Qed.
