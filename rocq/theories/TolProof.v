(** Intersections of segments, lines and rays under an absolute tolerance. *)
From Verif Require Import Base CmpModel OrientModel OrientSpec OrientProof DistModel DistSpec LinIntModel LinIntSpec LinIntProof RayProof TolSpec.

Lemma abs_le : forall d x, qabs d <= x <-> - x <= d <= x.
Proof. intros d x. unfold qabs. destruct (Qltb_spec d 0); split; intros; lra. Qed.
Lemma abs_leb : forall d x, Qleb (qabs d) x = true <-> - x <= d <= x.
Proof. intros d x. rewrite Qleb_le. apply abs_le. Qed.
Lemma abs_leb_false : forall d x, Qleb (qabs d) x = false -> ~ (- x <= d <= x).
Proof. intros d x E H. apply abs_leb in H. congruence. Qed.

(** ** Near parallel segments *)
Definition among (a b c : Q) : Prop := (a <= c /\ c <= b) \/ (b <= c /\ c <= a).
Definition nearly_among (tol a b c : Q) : Prop := (a - c <= tol /\ c - b <= tol) \/ (- tol <= a - c /\ - tol <= c - b).
Lemma among_nearly : forall tol a b c, 0 <= tol -> among a b c -> nearly_among tol a b c.
Proof. intros tol a b c T [H|H]; [left|right]; lra. Qed.
Lemma near_among_nearly : forall tol a b c x, 0 <= tol -> among a b x -> - tol <= c - x <= tol -> nearly_among tol a b c.
Proof. intros tol a b c x T [H|H] N; [left|right]; lra. Qed.
Lemma param_among : forall a b x s, 0 <= s <= 1 -> x == a + s * (b - a) -> among a b x.
Proof.
  intros a b x s S E. destruct (Qlt_le_dec a b) as [L|L]; [left|right].
  - assert (0 <= s * (b - a)) by (apply Qmult_le_0_compat; lra). assert (0 <= (1 - s) * (b - a)) by (apply Qmult_le_0_compat; lra). lra.
  - assert (0 <= s * (a - b)) by (apply Qmult_le_0_compat; lra). assert (0 <= (1 - s) * (a - b)) by (apply Qmult_le_0_compat; lra). lra.
Qed.
Lemma pairs : forall a b c d x, among a b x -> among c d x ->
  (among a b c /\ among a b d) \/ (among c d a /\ among c d b) \/ (among a b c /\ among c d b) \/ (among a b c /\ among c d a) \/ (among a b d /\ among c d b) \/ (among a b d /\ among c d a).
Proof.
  intros a b c d x H1 H2. unfold among in *.
  destruct H1 as [H1|H1], H2 as [H2|H2]; destruct (Qlt_le_dec a c), (Qlt_le_dec b d), (Qlt_le_dec a d), (Qlt_le_dec b c); 
  first [left; split; [left; lra|left; lra] | left; split; [right; lra|right; lra] | right; left; split; [left; lra|left; lra] | right; left; split; [right; lra|right; lra]
   | right; right; left; split; (first [left; lra|right; lra]) | right; right; right; left; split; (first [left; lra|right; lra])
   | right; right; right; right; left; split; (first [left; lra|right; lra]) | right; right; right; right; right; split; (first [left; lra|right; lra]) ].
Qed.
Lemma is_between_true : forall tol A B C, - tol <= cross (vsub B A) (vsub C A) <= tol ->
  (- tol <= px A - px B <= tol -> nearly_among tol (py A) (py B) (py C)) -> (~ (- tol <= px A - px B <= tol) -> nearly_among tol (px A) (px B) (px C)) ->
  is_between (absolute tol) A B C true = true.
Proof.
  assert (K : forall tol a b c, nearly_among tol a b c -> (Qleb (a - c) tol && Qleb (c - b) tol) || (Qgeb (a - c) (- tol) && Qgeb (c - b) (- tol)) = true).
  { intros tol a b c [ [H1 H2]|[H1 H2] ]; apply orb_true_iff; [left|right]; apply andb_true_iff; split; apply Qleb_le; assumption. }
  intros tol A B C HC HY HX. unfold is_between, is_collinear, is_collinear_point_between. cbn [equals absolute less_than_or_equal greater_than_or_equal].
  apply andb_true_iff. split; [apply abs_leb; lra|]. destruct (Qleb (qabs (px A - px B)) tol) eqn:V; cbn [negb]; apply K.
  - apply HY, abs_leb, V.
  - apply HX, abs_leb_false, V.
Qed.
Lemma scaled_small : forall s d tol, 0 <= s <= 1 -> - tol <= d <= tol -> - tol <= s * d <= tol.
Proof.
  intros s d tol S D. destruct (Qlt_le_dec 0 d) as [L|L].
  - assert (0 <= s * d) by (apply Qmult_le_0_compat; lra). assert (0 <= (1 - s) * d) by (apply Qmult_le_0_compat; lra). lra.
  - assert (0 <= s * - d) by (apply Qmult_le_0_compat; lra). assert (0 <= (1 - s) * - d) by (apply Qmult_le_0_compat; lra). lra.
Qed.
Lemma parallel_not_missed : forall tol A B C D X, 0 <= tol -> - tol <= xdenom A B C D <= tol -> on_segment A B X -> on_segment C D X ->
  exists Y Z, parallel_intersection (absolute tol) A B C D = (e_overlapping, [Y; Z]).
Proof.
  intros tol A B C D X T DEN (s & S & XS) (t & U & XT). rewrite xdenom_cross in DEN. set (d := cross (vsub B A) (vsub D C)) in *.
  assert (E1 : px C - px A == s * (px B - px A) - t * (px D - px C)) by (destruct XS as [G1 _], XT as [G3 _]; unfold lerp, vadd, vscale, vsub in *; cbn [px py] in *; lra).
  assert (E2 : py C - py A == s * (py B - py A) - t * (py D - py C)) by (destruct XS as [_ G2], XT as [_ G4]; unfold lerp, vadd, vscale, vsub in *; cbn [px py] in *; lra).
  assert (C1 : cross (vsub B A) (vsub C A) == - (t * d)) by (unfold d, cross, vsub; cbn [px py]; rewrite E1, E2; ring).
  assert (C2 : cross (vsub B A) (vsub D A) == (1 - t) * d).
  { transitivity (cross (vsub B A) (vsub C A) + d); [unfold d, cross, vsub; cbn [px py]; ring|rewrite C1; ring]. }
  assert (C3 : cross (vsub D C) (vsub A C) == s * d).
  { transitivity ((px D - px C) * - (py C - py A) - (py D - py C) * - (px C - px A)); [unfold cross, vsub; cbn [px py]; ring|]. rewrite E1, E2. unfold d, cross, vsub; cbn [px py]. ring. }
  assert (C4 : cross (vsub D C) (vsub B C) == - ((1 - s) * d)).
  { transitivity (cross (vsub D C) (vsub A C) - d); [unfold d, cross, vsub; cbn [px py]; ring|rewrite C3; ring]. }
  assert (D0 : - tol <= d <= tol) by lra.
  pose proof (scaled_small t d tol U D0) as T1. pose proof (scaled_small (1 - t) d tol ltac:(lra) D0) as T2. pose proof (scaled_small s d tol S D0) as T3. pose proof (scaled_small (1 - s) d tol ltac:(lra) D0) as T4.
  destruct XS as [X1 Y1], XT as [X2 Y2]. unfold lerp, vadd, vscale, vsub in X1, X2, Y1, Y2. cbn [px py] in X1, X2, Y1, Y2.
  pose proof (param_among _ _ _ _ S X1) as AX. pose proof (param_among _ _ _ _ S Y1) as AY. pose proof (param_among _ _ _ _ U X2) as BX. pose proof (param_among _ _ _ _ U Y2) as BY.
  assert (P : (is_between (absolute tol) A B C true = true /\ is_between (absolute tol) A B D true = true) \/ (is_between (absolute tol) C D A true = true /\ is_between (absolute tol) C D B true = true) \/
    (is_between (absolute tol) A B C true = true /\ is_between (absolute tol) C D B true = true) \/ (is_between (absolute tol) A B C true = true /\ is_between (absolute tol) C D A true = true) \/
    (is_between (absolute tol) A B D true = true /\ is_between (absolute tol) C D B true = true) \/ (is_between (absolute tol) A B D true = true /\ is_between (absolute tol) C D A true = true)).
  { assert (VA : {- tol <= px A - px B <= tol} + {~ (- tol <= px A - px B <= tol)}) by (destruct (Qlt_le_dec (px A - px B) (- tol)); [right; lra|]; destruct (Qlt_le_dec tol (px A - px B)); [right; lra|left; lra]).
    assert (VC : {- tol <= px C - px D <= tol} + {~ (- tol <= px C - px D <= tol)}) by (destruct (Qlt_le_dec (px C - px D) (- tol)); [right; lra|]; destruct (Qlt_le_dec tol (px C - px D)); [right; lra|left; lra]).
    destruct VA as [VA|VA], VC as [VC|VC].
    - destruct (pairs _ _ _ _ _ AY BY) as [ [H1 H2]|[ [H1 H2]|[ [H1 H2]|[ [H1 H2]|[ [H1 H2]|[H1 H2] ] ] ] ] ]; [left|right; left|right; right; left|right; right; right; left|right; right; right; right; left|right; right; right; right; right]; split; apply is_between_true; try lra; intros; try contradiction; apply among_nearly; assumption.
    - right; left. pose proof (scaled_small s (px B - px A) tol S ltac:(lra)) as N1. pose proof (scaled_small (1 - s) (px B - px A) tol ltac:(lra) ltac:(lra)) as N2.
      split; apply is_between_true; try lra; intros; try contradiction; apply (near_among_nearly tol _ _ _ (px X)); try assumption; lra.
    - left. pose proof (scaled_small t (px D - px C) tol U ltac:(lra)) as N1. pose proof (scaled_small (1 - t) (px D - px C) tol ltac:(lra) ltac:(lra)) as N2.
      split; apply is_between_true; try lra; intros; try contradiction; apply (near_among_nearly tol _ _ _ (px X)); try assumption; lra.
    - destruct (pairs _ _ _ _ _ AX BX) as [ [H1 H2]|[ [H1 H2]|[ [H1 H2]|[ [H1 H2]|[ [H1 H2]|[H1 H2] ] ] ] ] ]; [left|right; left|right; right; left|right; right; right; left|right; right; right; right; left|right; right; right; right; right]; split; apply is_between_true; try lra; intros; try contradiction; apply among_nearly; assumption. }
  assert (COL : is_collinear (absolute tol) A B C = true) by (unfold is_collinear; cbn [equals absolute]; apply abs_leb; lra).
  unfold parallel_intersection. rewrite COL. cbn [negb]. cbv zeta.
  destruct (is_between (absolute tol) A B C true), (is_between (absolute tol) A B D true), (is_between (absolute tol) C D A true), (is_between (absolute tol) C D B true); cbn; eauto;
  exfalso; destruct P as [ [? ?]|[ [? ?]|[ [? ?]|[ [? ?]|[ [? ?]|[? ?] ] ] ] ] ]; discriminate.
Qed.

(** ** The other branch *)


Lemma tol_eq_false : forall tol d, 0 <= tol -> equals (absolute tol) d 0 = false -> ~ d == 0.
Proof. intros tol d T E H. cbn in E. apply abs_leb_false in E. apply E. lra. Qed.
Lemma tol_eq_true : forall tol d, equals (absolute tol) d 0 = true -> - tol <= d <= tol.
Proof. intros tol d E. cbn in E. apply abs_leb in E. lra. Qed.
Lemma tol_lt : forall tol u v, BoolSpec (u - v < - tol) (- tol <= u - v) (less_than (absolute tol) u v).
Proof. intros. cbn. apply Qltb_spec. Qed.
Lemma tol_gt : forall tol u v, BoolSpec (tol < u - v) (u - v <= tol) (greater_than (absolute tol) u v).
Proof. intros. cbn. apply Qgtb_spec. Qed.
Lemma tol_equals : forall tol u v, BoolSpec (- tol <= u - v <= tol) (~ (- tol <= u - v <= tol)) (equals (absolute tol) u v).
Proof. intros. cbn. destruct (Qleb (qabs (u - v)) tol) eqn:E; constructor; [apply abs_leb, E|apply abs_leb_false, E]. Qed.

Lemma segments_tolerance : forall tol A B C D, 0 <= tol -> tol < qabs (xdenom A B C D) -> exists ty pts, segment_segment_intersection (absolute tol) A B C D = Some (ty, pts) /\
  match ty with
  | e_non_crossing => pts = [] /\ is_empty_set (both (on_segment A B) (on_segment C D))
  | e_crossing => exists X s t, pts = [X] /\ X =p= lerp A B s /\ X =p= lerp C D t /\ well_within tol s /\ well_within tol t
  | e_endpoint => exists X s t, pts = [X] /\ X =p= lerp A B s /\ X =p= lerp C D t /\ within tol s /\ within tol t /\ ~ (well_within tol s /\ well_within tol t)
  | _ => False
  end.
Proof.
  intros tol A B C D T DEN. unfold segment_segment_intersection. cbv zeta.
  destruct (equals (absolute tol) (xdenom A B C D) 0) eqn:E; [exfalso; apply tol_eq_true in E; apply abs_le in E; lra|].
  pose proof (tol_eq_false _ _ T E) as NZ. rewrite !qdiv_opt_some by exact NZ. destruct (cross_solve A B C D NZ) as [K1 K2].
  set (s := xnum_s A B C D / xdenom A B C D) in *. set (t := xnum_t A B C D / xdenom A B C D) in *. fold (lerp A B s).
  set (ends := if equals (absolute tol) (xnum_t A B C D) 0 || equals (absolute tol) (xnum_t A B C D) (xdenom A B C D) then e_endpoint else if equals (absolute tol) (xnum_s A B C D) 0 || equals (absolute tol) (xnum_s A B C D) (xdenom A B C D) then e_endpoint else e_invalid_intersection).
  assert (EN : ends = e_endpoint \/ ends = e_invalid_intersection) by (unfold ends; destruct (_ || _); [left; reflexivity|]; destruct (_ || _); [left|right]; reflexivity). clearbody ends.
  destruct (less_than (absolute tol) 0 s && less_than (absolute tol) s 1 && less_than (absolute tol) 0 t && less_than (absolute tol) t 1) eqn:E1.
  { apply andb_true_iff in E1. destruct E1 as [E1 L4]. apply andb_true_iff in E1. destruct E1 as [E1 L3]. apply andb_true_iff in E1. destruct E1 as [L1 L2].
    destruct (tol_lt tol 0 s) as [M1|]; [|discriminate]. destruct (tol_lt tol s 1) as [M2|]; [|discriminate]. destruct (tol_lt tol 0 t) as [M3|]; [|discriminate]. destruct (tol_lt tol t 1) as [M4|]; [|discriminate].
    exists e_crossing, [lerp A B s]. split; [reflexivity|]. exists (lerp A B s), s, t. unfold well_within. split; [reflexivity|]. split; [split; reflexivity|]. split; [exact K1|]. split; lra. }
  assert (NW : ~ (well_within tol s /\ well_within tol t)).
  { intros [W1 W2]. unfold well_within in *. destruct (tol_lt tol 0 s) as [M1|M1]; [|lra]. destruct (tol_lt tol s 1) as [M2|M2]; [|lra]. destruct (tol_lt tol 0 t) as [M3|M3]; [|lra]. destruct (tol_lt tol t 1) as [M4|M4]; [discriminate E1|lra]. }
  destruct (greater_than (absolute tol) 0 s || greater_than (absolute tol) s 1 || greater_than (absolute tol) 0 t || greater_than (absolute tol) t 1) eqn:E2.
  { exists e_non_crossing, []. split; [reflexivity|]. split; [reflexivity|]. intros Z [(s' & S' & Z1) (t' & T' & Z2)].
    destruct (K2 s' t') as [Q1 Q2]; [apply (pteq_trans _ Z); [apply pteq_sym, Z1|exact Z2]|].
    destruct (tol_gt tol 0 s) as [M|M]; [lra|]. destruct (tol_gt tol s 1) as [M1|M1]; [lra|]. destruct (tol_gt tol 0 t) as [M2|M2]; [lra|]. destruct (tol_gt tol t 1) as [M3|M3]; [lra|discriminate E2]. }
  destruct (tol_gt tol 0 s) as [M|M]; [discriminate E2|]. destruct (tol_gt tol s 1) as [M1|M1]; [discriminate E2|]. destruct (tol_gt tol 0 t) as [M2|M2]; [discriminate E2|]. destruct (tol_gt tol t 1) as [M3|M3]; [discriminate E2|].
  assert (EE : (equals (absolute tol) 0 s || equals (absolute tol) s 1 || equals (absolute tol) 0 t || equals (absolute tol) t 1) = true).
  { destruct (tol_equals tol 0 s) as [G1|G1]; [reflexivity|]. destruct (tol_equals tol s 1) as [G2|G2]; [reflexivity|]. destruct (tol_equals tol 0 t) as [G3|G3]; [reflexivity|]. destruct (tol_equals tol t 1) as [G4|G4]; [reflexivity|]. exfalso. apply NW. unfold well_within. split; split; lra. }
  rewrite EE, andb_true_r. exists e_endpoint, [lerp A B s]. split; [destruct EN as [ ->| ->]; reflexivity|].
  exists (lerp A B s), s, t. unfold within. split; [reflexivity|]. split; [split; reflexivity|]. split; [exact K1|]. split; [lra|]. split; [lra|exact NW].
Qed.
Lemma segments_not_missed : forall tol A B C D X, 0 <= tol -> on_segment A B X -> on_segment C D X ->
  exists ty pts, segment_segment_intersection (absolute tol) A B C D = Some (ty, pts) /\ (ty = e_crossing \/ ty = e_endpoint \/ ty = e_overlapping).
Proof.
  intros tol A B C D X T H1 H2. destruct (Qlt_le_dec tol (qabs (xdenom A B C D))) as [L|L].
  - destruct (segments_tolerance tol A B C D T L) as (ty & pts & E & K). exists ty, pts. split; [exact E|]. destruct ty; try contradiction; auto. destruct K as [_ K]. exfalso. exact (K X (conj H1 H2)).
  - apply abs_le in L. destruct (parallel_not_missed tol A B C D X T L H1 H2) as (Y & Z & E). exists e_overlapping, [Y; Z]. split; [|auto].
    unfold segment_segment_intersection. cbv zeta. assert (EQ : equals (absolute tol) (xdenom A B C D) 0 = true) by (cbn; apply abs_leb; lra). rewrite EQ, E. reflexivity.
Qed.

(** ** Lines and rays *)
Lemma line_segment_not_missed : forall tol A B C D X, 0 <= tol -> on_line A B X -> on_segment C D X ->
  exists ty o, line_segment_intersect (absolute tol) A B C D = Some (ty, o) /\ ty <> e_non_crossing.
Proof.
  intros tol A B C D X T (s & XS) (t & U & XT). unfold line_segment_intersect. cbv zeta. destruct (equals (absolute tol) (xdenom A B C D) 0) eqn:E.
  - apply tol_eq_true in E. rewrite xdenom_cross in E. set (d := cross (vsub B A) (vsub D C)) in *.
    assert (E1 : px C - px A == s * (px B - px A) - t * (px D - px C)) by (destruct XS as [G1 _], XT as [G3 _]; unfold lerp, vadd, vscale, vsub in *; cbn [px py] in *; lra).
    assert (E2 : py C - py A == s * (py B - py A) - t * (py D - py C)) by (destruct XS as [_ G2], XT as [_ G4]; unfold lerp, vadd, vscale, vsub in *; cbn [px py] in *; lra).
    assert (C1 : cross (vsub B A) (vsub C A) == - (t * d)) by (unfold d, cross, vsub; cbn [px py]; rewrite E1, E2; ring).
    pose proof (scaled_small t d tol U ltac:(lra)) as T1.
    assert (COL : is_collinear (absolute tol) A B C = true) by (unfold is_collinear; cbn [equals absolute]; apply abs_leb; lra). rewrite COL.
    exists e_overlapping, None. split; [reflexivity|discriminate].
  - pose proof (tol_eq_false _ _ T E) as NZ. rewrite qdiv_opt_some by exact NZ. destruct (cross_solve A B C D NZ) as [_ K2].
    destruct (K2 s t) as [_ Q2]; [apply (pteq_trans _ X); [apply pteq_sym, XS|exact XT]|]. set (r := xnum_t A B C D / xdenom A B C D) in *.
    destruct (tol_lt tol r 0) as [M|M]; [lra|]. destruct (tol_gt tol r 1) as [M1|M1]; [lra|]. cbn [orb]. eexists _, _. split; [reflexivity|].
    destruct (greater_than (absolute tol) r 0 && less_than (absolute tol) r 1); [discriminate|]. destruct (_ || _); discriminate.
Qed.
Lemma line_segment_point : forall tol A B C D ty X, 0 <= tol -> line_segment_intersect (absolute tol) A B C D = Some (ty, Some X) ->
  exists s t, X =p= lerp A B s /\ X =p= lerp C D t /\ within tol t /\ (ty = e_crossing <-> well_within tol t).
Proof.
  intros tol A B C D ty X T H. unfold line_segment_intersect in H. cbv zeta in H. destruct (equals (absolute tol) (xdenom A B C D) 0) eqn:E; [destruct (is_collinear _ _ _ _); discriminate|].
  pose proof (tol_eq_false _ _ T E) as NZ. rewrite qdiv_opt_some in H by exact NZ. destruct (cross_solve A B C D NZ) as [K1 _].
  set (s := xnum_s A B C D / xdenom A B C D) in *. set (t := xnum_t A B C D / xdenom A B C D) in *.
  destruct (tol_lt tol t 0) as [M|M]; [discriminate|]. destruct (tol_gt tol t 1) as [M1|M1]; [discriminate|]. cbn [orb] in H.
  assert (W : within tol t) by (unfold within; lra). pose proof (pteq_sym _ _ K1) as K3.
  assert (R : lerp C D t =p= lerp C D t) by (split; reflexivity). unfold well_within. fold (lerp C D t) in H.
  destruct (tol_gt tol t 0) as [G|G]; [destruct (tol_lt tol t 1) as [L|L]|]; cbn [andb] in H; [|destruct (_ || _)|destruct (_ || _)]; injection H as <- <-; exists s, t;
    (split; [exact K3|]); (split; [exact R|]); (split; [exact W|]); split; intros; try discriminate; try reflexivity; lra.
Qed.
Lemma ray_segment_tolerance : forall tol O v A B, 0 <= tol -> tol < qabs (cross v (vsub B A)) -> exists ty ot pts, ray_segment_intersection (absolute tol) O v A B = Some (ty, ot, pts) /\
  match ty with
  | e_non_crossing => pts = [] /\ is_empty_set (both (on_ray O v) (on_segment A B))
  | e_crossing => exists X t r, ot = Some t /\ pts = [X] /\ X =p= vadd O (vscale t v) /\ X =p= lerp A B r /\ - tol <= t /\ well_within tol r
  | e_endpoint => exists X t r, ot = Some t /\ pts = [X] /\ X =p= vadd O (vscale t v) /\ X =p= lerp A B r /\ - tol <= t /\ within tol r /\ ~ well_within tol r
  | _ => False
  end.
Proof.
  intros tol O v A B T DEN. unfold ray_segment_intersection. cbv zeta. pose proof (ray_denom v (vsub B A)) as RD.
  assert (NZ : ~ cross v (vsub B A) == 0). { intro Z. assert (qabs (cross v (vsub B A)) <= 0) by (apply abs_le; lra). lra. }
  assert (NZ' : ~ dot (vsub B A) (left_normal v) == 0) by (rewrite RD; exact NZ).
  destruct (equals (absolute tol) (dot (vsub B A) (left_normal v)) 0) eqn:E; [exfalso; apply tol_eq_true in E; assert (qabs (cross v (vsub B A)) <= tol) by (apply abs_le; lra); lra|].
  rewrite !qdiv_opt_some by exact NZ'. destruct (ray_solve O v A (vsub B A) NZ) as [K1 K2].
  set (t := cross (vsub B A) (vsub O A) / dot (vsub B A) (left_normal v)) in *. set (r := dot (vsub O A) (left_normal v) / dot (vsub B A) (left_normal v)) in *. fold (lerp A B r) in K1.
  assert (K3 : forall Z, on_ray O v Z -> on_segment A B Z -> 0 <= t /\ 0 <= r <= 1).
  { intros Z (t' & T' & Z1) (r' & R' & Z2). destruct (K2 t' r') as [Q1 Q2]; [apply (pteq_trans _ Z); [apply pteq_sym, Z1|exact Z2]|]. split; lra. }
  destruct (tol_lt tol t 0) as [M|M].
  { exists e_non_crossing, None, []. split; [reflexivity|]. split; [reflexivity|]. intros Z [H1 H2]. destruct (K3 Z H1 H2). lra. }
  destruct (tol_lt tol r 0) as [M1|M1]; [|destruct (tol_gt tol r 1) as [M2|M2] ]; cbn [orb].
  1, 2: exists e_non_crossing, None, []; (split; [reflexivity|]); (split; [reflexivity|]); intros Z [H1 H2]; destruct (K3 Z H1 H2); lra.
  unfold within, well_within. eexists _, _, _. split; [reflexivity|].
  destruct (tol_equals tol r 0) as [Q1|Q1]; [|destruct (tol_equals tol r 1) as [Q2|Q2] ]; cbn [orb]; exists (vadd O (vscale t v)), t, r.
  - do 2 (split; [reflexivity|]). split; [split; reflexivity|]. split; [exact K1|]. split; [lra|]. split; [lra|]. lra.
  - do 2 (split; [reflexivity|]). split; [split; reflexivity|]. split; [exact K1|]. split; [lra|]. split; [lra|]. lra.
  - do 2 (split; [reflexivity|]). split; [split; reflexivity|]. split; [exact K1|]. split; [lra|]. split; lra.
Qed.
