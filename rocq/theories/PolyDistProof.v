(** Proofs about the branch and bound distance. *)
From Verif Require Import Base CmpModel BoxModel BoxSpec BoxProof BoxProps OrientModel OrientSpec OrientProof DistModel DistSpec DistProof PolyDistModel PolyDistSpec.
From Coq Require Import Permutation ArithRing.

Lemma scan_min_ok : forall l m acc, let (x, r) := scan_min m acc l in
  Permutation (m :: acc ++ l) (x :: r) /\ it_d2 x <= it_d2 m /\
  ((forall y, In y acc -> it_d2 m <= it_d2 y) -> forall y, In y r -> it_d2 x <= it_d2 y).
Proof.
  induction l as [|x l IH]; intros m acc; simpl.
  - split; [|split].
    + constructor. rewrite app_nil_r. apply Permutation_rev.
    + apply Qle_refl.
    + intros H y Hy; apply H; apply in_rev; exact Hy.
  - destruct (Qltb_spec (it_d2 x) (it_d2 m)) as [G|G].
    + specialize (IH x (m :: acc)). destruct (scan_min x (m :: acc) l) as [z r]. destruct IH as (P & L & K).
      split; [|split].
      * rewrite <- P. simpl. rewrite perm_swap. rewrite <- Permutation_middle. rewrite perm_swap. reflexivity.
      * lra.
      * intros H y Hy. apply K; [|exact Hy]. intros w [<-|Hw]; [lra|]. specialize (H w Hw); lra.
    + specialize (IH m (x :: acc)). destruct (scan_min m (x :: acc) l) as [z r]. destruct IH as (P & L & K).
      split; [|split].
      * rewrite <- P. simpl. constructor. symmetry; apply Permutation_middle.
      * exact L.
      * intros H y Hy. apply K; [|exact Hy]. intros w [<-|Hw]; [lra|]. apply H; exact Hw.
Qed.
Lemma scan_pop_heap : heap_pop scan_pop.
Proof.
  split; [reflexivity|]. intros [|x q] N; [congruence|]. simpl.
  pose proof (scan_min_ok q x []) as H. destruct (scan_min x [] q) as [z r]. destruct H as (P & _ & K).
  exists z, r. split; [reflexivity|]. split; [exact P|]. apply K. intros y [].
Qed.

(** ** Sub-ranges *)

Lemma sub_edges_from_ok : forall ps n i, (i + n < length ps)%nat ->
  exists es, sub_edges_from ps i n = Some es /\
    forall k A B, In (k, (A, B)) es <-> (i <= k < i + n)%nat /\ polyline_edge ps k A B.
Proof.
  intros ps n; induction n as [|n IH]; intros i Hi; cbn [sub_edges_from].
  - exists []. split; [reflexivity|]. intros k A B; split; [intros []|intros [H _]; lia].
  - destruct (nth_error ps i) as [a|] eqn:Ea; [|apply nth_error_None in Ea; lia].
    destruct (nth_error ps (S i)) as [b|] eqn:Eb; [|apply nth_error_None in Eb; lia].
    destruct (IH (S i)) as (es & Es & H); [lia|]. rewrite Es. eexists; split; [reflexivity|].
    intros k A B. rewrite in_cons_iff, H. split.
    + intros [E|[K1 K2]].
      * injection E as <- <- <-. split; [lia|]. split; assumption.
      * split; [lia|exact K2].
    + intros [K1 K2]. destruct (Nat.eq_dec k i) as [->|N]; [left|right; split; [lia|exact K2]].
      destruct K2 as [K2 K3]. rewrite Ea in K2; rewrite Eb in K3. congruence.
Qed.
Lemma sub_edges_ok : forall ps lo hi, (lo < hi)%nat -> (hi < length ps)%nat ->
  exists es, sub_edges ps (lo, hi) = Some es /\ es <> [] /\
    forall k A B, In (k, (A, B)) es <-> (lo <= k < hi)%nat /\ polyline_edge ps k A B.
Proof.
  intros ps lo hi H1 H2. unfold sub_edges; cbn [fst snd].
  destruct (sub_edges_from_ok ps (hi - lo) lo) as (es & E & H); [lia|].
  exists es; split; [exact E|]. split.
  - intros ->. destruct (nth_error ps lo) as [a|] eqn:Ea; [|apply nth_error_None in Ea; lia].
    destruct (nth_error ps (S lo)) as [b|] eqn:Eb; [|apply nth_error_None in Eb; lia].
    apply (H lo a b). split; [lia|]. split; assumption.
  - intros k A B. rewrite H. split; intros [K1 K2]; (split; [lia|exact K2]).
Qed.

(** ** Brute force *)

Definition edge_pair_least (E1 E2 : nat -> pt -> pt -> Prop) (d : Q) : Prop :=
  least_dist2_sets (fun X => exists k A B, E1 k A B /\ on_segment A B X)
                   (fun X => exists k A B, E2 k A B /\ on_segment A B X) d.

Lemma edges_edges_distance_ok : forall es2 (E2 : nat -> pt -> pt -> Prop),
  (forall k A B, In (k, (A, B)) es2 <-> E2 k A B) -> es2 <> [] ->
  forall es1 done best,
  (match best with None => done = [] | Some d => edge_pair_least (fun k A B => In (k, (A, B)) done) E2 d end) ->
  exists res, edges_edges_distance direct best es1 es2 = Some res /\
  match res with None => done ++ es1 = [] | Some d => edge_pair_least (fun k A B => In (k, (A, B)) (done ++ es1)) E2 d end.
Proof.
  intros es2 E2 HE NE. induction es1 as [|[i [A B]] es1 IH]; intros done best Inv.
  - exists best. split; [reflexivity|]. rewrite app_nil_r. exact Inv.
  - simpl. destruct (segment_edges_least A B es2 E2 HE NE) as (d & -> & L1 & L2).
    replace (done ++ (i, (A, B)) :: es1) with ((done ++ [(i, (A, B))]) ++ es1) by (rewrite <- app_assoc; reflexivity).
    apply IH. simpl. unfold take_min.
    assert (Inb : In (i, (A, B)) (done ++ [(i, (A, B))])) by (apply in_or_app; right; left; reflexivity).
    assert (ND : best = None \/ (exists b, best = Some b /\ d < b) ->
      edge_pair_least (fun k A0 B0 => In (k, (A0, B0)) (done ++ [(i, (A, B))])) E2 d).
    { intro Hb. split.
      - destruct L1 as (X & Y & HX & HY & E). exists X, Y. split; [exists i, A, B; split; assumption|]. split; assumption.
      - intros X Y (k & A0 & B0 & HI & HX) HY. apply in_app_or in HI as [HI|[HI|[]]].
        + destruct Hb as [->|(b & -> & Hlt)]; [rewrite Inv in HI; destruct HI|].
          destruct Inv as [_ L]. assert (b <= dist2 X Y) by (apply L; [exists k, A0, B0; split; assumption|exact HY]). lra.
        + assert (EA : A = A0) by congruence. assert (EB : B = B0) by congruence. subst A0 B0. apply L2; assumption. }
    destruct best as [b|]; simpl less_inf.
    + destruct (Qltb_spec d b) as [G|G].
      * apply ND. right; exists b; split; [reflexivity|exact G].
      * destruct Inv as [K1 K2]. split.
        -- destruct K1 as (X & Y & (k & A0 & B0 & HI & HX) & HY & E). exists X, Y.
           split; [exists k, A0, B0; split; [apply in_or_app; left; exact HI|exact HX]|]. split; assumption.
        -- intros X Y (k & A0 & B0 & HI & HX) HY. apply in_app_or in HI as [HI|[HI|[]]].
           ++ apply K2; [exists k, A0, B0; split; assumption|exact HY].
           ++ assert (EA : A = A0) by congruence. assert (EB : B = B0) by congruence. subst A0 B0.
              specialize (L2 X Y HX HY). lra.
    + apply ND. left; reflexivity.
Qed.

Lemma least_ext : forall (S S' T T' : pt -> Prop) d, (forall X, S X <-> S' X) -> (forall X, T X <-> T' X) ->
  least_dist2_sets S T d -> least_dist2_sets S' T' d.
Proof.
  intros S S' T T' d HS HT [(X & Y & H1 & H2 & E) L]. split.
  - exists X, Y. split; [apply HS; exact H1|]. split; [apply HT; exact H2|exact E].
  - intros p q Hp Hq. apply L; [apply HS|apply HT]; assumption.
Qed.
Lemma edge_pair_ext : forall (E1 E1' E2 : nat -> pt -> pt -> Prop) d, (forall k A B, E1 k A B <-> E1' k A B) ->
  edge_pair_least E1 E2 d -> edge_pair_least E1' E2 d.
Proof.
  intros E1 E1' E2 d H. apply least_ext; [|reflexivity].
  intro X; split; intros (k & A & B & H1 & H2); exists k, A, B; (split; [apply H; exact H1|exact H2]).
Qed.
Lemma edges_edges_distance_least : forall es1 es2 (E1 E2 : nat -> pt -> pt -> Prop),
  (forall k A B, In (k, (A, B)) es1 <-> E1 k A B) -> (forall k A B, In (k, (A, B)) es2 <-> E2 k A B) ->
  es1 <> [] -> es2 <> [] ->
  exists d, edges_edges_distance direct None es1 es2 = Some (Some d) /\ edge_pair_least E1 E2 d.
Proof.
  intros es1 es2 E1 E2 H1 H2 N1 N2.
  destruct (edges_edges_distance_ok es2 E2 H2 N2 es1 [] None eq_refl) as (res & E & HR).
  destruct res as [d|]; [|contradiction]. exists d. split; [exact E|].
  exact (edge_pair_ext _ _ _ _ H1 HR).
Qed.

(** the closest-point variant *)
Definition closest_inv (E1 E2 : nat -> pt -> pt -> Prop) (h : pair_hit) : Prop :=
  pair_on E1 E2 h /\ hit_d2 h == dist2 (ss_c1 (snd h)) (ss_c2 (snd h)) /\
  forall X Y, (exists k A B, E1 k A B /\ on_segment A B X) -> (exists k A B, E2 k A B /\ on_segment A B Y) ->
    hit_d2 h <= dist2 X Y.
Lemma closest_inv_least : forall E1 E2 h, closest_inv E1 E2 h -> edge_pair_least E1 E2 (hit_d2 h).
Proof.
  intros E1 E2 [[i j] r] (P & D & L). split; [|exact L].
  destruct P as (A1 & B1 & A2 & B2 & H1 & H2 & Hs & Ht & C1 & C2).
  exists (ss_c1 r), (ss_c2 r). split; [exists i, A1, B1; split; [exact H1|exists (ss_s r); auto]|].
  split; [exists j, A2, B2; split; [exact H2|exists (ss_t r); auto]|]. symmetry; exact D.
Qed.
Lemma edges_edges_closest_ok : forall es2 (E2 : nat -> pt -> pt -> Prop),
  (forall k A B, In (k, (A, B)) es2 <-> E2 k A B) -> es2 <> [] ->
  forall es1 done best,
  (match best with None => done = [] | Some h => closest_inv (fun k A B => In (k, (A, B)) done) E2 h end) ->
  exists res, edges_edges_closest direct best es1 es2 = Some res /\
  match res with None => done ++ es1 = [] | Some h => closest_inv (fun k A B => In (k, (A, B)) (done ++ es1)) E2 h end.
Proof.
  intros es2 E2 HE NE. induction es1 as [|[i [A B]] es1 IH]; intros done best Inv.
  - exists best. split; [reflexivity|]. rewrite app_nil_r. exact Inv.
  - simpl. destruct (segment_edges_closest_least A B es2 E2 HE NE) as (k0 & r & A2 & B2 & -> & HE2 & Hs & Ht & C1 & C2 & D & L).
    replace (done ++ (i, (A, B)) :: es1) with ((done ++ [(i, (A, B))]) ++ es1) by (rewrite <- app_assoc; reflexivity).
    apply IH.
    assert (Inb : In (i, (A, B)) (done ++ [(i, (A, B))])) by (apply in_or_app; right; left; reflexivity).
    assert (ND : best = None \/ (exists b, best = Some b /\ ss_d2 r < hit_d2 b) ->
      closest_inv (fun k A0 B0 => In (k, (A0, B0)) (done ++ [(i, (A, B))])) E2 (i, k0, r)).
    { intro Hb. split; [|split].
      - exists A, B, A2, B2. repeat (split; [assumption|]). assumption.
      - exact D.
      - unfold hit_d2; cbn [snd]. intros X Y (k & A0 & B0 & HI & HX) HY. apply in_app_or in HI as [HI|[HI|[]]].
        + destruct Hb as [->|(b & -> & Hlt)]; [rewrite Inv in HI; destruct HI|].
          destruct Inv as (_ & _ & L'). assert (hit_d2 b <= dist2 X Y) by (apply L'; [exists k, A0, B0; split; assumption|exact HY]). lra.
        + assert (EA : A = A0) by congruence. assert (EB : B = B0) by congruence. subst A0 B0. apply L; assumption. }
    destruct best as [b|]; simpl less_inf.
    + destruct (Qltb_spec (ss_d2 r) (hit_d2 b)) as [G|G].
      * apply ND. right; exists b; split; [reflexivity|exact G].
      * destruct Inv as (K1 & K2 & K3). split; [|split; [exact K2|]].
        -- destruct b as [[i1 i2] rb]. destruct K1 as (A1 & B1 & A2' & B2' & H1 & HH). exists A1, B1, A2', B2'.
           split; [apply in_or_app; left; exact H1|exact HH].
        -- intros X Y (k & A0 & B0 & HI & HX) HY. apply in_app_or in HI as [HI|[HI|[]]].
           ++ apply K3; [exists k, A0, B0; split; assumption|exact HY].
           ++ assert (EA : A = A0) by congruence. assert (EB : B = B0) by congruence. subst A0 B0.
              specialize (L X Y HX HY). lra.
    + apply ND. left; reflexivity.
Qed.
Lemma edges_edges_closest_least : forall es1 es2 (E1 E2 : nat -> pt -> pt -> Prop),
  (forall k A B, In (k, (A, B)) es1 <-> E1 k A B) -> (forall k A B, In (k, (A, B)) es2 <-> E2 k A B) ->
  es1 <> [] -> es2 <> [] ->
  exists h, edges_edges_closest direct None es1 es2 = Some (Some h) /\ closest_inv E1 E2 h.
Proof.
  intros es1 es2 E1 E2 H1 H2 N1 N2.
  destruct (edges_edges_closest_ok es2 E2 H2 N2 es1 [] None eq_refl) as (res & E & HR).
  destruct res as [h|]; [|contradiction]. exists h. split; [exact E|].
  destruct HR as (P & D & L). split; [|split; [exact D|]].
  - destruct h as [[i j] r]. destruct P as (A1 & B1 & A2 & B2 & K1 & K2). exists A1, B1, A2, B2. split; [apply H1; exact K1|exact K2].
  - intros X Y (k & A & B & K1 & K2) HY. apply L; [exists k, A, B; split; [apply H1; exact K1|exact K2]|exact HY].
Qed.

(** ** Boxes are lower bounds *)

Lemma in2_convex : forall b A B X, in2 b A -> in2 b B -> on_segment A B X -> in2 b X.
Proof.
  intros b A B X [HA1 HA2] [HB1 HB2] (t & Ht & [E1 E2]). unfold lerp, vadd, vscale, vsub in *; simpl in *.
  unfold in2. rewrite E1, E2. split; split; nra.
Qed.

Lemma range_coords : forall HI LO ps, in_type_range HI LO ps ->
  forall p, In p (map to_coords ps) -> length p = 2%nat /\ forall x, In x p -> LO <= x <= HI.
Proof.
  intros HI LO ps H p Hp. apply in_map_iff in Hp as (q & <- & Hq). split; [reflexivity|].
  destruct (H q Hq) as [Hx Hy]. intros x [<-|[<-|[]]]; assumption.
Qed.
Lemma tight_box : forall l b, length b = 2%nat -> tight_bounds (map to_coords l) b -> l <> [] ->
  exists bx, box_of_bounds b = Some bx /\ ok2 bx /\ forall p, In p l -> in2 bx p.
Proof.
  intros l b Lb T NE. destruct b as [|[xl xh] [|[yl yh] [|]]]; try discriminate Lb.
  exists (mkbox2 (mkpt xl yl) (mkpt xh yh)). split; [reflexivity|].
  assert (H : forall p, In p l -> in2 (mkbox2 (mkpt xl yl) (mkpt xh yh)) p).
  { intros p Hp. destruct (T 0%nat xl xh eq_refl) as (_ & _ & Tx). destruct (T 1%nat yl yh eq_refl) as (_ & _ & Ty).
    unfold in2; simpl. split; [apply Tx|apply Ty]; unfold column; rewrite map_map;
    apply in_map_iff; exists p; split; auto. }
  split; [|exact H]. destruct l as [|p l]; [congruence|]. destruct (H p (or_introl eq_refl)) as [H1 H2]. unfold ok2; simpl in *. lra.
Qed.

Lemma bounds_length : forall cmp HI LO dim ps, length (get_bounds cmp HI LO dim ps) = dim.
Proof.
  intros. unfold get_bounds. assert (G : forall b, length (fold_left (fun b p => upd_bounds cmp p b) ps b) = length b).
  { induction ps as [|p ps IH]; intro b; simpl; auto. rewrite IH, upd_bounds_length; reflexivity. }
  rewrite G, repeat_length; reflexivity.
Qed.
Lemma whole_box_ok : forall HI LO ps, in_type_range HI LO ps -> ps <> [] ->
  exists bx, whole_box direct HI LO ps = Some bx /\ ok2 bx /\ forall p, In p ps -> in2 bx p.
Proof.
  intros HI LO ps H NE. unfold whole_box. apply tight_box; [apply bounds_length| |exact NE].
  apply C07_bounds_tight; [|apply range_coords; exact H]. destruct ps; [congruence|discriminate].
Qed.
Lemma range_box_ok : forall HI LO ps lo hi, in_type_range HI LO ps -> (lo <= hi)%nat -> (hi < length ps)%nat ->
  exists bx, range_box direct HI LO ps (lo, hi) = Some bx /\ ok2 bx /\
    forall k p, (lo <= k <= hi)%nat -> nth_error ps k = Some p -> in2 bx p.
Proof.
  intros HI LO ps lo hi H L1 L2. unfold range_box; cbn [fst snd].
  destruct (get_bounds_range direct HI LO 2 (map to_coords ps) lo hi) as [b|] eqn:E.
  2:{ exfalso. unfold get_bounds_range in E. destruct (Nat.ltb_spec hi lo); [lia|].
      rewrite map_length in E. destruct (Nat.ltb_spec hi (length ps)); [discriminate|lia]. }
  destruct (C07_bounds_of_range HI LO 2 (map to_coords ps) lo hi b L1 (range_coords HI LO ps H) E) as [T M].
  assert (Lb : length b = 2%nat).
  { unfold get_bounds_range in E. destruct (Nat.ltb_spec hi lo); [lia|].
    rewrite map_length in E. destruct (Nat.ltb_spec hi (length ps)); [|discriminate]. injection E as <-. apply bounds_length. }
  rewrite skipn_map, firstn_map in T.
  assert (MM : forall k p, (lo <= k <= hi)%nat -> nth_error ps k = Some p -> In (to_coords p) (map to_coords (firstn (S hi - lo) (skipn lo ps)))).
  { intros k p Hk Hp. rewrite <- firstn_map, <- skipn_map. apply (M k); [exact Hk|]. rewrite nth_error_map, Hp; reflexivity. }
  assert (NE : firstn (S hi - lo) (skipn lo ps) <> []).
  { destruct (nth_error ps lo) as [p|] eqn:Ep; [|apply nth_error_None in Ep; lia].
    specialize (MM lo p ltac:(lia) Ep). intro Z. rewrite Z in MM. destruct MM. }
  destruct (tight_box _ b Lb T NE) as (bx & E1 & E2 & E3). exists bx. split; [exact E1|]. split; [exact E2|].
  intros k p Hk Hp. specialize (MM k p Hk Hp). apply in_map_iff in MM as (p' & Ep & Hp').
  specialize (E3 p' Hp'). destruct p, p'; unfold to_coords in Ep; simpl in Ep. injection Ep as -> ->. exact E3.
Qed.

(** ** The search *)
Section SearchProof.
Variables (O : Type) (pop : list item -> option (item * list item)).
Variables (p1 p2 : list pt) (HI LO : Q).
Variable leaf : range -> range -> option (option (Q * O)).
Variable G : Q -> option O -> Prop.
Hypothesis Hpop : heap_pop pop.
Hypothesis R1 : in_type_range HI LO p1.
Hypothesis R2 : in_type_range HI LO p2.

Definition edge_lb (i j : nat) (d : Q) : Prop :=
  forall A1 B1 A2 B2 X Y, polyline_edge p1 i A1 B1 -> polyline_edge p2 j A2 B2 ->
    on_segment A1 B1 X -> on_segment A2 B2 Y -> d <= dist2 X Y.
Definition valid_range (ps : list pt) (r : range) : Prop := (fst r < snd r)%nat /\ (snd r < length ps)%nat.
Definition within (i : nat) (r : range) : Prop := (fst r <= i < snd r)%nat.
Definition attained_dist (d : Q) : Prop := exists X Y, on_polyline p1 X /\ on_polyline p2 Y /\ dist2 X Y == d.

Hypothesis Hleaf : forall r1 r2, valid_range p1 r1 -> valid_range p2 r2 ->
  exists d o, leaf r1 r2 = Some (Some (d, o)) /\ attained_dist d /\ G d (Some o) /\
    forall i j, within i r1 -> within j r2 -> edge_lb i j d.

Definition valid_item (x : item) : Prop :=
  valid_range p1 (it1 x) /\ valid_range p2 (it2 x) /\
  forall i j, within i (it1 x) -> within j (it2 x) -> edge_lb i j (it_d2 x).
Definition covers (q : list item) (i j : nat) : Prop := exists x, In x q /\ within i (it1 x) /\ within j (it2 x).
Definition weight (x : item) : nat := (2 * (snd (it1 x) - fst (it1 x)) * (snd (it2 x) - fst (it2 x)) - 1)%nat.
Definition total (q : list item) : nat := list_sum (map weight q).

Lemma total_perm : forall q q', Permutation q q' -> total q = total q'.
Proof. induction 1; unfold total in *; simpl; try lia. Qed.
Lemma edge_lb_le : forall i j d d', d' <= d -> edge_lb i j d -> edge_lb i j d'.
Proof. intros i j d d' H L A1 B1 A2 B2 X Y E1 E2 HX HY. specialize (L A1 B1 A2 B2 X Y E1 E2 HX HY). lra. Qed.

Lemma box_pair_lb : forall r1 r2 b1 b2, ok2 b1 -> ok2 b2 ->
  (forall k p, (fst r1 <= k <= snd r1)%nat -> nth_error p1 k = Some p -> in2 b1 p) ->
  (forall k p, (fst r2 <= k <= snd r2)%nat -> nth_error p2 k = Some p -> in2 b2 p) ->
  forall i j, within i r1 -> within j r2 -> edge_lb i j (aabb_aabb_distance_sqrd b1 b2).
Proof.
  intros r1 r2 b1 b2 O1 O2 I1 I2 i j W1 W2 A1 B1 A2 B2 X Y [E1 E1'] [E2 E2'] HX HY.
  unfold within in *. destruct (aabb_aabb_least b1 b2 O1 O2) as [_ L]. apply L.
  - apply (in2_convex b1 A1 B1); [apply (I1 i)|apply (I1 (S i))|]; auto; lia.
  - apply (in2_convex b2 A2 B2); [apply (I2 j)|apply (I2 (S j))|]; auto; lia.
Qed.

Lemma push_valid : forall best r1 r2 d q, (forall x, In x q -> valid_item x) -> valid_item (mkitem r1 r2 d) ->
  forall x, In x (push best r1 r2 d q) -> valid_item x.
Proof.
  intros best r1 r2 d q H V x. unfold push. destruct (Qleb_spec d best); [|apply H]. intros [<-|Hx]; [exact V|apply H; exact Hx].
Qed.
Lemma push_covers : forall best r1 r2 d q i j, covers q i j -> covers (push best r1 r2 d q) i j.
Proof.
  intros best r1 r2 d q i j (x & Hx & W). unfold push. destruct (Qleb_spec d best); exists x; (split; [|exact W]); [right|]; exact Hx.
Qed.
Lemma push_new : forall best r1 r2 d q i j, valid_item (mkitem r1 r2 d) -> within i r1 -> within j r2 ->
  edge_lb i j best \/ covers (push best r1 r2 d q) i j.
Proof.
  intros best r1 r2 d q i j V W1 W2. unfold push. destruct (Qleb_spec d best).
  - right. exists (mkitem r1 r2 d). split; [left; reflexivity|]. split; assumption.
  - left. destruct V as (_ & _ & L). apply edge_lb_le with d; [lra|]. apply (L i j W1 W2).
Qed.
Lemma push_total : forall best r1 r2 d q, (total (push best r1 r2 d q) <= weight (mkitem r1 r2 d) + total q)%nat.
Proof. intros; unfold push. destruct (Qleb_spec d best); unfold total; simpl; lia. Qed.

Lemma weight_pos : forall x, valid_item x -> (1 <= weight x)%nat.
Proof.
  intros [[l1 h1] [l2 h2] d] ([V1 _] & [V2 _] & _). unfold weight; simpl in *.
  assert (1 <= (h1 - l1) * (h2 - l2))%nat by nia. lia.
Qed.
Lemma weight_split : forall l1 m1 h1 l2 m2 h2 d d1 d2 d3 d4, (l1 < m1)%nat -> (m1 < h1)%nat -> (l2 < m2)%nat -> (m2 < h2)%nat ->
  (weight (mkitem (l1, m1) (l2, m2) d1) + weight (mkitem (l1, m1) (m2, h2) d2) +
   weight (mkitem (m1, h1) (l2, m2) d3) + weight (mkitem (m1, h1) (m2, h2) d4) < weight (mkitem (l1, h1) (l2, h2) d))%nat.
Proof.
  intros. unfold weight; simpl fst; simpl snd; simpl it1; simpl it2; cbn [fst snd].
  remember (m1 - l1)%nat as a. remember (h1 - m1)%nat as b. remember (m2 - l2)%nat as c. remember (h2 - m2)%nat as e.
  replace (h1 - l1)%nat with (a + b)%nat by lia. replace (h2 - l2)%nat with (c + e)%nat by lia.
  assert (1 <= a * c /\ 1 <= a * e /\ 1 <= b * c /\ 1 <= b * e)%nat by (repeat split; nia).
  replace (2 * (a + b) * (c + e))%nat with (2 * (a * c) + 2 * (a * e) + 2 * (b * c) + 2 * (b * e))%nat by ring.
  replace (2 * a * c)%nat with (2 * (a * c))%nat by ring. replace (2 * a * e)%nat with (2 * (a * e))%nat by ring.
  replace (2 * b * c)%nat with (2 * (b * c))%nat by ring. replace (2 * b * e)%nat with (2 * (b * e))%nat by ring.
  lia.
Qed.

Lemma search_ok : forall fuel q best out,
  (total q < fuel)%nat ->
  (forall x, In x q -> valid_item x) ->
  attained_dist best -> G best out ->
  (forall i j, (S i < length p1)%nat -> (S j < length p2)%nat -> edge_lb i j best \/ covers q i j) ->
  exists d o, search pop leaf (range_box direct HI LO p1) (range_box direct HI LO p2) fuel q best out = Done (d, o) /\
    attained_dist d /\ G d o /\ forall i j, edge_lb i j d.
Proof.
  assert (Fin : forall best, (forall i j, (S i < length p1)%nat -> (S j < length p2)%nat -> edge_lb i j best) -> forall i j, edge_lb i j best).
  { intros best H i j A1 B1 A2 B2 X Y E1 E2. apply (H i j).
    - apply nth_error_Some. destruct E1 as [_ E1]; rewrite E1; discriminate.
    - apply nth_error_Some. destruct E2 as [_ E2]; rewrite E2; discriminate.
    - exact E1.
    - exact E2. }
  destruct Hpop as [Hnil Hcons].
  induction fuel as [|fuel IH]; intros q best out F V A Gb C; [lia|]. cbn [search].
  destruct q as [|x0 q0].
  - rewrite Hnil. exists best, out. split; [reflexivity|]. split; [exact A|]. split; [exact Gb|].
    apply Fin. intros i j Hi Hj. destruct (C i j Hi Hj) as [H|(x & [] & _)]; exact H.
  - set (q := x0 :: q0) in *. destruct (Hcons q ltac:(discriminate)) as (x & r & -> & P & Min).
    assert (Vx : valid_item x) by (apply V; apply Permutation_in with (x :: r); [symmetry; exact P|left; reflexivity]).
    assert (Vr : forall y, In y r -> valid_item y) by (intros y Hy; apply V; apply Permutation_in with (x :: r); [symmetry; exact P|right; exact Hy]).
    rewrite (total_perm _ _ P) in F. pose proof (weight_pos x Vx) as Wx.
    assert (TT : total (x :: r) = (weight x + total r)%nat) by reflexivity. rewrite TT in F. clear TT.
    assert (C' : forall i j, (S i < length p1)%nat -> (S j < length p2)%nat ->
      edge_lb i j best \/ covers r i j \/ (within i (it1 x) /\ within j (it2 x))).
    { intros i j Hi Hj. destruct (C i j Hi Hj) as [H|(y & Hy & W1 & W2)]; [left; exact H|].
      apply (Permutation_in _ P) in Hy. destruct Hy as [<-|Hy]; [right; right; split; assumption|].
      right; left; exists y; split; [exact Hy|split; assumption]. }
    clear C V P. destruct x as [r1 r2 d2]. destruct Vx as (V1 & V2 & LB). cbn [it1 it2 it_d2] in *.
    destruct (Qgeb_spec d2 best) as [D|D].
    + exists best, out. split; [reflexivity|]. split; [exact A|]. split; [exact Gb|]. apply Fin.
      intros i j Hi Hj. destruct (C' i j Hi Hj) as [H|[(y & Hy & W1 & W2)|[W1 W2]]]; [exact H| |].
      * destruct (Vr y Hy) as (_ & _ & L). apply edge_lb_le with (it_d2 y); [specialize (Min y Hy); lra|]. apply L; assumption.
      * apply edge_lb_le with d2; [lra|]. apply LB; assumption.
    + destruct (Nat.ltb (snd r1 - fst r1) 5 || Nat.ltb (snd r2 - fst r2) 5) eqn:Sm.
      * destruct (Hleaf r1 r2 V1 V2) as (d & o & -> & Ad & Gd & Ld).
        destruct (Qltb_spec d best) as [Dl|Dl].
        -- apply IH; [lia|exact Vr|exact Ad|exact Gd|]. intros i j Hi Hj.
           destruct (C' i j Hi Hj) as [H|[H|[W1 W2]]]; [left; apply edge_lb_le with best; [lra|exact H]|right; exact H|].
           left; apply Ld; assumption.
        -- apply IH; [lia|exact Vr|exact A|exact Gb|]. intros i j Hi Hj.
           destruct (C' i j Hi Hj) as [H|[H|[W1 W2]]]; [left; exact H|right; exact H|].
           left; apply edge_lb_le with d; [lra|]. apply Ld; assumption.
      * apply orb_false_iff in Sm as [S1 S2]. apply Nat.ltb_ge in S1, S2.
        destruct r1 as [l1 h1], r2 as [l2 h2]. destruct V1 as [V1 V1'], V2 as [V2 V2']. unfold split_range; cbn [fst snd] in *.
        set (m1 := ((h1 + l1) / 2)%nat). set (m2 := ((h2 + l2) / 2)%nat).
        assert (M1 : (l1 < m1 /\ m1 < h1)%nat).
        { unfold m1. pose proof (Nat.div_mod (h1 + l1) 2 ltac:(lia)). pose proof (Nat.mod_upper_bound (h1 + l1) 2 ltac:(lia)). lia. }
        assert (M2 : (l2 < m2 /\ m2 < h2)%nat).
        { unfold m2. pose proof (Nat.div_mod (h2 + l2) 2 ltac:(lia)). pose proof (Nat.mod_upper_bound (h2 + l2) 2 ltac:(lia)). lia. }
        clearbody m1 m2.
        destruct (range_box_ok HI LO p1 l1 m1 R1) as (b1A & -> & O1A & I1A); [lia|lia|].
        destruct (range_box_ok HI LO p1 m1 h1 R1) as (b1B & -> & O1B & I1B); [lia|lia|].
        destruct (range_box_ok HI LO p2 l2 m2 R2) as (b2A & -> & O2A & I2A); [lia|lia|].
        destruct (range_box_ok HI LO p2 m2 h2 R2) as (b2B & -> & O2B & I2B); [lia|lia|].
        set (dAA := aabb_aabb_distance_sqrd b1A b2A). set (dAB := aabb_aabb_distance_sqrd b1A b2B).
        set (dBA := aabb_aabb_distance_sqrd b1B b2A). set (dBB := aabb_aabb_distance_sqrd b1B b2B).
        assert (VAA : valid_item (mkitem (l1, m1) (l2, m2) dAA))
          by (split; [split; simpl; lia|split; [split; simpl; lia|apply box_pair_lb; assumption]]).
        assert (VAB : valid_item (mkitem (l1, m1) (m2, h2) dAB))
          by (split; [split; simpl; lia|split; [split; simpl; lia|apply box_pair_lb; assumption]]).
        assert (VBA : valid_item (mkitem (m1, h1) (l2, m2) dBA))
          by (split; [split; simpl; lia|split; [split; simpl; lia|apply box_pair_lb; assumption]]).
        assert (VBB : valid_item (mkitem (m1, h1) (m2, h2) dBB))
          by (split; [split; simpl; lia|split; [split; simpl; lia|apply box_pair_lb; assumption]]).
        apply IH; [|repeat (apply push_valid; [|assumption]); exact Vr|exact A|exact Gb|].
        -- pose proof (weight_split l1 m1 h1 l2 m2 h2 d2 dAA dAB dBA dBB ltac:(lia) ltac:(lia) ltac:(lia) ltac:(lia)) as WS.
           set (q1 := push best (l1, m1) (l2, m2) dAA r). set (q2 := push best (l1, m1) (m2, h2) dAB q1).
           set (q3 := push best (m1, h1) (l2, m2) dBA q2).
           pose proof (push_total best (l1, m1) (l2, m2) dAA r) as T1. fold q1 in T1.
           pose proof (push_total best (l1, m1) (m2, h2) dAB q1) as T2. fold q2 in T2.
           pose proof (push_total best (m1, h1) (l2, m2) dBA q2) as T3. fold q3 in T3.
           pose proof (push_total best (m1, h1) (m2, h2) dBB q3) as T4.
           cbn [it1 it2] in *. lia.
        -- intros i j Hi Hj. destruct (C' i j Hi Hj) as [H|[H|[W1 W2]]].
           ++ left; exact H.
           ++ right. repeat apply push_covers. exact H.
           ++ unfold within in W1, W2; cbn [fst snd] in W1, W2.
              destruct (Nat.lt_ge_cases i m1) as [I|I]; destruct (Nat.lt_ge_cases j m2) as [J|J].
              ** destruct (push_new best (l1, m1) (l2, m2) dAA r i j VAA) as [H|H]; [split; simpl; lia|split; simpl; lia|left; exact H|right].
                 do 3 apply push_covers. exact H.
              ** destruct (push_new best (l1, m1) (m2, h2) dAB (push best (l1, m1) (l2, m2) dAA r) i j VAB) as [H|H]; [split; simpl; lia|split; simpl; lia|left; exact H|right].
                 do 2 apply push_covers. exact H.
              ** destruct (push_new best (m1, h1) (l2, m2) dBA (push best (l1, m1) (m2, h2) dAB (push best (l1, m1) (l2, m2) dAA r)) i j VBA) as [H|H]; [split; simpl; lia|split; simpl; lia|left; exact H|right].
                 apply push_covers. exact H.
              ** destruct (push_new best (m1, h1) (m2, h2) dBB (push best (m1, h1) (l2, m2) dBA (push best (l1, m1) (m2, h2) dAB (push best (l1, m1) (l2, m2) dAA r))) i j VBB) as [H|H]; [split; simpl; lia|split; simpl; lia|left; exact H|right].
                 exact H.
Qed.

Lemma search_all_ok : forall fuel a1 b1 l1 a2 b2 l2, p1 = a1 :: b1 :: l1 -> p2 = a2 :: b2 :: l2 ->
  (2 * length p1 * length p2 <= fuel)%nat -> G (dist2 a1 a2) None ->
  exists d o, search_all pop direct HI LO fuel leaf p1 p2 = Done (d, o) /\
    least_dist2_sets (on_polyline p1) (on_polyline p2) d /\ G d o.
Proof.
  intros fuel a1 b1 l1 a2 b2 l2 E1 E2 F G0. unfold search_all.
  destruct (whole_box_ok HI LO p1 R1) as (x1 & -> & O1 & I1); [rewrite E1; discriminate|].
  destruct (whole_box_ok HI LO p2 R2) as (x2 & -> & O2 & I2); [rewrite E2; discriminate|].
  assert (L1 : (2 <= length p1)%nat) by (rewrite E1; simpl; lia).
  assert (L2 : (2 <= length p2)%nat) by (rewrite E2; simpl; lia).
  assert (N1 : nth_error p1 0 = Some a1) by (rewrite E1; reflexivity).
  assert (N2 : nth_error p2 0 = Some a2) by (rewrite E2; reflexivity).
  rewrite N1, N2.
  edestruct (search_ok fuel [mkitem (0, length p1 - 1)%nat (0, length p2 - 1)%nat (aabb_aabb_distance_sqrd x1 x2)] (dist2 a1 a2) None)
    as (d & o & E & A & Gd & L).
  - unfold total, weight; simpl map; simpl list_sum; cbn [it1 it2 fst snd].
    assert ((length p1 - 1 - 0) * (length p2 - 1 - 0) <= length p1 * length p2)%nat by nia.
    assert (1 <= (length p1 - 1 - 0) * (length p2 - 1 - 0))%nat by nia.
    replace (2 * (length p1 - 1 - 0) * (length p2 - 1 - 0))%nat with (2 * ((length p1 - 1 - 0) * (length p2 - 1 - 0)))%nat by ring.
    replace (2 * length p1 * length p2)%nat with (2 * (length p1 * length p2))%nat in F by ring.
    simpl. lia.
  - intros x [<-|[]]. split; [split; cbn [it1 it2 fst snd]; lia|]. split; [split; cbn [it1 it2 fst snd]; lia|].
    apply box_pair_lb; try assumption.
    + intros k p _ Hk. apply I1. eapply nth_error_In; exact Hk.
    + intros k p _ Hk. apply I2. eapply nth_error_In; exact Hk.
  - exists a1, a2. split; [|split; [|reflexivity]].
    + exists 0%nat, a1, b1. split; [rewrite E1; split; reflexivity|apply on_segment_ends].
    + exists 0%nat, a2, b2. split; [rewrite E2; split; reflexivity|apply on_segment_ends].
  - exact G0.
  - intros i j Hi Hj. right. eexists; split; [left; reflexivity|]. split; split; cbn [it1 it2 fst snd]; lia.
  - exists d, o. split; [exact E|]. split; [|exact Gd]. split; [exact A|].
    intros X Y (i & A1 & B1 & K1 & K2) (j & A2 & B2 & K3 & K4). apply (L i j A1 B1 A2 B2); assumption.
Qed.
End SearchProof.

(** ** Instances *)

Lemma distance_leaf_ok : forall p1 p2 r1 r2, valid_range p1 r1 -> valid_range p2 r2 ->
  exists d o, distance_leaf direct p1 p2 r1 r2 = Some (Some (d, o)) /\ attained_dist p1 p2 d /\ True /\
    forall i j, within i r1 -> within j r2 -> edge_lb p1 p2 i j d.
Proof.
  intros p1 p2 [l1 h1] [l2 h2] [V1 V1'] [V2 V2']. unfold distance_leaf. cbn [fst snd] in *.
  destruct (sub_edges_ok p1 l1 h1 V1 V1') as (es1 & -> & N1 & H1).
  destruct (sub_edges_ok p2 l2 h2 V2 V2') as (es2 & -> & N2 & H2).
  destruct (edges_edges_distance_least es1 es2 _ _ H1 H2 N1 N2) as (d & -> & (X & Y & (i & A & B & [K1 K1'] & K2) & (j & A' & B' & [K3 K3'] & K4) & E) & L).
  exists d, tt. split; [reflexivity|]. split; [|split; [exact I|]].
  - exists X, Y. split; [exists i, A, B; split; assumption|]. split; [exists j, A', B'; split; assumption|exact E].
  - intros i0 j0 W1 W2 A1 B1 A2 B2 X0 Y0 E1 E2 HX HY. unfold within in *; cbn [fst snd] in *.
    apply L; [exists i0, A1, B1|exists j0, A2, B2]; (split; [split; assumption|assumption]).
Qed.

(** The invariant of the closest-point outputs. *)
Definition hit_ok (p1 p2 : list pt) (d : Q) (o : option pair_hit) : Prop :=
  match o with
  | Some h => pair_on (polyline_edge p1) (polyline_edge p2) h /\ d == hit_d2 h /\ d == dist2 (ss_c1 (snd h)) (ss_c2 (snd h))
  | None => exists a b, nth_error p1 0 = Some a /\ nth_error p2 0 = Some b /\ d == dist2 a b
  end.
Lemma closest_leaf_ok : forall p1 p2 r1 r2, valid_range p1 r1 -> valid_range p2 r2 ->
  exists d o, closest_leaf direct p1 p2 r1 r2 = Some (Some (d, o)) /\ attained_dist p1 p2 d /\ hit_ok p1 p2 d (Some o) /\
    forall i j, within i r1 -> within j r2 -> edge_lb p1 p2 i j d.
Proof.
  intros p1 p2 [l1 h1] [l2 h2] [V1 V1'] [V2 V2']. unfold closest_leaf. cbn [fst snd] in *.
  destruct (sub_edges_ok p1 l1 h1 V1 V1') as (es1 & -> & N1 & H1).
  destruct (sub_edges_ok p2 l2 h2 V2 V2') as (es2 & -> & N2 & H2).
  destruct (edges_edges_closest_least es1 es2 _ _ H1 H2 N1 N2) as (h & -> & CI).
  pose proof (closest_inv_least _ _ _ CI) as [(X & Y & (i & A & B & [K1 K1'] & K2) & (j & A' & B' & [K3 K3'] & K4) & E) L].
  exists (hit_d2 h), h. split; [reflexivity|]. split; [|split].
  - exists X, Y. split; [exists i, A, B; split; assumption|]. split; [exists j, A', B'; split; assumption|exact E].
  - destruct CI as (P & D & _). split; [|split; [reflexivity|exact D]].
    destruct h as [[i1 i2] r]. destruct P as (A1 & B1 & A2 & B2 & [_ Q1] & [_ Q2] & Q3). exists A1, B1, A2, B2.
    split; [exact Q1|]. split; [exact Q2|exact Q3].
  - intros i0 j0 W1 W2 A1 B1 A2 B2 X0 Y0 E1 E2 HX HY. unfold within in *; cbn [fst snd] in *.
    apply L; [exists i0, A1, B1|exists j0, A2, B2]; (split; [split; assumption|assumption]).
Qed.

Lemma two_points : forall (l : list pt), (2 <= length l)%nat -> exists a b r, l = a :: b :: r.
Proof. intros [|a [|b r]] H; simpl in H; try lia. exists a, b, r; reflexivity. Qed.
Lemma polyline_edges_nonempty : forall l, (2 <= length l)%nat -> polyline_edges l <> [].
Proof. intros l H. destruct (two_points l H) as (a & b & r & ->). discriminate. Qed.
Lemma polygon_edges_nonempty : forall l, l <> [] -> polygon_edges l <> [].
Proof. intros [|a l] H; [congruence|discriminate]. Qed.

Lemma large_lengths : forall p1 p2, small p1 p2 = false -> (6 <= length p1 /\ 6 <= length p2)%nat.
Proof. intros p1 p2 H. unfold small in H. apply orb_false_iff in H as [H1 H2]. apply Nat.ltb_ge in H1, H2. lia. Qed.

Lemma open_distance_ok : forall pop HI LO fuel p1 p2, heap_pop pop -> in_type_range HI LO p1 -> in_type_range HI LO p2 ->
  (2 <= length p1)%nat -> (2 <= length p2)%nat -> (2 * length p1 * length p2 <= fuel)%nat ->
  exists d o, search_all pop direct HI LO fuel (distance_leaf direct p1 p2) p1 p2 = Done (d, o) /\
    least_dist2_sets (on_polyline p1) (on_polyline p2) d.
Proof.
  intros pop HI LO fuel p1 p2 Hp R1 R2 L1 L2 F.
  destruct (two_points p1 L1) as (a1 & b1 & r1 & E1). destruct (two_points p2 L2) as (a2 & b2 & r2 & E2).
  destruct (search_all_ok unit pop p1 p2 HI LO (distance_leaf direct p1 p2) (fun _ _ => True) Hp R1 R2 (distance_leaf_ok p1 p2)
    fuel a1 b1 r1 a2 b2 r2 E1 E2 F I) as (d & o & H1 & H2 & _).
  exists d, o; split; assumption.
Qed.
Lemma open_closest_ok : forall pop HI LO fuel p1 p2, heap_pop pop -> in_type_range HI LO p1 -> in_type_range HI LO p2 ->
  (2 <= length p1)%nat -> (2 <= length p2)%nat -> (2 * length p1 * length p2 <= fuel)%nat ->
  exists d o, search_all pop direct HI LO fuel (closest_leaf direct p1 p2) p1 p2 = Done (d, o) /\
    least_dist2_sets (on_polyline p1) (on_polyline p2) d /\ hit_ok p1 p2 d o.
Proof.
  intros pop HI LO fuel p1 p2 Hp R1 R2 L1 L2 F.
  destruct (two_points p1 L1) as (a1 & b1 & r1 & E1). destruct (two_points p2 L2) as (a2 & b2 & r2 & E2).
  apply (search_all_ok pair_hit pop p1 p2 HI LO (closest_leaf direct p1 p2) (hit_ok p1 p2) Hp R1 R2 (closest_leaf_ok p1 p2)
    fuel a1 b1 r1 a2 b2 r2 E1 E2 F).
  exists a1, a2. rewrite E1, E2. split; [reflexivity|]. split; reflexivity.
Qed.
Lemma polyline_distance_ok : forall pop HI LO fuel p1 p2, heap_pop pop -> in_type_range HI LO p1 -> in_type_range HI LO p2 ->
  (2 <= length p1)%nat -> (2 <= length p2)%nat -> (2 * length p1 * length p2 <= fuel)%nat ->
  exists d, polyline_polyline_distance_sqrd pop direct HI LO fuel p1 p2 = Done (Some d) /\
    least_dist2_sets (on_polyline p1) (on_polyline p2) d.
Proof.
  intros pop HI LO fuel p1 p2 Hp R1 R2 L1 L2 F. unfold polyline_polyline_distance_sqrd.
  destruct (small p1 p2).
  - destruct (edges_edges_distance_least (polyline_edges p1) (polyline_edges p2) _ _ (polyline_edges_iff p1) (polyline_edges_iff p2)
      (polyline_edges_nonempty p1 L1) (polyline_edges_nonempty p2 L2)) as (d & -> & L). exists d; split; [reflexivity|exact L].
  - destruct (open_distance_ok pop HI LO fuel p1 p2 Hp R1 R2 L1 L2 F) as (d & o & -> & L). exists d; split; [reflexivity|exact L].
Qed.
Lemma polyline_closest_ok : forall pop HI LO fuel p1 p2, heap_pop pop -> in_type_range HI LO p1 -> in_type_range HI LO p2 ->
  (2 <= length p1)%nat -> (2 <= length p2)%nat -> (2 * length p1 * length p2 <= fuel)%nat ->
  exists d o, polyline_polyline_closest_point pop direct HI LO fuel p1 p2 = Done (Some d, o) /\
    least_dist2_sets (on_polyline p1) (on_polyline p2) d /\ hit_ok p1 p2 d o.
Proof.
  intros pop HI LO fuel p1 p2 Hp R1 R2 L1 L2 F. unfold polyline_polyline_closest_point.
  destruct (small p1 p2).
  - destruct (edges_edges_closest_least (polyline_edges p1) (polyline_edges p2) _ _ (polyline_edges_iff p1) (polyline_edges_iff p2)
      (polyline_edges_nonempty p1 L1) (polyline_edges_nonempty p2 L2)) as (h & -> & CI).
    exists (hit_d2 h), (Some h). split; [reflexivity|]. split; [exact (closest_inv_least _ _ _ CI)|].
    destruct CI as (P & D & _). split; [exact P|]. split; [reflexivity|exact D].
  - destruct (open_closest_ok pop HI LO fuel p1 p2 Hp R1 R2 L1 L2 F) as (d & o & -> & L & H). exists d, o. split; [reflexivity|split; assumption].
Qed.
