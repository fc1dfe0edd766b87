(** C32: the property theorems about clipping. *)
From Verif Require Import Base CmpModel BoxModel BoxSpec ClipModel ClipSpec ClipProof.

(** C32: with exact comparisons the loop ends within five passes and never divides by zero; if
    it accepts, the part of the segment inside the window is exactly the piece from the new
    first end to the new second end; if it rejects, no point of the segment is inside. *)
Theorem C32_clip_exact : forall A B w fuel, window w -> (5 <= fuel)%nat ->
  match cohen_sutherland_line_clip direct fuel A B w with
  | Clipped p q => clipped_to A B w p q
  | Rejected => misses_window A B w
  | _ => False
  end.
Proof. exact clip_exact. Qed.
Theorem C32_accepts_iff_meets : forall A B w fuel, window w -> (5 <= fuel)%nat ->
  (exists p q, cohen_sutherland_line_clip direct fuel A B w = Clipped p q) <-> exists s, 0 <= s <= 1 /\ in2 w (lerp A B s).
Proof. exact clip_accepts. Qed.
Print Assumptions C32_accepts_iff_meets.
Theorem C32_ends_inside : forall A B w fuel p q, window w -> (5 <= fuel)%nat ->
  cohen_sutherland_line_clip direct fuel A B w = Clipped p q -> in2 w p /\ in2 w q.
Proof. exact clip_inside. Qed.
Print Assumptions C32_ends_inside.
Theorem C32_inside_unchanged : forall A B w fuel, window w -> (1 <= fuel)%nat -> in2 w A -> in2 w B ->
  cohen_sutherland_line_clip direct fuel A B w = Clipped A B.
Proof. exact clip_inside_unchanged. Qed.
Print Assumptions C32_inside_unchanged.

Example C32_witness :
  let w := mkbox2 (mkpt 0 0) (mkpt 10 10) in
  window w /\
  (exists p q, cohen_sutherland_line_clip direct 5 (mkpt (-5) (-1)) (mkpt 15 11) w = Clipped p q /\ p =p= mkpt 0 2 /\ q =p= mkpt 10 8) /\
  cohen_sutherland_line_clip direct 5 (mkpt (-5) 8) (mkpt 2 15) w = Rejected.
Proof.
  cbv zeta. split; [split; cbn; lra|]. split.
  - eexists. eexists. split; [vm_compute; reflexivity|]. split; split; reflexivity.
  - vm_compute. reflexivity.
Qed.

(** With a tolerance an end within the tolerance of the window counts as inside, and cutting
    the other end at the border extrapolates beyond it: a segment wholly above the window is
    accepted and its new first end is not on the segment. *)
Theorem C32_tolerance_refuted : exists A B w p q, window w /\ misses_window A B w /\
  cohen_sutherland_line_clip (absolute 1) 5 A B w = Clipped p q /\ forall s, 0 <= s <= 1 -> ~ p =p= lerp A B s.
Proof.
  exists (mkpt 5 12), (mkpt 6 (21 # 2)), (mkbox2 (mkpt 0 0) (mkpt 10 10)).
  eexists. eexists. split; [split; cbn; lra|]. split.
  - intros s Hs [_ [_ I]]. unfold lerp in I; cbn in I. lra.
  - split; [vm_compute; reflexivity|]. intros s Hs [_ E]. unfold lerp in E; cbn in E. lra.
Qed.

Print Assumptions C32_clip_exact.
Print Assumptions C32_tolerance_refuted.
