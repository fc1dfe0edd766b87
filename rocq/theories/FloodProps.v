(** C31: the property theorems about flood fill. *)
From Verif Require Import Base GridModel FloodModel FloodSpec FloodProof.
Local Open Scope Z_scope.

(** C31: from a seed that is not boundary, the traversal ends, answers true, and calls the
    visitor exactly once for every cell of the seed's connected component of equal colour that
    the helper has not visited before, and for no other cell; exactly the cells of the component
    get the new colour.  From a boundary seed it answers false and visits nothing. *)
Theorem C31_visits_component : forall f x y fuel, colours_ok f -> ff_last f + 1 < BOUNDARY ->
  in_grid (ff_width f) (ff_height f) (x, y) -> enough_fuel (ff_width f) (ff_height f) fuel ->
  exists answer calls f', traversal fuel f x y = Some (answer, calls, f') /\
    ff_last f' = ff_last f + 1 /\ ff_width f' = ff_width f /\ ff_height f' = ff_height f /\ colours_ok f' /\
    (ff_color f (x, y) = BOUNDARY -> answer = false /\ calls = [] /\ ff_color f' = ff_color f /\ ff_visited f' = ff_visited f) /\
    (ff_color f (x, y) <> BOUNDARY -> answer = true /\ NoDup calls /\
      (forall c, In c calls <-> component (ff_width f) (ff_height f) (ff_color f) (x, y) c /\ ~ In c (ff_visited f)) /\
      (forall c, In c (ff_visited f') <-> In c (ff_visited f) \/ In c calls) /\
      (forall c, component (ff_width f) (ff_height f) (ff_color f) (x, y) c -> ff_color f' c = ff_last f + 1) /\
      (forall c, ~ component (ff_width f) (ff_height f) (ff_color f) (x, y) c -> ff_color f' c = ff_color f c)).
Proof. exact traversal_ok. Qed.

(** C31: in every life of a new helper (cells marked as boundary and traversals, in any order,
    fewer than 2^32 - 1 traversals) every step ends, no cell is visited twice, and the boundary
    cells are exactly the marked ones. *)
Theorem C31_life : forall es w h fuel, 0 < w < two32 -> 0 < h < two32 -> fills es < BOUNDARY ->
  Forall (event_ok w h) es -> enough_fuel w h fuel ->
  exists calls f', life fuel (ff_new w h) es = Some (calls, f') /\ NoDup calls /\
    (forall c, ff_color f' c = BOUNDARY <-> marked es c).
Proof.
  intros es w h fuel Hw Hh HL HE HF.
  assert (HC : colours_ok (ff_new w h)).
  { unfold colours_ok. cbn. split; [exact Hw|]. split; [exact Hh|]. split; [lia|]. intros _. left. lia. }
  destruct (life_ok es (ff_new w h) fuel HC HL HE HF) as (calls & f' & L & N & _ & Bd).
  exists calls, f'. split; [exact L|]. split; [exact N|]. intro c. rewrite Bd. cbn. split; [intros [X|X]; [discriminate|exact X]|auto].
Qed.

(** A U-shaped wall in a 4 by 3 grid: the fill goes round it and not through it. *)
Example C31_witness :
  let es := [Mark (1, 0); Mark (1, 1); Fill 0 0; Fill 1 0] in
  Forall (event_ok 4 3) es /\ enough_fuel 4 3 42 /\
  exists f, life 42 (ff_new 4 3) es =
    Some ([(1, 0); (1, 1); (0, 0); (0, 1); (0, 2); (1, 2); (2, 0); (2, 1); (2, 2); (3, 0); (3, 1); (3, 2)], f) /\
    ff_color f (3, 1) = 1 /\ ff_color f (1, 1) = BOUNDARY.
Proof.
  cbv zeta. split; [repeat (constructor; [unfold event_ok, in_grid; cbn; lia|]); constructor|]. split; [reflexivity|]. eexists. split; [vm_compute; reflexivity|]. split; vm_compute; reflexivity.
Qed.

Print Assumptions C31_visits_component.
Print Assumptions C31_life.
