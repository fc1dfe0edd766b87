(** Specification of flood fill. *)
From Verif Require Import Base GridModel FloodModel.
Local Open Scope Z_scope.

Definition in_grid (w h : Z) (c : key) : Prop := 0 <= fst c < w /\ 0 <= snd c < h.
(** Sharing an edge. *)
Definition neighbours (a b : key) : Prop :=
  (fst a = fst b /\ (snd b = snd a + 1 \/ snd a = snd b + 1)) \/
  (snd a = snd b /\ (fst b = fst a + 1 \/ fst a = fst b + 1)).
(** [connected P a b]: a path of edge steps from a to b all of whose cells satisfy P. *)
Inductive connected (P : key -> Prop) (a : key) : key -> Prop :=
| connected_refl : P a -> connected P a a
| connected_step : forall b c, connected P a b -> neighbours b c -> P c -> connected P a c.
(** The cells of the grid with the same colour as the seed, connected to it. *)
Definition component (w h : Z) (color : key -> Z) (seed c : key) : Prop :=
  connected (fun k => in_grid w h k /\ color k = color seed) seed c.

(** A life of the helper: cells marked as boundary, and traversals. *)
Inductive event : Type := Mark (k : key) | Fill (x y : Z).
Fixpoint life (fuel : nat) (f : ffhelper) (es : list event) : option (list key * ffhelper) :=
  match es with
  | [] => Some ([], f)
  | Mark k :: es' =>
    let (calls, f') := mark_cell f k in
    match life fuel f' es' with None => None | Some (r, f'') => Some (calls ++ r, f'') end
  | Fill x y :: es' =>
    match traversal fuel f x y with
    | None => None
    | Some (_, calls, f') => match life fuel f' es' with None => None | Some (r, f'') => Some (calls ++ r, f'') end
    end
  end.
Definition event_ok (w h : Z) (e : event) : Prop :=
  match e with Mark k => in_grid w h k | Fill x y => in_grid w h (x, y) end.
(** What is boundary after a life so far (latest first). *)
Definition marked (es : list event) (k : key) : Prop := In (Mark k) es.
(** Colours in use: at most the last one handed out, or the boundary colour; room for one more. *)
Definition colours_ok (f : ffhelper) : Prop :=
  0 < ff_width f < two32 /\ 0 < ff_height f < two32 /\ 0 <= ff_last f /\
  forall k, 0 <= ff_color f k <= ff_last f \/ ff_color f k = BOUNDARY.
Definition enough_fuel (w h : Z) (fuel : nat) : Prop := 3 * (w * h) + h + 1 < Z.of_nat fuel.
(** The number of traversals in a life. *)
Definition fills (es : list event) : Z := Z.of_nat (length (filter (fun e => match e with Fill _ _ => true | _ => false end) es)).
