(** Model of floodfill_grid_traversal.hpp: the colour grid and its flood traversal. *)
From Verif Require Import Base GridModel.
Local Open Scope Z_scope.

(** floodfill_grid_traversal.hpp:40. *)
Definition BOUNDARY : Z := two32 - 1.

(** floodfill_grid_traversal.hpp:279-286.  The colour grid is a [hash_grid_2d]; C29 shows it is
    a map from cells to values, and here it is the function that [get_color] computes from it
    (lines 166-183: the colour of a cell that is not in the map is 0; the non-const overload also
    stores that 0, which no caller can observe).  [ff_visited] is [m_visited], latest first. *)
Record ffhelper : Type := mkff { ff_last : Z; ff_color : key -> Z; ff_height : Z; ff_width : Z; ff_visited : list key }.
(** floodfill_grid_traversal.hpp:42-48. *)
Definition ff_new (w h : Z) : ffhelper := mkff 0 (fun _ => 0) h w [].

Definition set_color (color : key -> Z) (k : key) (v : Z) : key -> Z := fun k' => if key_eqb k k' then v else color k'.

(** floodfill_grid_traversal.hpp:267-277.  [calls] is the list of calls of the user's visitor,
    latest first. *)
Definition visit_cell (k : key) (visited calls : list key) : list key * list key :=
  if existsb (key_eqb k) visited then (visited, calls) else (k :: visited, k :: calls).

(** floodfill_grid_traversal.hpp:82-86: the loop down the column; the result is the value of y1
    after the loop ([None]: out of fuel). *)
Fixpoint down (fuel : nat) (color : key -> Z) (old x y1 : Z) : option Z :=
  match fuel with
  | O => None
  | S fuel' => if (0 <=? y1) && (color (x, y1) =? old) then down fuel' color old x (y1 - 1) else Some y1
  end.

(** floodfill_grid_traversal.hpp:97-104 and 106-113: one side of the column.  [inside] is
    [x > 0], or [x < m_width - 1]; [nx] the neighbouring column. *)
Definition side (inside : bool) (c old nx y1 : Z) (span : bool) (stack : list key) : bool * list key :=
  if negb span && inside && (c =? old) then (true, (nx, y1) :: stack)
  else if span && inside && negb (c =? old) then (false, stack)
  else (span, stack).

Record loop_state : Type := mkls { ls_color : key -> Z; ls_visited : list key; ls_calls : list key; ls_stack : list key }.

(** floodfill_grid_traversal.hpp:89-115: the loop up the column.  x - 1 and x + 1 are
    [uint32_t] arithmetic. *)
Fixpoint up (fuel : nat) (w h old new x y1 : Z) (spanLeft spanRight : bool) (s : loop_state) : option loop_state :=
  match fuel with
  | O => None
  | S fuel' =>
    if (y1 <? h) && (ls_color s (x, y1) =? old) then
      let color := if ls_color s (x, y1) =? BOUNDARY then ls_color s else set_color (ls_color s) (x, y1) new in
      let (visited, calls) := visit_cell (x, y1) (ls_visited s) (ls_calls s) in
      let c_1 := color ((x - 1) mod two32, y1) in
      let (spanLeft, stack) := side (0 <? x) c_1 old (x - 1) y1 spanLeft (ls_stack s) in
      let cp1 := color ((x + 1) mod two32, y1) in
      let (spanRight, stack) := side (x <? w - 1) cp1 old (x + 1) y1 spanRight stack in
      up fuel' w h old new x (y1 + 1) spanLeft spanRight (mkls color visited calls stack)
    else Some s
  end.

(** floodfill_grid_traversal.hpp:74-116: the loop over the stack; [m] bounds the number of passes. *)
Fixpoint drain (m fuel : nat) (w h old new : Z) (s : loop_state) : option loop_state :=
  match m with
  | O => None
  | S m' =>
    match ls_stack s with
    | [] => Some s
    | (x, y) :: stack =>
      match down fuel (ls_color s) old x y with
      | None => None
      | Some y1 =>
        match up fuel w h old new x (y1 + 1) false false (mkls (ls_color s) (ls_visited s) (ls_calls s) stack) with
        | None => None
        | Some s' => drain m' fuel w h old new s'
        end
      end
    end
  end.

(** floodfill_grid_traversal.hpp:59-119: the answer, the calls of the visitor in order, and the
    new state.  Line 64: the scope-exit block advances the last colour on every way out. *)
Definition traversal (fuel : nat) (f : ffhelper) (x y : Z) : option (bool * list key * ffhelper) :=
  let old := ff_color f (x, y) in
  let next := (ff_last f + 1) mod two32 in
  if old =? BOUNDARY then Some (false, [], mkff next (ff_color f) (ff_height f) (ff_width f) (ff_visited f))
  else
    match drain fuel fuel (ff_width f) (ff_height f) old next (mkls (ff_color f) (ff_visited f) [] [(x, y)]) with
    | None => None
    | Some s => Some (true, rev (ls_calls s), mkff next (ls_color s) (ff_height f) (ff_width f) (ls_visited s))
    end.

(** floodfill_grid_traversal.hpp:126-131, one step of [mark_boundary]: what is done with a cell
    that the line walk reports (the update of the column bounds, which [traversal] does not
    read, is left out here). *)
Definition mark_cell (f : ffhelper) (k : key) : list key * ffhelper :=
  let (visited, calls) := visit_cell k (ff_visited f) [] in
  (calls, mkff (ff_last f) (set_color (ff_color f) k BOUNDARY) (ff_height f) (ff_width f) visited).
