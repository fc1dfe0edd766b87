(** All intersections of a set of segments by a sweep line.  Models
    algorithm/bentley_ottmann_sweep.hpp and algorithm/bentley_ottmann_segment_intersection.hpp (the
    branch for floating point coordinates, lines 142-186, with exact numbers).

    A segment is identified by its place in the vector of segments: the iterators and pointers of
    the C++ code point into that vector and are compared by their places.  [None] is undefined
    behaviour (reading a slope that was never set, division by zero, reading a point that was not
    written).  Simplification: the capacity reserved in line 384 is not modelled (see DESIGN.md);
    the queue of events is a map that keeps its entries. *)
From Verif Require Import Base CmpModel OrientModel DistModel LinIntModel.
From Coq Require Import Arith.

Notation seg := (pt * pt)%type.

(** utility/utilities.hpp:372-428 for points of the plane. *)
Definition lex_less (cmp : policy) (a b : pt) : bool := lexicographical cmp [px a; py a] [px b; py b].
(** tensor/numeric_sequence_compare.hpp:22-88 for points of the plane. *)
Definition same_pt (cmp : policy) (a b : pt) : bool := numeric_sequence_equals cmp [px a; py a] [px b; py b].

(** bentley_ottmann_segment_intersection.hpp:150-161: the ordinate of a segment at the event and its
    slope; the slope of a vertical segment is not set. *)
Definition ordinate (vertical : bool) (s : seg) (event : pt) : option (Q * option Q) :=
  if vertical then Some (py event, None)
  else match get_slope (fst s) (snd s), y_of_x (fst s) (snd s) (px event) with
       | Some m, Some y => Some (y, Some m)
       | _, _ => None
       end.

(** Lines 147-185. *)
Definition segment_compare (cmp : policy) (event : pt) (v1 v2 : bool) (i1 : nat) (s1 : seg) (i2 : nat) (s2 : seg) : option bool :=
  match ordinate v1 s1 event, ordinate v2 s2 event with
  | Some (y1, m1), Some (y2, m2) =>
      if less_than cmp y1 y2 then Some true
      else if greater_than cmp y1 y2 then Some false
      else if equals cmp y1 y2 then
        match m1, m2 with
        | Some m1, Some m2 =>
            if less_than cmp m1 m2 then Some true
            else if greater_than cmp m1 m2 then Some false
            else Some (i1 <? i2)%nat
        | _, _ => None
        end
      else Some (i1 <? i2)%nat
  | _, _ => None
  end.

(** Lines 45-75, the order of the sweep line at the current event. *)
Definition ordinate_compare (cmp : policy) (event : pt) (i1 : nat) (s1 : seg) (i2 : nat) (s2 : seg) : option bool :=
  if (i1 =? i2)%nat then Some false
  else if same_pt cmp (fst s1) (fst s2) && same_pt cmp (snd s1) (snd s2) then Some false
  else
    let v1 := is_vertical cmp (fst s1) (snd s1) in
    let v2 := is_vertical cmp (fst s2) (snd s2) in
    if v1 && v2 then Some (i1 <? i2)%nat
    else if v1 && is_between cmp (fst s2) (snd s2) event true then Some false
    else if v2 && is_between cmp (fst s1) (snd s1) event true then Some true
    else segment_compare cmp event v1 v2 i1 s1 i2 s2.

Fixpoint all_some {A} (l : list (option A)) : option (list A) :=
  match l with
  | [] => Some []
  | None :: _ => None
  | Some a :: l' => match all_some l' with Some r => Some (a :: r) | None => None end
  end.

(** The segments of the vector; the places used are always in range. *)
Definition seg_at (segs : list seg) (i : nat) : seg := nth i segs (mkpt 0 0, mkpt 0 0).

(** bentley_ottmann_sweep.hpp:19-83.  The std::multiset of the sweep line is the list of its elements in order.
    Where a new element goes depends on the shape of the search tree as well, because the order
    is not the one the tree was built with.  The search ends at some place after an element
    that the new one is not less than, and before an element that it is less than.  The choice
    among such places is a parameter, [tree t i answers], for the [i]th segment at step [t]; [answers]
    are the results of comparing the new element with the elements of the line. *)
Definition place : Type := nat -> nat -> list bool -> nat.

Definition line_insert (cmp : policy) (tree : place) (t : nat) (segs : list seg) (event : pt) (i : nat) (line : list nat) : option (list nat) :=
  match all_some (map (fun e => ordinate_compare cmp event i (seg_at segs i) e (seg_at segs e)) line) with
  | Some answers => let k := tree t i answers in Some (firstn k line ++ i :: skipn k line)
  | None => None
  end.

(** bentley_ottmann_sweep.hpp:44-61, [remove]. *)
Fixpoint line_remove (i : nat) (line : list nat) : list nat :=
  match line with
  | [] => []
  | e :: line' => if (e =? i)%nat then line' else e :: line_remove i line'
  end.

(** A std::set of pointers, in order. *)
Fixpoint ids_insert (i : nat) (l : list nat) : list nat :=
  match l with
  | [] => [i]
  | j :: l' => if (j <? i)%nat then j :: ids_insert i l' else if (i <? j)%nat then i :: l else l
  end.
Definition ids_union (a b : list nat) : list nat := fold_right ids_insert b a.
Definition ids_mem (i : nat) (l : list nat) : bool := existsb (Nat.eqb i) l.

(** The queue of events: a map from points to sets of segments, in lexicographical order. *)
Notation queue := (list (pt * list nat)).

(** [eventQueue[p]], followed by an action on the entry. *)
Fixpoint touch (cmp : policy) (p : pt) (f : list nat -> list nat) (q : queue) : queue :=
  match q with
  | [] => [(p, f [])]
  | (k, u) :: q' => if lex_less cmp k p then (k, u) :: touch cmp p f q'
                    else if lex_less cmp p k then (p, f []) :: q else (k, f u) :: q'
  end.

(** bentley_ottmann_segment_intersection.hpp:206-227, with the current event. *)
Definition process_new_events (cmp : policy) (segs : list seg) (event : pt) (i1 i2 : nat) (q : queue) : option queue :=
  if (i1 =? i2)%nat then Some q
  else
    let s1 := seg_at segs i1 in
    let s2 := seg_at segs i2 in
    match segment_segment_intersection cmp (fst s1) (snd s1) (fst s2) (snd s2) with
    | None => None
    | Some (e_non_crossing, _) => Some q
    | Some (_, []) => None
    | Some (_, X :: _) =>
        if greater_than cmp (px X) (px event) || (equals cmp (px X) (px event) && greater_than cmp (py X) (py event))
        then Some (touch cmp X (fun u => u) q) else Some q
    end.

(** Lines 249-264: the segments of the sweep line ending at the event, and those going through it. *)
Definition lower_set (cmp : policy) (segs : list seg) (event : pt) (line : list nat) : list nat :=
  fold_left (fun l i => if same_pt cmp event (snd (seg_at segs i)) then ids_insert i l else l) line [].
Definition crossing_set (cmp : policy) (segs : list seg) (event : pt) (line : list nat) : list nat :=
  fold_left (fun c i =>
    let s := seg_at segs i in
    if same_pt cmp event (snd s) then c
    else if is_between cmp (fst s) (snd s) event true && negb (same_pt cmp event (fst s)) then ids_insert i c else c) line [].

(** Lines 280-281 and 284-285, one by one. *)
Definition remove_all (ids line : list nat) : list nat := fold_left (fun l i => line_remove i l) ids line.
Fixpoint insert_all (cmp : policy) (tree : place) (t : nat) (segs : list seg) (event : pt) (ids line : list nat) : option (list nat) :=
  match ids with
  | [] => Some line
  | i :: ids' => match line_insert cmp tree t segs event i line with
                 | Some line' => insert_all cmp tree t segs event ids' line'
                 | None => None
                 end
  end.

(** Lines 304-313 on the line, and 315-324 on the reversed line: the first element that is in [uc] and is not
    the first of all, with the element before it. *)
Fixpoint first_pair (uc line : list nat) : option (nat * nat) :=
  match line with
  | a :: ((b :: _) as rest) => if ids_mem b uc then Some (a, b) else first_pair uc rest
  | _ => None
  end.

(** Lines 348-359: the place of the segment from the event to its right by one. *)
Definition lower_bound_for_event (cmp : policy) (tree : place) (t : nat) (segs : list seg) (event : pt) (line : list nat) : option nat :=
  let probe := (event, mkpt (px event + 1) (py event)) in
  match all_some (map (fun e => ordinate_compare cmp event e (seg_at segs e) (length segs) probe) line) with
  | Some answers => Some (tree t (length segs) (map negb answers))
  | None => None
  end.

(** Lines 289-325. *)
Definition new_events (cmp : policy) (tree : place) (t : nat) (segs : list seg) (event : pt) (uc line : list nat) (q : queue) : option queue :=
  if (length line <? 2)%nat then Some q
  else match uc with
  | [] =>
      match lower_bound_for_event cmp tree t segs event line with
      | None => None
      | Some k =>
          match k with
          | O => Some q
          | S k' => match nth_error line k', nth_error line k with
                    | Some s1, Some s2 => process_new_events cmp segs event s1 s2 q
                    | _, _ => Some q
                    end
          end
      end
  | _ =>
      match (match first_pair uc line with
             | Some (s1, s2) => process_new_events cmp segs event s1 s2 q
             | None => Some q
             end) with
      | None => None
      | Some q' => match first_pair uc (rev line) with
                   | Some (s2, s1) => process_new_events cmp segs event s1 s2 q'
                   | None => Some q'
                   end
      end
  end.

(** What the visitor is told: the point and the segments through it, in the order of the vector. *)
Notation report := (pt * list nat)%type.

(** Lines 242-326, for the event [(p, u)] at the front of the queue. *)
Definition handle_event (cmp : policy) (tree : place) (t : nat) (segs : list seg) (p : pt) (u : list nat) (q : queue) (line : list nat)
  : option (list report * queue * list nat) :=
  let l := lower_set cmp segs p line in
  let c := crossing_set cmp segs p line in
  let uc := ids_union u c in
  let luc := ids_union uc l in
  let told := if (1 <? length luc)%nat then [(p, luc)] else [] in
  let lc := ids_union l c in
  match insert_all cmp tree t segs p uc (remove_all lc line) with
  | None => None
  | Some line' =>
      match new_events cmp tree t segs p uc line' q with
      | None => None
      | Some q' => Some (told, q', line')
      end
  end.

(** bentley_ottmann_sweep.hpp:88-97.  The outer [None]: more than [t] events. *)
Fixpoint sweep_loop (cmp : policy) (tree : place) (t : nat) (segs : list seg) (q : queue) (line : list nat) : option (option (list report)) :=
  match q with
  | [] => Some (Some [])
  | (p, u) :: _ =>
      match t with
      | O => None
      | S t' =>
          match handle_event cmp tree t segs p u q line with
          | None => Some None
          | Some (told, q', line') =>
              match sweep_loop cmp tree t' segs (tl q') line' with
              | Some (Some r) => Some (Some (told ++ r))
              | other => other
              end
          end
      end
  end.

(** bentley_ottmann_segment_intersection.hpp:390-391. *)
Definition from_left (cmp : policy) (s : seg) : seg := if lex_less cmp (fst s) (snd s) then s else (snd s, fst s).
(** Lines 385-396. *)
Fixpoint first_events (cmp : policy) (i : nat) (segs : list seg) (q : queue) : queue :=
  match segs with
  | [] => q
  | s :: segs' => first_events cmp (S i) segs' (touch cmp (snd s) (fun u => u) (touch cmp (fst s) (ids_insert i) q))
  end.

(** Lines 366-408: what the visitor is told, call by call.  The outer [None]: the sweep takes more than [t] events. *)
Definition sweep (cmp : policy) (tree : place) (t : nat) (segments : list seg) : option (option (list report)) :=
  let segs := map (from_left cmp) segments in
  sweep_loop cmp tree t segs (first_events cmp 0 segs []) [].
