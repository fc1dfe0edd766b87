(** Sets of collinear segments: utility/utilities.hpp, [collinear_segment_union]
    and [collinear_segment_difference] over a [std::set] ordered by
    [segment_interval_compare]. *)
From Verif Require Import Base CmpModel OrientModel.

(** primitive/segment.hpp: the two end points. *)
Notation iseg := (pt * pt)%type.

(** Coordinates of a planar point, as the comparisons of CmpModel take them. *)
Definition cpt (p : pt) : coords := [px p; py p].

(** utility/utilities.hpp:525-557, [segment_interval_compare] on planar
    segments. *)
Definition interval_less (cmp : policy) (s1 s2 : iseg) : bool :=
  segment_interval_compare cmp (cpt (fst s1), cpt (snd s1)) (cpt (fst s2), cpt (snd s2)).

(** tensor/numeric_sequence_compare.hpp:22-88 on planar points. *)
Definition same_point (cmp : policy) (p q : pt) : bool := numeric_sequence_equals cmp (cpt p) (cpt q).

(** [std::set<Segment, segment_interval_compare>]: the list of its elements in
    iteration order.  [std::set::insert] (standard library, C++11 23.4.6): the
    element is dropped when an equivalent one is present. *)
Fixpoint set_insert (cmp : policy) (x : iseg) (l : list iseg) : list iseg :=
  match l with
  | [] => [x]
  | y :: l' =>
      if interval_less cmp y x then y :: set_insert cmp x l'
      else if interval_less cmp x y then x :: y :: l'
      else y :: l'
  end.

(** The longest prefix whose elements satisfy [p], and the rest. *)
Fixpoint span (p : iseg -> bool) (l : list iseg) : list iseg * list iseg :=
  match l with
  | [] => ([], [])
  | x :: l' => if p x then (x :: fst (span p l'), snd (span p l')) else ([], x :: l')
  end.

(** [std::set::equal_range] (standard library): what precedes the lower bound,
    the elements between lower and upper bound, and what follows. *)
Definition equal_range (cmp : policy) (l : list iseg) (key : iseg) : list iseg * list iseg * list iseg :=
  let '(before, rest) := span (fun x => interval_less cmp x key) l in
  let '(mid, after) := span (fun x => negb (interval_less cmp key x)) rest in
  (before, mid, after).

(** utility/utilities.hpp:688-752, one round of the loop of
    [collinear_segment_union]: the new union and whether the stored segment
    stays; [None] is the failed assertion of line 697. *)
Definition union_step (cmp : policy) (u s : iseg) : option (iseg * bool) :=
  let A := fst s in let B := snd s in
  let C := fst u in let D := snd u in
  if negb (is_collinear cmp C D A && is_collinear cmp C D B) then None
  else
    let CAD := is_between cmp C D A true in
    let CBD := is_between cmp C D B true in
    if CAD && CBD then Some (u, false)
    else
      let ACB := is_between cmp A B C true in
      let ADB := is_between cmp A B D true in
      if ACB && ADB then Some ((A, B), false)
      else if CAD then
        if ADB then Some ((C, B), false)
        else if ACB then Some ((D, B), false)
        else Some (u, true)
      else if CBD then
        if ADB then Some ((A, C), false)
        else if ACB then Some ((A, D), false)
        else Some (u, true)
      else Some (u, true).

(** utility/utilities.hpp:688-752, the loop: the final union and the stored
    segments of the range that stay. *)
Fixpoint union_loop (cmp : policy) (u : iseg) (mid : list iseg) : option (iseg * list iseg) :=
  match mid with
  | [] => Some (u, [])
  | s :: mid' =>
      match union_step cmp u s with
      | None => None
      | Some (u', keep) =>
          match union_loop cmp u' mid' with
          | None => None
          | Some (v, kept) => Some (v, if keep then s :: kept else kept)
          end
      end
  end.

(** utility/utilities.hpp:672-755, [collinear_segment_union]. *)
Definition collinear_segment_union (cmp : policy) (segments : list iseg) (segment : iseg) : option (list iseg) :=
  let '(before, mid, after) := equal_range cmp segments segment in
  match union_loop cmp (fst segment, snd segment) mid with
  | None => None
  | Some (u, kept) => Some (set_insert cmp u (before ++ kept ++ after))
  end.

(** utility/utilities.hpp:577-666, one round of the loop of
    [collinear_segment_difference]: [Some None] leaves the stored segment,
    [Some (Some pieces)] erases it and queues the pieces; [None] is a failed
    assertion (lines 585 and 628). *)
Definition difference_step (cmp : policy) (key s : iseg) : option (option (list iseg)) :=
  let C := fst key in let D := snd key in
  let A := fst s in let B := snd s in
  if negb (is_collinear cmp C D A && is_collinear cmp C D B) then None
  else
    let CAD := is_between cmp C D A true in
    let CBD := is_between cmp C D B true in
    if CAD && CBD then Some (Some [])
    else
      let AEqualC := same_point cmp A C in
      let AEqualD := same_point cmp A D in
      let BEqualC := same_point cmp B C in
      let BEqualD := same_point cmp B D in
      let ACB := is_between cmp A B C true in
      let ADB := is_between cmp A B D true in
      if ACB && ADB then
        let CDB := is_between cmp C B D true in
        if CDB && negb BEqualC then
          Some (Some ((if negb AEqualC then [(A, C)] else []) ++ (if negb BEqualD then [(D, B)] else [])))
        else
          let ADC := is_between cmp A C D true in
          if ADC && negb AEqualC then
            Some (Some ((if negb AEqualD then [(A, D)] else []) ++ (if negb BEqualC then [(C, B)] else [])))
          else None
      else if CAD && negb (AEqualC || AEqualD) then
        if ADB && negb BEqualD then Some (Some [(D, B)])
        else if ACB && negb BEqualC then Some (Some [(C, B)])
        else Some None
      else if CBD && negb (BEqualC || BEqualD) then
        if ADB && negb AEqualD then Some (Some [(A, D)])
        else if ACB && negb AEqualC then Some (Some [(A, C)])
        else Some None
      else Some None.

(** utility/utilities.hpp:577-666, the loop: the segments of the range that stay
    and the pieces to insert. *)
Fixpoint difference_loop (cmp : policy) (key : iseg) (mid : list iseg) : option (list iseg * list iseg) :=
  match mid with
  | [] => Some ([], [])
  | s :: mid' =>
      match difference_step cmp key s, difference_loop cmp key mid' with
      | Some None, Some (kept, pieces) => Some (s :: kept, pieces)
      | Some (Some new), Some (kept, pieces) => Some (kept, new ++ pieces)
      | _, _ => None
      end
  end.

(** utility/utilities.hpp:559-670, [collinear_segment_difference]. *)
Definition collinear_segment_difference (cmp : policy) (segments : list iseg) (segment : iseg) : option (list iseg) :=
  if same_point cmp (fst segment) (snd segment) then Some segments
  else
    let '(before, mid, after) := equal_range cmp segments segment in
    match difference_loop cmp segment mid with
    | None => None
    | Some (kept, pieces) =>
        Some (fold_left (fun l p => set_insert cmp p l) pieces (before ++ kept ++ after))
    end.

(** One call of either function, and a history of calls on an initially empty
    set. *)
Inductive interval_edit : Type := Add (s : iseg) | Remove (s : iseg).
Definition apply_edit (cmp : policy) (segments : list iseg) (e : interval_edit) : option (list iseg) :=
  match e with
  | Add s => collinear_segment_union cmp segments s
  | Remove s => collinear_segment_difference cmp segments s
  end.
Fixpoint run_edits (cmp : policy) (segments : list iseg) (es : list interval_edit) : option (list iseg) :=
  match es with
  | [] => Some segments
  | e :: es' =>
      match apply_edit cmp segments e with
      | None => None
      | Some segments' => run_edits cmp segments' es'
      end
  end.
