(** Model of fast_voxel_grid_traversal.hpp: the cells a segment passes through. *)
From Verif Require Import Base CmpModel BoxModel ClipModel GridModel.

(** fast_voxel_grid_traversal.hpp:69-83 (column [i], with [mk j = (i, j)]) and 86-97 (row [j]). *)
Fixpoint strip (mk : Z -> key) (e : Z) (fuel : nat) (k : Z) : trav key :=
  match fuel with
  | O => TravNoFuel
  | S fuel' =>
    if Z.eqb k e then Visited []
    else let k := (if (k <? e)%Z then k + 1 else k - 1)%Z in visit (mk k) (strip mk e fuel' k)
  end.

(** fast_voxel_grid_traversal.hpp:161, the test that ends the walk. *)
Definition beyond (stepI stepJ i_end j_end i j : Z) : bool :=
  ((0 <? stepI) && (i_end <? i) || (stepI <? 0) && (i <? i_end) || (0 <? stepJ) && (j_end <? j) || (stepJ <? 0) && (j <? j_end))%Z.

(** fast_voxel_grid_traversal.hpp:142-166.  The indices are [uint32_t]. *)
Fixpoint voxel_loop (outI outJ stepI stepJ i_end j_end : Z) (tdx tdy : Q) (fuel : nat) (i j : Z) (tx ty : Q) : trav key :=
  match fuel with
  | O => TravNoFuel
  | S fuel' =>
    if Qltb tx ty then
      let i := ((i + stepI) mod two32)%Z in
      if (i =? outI mod two32)%Z then Visited []
      else
        let tx := tx + tdx in
        if beyond stepI stepJ i_end j_end i j then Visited []
        else visit (i, j) (voxel_loop outI outJ stepI stepJ i_end j_end tdx tdy fuel' i j tx ty)
    else
      let j := ((j + stepJ) mod two32)%Z in
      if (j =? outJ mod two32)%Z then Visited []
      else
        let ty := ty + tdy in
        if beyond stepI stepJ i_end j_end i j then Visited []
        else visit (i, j) (voxel_loop outI outJ stepI stepJ i_end j_end tdx tdy fuel' i j tx ty)
  end.

(** fast_voxel_grid_traversal.hpp:102-137: step, exit index and border of one axis ([k]: the
    index, [n]: the number of cells, [lo]: the grid's minimum). *)
Definition axis_setup (cmp : policy) (lo w d : Q) (n k : Z) : Z * Z * Q :=
  if greater_than cmp d 0 then (1%Z, n, lo + inject_Z (uint_succ k) * w) else ((-1)%Z, (-1)%Z, lo + inject_Z k * w).

(** fast_voxel_grid_traversal.hpp:56-166, from the (possibly clipped) ends [p], [q]; the
    direction and the crossing times are those of the segment [s], [t] as given.  [Overflow] also
    stands for a conversion out of range and for a division by zero. *)
Definition voxel_walk (cmp : policy) (fuel : nat) (g : grid) (s t p q : pt) : trav key :=
  match to_uint32 (get_scaled_grid_coordinate_x g (px p)), to_uint32 (get_scaled_grid_coordinate_y g (py p)),
        to_uint32 (get_scaled_grid_coordinate_x g (px q)), to_uint32 (get_scaled_grid_coordinate_y g (py q)) with
  | Some i, Some j, Some i_end, Some j_end =>
    visit (i, j)
      (if (i =? i_end)%Z then
         if (j =? j_end)%Z then Visited [] else strip (fun j => (i, j)) j_end fuel j
       else if (j =? j_end)%Z then strip (fun i => (i, j)) i_end fuel i
       else
         let dx := px t - px s in
         let dy := py t - py s in
         match axis_setup cmp (g_xmin g) (g_width g) dx (g_nx g) i, axis_setup cmp (g_ymin g) (g_width g) dy (g_ny g) j with
         | (stepI, outI, borderX), (stepJ, outJ, borderY) =>
           if Qeqb dx 0 || Qeqb dy 0 then Overflow
           else
             let rxr := 1 / dx in
             let ryr := 1 / dy in
             voxel_loop outI outJ stepI stepJ i_end j_end
               (g_width g * inject_Z stepI * rxr) (g_width g * inject_Z stepJ * ryr)
               fuel i j ((borderX - px s) * rxr) ((borderY - py s) * ryr)
         end)
  | _, _, _, _ => Overflow
  end.

(** fast_voxel_grid_traversal.hpp:25-55. *)
Definition fast_voxel_grid_traversal (cmp : policy) (fuel : nat) (g : grid) (s t : pt) : trav key :=
  if Qltb (px s) (g_xmin g) || Qgtb (px s) (g_xmax g) || Qltb (py s) (g_ymin g) || Qgtb (py s) (g_ymax g) ||
     Qltb (px t) (g_xmin g) || Qgtb (px t) (g_xmax g) || Qltb (py t) (g_ymin g) || Qgtb (py t) (g_ymax g)
  then
    match cohen_sutherland_line_clip cmp fuel s t (mkbox2 (mkpt (g_xmin g) (g_ymin g)) (mkpt (g_xmax g) (g_ymax g))) with
    | Clipped p q => voxel_walk cmp fuel g s t p q
    | Rejected => Visited []
    | ClipUndefined => Overflow
    | ClipNoFuel => TravNoFuel
    end
  else voxel_walk cmp fuel g s t s t.

(** ** The stoppable traversal.  The visitor's answer may depend on all calls so far ([calls],
    latest first, including the present one). *)
Section Stoppable.
Variable keep : list key -> bool.
(** fast_voxel_grid_traversal.hpp:215-231 and 234-246. *)
Fixpoint stop_strip (mk : Z -> key) (e : Z) (fuel : nat) (calls : list key) (k : Z) : trav key :=
  match fuel with
  | O => TravNoFuel
  | S fuel' =>
    if Z.eqb k e then Visited (rev calls)
    else
      let k := (if (k <? e)%Z then k + 1 else k - 1)%Z in
      let calls := mk k :: calls in
      if keep calls then stop_strip mk e fuel' calls k else Visited (rev calls)
  end.
(** fast_voxel_grid_traversal.hpp:290-315. *)
Fixpoint stop_loop (outI outJ stepI stepJ i_end j_end : Z) (tdx tdy : Q) (fuel : nat) (calls : list key) (i j : Z) (tx ty : Q) : trav key :=
  match fuel with
  | O => TravNoFuel
  | S fuel' =>
    if Qltb tx ty then
      let i := ((i + stepI) mod two32)%Z in
      if (i =? outI mod two32)%Z then Visited (rev calls)
      else
        let tx := tx + tdx in
        if beyond stepI stepJ i_end j_end i j then Visited (rev calls)
        else let calls := (i, j) :: calls in
             if keep calls then stop_loop outI outJ stepI stepJ i_end j_end tdx tdy fuel' calls i j tx ty else Visited (rev calls)
    else
      let j := ((j + stepJ) mod two32)%Z in
      if (j =? outJ mod two32)%Z then Visited (rev calls)
      else
        let ty := ty + tdy in
        if beyond stepI stepJ i_end j_end i j then Visited (rev calls)
        else let calls := (i, j) :: calls in
             if keep calls then stop_loop outI outJ stepI stepJ i_end j_end tdx tdy fuel' calls i j tx ty else Visited (rev calls)
  end.
(** fast_voxel_grid_traversal.hpp:202-315. *)
Definition stop_walk (cmp : policy) (fuel : nat) (g : grid) (s t p q : pt) : trav key :=
  match to_uint32 (get_scaled_grid_coordinate_x g (px p)), to_uint32 (get_scaled_grid_coordinate_y g (py p)),
        to_uint32 (get_scaled_grid_coordinate_x g (px q)), to_uint32 (get_scaled_grid_coordinate_y g (py q)) with
  | Some i, Some j, Some i_end, Some j_end =>
    let calls := [(i, j)] in
    if keep calls then
      if (i =? i_end)%Z then
         if (j =? j_end)%Z then Visited (rev calls) else stop_strip (fun j => (i, j)) j_end fuel calls j
       else if (j =? j_end)%Z then stop_strip (fun i => (i, j)) i_end fuel calls i
       else
         let dx := px t - px s in
         let dy := py t - py s in
         match axis_setup cmp (g_xmin g) (g_width g) dx (g_nx g) i, axis_setup cmp (g_ymin g) (g_width g) dy (g_ny g) j with
         | (stepI, outI, borderX), (stepJ, outJ, borderY) =>
           if Qeqb dx 0 || Qeqb dy 0 then Overflow
           else
             let rxr := 1 / dx in
             let ryr := 1 / dy in
             stop_loop outI outJ stepI stepJ i_end j_end
               (g_width g * inject_Z stepI * rxr) (g_width g * inject_Z stepJ * ryr)
               fuel calls i j ((borderX - px s) * rxr) ((borderY - py s) * ryr)
         end
    else Visited (rev calls)
  | _, _, _, _ => Overflow
  end.
(** fast_voxel_grid_traversal.hpp:169-201. *)
Definition stoppable_fast_voxel_grid_traversal (cmp : policy) (fuel : nat) (g : grid) (s t : pt) : trav key :=
  if Qltb (px s) (g_xmin g) || Qgtb (px s) (g_xmax g) || Qltb (py s) (g_ymin g) || Qgtb (py s) (g_ymax g) ||
     Qltb (px t) (g_xmin g) || Qgtb (px t) (g_xmax g) || Qltb (py t) (g_ymin g) || Qgtb (py t) (g_ymax g)
  then
    match cohen_sutherland_line_clip cmp fuel s t (mkbox2 (mkpt (g_xmin g) (g_ymin g)) (mkpt (g_xmax g) (g_ymax g))) with
    | Clipped p q => stop_walk cmp fuel g s t p q
    | Rejected => Visited []
    | ClipUndefined => Overflow
    | ClipNoFuel => TravNoFuel
    end
  else stop_walk cmp fuel g s t s t.
End Stoppable.
