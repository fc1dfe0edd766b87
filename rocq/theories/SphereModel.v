(** Circles, balls and moving balls over the real numbers.  Models
    algorithm/intersection/ray_sphere_intersection.hpp, segment_sphere_intersection.hpp,
    circle_circle_intersection.hpp, moving_sphere_sphere_intersection.hpp,
    moving_sphere_plane_intersection.hpp, moving_sphere_segment_intersection.hpp
    and segment_capsule_intersection.hpp. *)
From Verif Require Import RBase.

(** primitive/sphere.hpp:20-58. *)
Record ball : Type := mkball { b_center : rvec; b_radius : R }.

(** What a query can give: no intersection, an intersection, or a computation that
    takes the root of a negative number or divides by zero (not a number). *)
Inductive hit (A : Type) : Type := Miss | Hit (a : A) | NotANumber.
Arguments Miss {A}.
Arguments Hit {A} _.
Arguments NotANumber {A}.

(** ray_sphere_intersection.hpp:24-50: the outputs t and q. *)
Definition ray_sphere_intersection (cmp : rpolicy) (p d : rvec) (s : ball) : hit (R * rvec) :=
  let m := rsub p (b_center s) in
  let b := rdot m d in
  let c := rdot m m - b_radius s * b_radius s in
  if rgt cmp c 0 && rgt cmp b 0 then Miss
  else
    let discr := b * b - c in
    if rlt cmp discr 0 then Miss
    else match rsqrt_opt discr with
         | None => NotANumber
         | Some q =>
           let t := - b - q in
           let t := if rlt cmp t 0 then 0 else t in
           Hit (t, radd p (rscale t d))
         end.

(** segment_sphere_intersection.hpp:51-83: both roots, both points and which of the roots
    lie within the segment; the comparison policy is not used. *)
Record two_hits : Type := mktwo { th_in0 : bool; th_in1 : bool; th_t0 : R; th_t1 : R; th_q0 : rvec; th_q1 : rvec }.
Definition segment_sphere_two (p0 p1 : rvec) (s : ball) : hit two_hits :=
  let d := rsub p1 p0 in
  let f := rsub p0 (b_center s) in
  let a := rdot d d in
  let b := 2 * rdot f d in
  let c := rdot f f - b_radius s * b_radius s in
  let discr := b * b - 4 * a * c in
  if Rltb discr 0 then Miss
  else if Reqb (2 * a) 0 then NotANumber
  else
    let q := sqrt discr in
    let t0 := (- b - q) / (2 * a) in
    let t1 := (- b + q) / (2 * a) in
    Hit (mktwo (Rleb 0 t0 && Rleb t0 1) (Rleb 0 t1 && Rleb t1 1) t0 t1 (radd p0 (rscale t0 d)) (radd p0 (rscale t1 d))).

(** segment_sphere_intersection.hpp:88-127: [d] is sb - sa and [len] its length.  The point q
    is [None] when the code leaves it unassigned (zero length). *)
Definition segment_sphere_first (cmp : rpolicy) (sa d : rvec) (len : R) (s : ball) : hit (R * option rvec) :=
  let m := rsub sa (b_center s) in
  let c := rdot m m - b_radius s * b_radius s in
  if req cmp len 0 then (if rle cmp c 0 then Hit (0, None) else Miss)
  else if Reqb len 0 then NotANumber
  else
    let d := rscale (/ len) d in
    let b := rdot m d in
    if rgt cmp c 0 && rgt cmp b 0 then Miss
    else
      let discr := b * b - c in
      if rlt cmp discr 0 then Miss
      else match rsqrt_opt discr with
           | None => NotANumber
           | Some q =>
             let t := - b - q in
             if rgt cmp t len then Miss
             else
               let t := if rlt cmp t 0 then 0 else t in
               Hit (t / len, Some (radd sa (rscale t d)))
           end.
(** segment_sphere_intersection.hpp:132-149. *)
Definition segment_sphere_intersection (cmp : rpolicy) (sa sb : rvec) (s : ball) : hit (R * option rvec) :=
  let d := rsub sb sa in segment_sphere_first cmp sa d (sqrt (rdot d d)) s.

(** arithmetic/vector/perp.hpp:47-61. *)
Definition rright_normal (v : rvec) : rvec := match v with [x; y] => [y; - x] | _ => [] end.
Definition rleft_normal (v : rvec) : rvec := match v with [x; y] => [- y; x] | _ => [] end.

(** circle_circle_intersection.hpp:16-48. *)
Inductive circle_state : Type :=
| circles_disjoint
| circles_circumscribed
| circles_one (p : rvec)
| circles_two (p q : rvec)
| circles_coincident
| circles_nan.
(** circle_circle_intersection.hpp:53-92. *)
Definition circle_circle_intersection (cmp : rpolicy) (A B : ball) : circle_state :=
  let d := rnorm (rsub (b_center B) (b_center A)) in
  if rgt cmp d (b_radius A + b_radius B) then circles_disjoint
  else if rlt cmp d (Rabs (b_radius A - b_radius B)) then circles_circumscribed
  else if req cmp d 0 then circles_coincident
  else if Reqb d 0 then circles_nan
  else
    let r1 := b_radius A * b_radius A in
    let a := (r1 - b_radius B * b_radius B + d * d) / (2 * d) in
    match rsqrt_opt (r1 - a * a) with
    | None => circles_nan
    | Some h =>
      let v := rsub (b_center B) (b_center A) in
      let dinv := 1 / d in
      let m := radd (b_center A) (rscale (a * dinv) v) in
      let f := h * dinv in
      let s1 := radd m (rscale f (rright_normal v)) in
      if req cmp h 0 then circles_one s1
      else circles_two s1 (radd m (rscale f (rleft_normal v)))
    end.

(** moving_sphere_sphere_intersection.hpp:19-58.  When the balls overlap at the start only t
    is assigned (q is [None]). *)
Definition moving_sphere_sphere_intersection (cmp : rpolicy) (s0 s1 : ball) (v0 v1 : rvec) : hit (R * option rvec) :=
  let s := rsub (b_center s1) (b_center s0) in
  let v := rsub v1 v0 in
  let r := b_radius s1 + b_radius s0 in
  let c := rdot s s - r * r in
  if rlt cmp c 0 then Hit (0, None)
  else
    let a := rdot v v in
    if rlt cmp a 0 then Miss
    else
      let b := rdot v s in
      if rge cmp b 0 then Miss
      else
        let d := b * b - a * c in
        if Rltb d 0 then Miss
        else if Reqb a 0 then NotANumber
        else
          let t := (- b - sqrt d) / a in
          let c0 := radd (b_center s0) (rscale t v0) in
          let c1 := radd (b_center s1) (rscale t v1) in
          Hit (t, Some (radd c0 (rscale (b_radius s0) (rnormalize (rsub c1 c0))))).

(** A plane (or, in two dimensions, a line): unit normal and signed distance from the
    origin, primitive/plane.hpp:36-68, primitive/line.hpp:36-67. *)
Record rplane : Type := mkrplane { pl_normal : rvec; pl_dist : R }.
(** moving_sphere_plane_intersection.hpp:26-60: the three flags. *)
Record plane_flags : Type := mkpf { pf_intersecting : bool; pf_penetrating : bool; pf_away : bool }.
(** moving_sphere_plane_intersection.hpp:66-111: flags and the outputs t and q, if assigned. *)
Definition moving_sphere_plane_intersection (cmp : rpolicy) (s : ball) (vel : rvec) (p : rplane) : plane_flags * option (R * rvec) :=
  let n := pl_normal p in
  let dist := rdot (b_center s) n - pl_dist p in
  let denom := rdot vel n in
  let away := rge cmp (denom * dist) 0 in
  if rlt cmp (Rabs dist) (b_radius s) then
    (mkpf true true away, Some (0, rsub (b_center s) (rscale (dist / rdot n n) n)))
  else if req cmp (Rabs dist) (b_radius s) then
    (mkpf true false away, Some (0, rsub (b_center s) (rscale (dist / rdot n n) n)))
  else if away then (mkpf false false true, None)
  else
    let r := if Rltb 0 dist then b_radius s else - b_radius s in
    let t := (r - dist) / denom in
    (mkpf true true false, Some (t, rsub (radd (b_center s) (rscale t vel)) (rscale r n))).

(** primitive/line.hpp:56-61: the line through a segment (the segment is not a point). *)
Definition line_of_segment (a b : rvec) : rplane :=
  let n := rleft_normal (rnormalize (rsub b a)) in mkrplane n (rdot a n).

(** moving_sphere_segment_intersection.hpp:76-126. *)
Definition moving_sphere_endpoint (cmp : rpolicy) (vel center : rvec) (radius : R) (a : rvec) : hit (R * rvec) :=
  let ca := rsub center a in
  let speed := rnorm vel in
  if req cmp speed 0 then Miss
  else
    let dir := rscale (/ speed) vel in
    let cd := rdot ca dir in
    let dr := rdot ca ca - radius * radius in
    if rge cmp dr 0 && rge cmp cd 0 then Miss
    else
      let discr := cd * cd - dr in
      if Rltb discr 0 then Miss
      else
        let lt := - (cd + sqrt discr) in
        let lt := if rlt cmp lt 0 then 0 else lt in
        let nc := radd center (rscale lt dir) in
        Hit (lt / speed, radd nc (rscale radius (rnormalize (rsub a nc)))).

(** utility/utilities.hpp:134-213 over the reals, with the bounds included. *)
Definition ris_between (cmp : rpolicy) (A B C : rvec) : bool :=
  match A, B, C with
  | [ax; ay], [bx; by_], [cx; cy] =>
    req cmp ((bx - ax) * (cy - ay) - (by_ - ay) * (cx - ax)) 0 &&
    if negb (req cmp ax bx) then
      (rle cmp ax cx && rle cmp cx bx) || (rge cmp ax cx && rge cmp cx bx)
    else
      (rle cmp ay cy && rle cmp cy by_) || (rge cmp ay cy && rge cmp cy by_)
  | _, _, _ => false
  end.

(** moving_sphere_segment_intersection.hpp:35-72: the five flags. *)
Record seg_flags : Type := mksf { sf_intersecting : bool; sf_on_line : bool; sf_endpoint : bool; sf_penetrating : bool; sf_away : bool }.
(** moving_sphere_segment_intersection.hpp:131-169, planar; t and q as last assigned ([None]
    when the endpoint test leaves those of the line test, which describe no contact with
    the segment). *)
Definition moving_sphere_segment_intersection (cmp : rpolicy) (s : ball) (vel a b : rvec) : seg_flags * option (R * rvec) :=
  match moving_sphere_plane_intersection cmp s vel (line_of_segment a b) with
  | (pf, None) => (mksf false false false (pf_penetrating pf) (pf_away pf), None)
  | (pf, Some (t, q)) =>
    let online := req cmp t 0 in
    if ris_between cmp a b q then (mksf true online false (pf_penetrating pf) (pf_away pf), Some (t, q))
    else
      let ds := rdot (rsub q a) (rsub q a) in
      let de := rdot (rsub q b) (rsub q b) in
      match moving_sphere_endpoint cmp vel (b_center s) (b_radius s) (if Rltb de ds then b else a) with
      | Hit (t', q') => (mksf true online true (pf_penetrating pf) (pf_away pf), Some (t', q'))
      | _ => (mksf false online false (pf_penetrating pf) (pf_away pf), None)
      end
  end.

(** segment_capsule_intersection.hpp:22-101; the last argument of the result is the point. *)
Definition segment_capsule_intersection (cmp : rpolicy) (sa sb p q : rvec) (r : R) : hit (R * option rvec) :=
  let d := rsub q p in
  let m := rsub sa p in
  let n := rsub sb sa in
  let md := rdot m d in
  let nd := rdot n d in
  let dd := rdot d d in
  let nn := rdot n n in
  if Rltb md 0 && Rltb (md + nd) 0 then segment_sphere_first cmp sa n (sqrt nn) (mkball p r)
  else if Rltb dd md && Rltb dd (md + nd) then segment_sphere_first cmp sa n (sqrt nn) (mkball q r)
  else
    let mn := rdot m n in
    let a := dd * nn - nd * nd in
    let k := rdot m m - r * r in
    let c := dd * k - md * md in
    if rlt cmp (Rabs a) 0 then
      if Rltb 0 c then Miss
      else if Rltb md 0 then
        match segment_sphere_first cmp sa n (sqrt nn) (mkball p r) with Hit h => Hit h | _ => NotANumber end
      else if Rltb dd md then
        match segment_sphere_first cmp sa n (sqrt nn) (mkball q r) with Hit h => Hit h | _ => NotANumber end
      else Hit (0, Some sa)
    else
      let b := dd * mn - nd * md in
      let discr := b * b - a * c in
      if Rltb discr 0 then Miss
      else if Reqb a 0 then NotANumber
      else
        let t := (- b - sqrt discr) / a in
        if Rltb (md + t * nd) 0 then
          if rgt cmp k 0 && rgt cmp mn 0 then Miss
          else segment_sphere_first cmp sa n (sqrt nn) (mkball p r)
        else if Rltb dd (md + t * nd) then segment_sphere_first cmp sa n (sqrt nn) (mkball q r)
        else if Rleb 0 t && Rleb t 1 then Hit (t, Some (radd sa (rscale t n))) else Miss.
