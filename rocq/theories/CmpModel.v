(** Number comparison policies and the point orders built on them.
    Models numeric/number_comparison_policy.hpp,
    utility/floating_point_comparison.hpp, utility/utilities.hpp (orders) and
    tensor/numeric_sequence_compare.hpp. *)
From Verif Require Import Base.

(** NumberComparisonPolicyConcept: the five member functions of a policy. *)
Record policy : Type := mkpolicy {
  equals : Q -> Q -> bool;
  less_than : Q -> Q -> bool;
  less_than_or_equal : Q -> Q -> bool;
  greater_than : Q -> Q -> bool;
  greater_than_or_equal : Q -> Q -> bool }.

(** numeric/number_comparison_policy.hpp:449-486, [direct_comparison_policy]. *)
Definition direct : policy :=
  mkpolicy (fun u v => Qeqb u v) (fun u v => Qltb u v) (fun u v => Qleb u v)
           (fun u v => Qgtb u v) (fun u v => Qgeb u v).

(** numeric/number_comparison_policy.hpp:389-434,
    [absolute_tolerance_comparison_policy] with tolerance [tol]. *)
Definition absolute (tol : Q) : policy :=
  mkpolicy (fun u v => Qleb (qabs (u - v)) tol)
           (fun u v => Qltb (u - v) (- tol))
           (fun u v => Qleb (u - v) tol)
           (fun u v => Qgtb (u - v) tol)
           (fun u v => Qgeb (u - v) (- tol)).

(** numeric/number_comparison_policy.hpp:501-551,
    [relative_tolerance_comparison_policy] with tolerance [tol]. *)
Definition rel_bound (tol u v : Q) : Q := tol * (qabs u + qabs v + 1).
Definition relative (tol : Q) : policy :=
  mkpolicy (fun u v => Qleb (qabs (u - v)) (rel_bound tol u v))
           (fun u v => Qltb (u - v) (- rel_bound tol u v))
           (fun u v => Qleb (u - v) (rel_bound tol u v))
           (fun u v => Qgtb (u - v) (rel_bound tol u v))
           (fun u v => Qgeb (u - v) (- rel_bound tol u v)).

(** utility/floating_point_comparison.hpp:38-62, [safe_division]; [nmax] and
    [nmin] are [std::numeric_limits<T>::max()] and [min()].  The divisor is
    never zero in the one caller below. *)
Definition safe_division (nmin nmax lhs rhs : Q) : Q :=
  if Qltb rhs 1 && Qgtb (lhs * 1) (rhs * nmax) then nmax
  else if Qeqb lhs 0 || (Qgtb rhs 1 && Qltb (lhs * 1) (rhs * nmin)) then 0
  else lhs / rhs.

(** utility/floating_point_comparison.hpp:65-69, [equals_zero]. *)
Definition equals_zero (v tol : Q) : bool := Qleb (qabs v) (qabs tol).

(** utility/floating_point_comparison.hpp:94-119, [equals_within_tolerance] with
    the default strength FPC_STRONG. *)
Definition equals_within_tolerance (nmin nmax lhs rhs tol : Q) : bool :=
  let diff := qabs (lhs - rhs) in
  let d1 := safe_division nmin nmax diff (qabs rhs) in
  let d2 := safe_division nmin nmax diff (qabs lhs) in
  Qleb d1 (qabs tol) && Qleb d2 (qabs tol).

(** numeric/number_comparison_policy.hpp:314-324,
    [fraction_tolerance_comparison_policy::equals]. *)
Definition fraction_equals (nmin nmax ftol atol u v : Q) : bool :=
  if Qeqb u 0 then equals_zero v atol
  else if Qeqb v 0 then equals_zero u atol
  else equals_within_tolerance nmin nmax u v ftol.

(** numeric/number_comparison_policy.hpp:299-375,
    [fraction_tolerance_comparison_policy]; every member repeats the case split
    of [equals], written here once. *)
Definition fraction (nmin nmax ftol atol : Q) : policy :=
  let eq := fraction_equals nmin nmax ftol atol in
  mkpolicy eq
           (fun u v => Qltb u v && negb (eq u v))
           (fun u v => Qleb u v || eq u v)
           (fun u v => Qgtb u v && negb (eq u v))
           (fun u v => Qgeb u v || eq u v).

(** A numeric sequence (point or vector) of any dimension is the list of its
    coordinates; both arguments of a comparison have the same dimension. *)
Notation coords := (list Q).

(** utility/utilities.hpp:372-428, [detail::lexicographical] and
    [lexicographical_comparer].  The C++ recursion is on the remaining
    dimension; sequences of different dimension do not type-check, the model
    answers false for them. *)
Fixpoint lexicographical (cmp : policy) (lhs rhs : coords) : bool :=
  match lhs, rhs with
  | l :: lhs', r :: rhs' =>
      if less_than cmp l r then true
      else if equals cmp l r then lexicographical cmp lhs' rhs'
      else false
  | _, _ => false
  end.

(** utility/utilities.hpp:439-466, [reverse_lexicographical_point_compare],
    two and three dimensions. *)
Definition reverse_lex2 (cmp : policy) (x1 y1 x2 y2 : Q) : bool :=
  less_than cmp y1 y2 || (equals cmp y1 y2 && less_than cmp x1 x2).
Definition reverse_lex3 (cmp : policy) (x1 y1 z1 x2 y2 z2 : Q) : bool :=
  less_than cmp z1 z2
  || (equals cmp z1 z2 && less_than cmp y1 y2)
  || (equals cmp z1 z2 && equals cmp y1 y2 && less_than cmp x1 x2).

(** tensor/numeric_sequence_compare.hpp:22-88, [numeric_sequence_equals]: the
    C++ compares from the last coordinate down to the first; the conjunction is
    the same. *)
Fixpoint numeric_sequence_equals (cmp : policy) (lhs rhs : coords) : bool :=
  match lhs, rhs with
  | [], [] => true
  | l :: lhs', r :: rhs' => numeric_sequence_equals cmp lhs' rhs' && equals cmp l r
  | _, _ => false
  end.

(** utility/utilities.hpp:358-368, variadic [lexicographical_compare] on
    scalars: the argument list alternates left and right values. *)
Fixpoint lexicographical_compare (pairs : list (Q * Q)) : bool :=
  match pairs with
  | [] => false
  | [(t1, t2)] => Qltb t1 t2
  | (t1, t2) :: rest => negb (Qltb t2 t1) && (Qltb t1 t2 || lexicographical_compare rest)
  end.

(** Segments of any dimension as a pair of end points. *)
Notation cseg := (coords * coords)%type.

(** utility/utilities.hpp:469-522, [lexicographical_segment_compare]; note that
    line 484 reads [end1] from [s2]. *)
Definition lexicographical_segment_compare (cmp : policy) (s1 s2 : cseg) : bool :=
  let start1 := fst s1 in
  let end1 := snd s2 in
  let start2 := fst s2 in
  let end2 := snd s2 in
  let '(lower1, upper1) := if lexicographical cmp start1 end1 then (start1, end1) else (end1, start1) in
  let '(lower2, upper2) := if lexicographical cmp start2 end2 then (start2, end2) else (end2, start2) in
  lexicographical cmp lower1 lower2
  || (numeric_sequence_equals cmp lower1 lower2 && lexicographical cmp upper1 upper2).

(** utility/utilities.hpp:525-557, [segment_interval_compare]. *)
Definition segment_interval_compare (cmp : policy) (lhs rhs : cseg) : bool :=
  let lhs_end := if lexicographical cmp (fst lhs) (snd lhs) then snd lhs else fst lhs in
  let rhs_start := if lexicographical cmp (fst rhs) (snd rhs) then fst rhs else snd rhs in
  lexicographical cmp lhs_end rhs_start.

(** algorithm/distance/point_point_distance.hpp:47-135,
    [point_point_distance_sqrd] for any dimension.  The template recursion is on
    [Index = dimension - 1]: [Index] 0..3 are specialised and read coordinates
    0..[Index]; the general case reads coordinate [Index - 1] and recurses.
    Reading a coordinate outside the sequence does not compile; the model
    answers [None]. *)
Definition sqdiff (a b : coords) (i : nat) : option Q :=
  match nth_error a i, nth_error b i with
  | Some x, Some y => Some ((y - x) * (y - x))
  | _, _ => None
  end.
Definition oplus (x y : option Q) : option Q :=
  match x, y with Some u, Some v => Some (u + v) | _, _ => None end.
Fixpoint distance_sqrd_eval (a b : coords) (Index : nat) : option Q :=
  match Index with
  | 0%nat => sqdiff a b 0
  | 1%nat => oplus (sqdiff a b 0) (sqdiff a b 1)
  | 2%nat => oplus (oplus (sqdiff a b 0) (sqdiff a b 1)) (sqdiff a b 2)
  | 3%nat => oplus (oplus (oplus (sqdiff a b 0) (sqdiff a b 1)) (sqdiff a b 2)) (sqdiff a b 3)
  | S i => oplus (sqdiff a b i) (distance_sqrd_eval a b i)
  end.
Definition point_point_distance_sqrd (a b : coords) : option Q :=
  distance_sqrd_eval a b (length a - 1).
