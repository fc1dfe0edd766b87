(** Lazily evaluated linear algebra expressions: which operand kinds each operator accepts, the
    dimensions of the result, the value of each component, and assignment of an expression to a
    variable.  Models algebra/expression_generator.hpp, algebra/grammar.hpp, algebra/terminals.hpp, the
    algebra/functions directory, arithmetic/tensor_arithmetic.hpp, arithmetic/vector/magnitude.hpp,
    arithmetic/vector/normalize_at_index.hpp, tensor/detail/numeric_sequence_n.hpp, vector_n.hpp and
    matrix_mxn.hpp.

    The element type is any ordered field (exact arithmetic), with the square root a parameter.  All
    operands are variables, because the nodes of an expression hold references to their operands
    (binary_function.hpp:55-69, unary_function.hpp:22-38); a literal is a variable too.  Templates that do
    not compile are the answer [ill_formed].  Units and mixed element types are left out. *)
Set Warnings "-notation-overridden,-ambiguous-paths".
From mathcomp Require Import ssreflect ssrfun ssrbool ssrnat eqtype seq div ssralg ssrnum.
From Verif Require Import MatrixModel.
Set Implicit Arguments.
Unset Strict Implicit.
Import GRing.Theory Num.Theory.
Local Open Scope ring_scope.

Inductive fault := ill_formed | out_of_range | divides_by_zero | throws | assertion.

Section Expressions.
Variable F : realFieldType.
Variable sqrt : F -> F.

(** A component, or the reason there is none. *)
Inductive ans := Got (a : F) | Bad (f : fault).
Definition lift1 (g : F -> F) (x : ans) : ans := match x with Got a => Got (g a) | Bad f => Bad f end.
Definition lift2 (g : F -> F -> F) (x y : ans) : ans :=
  match x, y with Got a, Got b => Got (g a b) | Got _, Bad f => Bad f | Bad f, _ => Bad f end.
Definition add := lift2 (fun a b => a + b).
Definition sub := lift2 (fun a b => a - b).
Definition mul := lift2 (fun a b => a * b).
Definition quo (x y : ans) : ans :=
  match x, y with
  | Got a, Got b => if b == 0 then Bad divides_by_zero else Got (a / b)
  | Got _, Bad f => Bad f | Bad f, _ => Bad f end.

(** What is stored in a variable: a number, or the components of a vector, point or matrix. *)
Inductive val :=
| VS (a : F) | VV (n : nat) (u : nat -> F) | VP (n : nat) (u : nat -> F) | VM (r c : nat) (A : nat -> nat -> F).
Definition store := nat -> val.

(** The operators of expression_generator.hpp:74-96. *)
Inductive ex :=
| Var (x : nat)
| Plus (a b : ex) | Minus (a b : ex) | Times (a b : ex) | Over (a b : ex)
| Cross (a b : ex) (* ^ *) | Tensor (a b : ex) (* & *)
| Neg (a : ex) | Abs (a : ex) | Rec (a : ex) | Mag (a : ex) | Norm (a : ex)
| Det (a : ex) | Transp (a : ex) | Inv (a : ex).

(** The traits of an operand and its three accessors: get(e), get<I>(e), get<R,C>(e)
    (tensor_access_policy.hpp:51-74; an accessor of the wrong order does not compile). *)
Inductive kind := KS | KV (n : nat) | KP (n : nat) | KM (r c : nat) | KBad.
Record view := mk_view { knd : kind; g0 : ans; g1 : nat -> ans; g2 : nat -> nat -> ans }.
Definition no1 : nat -> ans := fun _ => Bad ill_formed.
Definition no2 : nat -> nat -> ans := fun _ _ => Bad ill_formed.
(** binary_function.hpp:97-114 and unary_function.hpp:41-50: no such operation. *)
Definition bad_view : view := mk_view KBad (Bad ill_formed) no1 no2.
(** expression_generator.hpp:154-252: the access policies of expressions check indices statically. *)
Definition scalar_view (a : ans) : view := mk_view KS a no1 no2.
Definition vector_view (n : nat) (f : nat -> ans) : view :=
  mk_view (KV n) (Bad ill_formed) (fun i => if (i < n)%N then f i else Bad ill_formed) no2.
Definition point_view (n : nat) (f : nat -> ans) : view :=
  mk_view (KP n) (Bad ill_formed) (fun i => if (i < n)%N then f i else Bad ill_formed) no2.
Definition matrix_view (r c : nat) (f : nat -> nat -> ans) : view :=
  mk_view (KM r c) (Bad ill_formed) no1 (fun i j => if (i < r)%N && (j < c)%N then f i j else Bad ill_formed).

(** terminals.hpp:43-136.  Stored vectors and points are read with operator[]
    (index_operator_vector_access_policy.hpp:42-47), unchecked at compile time; stored matrices check
    their indices statically (index_operator_matrix_access_policy.hpp:21-40). *)
Definition term_view (v : val) : view :=
  match v with
  | VS a => scalar_view (Got a)
  | VV n u => mk_view (KV n) (Bad ill_formed) (fun i => if (i < n)%N then Got (u i) else Bad out_of_range) no2
  | VP n u => mk_view (KP n) (Bad ill_formed) (fun i => if (i < n)%N then Got (u i) else Bad out_of_range) no2
  | VM r c A => matrix_view r c (fun i j => Got (A i j))
  end.

(** addition.hpp:17-158.  The dimensions are those of the right operand. *)
Definition plus_view (l r : view) : view :=
  match knd l, knd r with
  | KS, KS => scalar_view (add (g0 l) (g0 r))
  | KV _, KV n => vector_view n (fun i => add (g1 l i) (g1 r i))
  | KP _, KV n => point_view n (fun i => add (g1 l i) (g1 r i))
  | KM _ _, KM m n => matrix_view m n (fun i j => add (g2 l i j) (g2 r i j))
  | _, _ => bad_view
  end.
(** subtraction.hpp:17-196. *)
Definition minus_view (l r : view) : view :=
  match knd l, knd r with
  | KS, KS => scalar_view (sub (g0 l) (g0 r))
  | KV _, KV n => vector_view n (fun i => sub (g1 l i) (g1 r i))
  | KP _, KV n => point_view n (fun i => sub (g1 l i) (g1 r i))
  | KP _, KP n => vector_view n (fun i => sub (g1 l i) (g1 r i))
  | KM _ _, KM m n => matrix_view m n (fun i j => sub (g2 l i j) (g2 r i j))
  | _, _ => bad_view
  end.
(** algebra/dot_product.hpp:26-39 (equal dimensions asserted); detail/dot_product.hpp:78-125, 278-304:
    sums from dimension 2 on, the recursion for dimension 1 does not end. *)
Fixpoint asum (f : nat -> ans) (k : nat) : ans :=
  match k with O => Got 0 | S O => f O | S k' => add (asum f k') (f k') end.
Definition dot_product (n m : nat) (f g : nat -> ans) : ans :=
  if (n == m) && (1 < n)%N then asum (fun k => mul (f k) (g k)) n else Bad ill_formed.
(** multiplication.hpp:17-199, dot_product.hpp:22-165 and matrix_product.hpp:21-58 of the functions.
    Matrix times scalar asks for get<Row, Column>(r) and get(l) (multiplication.hpp:194-197).  The
    dimension of matrix times vector or point is that of the right operand (dot_product.hpp:77, 115). *)
Definition times_view (l r : view) : view :=
  match knd l, knd r with
  | KS, KS => scalar_view (mul (g0 l) (g0 r))
  | KS, KV n => vector_view n (fun i => mul (g0 l) (g1 r i))
  | KV n, KS => vector_view n (fun i => mul (g1 l i) (g0 r))
  | KS, KM m n => matrix_view m n (fun i j => mul (g0 l) (g2 r i j))
  | KM m n, KS => matrix_view m n (fun i j => mul (g2 r i j) (g0 l))
  | KV n, KM m k => matrix_view 1 k (fun i j => dot_product n m (g1 l) (fun p => g2 r p j))
  | KM m k, KV n => vector_view n (fun i => dot_product k n (g2 l i) (g1 r))
  | KM m k, KP n => point_view n (fun i => dot_product k n (g2 l i) (g1 r))
  | KV n, KV m => scalar_view (dot_product n m (g1 l) (g1 r))
  | KM a b, KM c d => matrix_view a d (fun i j => if b == c then dot_product b c (g2 l i) (fun p => g2 r p j) else Bad ill_formed)
  | _, _ => bad_view
  end.
(** division.hpp:17-121. *)
Definition over_view (l r : view) : view :=
  match knd l, knd r with
  | KS, KS => scalar_view (quo (g0 l) (g0 r))
  | KV n, KS => vector_view n (fun i => quo (g1 l i) (g0 r))
  | KM m n, KS => matrix_view m n (fun i j => quo (g2 l i j) (g0 r))
  | _, _ => bad_view
  end.
(** functions/cross_product.hpp:51-150. *)
Definition cross_at (l r : view) (i : nat) : ans :=
  match i with
  | 0 => sub (mul (g1 l 1%N) (g1 r 2%N)) (mul (g1 l 2%N) (g1 r 1%N))
  | 1 => sub (mul (g1 l 2%N) (g1 r 0%N)) (mul (g1 l 0%N) (g1 r 2%N))
  | 2 => sub (mul (g1 l 0%N) (g1 r 1%N)) (mul (g1 l 1%N) (g1 r 0%N))
  | _ => Bad ill_formed
  end.
Definition cross_view (l r : view) : view :=
  match knd l, knd r with KV _, KV n => vector_view n (cross_at l r) | _, _ => bad_view end.
(** tensor_product.hpp:22-141 and tensor_arithmetic.hpp:115-336.  Two vectors: row_dimension_of a vector
    does not exist (tensor_product.hpp:41-42).  Vector and matrix: the result type names
    type_at<Tensor2, B::col> (tensor_arithmetic.hpp:244), the element in row B::col and column 0. *)
Definition tensor_view (l r : view) : view :=
  match knd l, knd r with
  | KM a b, KV n => matrix_view (a * 1)%N (b * n)%N (fun i j => mul (g2 l (i %/ 1)%N (j %/ n)%N) (g1 r (j %% n)%N))
  | KV n, KM a b => matrix_view (n * a)%N (1 * b)%N
      (fun i j => if (j %% b < a)%N then mul (g1 l (i %/ a)%N) (g2 r (i %% a)%N (j %% b)%N) else Bad ill_formed)
  | KM a b, KM c d => matrix_view (a * c)%N (b * d)%N (fun i j => mul (g2 l (i %/ c)%N (j %/ d)%N) (g2 r (i %% c)%N (j %% d)%N))
  | _, _ => bad_view
  end.
(** negate.hpp:32-117, absolute_value.hpp:22-109, reciprocal.hpp:21-136. *)
Definition each (g : ans -> ans) (points : bool) (a : view) : view :=
  match knd a with
  | KS => scalar_view (g (g0 a))
  | KV n => vector_view n (fun i => g (g1 a i))
  | KP n => if points then point_view n (fun i => g (g1 a i)) else bad_view
  | KM m n => matrix_view m n (fun i j => g (g2 a i j))
  | KBad => bad_view
  end.
Definition neg_view := each (lift1 (fun a => - a)) false.
Definition abs_view := each (lift1 (fun a => `|a|)) false.
Definition rec_view := each (fun x => quo (Got 1) x) true.
(** arithmetic/vector/magnitude.hpp:49-133: indices 0 to 3 from the left, the rest recursively. *)
Fixpoint magnitude_sqrd (f : nat -> ans) (index : nat) : ans :=
  let sq i := mul (f i) (f i) in
  match index with
  | 0 => sq 0%N
  | 1 => add (sq 0%N) (sq 1%N)
  | 2 => add (add (sq 0%N) (sq 1%N)) (sq 2%N)
  | 3 => add (add (add (sq 0%N) (sq 1%N)) (sq 2%N)) (sq 3%N)
  | S index' => add (sq index) (magnitude_sqrd f index')
  end.
Definition magnitude (n : nat) (f : nat -> ans) : ans := lift1 sqrt (magnitude_sqrd f n.-1).
Definition mag_view (a : view) : view :=
  match knd a with KV n => scalar_view (magnitude n (g1 a)) | _ => bad_view end.
(** normalize_at_index.hpp:36-43, normalize.hpp:23-54. *)
Definition normal_at (n : nat) (f : nat -> ans) (i : nat) : ans :=
  match magnitude n f with
  | Got m => if m == 0 then Bad assertion else quo (f i) (Got m)
  | Bad e => Bad e
  end.
Definition norm_view (a : view) : view :=
  match knd a with KV n => vector_view n (normal_at n (g1 a)) | _ => bad_view end.
(** The n by n elements read by a determinant; if one cannot be had there is no result (which one is
    reported first is not modelled). *)
Definition entry (x : ans) : F := match x with Got a => a | Bad _ => 0 end.
Fixpoint first_bad (f : nat -> nat -> ans) (n k : nat) : option fault :=
  match k with
  | 0 => None
  | S k' => match f (k' %/ n)%N (k' %% n)%N with Bad e => Some e | Got _ => first_bad f n k' end
  end.
Definition with_square (n : nat) (f : nat -> nat -> ans) (g : (nat -> nat -> F) -> ans) : ans :=
  match first_bad f n (n * n)%N with Some e => Bad e | None => g (fun i j => entry (f i j)) end.
(** determinant.hpp:21-46 of the functions; matrix_arithmetic.hpp:241-246: the row dimension decides. *)
Definition det_view (a : view) : view :=
  match knd a with KM r _ => scalar_view (with_square r (g2 a) (fun m => Got (determinant r m))) | _ => bad_view end.
(** transpose.hpp:21-49. *)
Definition transp_view (a : view) : view :=
  match knd a with KM r c => matrix_view c r (fun i j => g2 a j i) | _ => bad_view end.
(** inverse.hpp:21-49; matrix_arithmetic.hpp:257-271; the minor of a 1 by 1 matrix has no determinant. *)
Definition inv_view (a : view) : view :=
  match knd a with
  | KM r c => matrix_view r c (fun i j =>
      if (r < 2)%N then Bad ill_formed
      else with_square r (g2 a) (fun m => match inverse_at_index r m i j with Some x => Got x | None => Bad throws end))
  | _ => bad_view
  end.

(** grammar.hpp:143-231: one case for each tag. *)
Fixpoint look (st : store) (e : ex) : view :=
  match e with
  | Var x => term_view (st x)
  | Plus a b => plus_view (look st a) (look st b)
  | Minus a b => minus_view (look st a) (look st b)
  | Times a b => times_view (look st a) (look st b)
  | Over a b => over_view (look st a) (look st b)
  | Cross a b => cross_view (look st a) (look st b)
  | Tensor a b => tensor_view (look st a) (look st b)
  | Neg a => neg_view (look st a)
  | Abs a => abs_view (look st a)
  | Rec a => rec_view (look st a)
  | Mag a => mag_view (look st a)
  | Norm a => norm_view (look st a)
  | Det a => det_view (look st a)
  | Transp a => transp_view (look st a)
  | Inv a => inv_view (look st a)
  end.

(** * Assignment *)
Inductive outcome := Done (st : store) | Failed (f : fault).
Definition set_var (st : store) (x : nat) (v : val) : store := fun y => if y == x then v else st y.

(** vector_n.hpp:97-115: all components are read before the vector is made; nothing is written yet. *)
Fixpoint read_all (f : nat -> ans) (n : nat) : option fault :=
  match n with
  | 0 => None
  | S n' => match read_all f n' with Some e => Some e | None => match f n' with Bad e => Some e | Got _ => None end end
  end.
(** expression_generator.hpp:255-345, operator <<= : construct the whole value, then assign it.  The
    matrix constructor (matrix_mxn.hpp:66-75) reads every element of the left side's dimensions. *)
Definition shift_assign (st : store) (x : nat) (e : ex) : outcome :=
  let w := look st e in
  match st x, knd w with
  | VS _, KS => match g0 w with Got a => Done (set_var st x (VS a)) | Bad f => Failed f end
  | VV n _, KV _ =>
      match read_all (g1 w) n with Some f => Failed f | None => Done (set_var st x (VV n (fun i => entry (g1 w i)))) end
  | VP n _, KP _ =>
      match read_all (g1 w) n with Some f => Failed f | None => Done (set_var st x (VP n (fun i => entry (g1 w i)))) end
  | VM r c _, KM _ _ =>
      match read_all (fun k => g2 w (k %/ c)%N (k %% c)%N) (r * c)%N with
      | Some f => Failed f | None => Done (set_var st x (VM r c (fun i j => entry (g2 w i j)))) end
  | _, _ => Failed ill_formed
  end.

(** Component i of variable x. *)
Definition set_component (st : store) (x i : nat) (a : F) : store :=
  match st x with
  | VV n u => set_var st x (VV n (fun k => if k == i then a else u k))
  | VP n u => set_var st x (VP n (fun k => if k == i then a else u k))
  | _ => st
  end.
Definition component (st : store) (x i : nat) : ans := g1 (term_view (st x)) i.
(** numeric_sequence_n.hpp:135-145: element i of this becomes get<i>(e), for i = 0, 1, ...; each component is written
    before the next is evaluated.  [combine] is the new value from the old component and the one of the
    expression: plain assignment, or += and -= (150-167). *)
Fixpoint write_components (st : store) (x : nat) (e : ex) (combine : ans -> ans -> ans) (k : nat) : outcome :=
  match k with
  | 0 => Done st
  | S k' =>
      match write_components st x e combine k' with
      | Failed f => Failed f
      | Done st' =>
          match combine (component st' x k') (g1 (look st' e) k') with
          | Got a => Done (set_component st' x k' a)
          | Bad f => Failed f
          end
      end
  end.
(** vector_n.hpp:52-58 and point_n.hpp:50-56, operator = : vector from vector, point from point. *)
Definition assign (st : store) (x : nat) (e : ex) : outcome :=
  match st x, knd (look st e) with
  | VV n _, KV _ => write_components st x e (fun _ b => b) n
  | VP n _, KP _ => write_components st x e (fun _ b => b) n
  | _, _ => Failed ill_formed
  end.
(** vector_n.hpp:61-75, += and -= of vectors of the same dimension. *)
Definition compound_assign (st : store) (x : nat) (e : ex) (subtract : bool) : outcome :=
  match st x, knd (look st e) with
  | VV n _, KV _ => write_components st x e (if subtract then sub else add) n
  | _, _ => Failed ill_formed
  end.
End Expressions.
