(** Specification for C118, C119 and C120: what an expression means, by the textbook operations on numbers,
    vectors, points and matrices.  Vectors of dimension n are functions of the indices below n, matrices
    likewise; sums are mathcomp's finite sums.

    With [full = true] these are all the operations the library announces.  With [full = false] the
    cases are left out in which the library does not deliver (see the refuted theorems):
    matrix times number; matrix times vector or point for a matrix that is not square; vector tensor
    vector; vector tensor matrix for a matrix with more columns than rows; scalar products of
    dimension 1; the inverse of a 1 by 1 matrix. *)
Set Warnings "-notation-overridden,-ambiguous-paths".
From mathcomp Require Import ssreflect ssrfun ssrbool eqtype ssrnat seq choice fintype bigop ssralg ssrnum perm fingroup.
From Verif Require Import ExprModel.
Set Implicit Arguments.
Unset Strict Implicit.
Import GRing.Theory Num.Theory.
Local Open Scope ring_scope.

Section Meaning.
Variable F : realFieldType.
Variable sqrt : F -> F.
Variable full : bool.
Variable st : store F.
Implicit Types (a b : ex) (x y : F) (u v : nat -> F) (A B K : nat -> nat -> F).

Inductive means : ex -> val F -> Prop :=
| m_var i : means (Var i) (st i)
(* sums and differences *)
| m_add_s a b x y : means a (VS x) -> means b (VS y) -> means (Plus a b) (VS (x + y))
| m_add_v a b n u v : means a (VV n u) -> means b (VV n v) -> means (Plus a b) (VV n (fun i => u i + v i))
| m_add_p a b n u v : means a (VP n u) -> means b (VV n v) -> means (Plus a b) (VP n (fun i => u i + v i))
| m_add_m a b r c A B : means a (VM r c A) -> means b (VM r c B) -> means (Plus a b) (VM r c (fun i j => A i j + B i j))
| m_sub_s a b x y : means a (VS x) -> means b (VS y) -> means (Minus a b) (VS (x - y))
| m_sub_v a b n u v : means a (VV n u) -> means b (VV n v) -> means (Minus a b) (VV n (fun i => u i - v i))
| m_sub_pv a b n u v : means a (VP n u) -> means b (VV n v) -> means (Minus a b) (VP n (fun i => u i - v i))
| m_sub_pp a b n u v : means a (VP n u) -> means b (VP n v) -> means (Minus a b) (VV n (fun i => u i - v i))
| m_sub_m a b r c A B : means a (VM r c A) -> means b (VM r c B) -> means (Minus a b) (VM r c (fun i j => A i j - B i j))
(* products *)
| m_mul_ss a b x y : means a (VS x) -> means b (VS y) -> means (Times a b) (VS (x * y))
| m_mul_sv a b n x v : means a (VS x) -> means b (VV n v) -> means (Times a b) (VV n (fun i => x * v i))
| m_mul_vs a b n u y : means a (VV n u) -> means b (VS y) -> means (Times a b) (VV n (fun i => u i * y))
| m_mul_sm a b r c x B : means a (VS x) -> means b (VM r c B) -> means (Times a b) (VM r c (fun i j => x * B i j))
| m_mul_ms a b r c A y : full -> means a (VM r c A) -> means b (VS y) -> means (Times a b) (VM r c (fun i j => A i j * y))
| m_dot a b n u v : full || (1 < n)%N -> means a (VV n u) -> means b (VV n v) -> means (Times a b) (VS (\sum_(k < n) u k * v k))
| m_mul_vm a b n c u B : full || (1 < n)%N -> means a (VV n u) -> means b (VM n c B) ->
    means (Times a b) (VM 1 c (fun _ j => \sum_(k < n) u k * B k j))
| m_mul_mv a b r n A v : full || ((r == n) && (1 < n)%N) -> means a (VM r n A) -> means b (VV n v) ->
    means (Times a b) (VV r (fun i => \sum_(k < n) A i k * v k))
| m_mul_mp a b r n A v : full || ((r == n) && (1 < n)%N) -> means a (VM r n A) -> means b (VP n v) ->
    means (Times a b) (VP r (fun i => \sum_(k < n) A i k * v k))
| m_mul_mm a b r n c A B : full || (1 < n)%N -> means a (VM r n A) -> means b (VM n c B) ->
    means (Times a b) (VM r c (fun i j => \sum_(k < n) A i k * B k j))
| m_over_s a b x y : y != 0 -> means a (VS x) -> means b (VS y) -> means (Over a b) (VS (x / y))
| m_over_v a b n u y : y != 0 -> means a (VV n u) -> means b (VS y) -> means (Over a b) (VV n (fun i => u i / y))
| m_over_m a b r c A y : y != 0 -> means a (VM r c A) -> means b (VS y) -> means (Over a b) (VM r c (fun i j => A i j / y))
| m_cross a b u v w : means a (VV 3 u) -> means b (VV 3 v) ->
    w 0%N = u 1%N * v 2%N - u 2%N * v 1%N -> w 1%N = u 2%N * v 0%N - u 0%N * v 2%N -> w 2%N = u 0%N * v 1%N - u 1%N * v 0%N ->
    means (Cross a b) (VV 3 w)
(* tensor products: a vector on the left is a column, on the right a row *)
| m_tensor_vv a b m n u v : full -> means a (VV m u) -> means b (VV n v) -> means (Tensor a b) (VM m n (fun i j => u i * v j))
| m_tensor_mv a b r c n A v K : means a (VM r c A) -> means b (VV n v) ->
    (forall i j l, (i < r)%N -> (j < c)%N -> (l < n)%N -> K i (j * n + l)%N = A i j * v l) ->
    means (Tensor a b) (VM r (c * n)%N K)
| m_tensor_vm a b n r c u B K : full || (c <= r)%N -> means a (VV n u) -> means b (VM r c B) ->
    (forall i k j, (i < n)%N -> (k < r)%N -> (j < c)%N -> K (i * r + k)%N j = u i * B k j) ->
    means (Tensor a b) (VM (n * r)%N c K)
| m_tensor_mm a b r c p q A B K : means a (VM r c A) -> means b (VM p q B) ->
    (forall i j k l, (i < r)%N -> (j < c)%N -> (k < p)%N -> (l < q)%N -> K (i * p + k)%N (j * q + l)%N = A i j * B k l) ->
    means (Tensor a b) (VM (r * p)%N (c * q)%N K)
(* one operand *)
| m_neg_s a x : means a (VS x) -> means (Neg a) (VS (- x))
| m_neg_v a n u : means a (VV n u) -> means (Neg a) (VV n (fun i => - u i))
| m_neg_m a r c A : means a (VM r c A) -> means (Neg a) (VM r c (fun i j => - A i j))
| m_abs_s a x : means a (VS x) -> means (Abs a) (VS `|x|)
| m_abs_v a n u : means a (VV n u) -> means (Abs a) (VV n (fun i => `|u i|))
| m_abs_m a r c A : means a (VM r c A) -> means (Abs a) (VM r c (fun i j => `|A i j|))
| m_rec_s a x : x != 0 -> means a (VS x) -> means (Rec a) (VS x^-1)
| m_rec_v a n u : (forall i, (i < n)%N -> u i != 0) -> means a (VV n u) -> means (Rec a) (VV n (fun i => (u i)^-1))
| m_rec_p a n u : (forall i, (i < n)%N -> u i != 0) -> means a (VP n u) -> means (Rec a) (VP n (fun i => (u i)^-1))
| m_rec_m a r c A : (forall i j, (i < r)%N -> (j < c)%N -> A i j != 0) -> means a (VM r c A) ->
    means (Rec a) (VM r c (fun i j => (A i j)^-1))
| m_mag a n u : (0 < n)%N -> means a (VV n u) -> means (Mag a) (VS (sqrt (\sum_(k < n) u k ^+ 2)))
| m_norm a n u : (0 < n)%N -> sqrt (\sum_(k < n) u k ^+ 2) != 0 -> means a (VV n u) ->
    means (Norm a) (VV n (fun i => u i / sqrt (\sum_(k < n) u k ^+ 2)))
| m_det a n A : (0 < n)%N -> means a (VM n n A) ->
    means (Det a) (VS (\sum_(s : 'S_n) (-1) ^+ s * \prod_(i < n) A i (s i)))
| m_transp a r c A : means a (VM r c A) -> means (Transp a) (VM c r (fun i j => A j i))
| m_inv a n A B : full || (1 < n)%N -> means a (VM n n A) ->
    (forall i j, (i < n)%N -> (j < n)%N -> \sum_(k < n) A i k * B k j = (if i == j then 1 else 0)) ->
    means (Inv a) (VM n n B).

(** An evaluated expression shows a value: the right kind and dimensions, and every component there. *)
Definition shows (w : view F) (v : val F) : Prop :=
  match v with
  | VS x => knd w = KS /\ g0 w = Got x
  | VV n u => knd w = KV n /\ forall i, (i < n)%N -> g1 w i = Got (u i)
  | VP n u => knd w = KP n /\ forall i, (i < n)%N -> g1 w i = Got (u i)
  | VM r c A => knd w = KM r c /\ forall i j, (i < r)%N -> (j < c)%N -> g2 w i j = Got (A i j)
  end.

(** Two values are the same kind, with the same components. *)
Definition same (v w : val F) : Prop :=
  match v, w with
  | VS x, VS y => x = y
  | VV n u, VV m u' => n = m /\ forall i, (i < n)%N -> u i = u' i
  | VP n u, VP m u' => n = m /\ forall i, (i < n)%N -> u i = u' i
  | VM r c A, VM r' c' A' => r = r' /\ c = c' /\ forall i j, (i < r)%N -> (j < c)%N -> A i j = A' i j
  | _, _ => False
  end.
Definition same_kind (v w : val F) : Prop :=
  match v, w with
  | VS _, VS _ => True
  | VV n _, VV m _ => n = m
  | VP n _, VP m _ => n = m
  | VM r c _, VM r' c' _ => r = r' /\ c = c'
  | _, _ => False
  end.

(** For C119.  Variable x occurs in e. *)
Fixpoint occurs (x : nat) (e : ex) : bool :=
  match e with
  | Var y => y == x
  | Plus a b | Minus a b | Times a b | Over a b | Cross a b | Tensor a b => occurs x a || occurs x b
  | Neg a | Abs a | Rec a | Mag a | Norm a | Det a | Transp a | Inv a => occurs x a
  end.
(** Component i of e needs no component of the variable x but the i-th: x occurs only in sums,
    differences, negations, absolute values, reciprocals, and multiples and quotients by numbers in which
    x does not occur. *)
Inductive componentwise (x : nat) : ex -> Prop :=
| cw_without e : ~~ occurs x e -> componentwise x e
| cw_var : componentwise x (Var x)
| cw_add a b : componentwise x a -> componentwise x b -> componentwise x (Plus a b)
| cw_sub a b : componentwise x a -> componentwise x b -> componentwise x (Minus a b)
| cw_mul_l a b y : ~~ occurs x a -> means a (VS y) -> componentwise x b -> componentwise x (Times a b)
| cw_mul_r a b y : ~~ occurs x b -> means b (VS y) -> componentwise x a -> componentwise x (Times a b)
| cw_over a b : ~~ occurs x b -> componentwise x a -> componentwise x (Over a b)
| cw_neg a : componentwise x a -> componentwise x (Neg a)
| cw_abs a : componentwise x a -> componentwise x (Abs a)
| cw_rec a : componentwise x a -> componentwise x (Rec a).
End Meaning.

(** The store after x was given the value v and nothing else changed. *)
Definition updated (F : realFieldType) (st st' : store F) (x : nat) (v : val F) : Prop :=
  same (st' x) v /\ forall y, y <> x -> st' y = st y.
