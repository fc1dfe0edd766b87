(** C118, C119, C120: linear algebra expressions.

    [look] evaluates an expression lazily, as the code does; [means] is the textbook meaning
    (ExprSpec.v).  The field of numbers and its square root are arbitrary. *)
Set Warnings "-notation-overridden,-ambiguous-paths".
From mathcomp Require Import ssreflect ssrfun ssrbool eqtype ssrnat seq choice fintype div bigop ssralg ssrnum ssrint rat perm fingroup zmodp matrix.
From Verif Require Import MatrixModel MatrixProof MatrixProps ExprModel ExprSpec ExprProof ExprLifeModel ExprLifeSpec ExprLifeProof.
Set Implicit Arguments.
Unset Strict Implicit.
Import GRing.Theory Num.Theory.
Local Open Scope ring_scope.

Section Claims.
Variable F : realFieldType.
Variable sqrt : F -> F.
Implicit Types (st : store F) (v : val F).

(** * C118: the value of an expression, nested to any depth, of any dimensions *)

(** An expression with a meaning (outside the gaps listed in ExprSpec.v) has the kind and dimensions of
    its meaning, and every one of its components is that of the meaning. *)
Theorem C118_value st e v : means sqrt false st e v -> shows (look sqrt st e) v.
Proof. exact: evaluates. Qed.

(** So an expression means one thing only. *)
Theorem C118_unique st e v v' : means sqrt false st e v -> means sqrt false st e v' -> same v v'.
Proof.
  move=> /evaluates H /evaluates H'. case: v H => [a|n u|n u|r c A] [K G]; case: v' H' => [a'|n' u'|n' u'|r' c' A'] [K' G']; rewrite K in K' => //=.
  - move: G'. by rewrite G => [[]].
  - move: K' => [E]. subst n'. split=> // i Hi. move: (G' i Hi). by rewrite G // => [[]].
  - move: K' => [E]. subst n'. split=> // i Hi. move: (G' i Hi). by rewrite G // => [[]].
  - move: K' => [E E']. subst r' c'. split=> //; split=> // i j Hi Hj. move: (G' i j Hi Hj). by rewrite G // => [[]].
Qed.

(** And it has no components but those: whatever the expression, reading one outside its dimensions is refused. *)
Theorem C118_no_more st e : match knd (look sqrt st e) with
  | KV n | KP n => forall i, (n <= i)%N -> exists f, g1 (look sqrt st e) i = Bad _ f
  | KM r c => forall i j, (r <= i)%N \/ (c <= j)%N -> exists f, g2 (look sqrt st e) i j = Bad _ f
  | _ => True end.
Proof.
  have V n (f : nat -> ans F) i g : (n <= i)%N -> exists h, (if (i < n)%N then f i else Bad F g) = Bad F h by move=> L; exists g; rewrite ltnNge L.
  have M r c (f : nat -> nat -> ans F) i j g : (r <= i)%N \/ (c <= j)%N -> exists h, (if (i < r)%N && (j < c)%N then f i j else Bad F g) = Bad F h.
    by move=> L; exists g; rewrite !ltnNge; case: L => ->; rewrite ?andbF.
  case: e => /=; rewrite /plus_view /minus_view /times_view /over_view /cross_view /tensor_view /neg_view /abs_view /rec_view /mag_view /norm_view /det_view /transp_view /inv_view /each.
  - move=> x; case: (st x) => //= *; [exact: (V _ (fun i => Got _))|exact: (V _ (fun i => Got _))|exact: (M _ _ (fun i j => Got _))].
  all: intros; repeat match goal with |- context [match knd (look ?s ?t ?w) with _ => _ end] => case: (knd (look s t w)) end => //=; intros.
  all: match goal with H : is_true (_ <= _)%N |- _ => eexists; rewrite ltnNge H; reflexivity
    | H : _ \/ _ |- _ => refine (M _ _ (fun _ _ => _) _ _ _ H) end.
Qed.

(** A singular matrix has no inverse: every component of inv(e) throws. *)
Theorem C118_singular st e n A : (1 < n)%N -> means sqrt false st e (VM n n A) -> \sum_(s : 'S_n) (-1) ^+ s * \prod_(i < n) A i (s i) = 0 ->
  forall i j, (i < n)%N -> (j < n)%N -> g2 (look sqrt st (Inv e)) i j = Bad F throws.
Proof.
  move=> N /evaluates [K G] D i j Hi Hj. rewrite /= /inv_view K /= Hi Hj /= ltnNge N /= (square_got _ (ltnW N) G).
  have D' : determinant n (fun i j => entry (g2 (look sqrt st e) i j)) = 0.
  { rewrite (@det_ext _ n _ A) ?C98_determinant // => i' j' Hi' Hj'. by rewrite G. }
  have [S _] := C98_singular N D'. by rewrite S.
Qed.
(** A vector of no length has no direction: norm(e) fails its assertion. *)
Theorem C118_no_direction st e n u : (0 < n)%N -> means sqrt false st e (VV n u) -> sqrt (\sum_(k < n) u k ^+ 2) = 0 ->
  forall i, (i < n)%N -> g1 (look sqrt st (Norm e)) i = Bad F assertion.
Proof. move=> N /evaluates [K G] D i Hi. by rewrite /= /norm_view K /= Hi /normal_at (mag_got sqrt N G) D eqxx. Qed.

(** Kinds that do not go together are refused: number + vector, vector + point, vector / vector and so on. *)
Definition kind_of v : kind := match v with VS _ => KS | VV n _ => KV n | VP n _ => KP n | VM r c _ => KM r c end.
Definition addable (k l : kind) : bool :=
  match k, l with KS, KS => true | KV _, KV _ => true | KP _, KV _ => true | KM _ _, KM _ _ => true | _, _ => false end.
Definition subtractable (k l : kind) : bool := addable k l || (if k is KP _ then if l is KP _ then true else false else false).
Definition divisible (k l : kind) : bool := match k, l with KS, KS => true | KV _, KS => true | KM _ _, KS => true | _, _ => false end.
Theorem C118_refused st a b v v' : means sqrt false st a v -> means sqrt false st b v' ->
  (~~ addable (kind_of v) (kind_of v') -> look sqrt st (Plus a b) = bad_view F)
  /\ (~~ subtractable (kind_of v) (kind_of v') -> look sqrt st (Minus a b) = bad_view F)
  /\ (~~ divisible (kind_of v) (kind_of v') -> look sqrt st (Over a b) = bad_view F).
Proof.
  move=> /evaluates H /evaluates H'.
  have K : knd (look sqrt st a) = kind_of v by case: v H => [?|? ?|? ?|? ? ?] [].
  have K' : knd (look sqrt st b) = kind_of v' by case: v' H' => [?|? ?|? ?|? ? ?] [].
  rewrite /= /plus_view /minus_view /over_view K K'. by case: v {H K} => [?|? ?|? ?|? ? ?]; case: v' {H' K'} => [?|? ?|? ?|? ? ?].
Qed.

(** So are functions of an operand of another kind: - and abs of a point, mag and norm of anything but a vector,
    det, trans and inv of anything but a matrix, and products of points. *)
Definition crossable (k l : kind) : bool := match k, l with KV _, KV _ => true | _, _ => false end.
Definition multipliable (k l : kind) : bool :=
  match k, l with KP _, _ => false | KS, KP _ => false | KV _, KP _ => false | _, _ => true end.
Theorem C118_refused_function st a v : means sqrt false st a v ->
  ((if kind_of v is KP _ then True else False) -> look sqrt st (Neg a) = bad_view F /\ look sqrt st (Abs a) = bad_view F)
  /\ ((if kind_of v is KV _ then False else True) -> look sqrt st (Mag a) = bad_view F /\ look sqrt st (Norm a) = bad_view F)
  /\ ((if kind_of v is KM _ _ then False else True) ->
      look sqrt st (Det a) = bad_view F /\ look sqrt st (Transp a) = bad_view F /\ look sqrt st (Inv a) = bad_view F)
  /\ forall b v', means sqrt false st b v' ->
      (~~ crossable (kind_of v) (kind_of v') -> look sqrt st (Cross a b) = bad_view F)
      /\ (~~ multipliable (kind_of v) (kind_of v') -> look sqrt st (Times a b) = bad_view F).
Proof.
  move=> /evaluates H.
  have K : knd (look sqrt st a) = kind_of v by case: v H => [?|? ?|? ?|? ? ?] [].
  split; [|split; [|split] ].
  1-3: by rewrite /= /neg_view /abs_view /each /mag_view /norm_view /det_view /transp_view /inv_view K; case: v {H K} => [?|? ?|? ?|? ? ?].
  move=> b v' /evaluates H'.
  have K' : knd (look sqrt st b) = kind_of v' by case: v' H' => [?|? ?|? ?|? ? ?] [].
  rewrite /= /cross_view /times_view K K'. by case: v {H K} => [?|? ?|? ?|? ? ?]; case: v' {H' K'} => [?|? ?|? ?|? ? ?].
Qed.

(** ** Gaps.  In each case the textbook meaning exists ([means true]) and the code does not have it. *)
Lemma means_full st e v : means sqrt false st e v -> means sqrt true st e v.
Proof. elim=> *; solve [econstructor; eauto]. Qed.
Lemma scalar_no2 st e i j : knd (look sqrt st e) = KS -> g2 (look sqrt st e) i j = Bad F ill_formed.
Proof.
  case: e => [?|? ?|? ?|? ?|? ?|? ?|? ?|?|?|?|?|?|?|?|?]; rewrite /look -/(look _) /term_view /plus_view /minus_view /times_view /over_view /cross_view /tensor_view /neg_view /abs_view /rec_view /each /mag_view /norm_view /det_view /transp_view /inv_view.
  all: repeat match goal with |- context [match knd (look sqrt ?s ?e) with _ => _ end] => destruct (knd (look sqrt s e)) end => //.
  by case: (st _).
Qed.

(** Matrix times number cannot be evaluated, although number times matrix can. *)
Theorem C118_matrix_times_number_refuted st a b r c A y : means sqrt false st a (VM r c A) -> means sqrt false st b (VS y) ->
  means sqrt true st (Times a b) (VM r c (fun i j => A i j * y))
  /\ forall i j, g2 (look sqrt st (Times a b)) i j = Bad F ill_formed.
Proof.
  move=> H H'. split; first by constructor=> //; apply: means_full.
  move: H H' => /evaluates [K _] /evaluates [K' _] i j. rewrite /= /times_view K K' /=. case: ifP => // _. by rewrite scalar_no2.
Qed.
(** Matrix times vector is a vector with the dimension of the operand, not of the result: components are
    missing when the matrix has more rows than columns; they cannot be evaluated when it has fewer. *)
Theorem C118_matrix_times_vector_refuted st a b r n A u : means sqrt false st a (VM r n A) -> means sqrt false st b (VV n u) -> r <> n ->
  means sqrt true st (Times a b) (VV r (fun i => \sum_(k < n) A i k * u k))
  /\ knd (look sqrt st (Times a b)) = KV n
  /\ (forall i, (n <= i)%N -> (i < r)%N -> g1 (look sqrt st (Times a b)) i = Bad F ill_formed)
  /\ ~ shows (look sqrt st (Times a b)) (VV r (fun i => \sum_(k < n) A i k * u k)).
Proof.
  move=> H H' N. split; first by constructor=> //; apply: means_full.
  move: H H' => /evaluates [K _] /evaluates [K' _]. rewrite /= /times_view K K' /=. split=> //. split.
  - move=> i Hi _. by rewrite ltnNge Hi.
  - by move=> [[E] _]; apply: N.
Qed.
(** The same for points. *)
Theorem C118_matrix_times_point_refuted st a b r n A u : means sqrt false st a (VM r n A) -> means sqrt false st b (VP n u) -> r <> n ->
  means sqrt true st (Times a b) (VP r (fun i => \sum_(k < n) A i k * u k)) /\ knd (look sqrt st (Times a b)) = KP n.
Proof.
  move=> H H' N. split; first by constructor=> //; apply: means_full.
  move: H H' => /evaluates [K _] /evaluates [K' _]. by rewrite /= /times_view K K'.
Qed.
(** The tensor product of two vectors is not defined. *)
Theorem C118_tensor_of_vectors_refuted st a b m n u w : means sqrt false st a (VV m u) -> means sqrt false st b (VV n w) ->
  means sqrt true st (Tensor a b) (VM m n (fun i j => u i * w j)) /\ look sqrt st (Tensor a b) = bad_view F.
Proof.
  move=> H H'. split; first by constructor=> //; apply: means_full.
  move: H H' => /evaluates [K _] /evaluates [K' _]. by rewrite /= /tensor_view K K'.
Qed.
(** Of a vector and a matrix with more columns than rows, the columns from the number of rows on are missing. *)
Theorem C118_tensor_vector_matrix_refuted st a b n r c u B : means sqrt false st a (VV n u) -> means sqrt false st b (VM r c B) ->
  forall i j, (i < n * r)%N -> (r <= j)%N -> (j < c)%N -> g2 (look sqrt st (Tensor a b)) i j = Bad F ill_formed.
Proof.
  move=> /evaluates [K _] /evaluates [K' _] i j Hi H1 H2. rewrite /= /tensor_view K K' mul1n /= Hi H2 /=.
  by rewrite (modn_small H2) ltnNge H1.
Qed.
(** Scalar products of dimension 1, and with them all products of matrices with inner dimension 1, and
    the inverse of a 1 by 1 matrix. *)
Theorem C118_dimension_one_refuted st a b c u w A : means sqrt false st a (VV 1 u) -> means sqrt false st b (VV 1 w) -> means sqrt false st c (VM 1 1 A) ->
  A 0%N 0%N != 0 ->
  means sqrt true st (Times a b) (VS (\sum_(k < 1) u k * w k)) /\ g0 (look sqrt st (Times a b)) = Bad F ill_formed
  /\ means sqrt true st (Inv c) (VM 1 1 (fun _ _ => (A 0%N 0%N)^-1)) /\ g2 (look sqrt st (Inv c)) 0 0 = Bad F ill_formed.
Proof.
  move=> H H' H'' Z. split; first by constructor=> //; apply: means_full.
  split; first by move: H H' => /evaluates [K _] /evaluates [K' _]; rewrite /= /times_view K K'.
  split; last by move: H'' => /evaluates [K _]; rewrite /= /inv_view K.
  apply: (@m_inv _ _ _ _ _ _ A) => //; first exact: means_full.
  move=> [|i] [|j] // _ _. by rewrite big_ord_recr big_ord0 /= add0r mulfV.
Qed.
(** Vectors of different dimensions are added, although their sum means nothing: a longer left operand
    is cut to the dimension of the right one; a shorter one is read past its end. *)
Theorem C118_dimensions_unchecked_refuted st x y m n u w : st x = VV m u -> st y = VV n w -> m <> n ->
  (forall v, ~ means sqrt true st (Plus (Var x) (Var y)) v)
  /\ knd (look sqrt st (Plus (Var x) (Var y))) = KV n
  /\ (forall i, (i < n)%N -> g1 (look sqrt st (Plus (Var x) (Var y))) i = if (i < m)%N then Got (u i + w i) else Bad F out_of_range).
Proof.
  move=> X Y N. split.
  - move=> v H. inversion H; subst;
      repeat match goal with H : means _ _ _ (Var _) _ |- _ => inversion H; clear H; subst end; congruence.
  - rewrite /= X Y /=. split=> // i Hi. rewrite Hi. by case: ifP.
Qed.

(** * C119: assignment of an expression to a variable *)

(** `x <<= e`: x becomes the value e had before, wherever x occurs in e; nothing else changes. *)
Theorem C119_shift st x e v : same_kind (st x) v -> means sqrt false st e v ->
  exists st', shift_assign sqrt st x e = Done st' /\ updated st st' x v.
Proof. exact: shift_ok. Qed.
(** `x = e`, for a vector or a point, if x occurs in e componentwise or not at all. *)
Theorem C119_assign st x e n u w : st x = VV n u -> means sqrt false st e (VV n w) -> componentwise sqrt false st x e ->
  exists st', assign sqrt st x e = Done st' /\ updated st st' x (VV n w).
Proof. exact: assign_ok. Qed.
Theorem C119_assign_point st x e n u w : st x = VP n u -> means sqrt false st e (VP n w) -> componentwise sqrt false st x e ->
  exists st', assign sqrt st x e = Done st' /\ updated st st' x (VP n w).
Proof. exact: assign_point_ok. Qed.
(** `x += e` and `x -= e` under the same condition. *)
Theorem C119_compound st x e n u w : st x = VV n u -> means sqrt false st e (VV n w) -> componentwise sqrt false st x e ->
  (exists st', compound_assign sqrt st x e false = Done st' /\ updated st st' x (VV n (fun i => u i + w i)))
  /\ (exists st', compound_assign sqrt st x e true = Done st' /\ updated st st' x (VV n (fun i => u i - w i))).
Proof. move=> X M C. split; [exact: (compound_ok false X M C) | exact: (compound_ok true X M C)]. Qed.

(** Without the condition `x = e` is wrong: x = x ^ y reads the new components of x. *)
Theorem C119_cross_refuted st (u w : nat -> F) : st 0%N = VV 3 u -> st 1%N = VV 3 w ->
  u 0%N = 1 -> u 1%N = 0 -> u 2%N = 0 -> w 0%N = 0 -> w 1%N = 1 -> w 2%N = 0 ->
  exists (z : nat -> F) st' (f : nat -> F), means sqrt false st (Cross (Var 0) (Var 1)) (VV 3 z) /\ z 2%N = 1
    /\ assign sqrt st 0 (Cross (Var 0) (Var 1)) = Done st' /\ st' 0%N = VV 3 f /\ f 2%N = 0.
Proof.
  move=> X Y U0 U1 U2 W0 W1 W2.
  exists (fun i => if i == 2%N then 1 else 0).
  have M : means sqrt false st (Cross (Var 0) (Var 1)) (VV 3 (fun i => if i == 2%N then 1 else 0)).
  { apply: (@m_cross _ _ _ _ _ _ u w); rewrite -?X -?Y; try exact: m_var; by rewrite /= ?U0 ?U1 ?U2 ?W0 ?W1 ?W2 ?mulr0 ?mul0r ?mulr1 ?subrr ?subr0. }
  eexists; eexists. split=> //; split=> //.
  rewrite /assign /= X Y /= /set_component /component /set_var /cross_at.
  do 6!(rewrite /= ?X ?Y /= ?U0 ?U1 ?U2 ?W0 ?W1 ?W2 ?mulr0 ?mul0r ?mulr1 ?subrr ?subr0).
  split; first reflexivity. split; first reflexivity. by rewrite /= ?X ?Y /= ?U0 ?U1 ?U2 ?W0 ?W1 ?W2 ?mulr0 ?mul0r ?mulr1 ?subrr ?subr0.
Qed.
(** x = norm(x) divides the second component by the length of a vector that has already changed: with a
    true square root, (3, 4) does not become (3/5, 4/5). *)
Theorem C119_norm_refuted st (u : nat -> F) : (forall a, 0 <= a -> 0 <= sqrt a /\ sqrt a ^+ 2 = a) ->
  st 0%N = VV 2 u -> u 0%N = 3%:R -> u 1%N = 4%:R ->
  exists (z : nat -> F) st' (f : nat -> F), means sqrt false st (Norm (Var 0)) (VV 2 z) /\ z 1%N = 4%:R / 5%:R
    /\ assign sqrt st 0 (Norm (Var 0)) = Done st' /\ st' 0%N = VV 2 f /\ f 1%N <> 4%:R / 5%:R.
Proof.
  move=> SQ X U0 U1.
  have five : sqrt (\sum_(k < 2) u k ^+ 2) = 5%:R.
  { have E : \sum_(k < 2) u k ^+ 2 = 5%:R ^+ 2 by rewrite !big_ord_recr big_ord0 /= U0 U1 add0r -!natrX -natrD.
    have [P Q] := SQ _ (sqr_ge0 (5%:R : F)). rewrite E. apply/eqP. by rewrite -(@eqr_expn2 _ 2) ?Q // ler0n. }
  have N5 : (5%:R : F) != 0 by rewrite pnatr_eq0.
  have M : means sqrt false st (Norm (Var 0)) (VV 2 (fun i => u i / sqrt (\sum_(k < 2) u k ^+ 2))).
  { apply: m_norm => //; first by rewrite five. rewrite -X. exact: m_var. }
  have [K G] := evaluates M.
  set q : F := 3%:R / 5%:R.
  set st1 := set_component st 0 0 q.
  have X1 : st1 0%N = VV 2 (fun k => if k == 0%N then q else u k) by rewrite /st1 /set_component X set_same.
  set m := sqrt (q * q + 4%:R * 4%:R).
  have [mP mQ] : 0 <= m /\ m ^+ 2 = q * q + 4%:R * 4%:R.
  { apply: SQ. by rewrite -!expr2 addr_ge0 // sqr_ge0. }
  have m0 : m != 0.
  { apply/eqP => Z. move: mQ. rewrite Z expr0n /= => /esym/eqP. by rewrite -!expr2 paddr_eq0 ?sqr_ge0 // !expf_eq0 /= pnatr_eq0 andbF. }
  have G1 : g1 (look sqrt st1 (Norm (Var 0))) 1 = Got (4%:R / m).
  { rewrite /= X1 /= /normal_at /magnitude /= U1 -/m (negbTE m0) /=. by []. }
  exists (fun i => u i / sqrt (\sum_(k < 2) u k ^+ 2)), (set_component st1 0 1 (4%:R / m)), (fun k => if k == 1%N then 4%:R / m else if k == 0%N then q else u k).
  split=> //. split; first by rewrite five U1.
  split.
  { rewrite /assign X K /write_components. rewrite G // five U0 -/q -/st1 G1. by []. }
  split; first by rewrite /set_component X1 set_same.
  rewrite eqxx => H.
  have m5 : m = 5%:R.
  { apply: invr_inj. apply: (@mulfI _ (4%:R : F)); by rewrite ?pnatr_eq0. }
  move: mQ. rewrite m5 /q. move=> E. 
  have : (5%:R : F) ^+ 2 * 5%:R ^+ 2 = (3%:R * 3%:R) + (4%:R * 4%:R) * 5%:R ^+ 2.
  { rewrite [X in X * _ = _]E mulrDl. congr (_ + _). by rewrite expr2 mulf_div mulfVK // mulf_neq0. }
  rewrite -!natrX -!natrM -natrD => /eqP. by rewrite eqr_nat.
Qed.

(** * C120: expressions that are given a name and used later *)

(** A program of declarations `auto d = e;` and assignments `x <<= e;` in which each declaration has one
    operator, on variables and earlier names: a name stands for its text, with the values the variables
    have when it is used.  No destroyed object is read.  The expressions in assignments may be nested. *)
Theorem C120_flat_declarations st p : all_flat p ->
  as_intended (run sqrt (mk_state st [::] [::]) p) (intend sqrt st [::] p).
Proof.
  move=> FL. apply: (@flat_runs F sqrt p (mk_state st [::] [::]) [::]) => //. split=> //. by move=> q n; rewrite nth_nil.
Qed.
(** `auto d = a + b + c;` and the like: after a declaration with an operator below another, whatever the
    program does in between, every use of d reads a destroyed object. *)
Theorem C120_nested_refuted st p1 p2 e s0 s1 s2 use x : nested e ->
  run sqrt (mk_state st [::] [::]) p1 = Ok s0 -> exec sqrt s0 (NameIt e) = Ok s1 -> run sqrt s1 p2 = Ok s2 ->
  mentions (size (named s0)) use -> (forall d, mentions d use -> (d < size (named s2))%N) ->
  exec sqrt s2 (Store x use) = Undefined F.
Proof.
  move=> NE R0 R1 R2 M K.
  have G0 : good s0.
  { have : forall p s s', good s -> run sqrt s p = Ok s' -> good s'.
    { elim=> [|c p IH] s s' G /=; first by move=> [<-].
      case E: (exec sqrt s c) => [s''| |f|] // R. apply: IH R. case: c E => [e'|x' e'] E; [have [] := declared G E|have [] := stored G E]; by []. }
    move=> /(_ _ _ _ _ R0); apply. split=> // q n. by rewrite nth_nil. }
  have [G1 [_ [T1 _]]] := declared G0 R1. rewrite NE in T1.
  have D : (size (named s0) < size (named s1))%N by rewrite -(texts_size s1) T1 size_rcons texts_size.
  have Z : nth None (texts s1) (size (named s0)) = None by rewrite T1 nth_rcons texts_size ltnn eqxx.
  have [G2 [_ Z2]] := dead_stays G1 D Z R2.
  exact: dead_use Z2 M K.
Qed.
End Claims.

(** * Concrete cases *)
Definition Qf := [realFieldType of rat].
Definition vec3 (a b c : rat) : nat -> Qf := fun i => match i with 0 => a | 1 => b | _ => c end.
Definition mat2 (a b c d : rat) : nat -> nat -> Qf := fun i j => match i, j with 0, 0 => a | 0, _ => b | _, 0 => c | _, _ => d end.
(** x0 = (3, 4), x1 = 10, x2 = the matrix (1 2; 3 4), x3 = (1, 1), x4 = (1, 0, 0), x5 = (0, 1, 0). *)
Definition st0 : store Qf := fun i =>
  match i with
  | 0 => VV 2 (vec3 3%:R 4%:R 0) | 1 => VS (10%:R : Qf) | 2 => VM 2 2 (mat2 1 2%:R 3%:R 4%:R) | 3 => VV 2 (vec3 1 1 0)
  | 4 => VV 3 (vec3 1 0 0) | _ => VV 3 (vec3 0 1 0) end.
(** inv(m) * v * 10 + (v - w), det(m), m * m. *)
Definition e0 := Plus (Times (Times (Inv (Var 2)) (Var 0)) (Var 1)) (Minus (Var 0) (Var 3)).

Example C118_witness : exists v, means id false st0 e0 (VV 2 v) /\ v 0%N = - 18%:R /\ v 1%N = 28%:R
  /\ g1 (look id st0 e0) 0 = Got (- 18%:R : Qf) /\ g1 (look id st0 e0) 1 = Got (28%:R : Qf).
Proof.
  set B := mat2 (- 2%:R) 1 (3%:R / 2%:R) (- 1 / 2%:R).
  have M : means id false st0 e0 (VV 2 (fun i => (\sum_(k < 2) B i k * vec3 3%:R 4%:R 0 k) * 10%:R + (vec3 3%:R 4%:R 0 i - vec3 1 1 0 i))).
  { apply: m_add_v.
    - apply: m_mul_vs; last exact: (m_var id false st0 1%N).
      apply: m_mul_mv => //; last exact: (m_var id false st0 0%N).
      apply: (@m_inv _ _ _ _ _ _ (mat2 1 2%:R 3%:R 4%:R)) => //; first exact: (m_var id false st0 2%N).
      move=> [|[|i]] [|[|j]] // _ _; rewrite !big_ord_recr big_ord0 /=; apply/eqP; by vm_compute.
    - apply: m_sub_v; [exact: (m_var id false st0 0%N) | exact: (m_var id false st0 3%N)]. }
  have [_ G] := C118_value M.
  eexists; split; first exact: M.
  have V0 : (\sum_(k < 2) B 0%N k * vec3 3%:R 4%:R 0 k) * 10%:R + (vec3 3%:R 4%:R 0 0 - vec3 1 1 0 0) = - 18%:R.
  { rewrite !big_ord_recr big_ord0 /=; apply/eqP; by vm_compute. }
  have V1 : (\sum_(k < 2) B 1%N k * vec3 3%:R 4%:R 0 k) * 10%:R + (vec3 3%:R 4%:R 0 1 - vec3 1 1 0 1) = 28%:R.
  { rewrite !big_ord_recr big_ord0 /=; apply/eqP; by vm_compute. }
  by rewrite !G // V0 V1.
Qed.
Example C119_witness : exists w st', means id false st0 (Minus (Times (Var 1) (Var 0)) (Neg (Var 3))) (VV 2 w)
  /\ componentwise id false st0 0 (Minus (Times (Var 1) (Var 0)) (Neg (Var 3)))
  /\ assign id st0 0 (Minus (Times (Var 1) (Var 0)) (Neg (Var 3))) = Done st' /\ updated st0 st' 0 (VV 2 w).
Proof.
  have M : means id false st0 (Minus (Times (Var 1) (Var 0)) (Neg (Var 3))) (VV 2 (fun i => 10%:R * vec3 3%:R 4%:R 0 i - - vec3 1 1 0 i)).
  { apply: m_sub_v; [apply: m_mul_sv; [exact: (m_var id false st0 1%N)|exact: (m_var id false st0 0%N)] | apply: m_neg_v; exact: (m_var id false st0 3%N)]. }
  have C : componentwise id false st0 0 (Minus (Times (Var 1) (Var 0)) (Neg (Var 3))).
  { apply: cw_sub; last exact: cw_without. apply: (@cw_mul_l _ _ _ _ _ _ _ (10%:R : Qf)) => //; [exact: (m_var id false st0 1%N) | exact: cw_var]. }
  have [st' H] := C119_assign (erefl : st0 0%N = VV 2 _) M C. eexists; exists st'. split; first exact: M. by split.
Qed.

(** auto d0 = x0 + x3; auto d1 = x1 * d0; x3 <<= d1; x0 <<= d0: d0 is evaluated with the new x3. *)
Definition p0 : seq stmt := [:: NameIt (S2 OPlus (SVar 0) (SVar 3)); NameIt (S2 OTimes (SVar 1) (SName 0)); Store 3 (SName 1); Store 0 (SName 0)].
Example C120_witness : all_flat p0 /\ exists s u, run id (mk_state st0 [::] [::]) p0 = Ok s /\ vars s 0%N = VV 2 u /\ u 0%N = 43%:R /\ u 1%N = 54%:R.
Proof.
  split=> //. eexists; eexists. split; first reflexivity. split; first reflexivity. by split; apply/eqP; vm_compute.
Qed.
(** auto d0 = x0 + x3 + x0; x0 <<= d0; *)
Example C120_nested_witness : run id (mk_state st0 [::] [::]) [:: NameIt (S2 OPlus (S2 OPlus (SVar 0) (SVar 3)) (SVar 0)); Store 0 (SName 0)] = Undefined Qf.
Proof. reflexivity. Qed.

Print Assumptions C118_value.
Print Assumptions C118_unique.
Print Assumptions C118_singular.
Print Assumptions C118_no_direction.
Print Assumptions C118_refused.
Print Assumptions C118_matrix_times_number_refuted.
Print Assumptions C118_matrix_times_vector_refuted.
Print Assumptions C118_matrix_times_point_refuted.
Print Assumptions C118_tensor_of_vectors_refuted.
Print Assumptions C118_tensor_vector_matrix_refuted.
Print Assumptions C118_dimension_one_refuted.
Print Assumptions C118_dimensions_unchecked_refuted.
Print Assumptions C119_shift.
Print Assumptions C119_assign.
Print Assumptions C119_assign_point.
Print Assumptions C119_compound.
Print Assumptions C119_cross_refuted.
Print Assumptions C119_norm_refuted.
Print Assumptions C120_flat_declarations.
Print Assumptions C120_nested_refuted.
