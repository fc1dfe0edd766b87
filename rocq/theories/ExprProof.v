(** Proofs for C118: evaluation of expressions. *)
Set Warnings "-notation-overridden,-ambiguous-paths".
From mathcomp Require Import ssreflect ssrfun ssrbool eqtype ssrnat seq choice fintype div bigop ssralg ssrnum perm fingroup zmodp matrix.
From Verif Require Import MatrixModel MatrixProof MatrixProps ExprModel ExprSpec.
Set Implicit Arguments.
Unset Strict Implicit.
Import GRing.Theory Num.Theory.
Local Open Scope ring_scope.

Section Proofs.
Variable F : realFieldType.
Variable sqrt : F -> F.
Implicit Types (w : view F) (st : store F).

Lemma asum_got (f : nat -> ans F) (g : nat -> F) n : (forall k, (k < n)%N -> f k = Got (g k)) -> asum f n = Got (\sum_(k < n) g k).
Proof.
  elim: n => [|n IH] H; first by rewrite big_ord0.
  rewrite big_ord_recr /=. case: n IH H => [|n] IH H; first by rewrite big_ord0 add0r H.
  by rewrite IH ?H // => k Hk; apply: H; rewrite ltnS ltnW.
Qed.
Lemma dot_got n (f g : nat -> ans F) u v : (1 < n)%N -> (forall k, (k < n)%N -> f k = Got (u k)) -> (forall k, (k < n)%N -> g k = Got (v k)) ->
  dot_product n n f g = Got (\sum_(k < n) u k * v k).
Proof. move=> N Hf Hg. rewrite /dot_product eqxx N /=. rewrite (@asum_got _ (fun k => u k * v k)) // => k Hk. by rewrite Hf ?Hg. Qed.
Lemma magsq_got (f : nat -> ans F) u n : (forall k, (k <= n)%N -> f k = Got (u k)) -> magnitude_sqrd f n = Got (\sum_(k < n.+1) u k ^+ 2).
Proof.
  elim: n => [|n IH] H; first by rewrite /= H // big_ord_recr big_ord0 /= add0r expr2.
  rewrite big_ord_recr /=.
  case: n IH H => [|[|[|n]]] IH H.
  - by rewrite !big_ord_recr !big_ord0 /= !H //= add0r !expr2.
  - by rewrite !big_ord_recr !big_ord0 /= !H //= add0r !expr2.
  - by rewrite !big_ord_recr !big_ord0 /= !H //= add0r !expr2.
  - rewrite -/(magnitude_sqrd f n.+3) [magnitude_sqrd f n.+3]IH; last by move=> k Hk; apply: H; exact: leqW.
    by rewrite H //= -expr2 addrC.
Qed.
Lemma mag_got (f : nat -> ans F) u n : (0 < n)%N -> (forall k, (k < n)%N -> f k = Got (u k)) -> magnitude sqrt n f = Got (sqrt (\sum_(k < n) u k ^+ 2)).
Proof. case: n => [|n] // _ H. by rewrite /magnitude (@magsq_got _ u). Qed.
Lemma first_none (f : nat -> nat -> ans F) n k : (0 < n)%N -> (k <= n * n)%N -> (forall i j, (i < n)%N -> (j < n)%N -> exists a, f i j = Got a) -> first_bad f n k = None.
Proof.
  move=> N K H. elim: k K => [|k IH] K //=.
  have [a ->] : exists a, f (k %/ n)%N (k %% n)%N = Got a by apply: H; [rewrite ltn_divLR | rewrite ltn_mod].
  by apply: IH; apply: ltnW.
Qed.
Lemma square_got n (f : nat -> nat -> ans F) (A : nat -> nat -> F) g : (0 < n)%N -> (forall i j, (i < n)%N -> (j < n)%N -> f i j = Got (A i j)) ->
  with_square n f g = g (fun i j => entry (f i j)).
Proof. move=> N H. rewrite /with_square first_none // => i j Hi Hj. exists (A i j). exact: H. Qed.
Lemma to_matrix_ext n (A B : mat F) : (forall i j, (i < n)%N -> (j < n)%N -> A i j = B i j) -> to_matrix n A = to_matrix n B.
Proof. move=> H. apply/matrixP => i j. by rewrite !mxE H. Qed.
Lemma det_ext n (A B : mat F) : (forall i j, (i < n)%N -> (j < n)%N -> A i j = B i j) -> determinant n A = determinant n B.
Proof. move=> H. by rewrite !det_ok (to_matrix_ext H). Qed.

Lemma inverse_right n (A B M : mat F) : (1 < n)%N ->
  (forall i j, (i < n)%N -> (j < n)%N -> M i j = A i j) ->
  (forall i j, (i < n)%N -> (j < n)%N -> \sum_(k < n) A i k * B k j = (if i == j then 1 else 0)) ->
  forall i j, (i < n)%N -> (j < n)%N -> inverse_at_index n M i j = Some (B i j).
Proof.
  move=> N E R i j Hi Hj.
  have R' : forall i j, (i < n)%N -> (j < n)%N -> \sum_(k < n) M i k * B k j = (if i == j then 1 else 0).
  { move=> i' j' Hi' Hj'. rewrite -R //. apply: eq_bigr => k _. by rewrite E. }
  case: (altP (determinant n M =P 0)) => D.
  - have [_ /(_ B) [[]]] := C98_singular N D. exact: R'.
  - have [iv [G [_ U]]] := C98_inverse N D. rewrite G //. by rewrite (U B R').
Qed.

Lemma evaluates st e v : means sqrt false st e v -> shows (look sqrt st e) v.
Proof.
  elim=> {e v}.
  - move=> i /=. case: (st i) => [a|n u|n u|r c A]; split=> //=; move=> *; repeat match goal with H : is_true _ |- _ => rewrite H; clear H end => //.
  (* sums *)
  - move=> a b x y _ [K1 G1] _ [K2 G2]. rewrite /= /plus_view K1 K2. by rewrite /shows /= G1 G2.
  - move=> a b n u v _ [K1 G1] _ [K2 G2]. rewrite /= /plus_view K1 K2. split=> //= i Hi. by rewrite Hi G1 ?G2.
  - move=> a b n u v _ [K1 G1] _ [K2 G2]. rewrite /= /plus_view K1 K2. split=> //= i Hi. by rewrite Hi G1 ?G2.
  - move=> a b r c A B _ [K1 G1] _ [K2 G2]. rewrite /= /plus_view K1 K2. split=> //= i j Hi Hj. by rewrite Hi Hj /= G1 ?G2.
  - move=> a b x y _ [K1 G1] _ [K2 G2]. rewrite /= /minus_view K1 K2. by rewrite /shows /= G1 G2.
  - move=> a b n u v _ [K1 G1] _ [K2 G2]. rewrite /= /minus_view K1 K2. split=> //= i Hi. by rewrite Hi G1 ?G2.
  - move=> a b n u v _ [K1 G1] _ [K2 G2]. rewrite /= /minus_view K1 K2. split=> //= i Hi. by rewrite Hi G1 ?G2.
  - move=> a b n u v _ [K1 G1] _ [K2 G2]. rewrite /= /minus_view K1 K2. split=> //= i Hi. by rewrite Hi G1 ?G2.
  - move=> a b r c A B _ [K1 G1] _ [K2 G2]. rewrite /= /minus_view K1 K2. split=> //= i j Hi Hj. by rewrite Hi Hj /= G1 ?G2.
  (* products *)
  - move=> a b x y _ [K1 G1] _ [K2 G2]. rewrite /= /times_view K1 K2. by rewrite /shows /= G1 G2.
  - move=> a b n x v _ [K1 G1] _ [K2 G2]. rewrite /= /times_view K1 K2. split=> //= i Hi. by rewrite Hi G1 ?G2.
  - move=> a b n u y _ [K1 G1] _ [K2 G2]. rewrite /= /times_view K1 K2. split=> //= i Hi. by rewrite Hi G1 ?G2.
  - move=> a b r c x B _ [K1 G1] _ [K2 G2]. rewrite /= /times_view K1 K2. split=> //= i j Hi Hj. by rewrite Hi Hj /= G1 ?G2.
  - by [].
  - move=> a b n u v /= N _ [K1 G1] _ [K2 G2]. rewrite /= /times_view K1 K2. split=> //=. by rewrite (dot_got N G1 G2).
  - move=> a b n c u B /= N _ [K1 G1] _ [K2 G2]. rewrite /= /times_view K1 K2. split=> //= i j Hi Hj. rewrite Hi Hj /=.
    by rewrite (@dot_got _ _ _ u (fun k => B k j)) // => k Hk; rewrite G2.
  - move=> a b r n A v /= /andP [/eqP E N] _ [K1 G1] _ [K2 G2]. rewrite /= /times_view K1 K2. subst r. split=> //= i Hi. rewrite Hi.
    by rewrite (@dot_got _ _ _ (A i) v) // => k Hk; rewrite G1.
  - move=> a b r n A v /= /andP [/eqP E N] _ [K1 G1] _ [K2 G2]. rewrite /= /times_view K1 K2. subst r. split=> //= i Hi. rewrite Hi.
    by rewrite (@dot_got _ _ _ (A i) v) // => k Hk; rewrite G1.
  - move=> a b r n c A B /= N _ [K1 G1] _ [K2 G2]. rewrite /= /times_view K1 K2. split=> //= i j Hi Hj. rewrite Hi Hj eqxx /=.
    by rewrite (@dot_got _ _ _ (A i) (fun k => B k j)) // => k Hk; rewrite ?G1 ?G2.
  - move=> a b x y Y _ [K1 G1] _ [K2 G2]. rewrite /= /over_view K1 K2. by rewrite /shows /= G1 G2 /= (negbTE Y).
  - move=> a b n u y Y _ [K1 G1] _ [K2 G2]. rewrite /= /over_view K1 K2. split=> //= i Hi. by rewrite Hi G1 ?G2 //= (negbTE Y).
  - move=> a b r c A y Y _ [K1 G1] _ [K2 G2]. rewrite /= /over_view K1 K2. split=> //= i j Hi Hj. by rewrite Hi Hj /= G1 ?G2 //= (negbTE Y).
  - move=> a b u v w _ [K1 G1] _ [K2 G2] W0 W1 W2. rewrite /= /cross_view K1 K2. split=> //= i Hi. rewrite Hi.
    case: i Hi => [|[|[|i]]] Hi //; by rewrite /= !G1 ?G2 //= ?W0 ?W1 ?W2.
  (* tensor products *)
  - by [].
  - move=> a b r c n A v K _ [K1 G1] _ [K2 G2] HK. rewrite /= /tensor_view K1 K2 muln1. split=> //= i j Hi Hj. rewrite Hi Hj /= divn1.
    have N: (0 < n)%N by case: (n) Hj => //; rewrite muln0.
    have J: (j %/ n < c)%N by rewrite ltn_divLR.
    have L: (j %% n < n)%N by rewrite ltn_mod.
    by rewrite G1 ?G2 //= -HK // -divn_eq.
  - move=> a b n r c u B K /= RC _ [K1 G1] _ [K2 G2] HK. rewrite /= /tensor_view K1 K2 mul1n. split=> //= i j Hi Hj. rewrite Hi Hj /= (modn_small Hj).
    have N: (0 < r)%N by case: (r) Hi => //; rewrite muln0.
    have I: (i %/ r < n)%N by rewrite ltn_divLR.
    have L: (i %% r < r)%N by rewrite ltn_mod.
    by rewrite (leq_trans Hj RC) G1 ?G2 //= -HK // -divn_eq.
  - move=> a b r c p q A B K _ [K1 G1] _ [K2 G2] HK. rewrite /= /tensor_view K1 K2. split=> //= i j Hi Hj. rewrite Hi Hj /=.
    have P: (0 < p)%N by case: (p) Hi => //; rewrite muln0.
    have Q: (0 < q)%N by case: (q) Hj => //; rewrite muln0.
    have I: (i %/ p < r)%N by rewrite ltn_divLR.
    have J: (j %/ q < c)%N by rewrite ltn_divLR.
    by rewrite G1 ?G2 ?ltn_mod //= -HK ?ltn_mod // -!divn_eq.
  (* one operand *)
  - move=> a x _ [K1 G1]. by rewrite /= /neg_view /each K1 /shows /= G1.
  - move=> a n u _ [K1 G1]. rewrite /= /neg_view /each K1. split=> //= i Hi. by rewrite Hi G1.
  - move=> a r c A _ [K1 G1]. rewrite /= /neg_view /each K1. split=> //= i j Hi Hj. by rewrite Hi Hj /= G1.
  - move=> a x _ [K1 G1]. by rewrite /= /abs_view /each K1 /shows /= G1.
  - move=> a n u _ [K1 G1]. rewrite /= /abs_view /each K1. split=> //= i Hi. by rewrite Hi G1.
  - move=> a r c A _ [K1 G1]. rewrite /= /abs_view /each K1. split=> //= i j Hi Hj. by rewrite Hi Hj /= G1.
  - move=> a x X _ [K1 G1]. by rewrite /= /rec_view /each K1 /shows /= G1 /= (negbTE X) mul1r.
  - move=> a n u X _ [K1 G1]. rewrite /= /rec_view /each K1. split=> //= i Hi. by rewrite Hi G1 //= (negbTE (X i Hi)) mul1r.
  - move=> a n u X _ [K1 G1]. rewrite /= /rec_view /each K1. split=> //= i Hi. by rewrite Hi G1 //= (negbTE (X i Hi)) mul1r.
  - move=> a r c A X _ [K1 G1]. rewrite /= /rec_view /each K1. split=> //= i j Hi Hj. by rewrite Hi Hj /= G1 //= (negbTE (X i j Hi Hj)) mul1r.
  - move=> a n u N _ [K1 G1]. rewrite /= /mag_view K1. split=> //=. exact: mag_got.
  - move=> a n u N X _ [K1 G1]. rewrite /= /norm_view K1. split=> //= i Hi. rewrite Hi /normal_at (mag_got N G1) (negbTE X) G1 //=. by rewrite (negbTE X).
  - move=> a n A N _ [K1 G1]. rewrite /= /det_view K1. split=> //=. rewrite (square_got _ N G1). congr Got.
    rewrite -C98_determinant. apply: det_ext => i j Hi Hj. by rewrite G1.
  - move=> a r c A _ [K1 G1]. rewrite /= /transp_view K1. split=> //= i j Hi Hj. by rewrite Hi Hj /= G1.
  - move=> a n A B /= N _ [K1 G1] R. rewrite /= /inv_view K1. split=> //= i j Hi Hj. rewrite Hi Hj /= ltnNge N /=.
    rewrite (square_got _ (ltnW N) G1). rewrite (@inverse_right n A B _ N) // => i' j' Hi' Hj'. by rewrite G1.
Qed.

(** * Assignment *)
Lemma read_all_got (f : nat -> ans F) u n : (forall i, (i < n)%N -> f i = Got (u i)) -> read_all f n = None.
Proof. elim: n => [|n IH] H //=. rewrite IH; last by move=> i Hi; apply: H; apply: ltnW. by rewrite H. Qed.
Lemma set_other st x v y : y <> x -> set_var st x v y = st y.
Proof. move=> H. by rewrite /set_var; case: eqP. Qed.
Lemma set_same st x v : set_var st x v x = v.
Proof. by rewrite /set_var eqxx. Qed.

Lemma shift_ok st x e v : same_kind (st x) v -> means sqrt false st e v ->
  exists st', shift_assign sqrt st x e = Done st' /\ updated st st' x v.
Proof.
  move=> K /evaluates. rewrite /shift_assign.
  case: v K => [a|n u|n u|r c A]; case: (st x) => [a'|n' u'|n' u'|r' c' A'] //= K [-> G].
  - rewrite G. eexists; split; first reflexivity. split; [by rewrite set_same | by move=> y; apply: set_other].
  - subst n'. rewrite (read_all_got G). eexists; split; first reflexivity. split; [|by move=> y; apply: set_other].
    rewrite set_same /=. split=> // i Hi. by rewrite G.
  - subst n'. rewrite (read_all_got G). eexists; split; first reflexivity. split; [|by move=> y; apply: set_other].
    rewrite set_same /=. split=> // i Hi. by rewrite G.
  - case: K => K1 K2. subst r' c'. rewrite (@read_all_got _ (fun k => A (k %/ c)%N (k %% c)%N)); last first.
    { move=> i Hi. have C: (0 < c)%N by case: (c) Hi => //; rewrite muln0. apply: G; [by rewrite ltn_divLR | by rewrite ltn_mod]. }
    eexists; split; first reflexivity. split; [|by move=> y; apply: set_other].
    rewrite set_same /=. split=> //; split=> // i j Hi Hj. by rewrite G.
Qed.

Lemma look_without st st' x e : (forall y, y <> x -> st' y = st y) -> ~~ occurs x e -> look sqrt st' e = look sqrt st e.
Proof.
  move=> H. elim: e => /= [y /eqP N|a IHa b IHb|a IHa b IHb|a IHa b IHb|a IHa b IHb|a IHa b IHb|a IHa b IHb|a IHa|a IHa|a IHa|a IHa|a IHa|a IHa|a IHa|a IHa];
    try (rewrite negb_or => /andP [N1 N2]; by rewrite IHa ?IHb);
    try (move=> N1; by rewrite IHa).
  by rewrite H.
Qed.

(** Two views agree on component i. *)
Definition agree (i : nat) (w w' : view F) : Prop := knd w = knd w' /\ g1 w i = g1 w' i.
Lemma look_componentwise st st' x e i :
  (forall y, y <> x -> st' y = st y) -> agree i (term_view (st' x)) (term_view (st x)) -> componentwise sqrt false st x e ->
  agree i (look sqrt st' e) (look sqrt st e).
Proof.
  move=> H HX. elim=> {e}.
  - move=> e N. by rewrite (look_without H N).
  - exact: HX.
  - move=> a b _ [K1 G1] _ [K2 G2]. rewrite /agree /= /plus_view K1 K2. by case: (knd (look _ st a)); case: (knd (look _ st b)) => * //=; rewrite ?G1 ?G2.
  - move=> a b _ [K1 G1] _ [K2 G2]. rewrite /agree /= /minus_view K1 K2. by case: (knd (look _ st a)); case: (knd (look _ st b)) => * //=; rewrite ?G1 ?G2.
  - move=> a b y N /evaluates [K _] _ [K2 G2]. rewrite /agree /= /times_view (look_without H N) K K2.
    by case: (knd (look _ st b)) => * //=; rewrite ?G2.
  - move=> a b y N /evaluates [K _] _ [K2 G2]. rewrite /agree /= /times_view (look_without H N) K K2.
    by case: (knd (look _ st a)) => * //=; rewrite ?G2.
  - move=> a b N _ [K2 G2]. rewrite /agree /= /over_view (look_without H N) K2.
    by case: (knd (look _ st a)); case: (knd (look _ st b)) => * //=; rewrite ?G2.
  - move=> a _ [K G]. rewrite /agree /= /neg_view /each K. by case: (knd (look _ st a)) => * //=; rewrite ?G.
  - move=> a _ [K G]. rewrite /agree /= /abs_view /each K. by case: (knd (look _ st a)) => * //=; rewrite ?G.
  - move=> a _ [K G]. rewrite /agree /= /rec_view /each K. by case: (knd (look _ st a)) => * //=; rewrite ?G.
Qed.

Section Written.
Variables (st : store F) (x : nat) (e : ex) (combine : ans F -> ans F -> ans F) (u v : nat -> F) (n : nat) (is_point : bool).
Let V (f : nat -> F) := if is_point then VP n f else VV n f.
Hypothesis X : st x = V u.
Hypothesis CW : componentwise sqrt false st x e.
Hypothesis G : forall i, (i < n)%N -> exists a, g1 (look sqrt st e) i = Got a /\ combine (Got (u i)) (Got a) = Got (v i).

Lemma written k : (k <= n)%N -> exists st' f, write_components sqrt st x e combine k = Done st' /\ st' x = V f
  /\ (forall i, (i < n)%N -> f i = if (i < k)%N then v i else u i) /\ forall y, y <> x -> st' y = st y.
Proof.
  elim: k => [|k IH] K; first by exists st, u.
  have [st' [f [W [SX [Hf O]]]]] := IH (ltnW K).
  have [a [Ga C]] := G K.
  have A : agree k (look sqrt st' e) (look sqrt st e).
  { apply: look_componentwise CW => //. rewrite SX X /V. rewrite /agree. case: is_point => /=; by rewrite K Hf // ltnn. }
  case: A => _ A.
  have CK : component st' x k = Got (u k).
  { rewrite /component SX /V. case: is_point => /=; by rewrite K Hf // ltnn. }
  exists (set_component st' x k (v k)), (fun i => if i == k then v k else f i). 
  rewrite /= W CK A Ga C. split=> //. split; first by rewrite /set_component SX /V; case: is_point; rewrite set_same.
  split; last by move=> y Hy; rewrite /set_component SX /V; case: is_point; rewrite set_other ?O.
  move=> i Hi. rewrite ltnS leq_eqVlt. case: eqP => [->|_] //=. by rewrite Hf.
Qed.
Lemma written_all : exists st', write_components sqrt st x e combine n = Done st' /\ updated st st' x (V v).
Proof.
  have [st' [f [W [SX [Hf O]]]]] := written (leqnn n). exists st'. split=> //. split=> //. rewrite SX /V.
  by case: is_point => /=; split=> // i Hi; rewrite Hf // Hi.
Qed.
End Written.

Lemma assign_ok st x e n u v : st x = VV n u -> means sqrt false st e (VV n v) -> componentwise sqrt false st x e ->
  exists st', assign sqrt st x e = Done st' /\ updated st st' x (VV n v).
Proof.
  move=> X /evaluates [K G] CW. rewrite /assign X K. apply: (@written_all st x e _ u v n false) => // i Hi.
  exists (v i). by rewrite G.
Qed.
Lemma assign_point_ok st x e n u v : st x = VP n u -> means sqrt false st e (VP n v) -> componentwise sqrt false st x e ->
  exists st', assign sqrt st x e = Done st' /\ updated st st' x (VP n v).
Proof.
  move=> X /evaluates [K G] CW. rewrite /assign X K. apply: (@written_all st x e _ u v n true) => // i Hi.
  exists (v i). by rewrite G.
Qed.
Lemma compound_ok st x e n u v (b : bool) : st x = VV n u -> means sqrt false st e (VV n v) -> componentwise sqrt false st x e ->
  exists st', compound_assign sqrt st x e b = Done st' /\ updated st st' x (VV n (fun i => if b then u i - v i else u i + v i)).
Proof.
  move=> X /evaluates [K G] CW. rewrite /compound_assign X K.
  apply: (@written_all st x e _ u (fun i => if b then u i - v i else u i + v i) n false) => // i Hi.
  exists (v i). rewrite G //. by case: b.
Qed.
End Proofs.
