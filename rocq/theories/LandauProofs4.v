(** The ghost operator is the second derivative of the Landau functional. *)
From Coq Require Import Ring.
From mathcomp Require Import all_ssreflect all_algebra.
From Verif Require Import GaugeModel GaugeSpec GaugeProofs GaugeProofs2 GaugeProofs3 LoopModel AdjModel AdjSpec AdjProofs5 FixModel FixSpec FixProofs3 LandauModel LandauSpec LandauProofs LandauProofs3.
Import GRing.Theory Num.Theory Order.POrderTheory.
Set Implicit Arguments.
Unset Strict Implicit.
Unset Printing Implicit Defensive.
Local Open Scope ring_scope.

Section Ghost.
Variable C : numClosedFieldType.
Add Ring Clandau4 : (Crth C).
Variable N : nat.
Hypothesis N0 : (0 < N)%N.
Variable G : grid.
Notation GG := 'M[C]_N.
Notation d := (N * N - 1)%N.
Notation T := (generators C N).
Notation field := (G -> 'I_d -> C).
Implicit Types (U : gauge C N G) (v w : field) (x y : G).

Lemma ghost_ext U v w : (forall x a, v x a = w x a) -> forall x a, ghost_matrix U v x a = ghost_matrix U w x a.
Proof.
move=> h x a; apply: eq_bigr => mu _; rewrite /mulc; congr (_ - _ - _); by apply: eq_bigr => b _; rewrite h.
Qed.
Lemma cdot_ext v v' w w' : (forall x a, v x a = v' x a) -> (forall x a, w x a = w' x a) -> cdot v w = cdot v' w'.
Proof. by move=> h h'; apply: eq_bigr => x _; apply: eq_bigr => a _; rewrite h h'. Qed.
Lemma mulcD (M : 'M[C]_d) (f g : 'I_d -> C) (k : C) a : mulc M (fun b => f b + k * g b) a = mulc M f a + k * mulc M g a.
Proof. rewrite /mulc big_distrr -big_split; apply: eq_bigr => b _ /=; cring_fold C; ring. Qed.
Lemma ghost_lin U v w (k : C) x a : ghost_matrix U (fun x a => v x a + k * w x a) x a = ghost_matrix U v x a + k * ghost_matrix U w x a.
Proof.
rewrite /ghost_matrix big_distrr -big_split; apply: eq_bigr => mu _ /=; rewrite !mulcD.
move: (mulc _ _ _) (mulc _ _ _) (mulc _ _ _) (mulc _ _ _) (mulc _ _ _) (mulc _ _ _) => *; cring_fold C; ring.
Qed.
Lemma retr_real (A : GG) : retr A \is Num.real. Proof. exact: Creal_Re. Qed.

(** Self-adjoint. *)
Lemma mulc_adj (M M' : 'M[C]_d) (f g : 'I_d -> C) : (forall a b, (M a b)^* = M' b a) ->
  \sum_a (f a)^* * mulc M g a = \sum_a (mulc M' f a)^* * g a.
Proof.
move=> h; rewrite /mulc; under eq_bigr do rewrite big_distrr /=.
rewrite exchange_big; apply: eq_bigr => b _ /=; rewrite rmorph_sum big_distrl; apply: eq_bigr => a _ /=.
by rewrite rmorphM -h conjCK mulrA [(f a)^* * _]mulrC.
Qed.
Notation dotc f g := (\sum_a (f a)^* * g a).
Lemma cdotM_r U v w : cdot v (ghost_matrix U w) = \sum_(mu < 4) \sum_x (dotc (v x) (mulc (ghost_A U x mu) (w x))
  - dotc (v x) (mulc (ghost_B U x mu) (w (sup mu x))) - dotc (v x) (mulc (ghost_C U x mu) (w (sdn mu x)))).
Proof.
rewrite [RHS]exchange_big; apply: eq_bigr => x _ /=.
under eq_bigr do rewrite /ghost_matrix big_distrr /=.
rewrite exchange_big; apply: eq_bigr => mu _ /=; rewrite -!sumrB; apply: eq_bigr => a _; by rewrite !mulrBr.
Qed.
Lemma cdotM_l U v w : cdot (ghost_matrix U v) w = \sum_(mu < 4) \sum_x (dotc (mulc (ghost_A U x mu) (v x)) (w x)
  - dotc (mulc (ghost_B U x mu) (v (sup mu x))) (w x) - dotc (mulc (ghost_C U x mu) (v (sdn mu x))) (w x)).
Proof.
rewrite [RHS]exchange_big; apply: eq_bigr => x _ /=.
under eq_bigr do rewrite /ghost_matrix rmorph_sum big_distrl /=.
rewrite exchange_big; apply: eq_bigr => mu _ /=; rewrite -!sumrB; apply: eq_bigr => a _; by rewrite !rmorphB !mulrBl.
Qed.
Lemma A_sym U x mu a b : (ghost_A U x mu a b)^* = ghost_A U x mu b a.
Proof. by rewrite !mxE (conj_Creal (retr_real _)) addrC. Qed.
Lemma B_adj U x mu a b : (ghost_B U x mu a b)^* = ghost_C U (sup mu x) mu b a.
Proof. by rewrite !mxE rmorphM conjC_nat (conj_Creal (retr_real _)) supK. Qed.
Lemma C_adj U x mu a b : (ghost_C U x mu a b)^* = ghost_B U (sdn mu x) mu b a.
Proof. by rewrite !mxE rmorphM conjC_nat (conj_Creal (retr_real _)). Qed.
Lemma ghost_adj U v w : cdot v (ghost_matrix U w) = cdot (ghost_matrix U v) w.
Proof.
rewrite cdotM_r cdotM_l; apply: eq_bigr => mu _; rewrite !sumrB.
have e1 : \sum_x dotc (v x) (mulc (ghost_B U x mu) (w (sup mu x))) = \sum_x dotc (mulc (ghost_C U x mu) (v (sdn mu x))) (w x).
  rewrite [RHS](reindex_inj (can_inj (supK (l:=G) mu))); apply: eq_bigr => x _; rewrite supK.
  by apply: mulc_adj => a b; exact: B_adj.
have e2 : \sum_x dotc (v x) (mulc (ghost_C U x mu) (w (sdn mu x))) = \sum_x dotc (mulc (ghost_B U x mu) (v (sup mu x))) (w x).
  rewrite [RHS](reindex_inj (can_inj (sdnK (l:=G) mu))); apply: eq_bigr => x _; rewrite sdnK.
  by apply: mulc_adj => a b; exact: C_adj.
rewrite e1 e2 addrAC; congr (_ - _ - _).
by apply: eq_bigr => x _; apply: mulc_adj => a b; exact: A_sym.
Qed.

(** The quadratic form of real fields. *)
Notation om v := (matrix_of T v).
Lemma bil (f g : 'I_d -> C) (V : GG) : (forall a, f a \is Num.real) -> (forall a, g a \is Num.real) ->
  \sum_(a < d) \sum_(b < d) f a * (retr (T`_a *m T`_b *m V) * g b) = retr ((\sum_(a < d) f a *: T`_a) *m (\sum_(a < d) g a *: T`_a) *m V).
Proof.
move=> rf rg; rewrite !mulmx_suml retr_sum; apply: eq_bigr => a _.
rewrite -!scalemxAl retrZ // -big_distrr /=; congr (_ * _); rewrite mulmx_sumr mulmx_suml retr_sum; apply: eq_bigr => b _.
by rewrite -scalemxAr -scalemxAl retrZ // mulrC.
Qed.
Lemma quadratic U w : (forall x a, w x a \is Num.real) -> cdot w (ghost_matrix U w) = \sum_(mu < 4) \sum_x
  (2%:R * retr (om w x *m om w x *m (U x mu + U (sdn mu x) mu)) - 2%:R * retr (om w (sup mu x) *m om w x *m U x mu)
   - 2%:R * retr (om w x *m om w (sdn mu x) *m U (sdn mu x) mu)).
Proof.
move=> rw; rewrite cdotM_r; apply: eq_bigr => mu _; apply: eq_bigr => x _; congr (_ - _ - _).
- rewrite -bil //; under eq_bigr do rewrite (conj_Creal (rw _ _)) /mulc big_distrr /=.
  transitivity (\sum_(a < d) \sum_(b < d) (w x a * (retr (T`_a *m T`_b *m (U x mu + U (sdn mu x) mu)) * w x b) + w x a * (retr (T`_b *m T`_a *m (U x mu + U (sdn mu x) mu)) * w x b))).
    by apply: eq_bigr => a _; apply: eq_bigr => b _; rewrite mxE mulmxDl retrD mulrDl mulrDr.
  under eq_bigr do rewrite big_split /=; rewrite big_split /=.
  rewrite [X in _ + X]exchange_big /= mulrDl mul1r; congr (_ + _).
  apply: eq_bigr => a _; apply: eq_bigr => b _; move: (retr _) (w x a) (w x b) => *; cring_fold C; ring.
- rewrite -bil // exchange_big big_distrr /=; apply: eq_bigr => a _; rewrite (conj_Creal (rw _ _)) /mulc !big_distrr.
  apply: eq_bigr => b _ /=; rewrite mxE; move: (retr _) (w x a) (w _ b) (2%:R) => *; cring_fold C; ring.
- rewrite -bil // big_distrr /=; apply: eq_bigr => a _; rewrite (conj_Creal (rw _ _)) /mulc !big_distrr.
  apply: eq_bigr => b _ /=; rewrite mxE; move: (retr _) (w x a) (w _ b) (2%:R) => *; cring_fold C; ring.
Qed.
Lemma omH w x : (forall x a, w x a \is Num.real) -> htrans (om w x) = om w x.
Proof. by move=> rw; rewrite /matrix_of htrans_sum; apply: eq_bigr => a _; rewrite htransZ genH // (conj_Creal (rw _ _)). Qed.
Lemma om_tr w x : \tr (om w x) = 0.
Proof. by rewrite /matrix_of tr_sum big1 // => a _; rewrite mxtraceZ gen_tr ?mulr0. Qed.

Lemma expand2 (a b : C) (P V Q X Y : GG) : X = 1%:M + a *: P -> Y = 1%:M - a *: Q ->
  (X - b *: (P *m P)) *m V *m (Y - b *: (Q *m Q)) = X *m V *m Y - b *: (P *m P *m V + Q *m Q *m V) 
    + (b *: (Q *m Q *m V - V *m (Q *m Q)) + ((a * b) *: (P *m P *m V *m Q - P *m V *m (Q *m Q)) + (b * b) *: (P *m P *m V *m (Q *m Q)))).
Proof.
move=> eX eY; rewrite mulmxBl mulmxBr !mulmxBl.
have -> : X *m V *m (b *: (Q *m Q)) = b *: (V *m (Q *m Q)) + (a * b) *: (P *m V *m (Q *m Q)).
  by rewrite -scalemxAr eX !mulmxDl mul1mx -!scalemxAl scalerDr scalerA [b * a]mulrC.
have -> : b *: (P *m P) *m V *m Y = b *: (P *m P *m V) - (a * b) *: (P *m P *m V *m Q).
  by rewrite eY mulmxBr mulmx1 -!scalemxAl -!scalemxAr scalerA [b * a]mulrC.
have -> : b *: (P *m P) *m V *m (b *: (Q *m Q)) = (b * b) *: (P *m P *m V *m (Q *m Q)) by rewrite -scalemxAr -!scalemxAl scalerA.
rewrite !scalerBr scalerDr; move: (X *m V *m Y) (_ *: _) (_ *: _) (_ *: _) (_ *: _) (_ *: _) (_ *: _) => p q r s t u v.
by apply/matrixP => i j; rewrite !mxE; move: (p i j) (q i j) (r i j) (s i j) (t i j) (u i j) (v i j) => *; cring_fold C; ring.
Qed.
Lemma second_order U w : (forall x a, w x a \is Num.real) -> exists c3 c4, forall e, e \is Num.real ->
  landau (turned (order2 e (om w)) U) = landau U - e * (\sum_x \tr (om w x *m div U x)) - e ^+ 2 / 4%:R * cdot w (ghost_matrix U w)
    + e ^+ 3 * c3 + e ^+ 4 * c4.
Proof.
move=> rw; have H x := omH x rw; have t0 := om_tr w.
have alg x : in_algebra (om w x) by split; [rewrite daggerE|].
pose Z3 x mu := om w x *m om w x *m U x mu *m om w (sup mu x) - om w x *m U x mu *m (om w (sup mu x) *m om w (sup mu x)).
pose Z4 x mu := om w x *m om w x *m U x mu *m (om w (sup mu x) *m om w (sup mu x)).
exists (\sum_x \sum_(mu < 4) - 'Im (\tr (Z3 x mu)) / 2%:R), (\sum_x \sum_(mu < 4) retr (Z4 x mu) / 4%:R) => e er.
have e2r : e ^+ 2 / 2%:R \is Num.real by rewrite rpredM ?rpredX // rpredV realn.
have step x mu : retr (turned (order2 e (om w)) U x mu) = retr (turned (order1 e (om w)) U x mu)
   - e ^+ 2 / 2%:R * (retr (om w x *m om w x *m U x mu) + retr (om w (sup mu x) *m om w (sup mu x) *m U x mu))
   + e ^+ 3 * (- 'Im (\tr (Z3 x mu)) / 2%:R) + e ^+ 4 * (retr (Z4 x mu) / 4%:R).
  rewrite /turned /order2 !daggerE.
  have -> : htrans (1%:M + (e * 'i) *: om w (sup mu x) - (e ^+ 2 / 2%:R) *: (om w (sup mu x) *m om w (sup mu x)))
     = (1%:M - (e * 'i) *: om w (sup mu x)) - (e ^+ 2 / 2%:R) *: (om w (sup mu x) *m om w (sup mu x)).
    rewrite htransB htransD !htransZ htransM !H htrans1 (conj_Creal e2r) rmorphM conjCi (conj_Creal er) mulrN scaleNr //.
  rewrite (expand2 _ _ erefl erefl) -/(order1 e (om w) x).
  have -> : 1%:M - (e * 'i) *: om w (sup mu x) = htrans (order1 e (om w) (sup mu x)).
    by rewrite /order1 htransD htransZ H htrans1 rmorphM conjCi (conj_Creal er) mulrN scaleNr.
  rewrite -/(Z3 x mu) -/(Z4 x mu); move: (Z3 x mu) (Z4 x mu) => z3 z4.
  have e4r : e ^+ 2 / 2%:R * (e ^+ 2 / 2%:R) \is Num.real by rewrite rpredM.
  rewrite retrD retrB (retrZ _ e2r) (retrD (om w x *m om w x *m U x mu)) retrD (retrZ _ e2r) retrB retrD (retrZ _ e4r).
  have -> : retr (U x mu *m (om w (sup mu x) *m om w (sup mu x))) = retr (om w (sup mu x) *m om w (sup mu x) *m U x mu) by rewrite retrC.
  rewrite subrr mulr0 add0r {4}/retr mxtraceZ.
  have -> : 'Re (e * 'i * (e ^+ 2 / 2%:R) * \tr z3) = e ^+ 3 * (- 'Im (\tr z3) / 2%:R).
    have -> : e * 'i * (e ^+ 2 / 2%:R) * \tr z3 = (e * (e ^+ 2 / 2%:R)) * ('i * \tr z3).
      move: (\tr _) (_ / _) => *; cring_fold C; ring.
    have r3 : e * (e ^+ 2 / 2%:R) \is Num.real by rewrite rpredM.
    rewrite (ReMl r3) ReMil mulrA -exprS; move: ('Im _) (2%:R^-1) (e ^+ 3) => *; cring_fold C; ring.
  have -> : e ^+ 2 / 2%:R * (e ^+ 2 / 2%:R) * retr z4 = e ^+ 4 * (retr z4 / 4%:R).
    have -> : 4%:R = 2%:R * 2%:R :> C by rewrite -natrM.
    rewrite invfM (exprD e 2 2); move: (retr _) (2%:R^-1) (e ^+ 2) => *; cring_fold C; ring.
  by rewrite addrA.
rewrite -!landauE /functional.
transitivity (\sum_x \sum_(mu < 4) (retr (turned (order1 e (om w)) U x mu)
   - e ^+ 2 / 2%:R * (retr (om w x *m om w x *m U x mu) + retr (om w (sup mu x) *m om w (sup mu x) *m U x mu))
   + e ^+ 3 * (- 'Im (\tr (Z3 x mu)) / 2%:R) + e ^+ 4 * (retr (Z4 x mu) / 4%:R))).
  by apply: eq_bigr => x _; apply: eq_bigr => mu _; exact: step.
have sp (F1 F2 F3 F4 : G -> 'I_4 -> C) (k2 k3 k4 : C) : \sum_x \sum_(mu < 4) (F1 x mu - k2 * F2 x mu + k3 * F3 x mu + k4 * F4 x mu)
   = \sum_x \sum_(mu < 4) F1 x mu - k2 * (\sum_x \sum_(mu < 4) F2 x mu) + k3 * (\sum_x \sum_(mu < 4) F3 x mu) + k4 * (\sum_x \sum_(mu < 4) F4 x mu).
  rewrite -mulNr !big_distrr -!big_split; apply: eq_bigr => x _ /=; rewrite !big_distrr -!big_split; apply: eq_bigr => mu _ /=.
  by rewrite mulNr.
rewrite sp -/(functional (turned (order1 e (om w)) U)) landauE first_order //.
rewrite -landauE -/(functional U); congr (_ + _ + _).
rewrite -!addrA; congr (_ + (_ + _)).
have -> : cdot w (ghost_matrix U w) = 2%:R * (\sum_x \sum_(mu < 4) (retr (om w x *m om w x *m U x mu) + retr (om w (sup mu x) *m om w (sup mu x) *m U x mu)))
    - 4%:R * (\sum_x \sum_(mu < 4) retr (om w x *m U x mu *m om w (sup mu x))).
  rewrite quadratic // [in RHS]exchange_big [X in _ - _ * X]exchange_big !big_distrr -sumrB; apply: eq_bigr => mu _ /=.
  transitivity (\sum_x (2%:R * (retr (om w x *m om w x *m U x mu) + retr (om w x *m om w x *m U (sdn mu x) mu)) - 2%:R * retr (om w (sup mu x) *m om w x *m U x mu)
   - 2%:R * retr (om w x *m om w (sdn mu x) *m U (sdn mu x) mu))).
    by apply: eq_bigr => x _; rewrite mulmxDr retrD.
  rewrite !sumrB -!big_distrr /= !big_split /=.
  have -> : \sum_x retr (om w x *m om w x *m U (sdn mu x) mu) = \sum_x retr (om w (sup mu x) *m om w (sup mu x) *m U x mu).
    by rewrite (reindex_inj (can_inj (supK (l:=G) mu))); apply: eq_bigr => x _; rewrite supK.
  have -> : \sum_x retr (om w x *m om w (sdn mu x) *m U (sdn mu x) mu) = \sum_x retr (om w (sup mu x) *m om w x *m U x mu).
    by rewrite (reindex_inj (can_inj (supK (l:=G) mu))); apply: eq_bigr => x _; rewrite supK.
  have -> : \sum_x retr (om w x *m U x mu *m om w (sup mu x)) = \sum_x retr (om w (sup mu x) *m om w x *m U x mu).
    by apply: eq_bigr => x _; rewrite retrC mulmxA.
  have -> : 4%:R = 2%:R + 2%:R :> C by rewrite -natrD.
  move: (\sum_x _) (\sum_x _) (\sum_x _) (2%:R) => *; cring_fold C; ring.
have -> : 4%:R = 2%:R * 2%:R :> C by rewrite -natrM.
move: (\sum_x _) (\sum_x _) => p q; rewrite invfM; have := divff (two0 C); move: (2%:R) (2%:R^-1) (e ^+ 2) => u v f uv.
have -> : - (f * (v * v) * (u * p - u * u * q)) = - (f * v * ((u * v) * p)) + f * ((u * v) * (u * v) * q) by cring_fold C; ring.
by rewrite uv !mul1r addrC.
Qed.
End Ghost.
