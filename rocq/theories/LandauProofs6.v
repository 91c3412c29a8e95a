(** The momenta, the vertex at the zero mode, what the ghost solver returns, and examples. *)
From Coq Require Import Ring.
From mathcomp Require Import all_ssreflect all_algebra.
From Verif Require Import GaugeModel GaugeSpec GaugeProofs GaugeProofs2 GaugeProofs3 LoopModel LoopGrid AdjModel AdjSpec AdjProofs5 FixModel FixSpec FixProofs3 LandauModel LandauSpec LandauProofs LandauProofs2 LandauProofs3 LandauProofs4 LandauProofs5.
Import GRing.Theory Num.Theory Order.POrderTheory.
Set Implicit Arguments.
Unset Strict Implicit.
Unset Printing Implicit Defensive.
Local Open Scope ring_scope.

Lemma ap0 (S R : Type) (f : S -> nat -> R) (s : seq S) : [seq f x y | x <- s, y <- iota 0 0] = [::].
Proof. by elim: s. Qed.
Section Momenta.
Variable C : numClosedFieldType.
Variable G : grid.
Variable pi : C.
Lemma kept_pos cut n : kept G pi cut n -> 0 < cut.
Proof. by apply: le_lt_trans; apply: sumr_ge0 => mu _; rewrite normr_ge0. Qed.
Lemma momentum0 mu : momentum G pi (0, 0, 0, 0)%N mu = 0.
Proof.
rewrite /momentum; have -> : mode_at (0, 0, 0, 0)%N mu = 0%N by case: mu => [[|[|[|m]]] h].
by rewrite !mul0r.
Qed.
Lemma kept0 cut : 0 < cut -> kept G pi cut (0, 0, 0, 0)%N.
Proof.
move=> h; rewrite /kept big1 // => mu _; rewrite momentum0 big1 ?mul0r ?subr0 ?normr0 // => nu _; exact: momentum0.
Qed.
Lemma momenta_head m cut : momenta G pi m cut != [::] -> head (1, 1, 1, 1)%N (momenta G pi m cut) = (0, 0, 0, 0)%N.
Proof.
move=> ne; have c0 : 0 < cut.
  have : has (kept G pi cut) (momenta G pi m cut).
    move: ne; rewrite /momenta; case E: (filter _ _) => [//|n s] _ /=.
    have : n \in filter (kept G pi cut) [seq (ijk, l) | ijk <- [seq (ij, k) | ij <- [seq (i, j) | i <- iota 0 (mode_at m 0), j <- iota 0 (mode_at m 1)], k <- iota 0 (mode_at m 2)], l <- iota 0 (mode_at m 3)] by rewrite E inE eqxx.
    by rewrite mem_filter => /andP [-> _].
  by case/hasP => n _; exact: kept_pos.
case: m ne => [[[a b] c] e]; rewrite /momenta /mode_at /=.
case: a => [|a]; first by [].
case: b => [|b]; first by rewrite ap0.
case: c => [|c]; first by rewrite ap0.
case: e => [|e]; last by rewrite /= kept0.
by rewrite ap0.
Qed.
End Momenta.

Section Vertex.
Variable C : numClosedFieldType.
Variable N : nat.
Variable G : grid.
Variable half : 'I_4 -> C.
Notation GG := 'M[C]_N.
Implicit Types (U : gauge C N G).
Lemma mode0 mu : mode_at (0, 0, 0, 0)%N mu = 0%N.
Proof. by case: mu => [|[|[|m]]]. Qed.
Lemma fourier0_herm U mu : htrans (fourier half (fun mu => mode_at (0, 0, 0, 0)%N mu) U mu) = fourier half (fun mu => mode_at (0, 0, 0, 0)%N mu) U mu.
Proof.
rewrite /fourier htrans_sum; apply: eq_bigr => x _; rewrite htransZ potH; congr (_ *: _).
rewrite mode0 expr0 mulr1 /plane_wave big1 ?conjC1 // => nu _; by rewrite mode0 mul0n expr0.
Qed.
Lemma comm_real (A B : GG) : htrans B = B -> \tr ((A *m B - B *m A) *m htrans A) \is Num.real.
Proof.
move=> hB; apply/CrealP; rewrite -tr_htrans htransM htransK htransB !htransM hB mulmxBr mulmxBl !trB; congr (_ - _).
  by rewrite !mulmxA.
by rewrite mulmxA mxtrace_mulC mulmxA.
Qed.
Lemma lattice_momentum_real k mu : lattice_momentum half k mu \is Num.real.
Proof.
have -> : lattice_momentum half k mu = 2%:R * 'Im (half mu ^+ k mu).
  by rewrite /lattice_momentum -LandauProofs.ImV mulrA invfM mulrA divff ?two0 // mul1r mulrC.
by rewrite rpredM ?realn ?Creal_Im.
Qed.
Lemma modulus2 n : modulus half n ^+ 2 = \sum_(mu < 4) lattice_momentum half (fun mu => mode_at n mu) mu ^+ 2.
Proof. by rewrite /modulus sqrtCK; apply: eq_bigr => mu _; rewrite -p_hatE expr2. Qed.
Lemma modulus_ge0 n : 0 <= modulus half n.
Proof. rewrite /modulus sqrtC_ge0; apply: sumr_ge0 => mu _; by rewrite p_hatE -expr2 -realEsqr lattice_momentum_real. Qed.
End Vertex.

Section Solver.
Variable C : numClosedFieldType.
Add Ring Clandau6 : (Crth C).
Variable N : nat.
Variable G : grid.
Notation d := (N * N - 1)%N.
Notation field := (G -> 'I_d -> C).
Variable half : 'I_4 -> C.
Variables (U : gauge C N G) (n : mode) (c : 'I_d) (epsilon : C) (hat src : field) (result0 : C).
Notation M := (ghost_matrix U).
Notation diff g := (fun x a => M g x a - src x a).
Definition near (bound z : C) : Prop := exists g : field, z = \sum_x (wave half n x)^* * g x c /\ overlap (diff g) (diff g) < bound.
Definition kept_result (z : C) : Prop := z = result0 \/ near (10%:R ^+ 4) z.
Definition right_outcome (o : outcome C) : Prop := match o with
  | Returned true z => near epsilon z \/ ((3 < d)%N /\ kept_result z /\ exists g : field, forall x a, M (diff g) x a = 0)
  | Returned false z => kept_result z
  | Undefined => (d < 4)%N /\ exists g : field, forall x a, M (diff g) x a = 0
  end.
Lemma cdot_real (v : field) : cdot v v \is Num.real.
Proof. by apply: rpred_sum => x _; apply: rpred_sum => a _; rewrite mulrC -normCK rpredX ?normr_real. Qed.
Lemma cdot_vanish (v : field) : cdot v v = 0 -> forall x a, v x a = 0.
Proof.
move=> h x a.
have p1 y : 0 <= \sum_(b < d) (v y b)^* * v y b by apply: sumr_ge0 => b _; rewrite mulrC -normCK exprn_ge0.
have h2 : \sum_(b < d) (v x b)^* * v x b = 0 by apply: (psumr_eq0P _ h).
have /eqP : (v x a)^* * v x a = 0 by apply: (psumr_eq0P _ h2) => // b _; rewrite mulrC -normCK exprn_ge0.
by rewrite mulf_eq0 conjC_eq0 orbb => /eqP.
Qed.
Lemma ghost_neg (v w : field) : (forall x a, v x a = - w x a) -> forall x a, M v x a = - M w x a.
Proof.
move=> h x a; have z y b : M (fun _ _ => 0) y b = 0.
  by rewrite (ghost_ext U (w := fun y b => 0 + (-1) * 0)) ?ghost_lin ?mulN1r ?subrr // => y' b'; rewrite mulr0 addr0.
rewrite (ghost_ext U (w := fun y b => 0 + (-1) * w y b)); last by move=> y b; rewrite h mulN1r add0r.
by rewrite ghost_lin z mulN1r add0r.
Qed.
Lemma ar1 (a b m p : C) : a - m - b * p = - (m + b * p - a).
Proof. cring_fold C; ring. Qed.
Lemma ar2 (a b m p : C) : - (m - a) - b * p = a - (m + b * p).
Proof. cring_fold C; ring. Qed.
Lemma loop_right k ghost residual p nu alpha omega rho mn result :
  (forall x a, residual x a = src x a - M ghost x a) -> mn <= 10%:R ^+ 4 -> kept_result result ->
  right_outcome (ghost_loop half U n c epsilon hat k ghost residual p nu alpha omega rho mn result).
Proof.
elim: k ghost residual p nu alpha omega rho mn result => [//|k IH] ghost residual p nu alpha omega rho mn result hr hm hk.
rewrite /=; case: ifP => // _; case: ifP => // _.
set p' := (fun x a => residual x a + _); case: ifP => // _.
set al := _ / cdot hat (M p'); set s := (fun x a => residual x a - _).
set g1 : field := fun x a => ghost x a + al * p' x a.
have es x a : s x a = - (M g1 x a - src x a).
  rewrite /g1 (ghost_lin U ghost p' al x a) -(ar1 _ _ _ (M p' x a)) -hr. reflexivity.
case: ifP => [/eqP t0|_].
  have t1 : cdot (M s) (M s) = 0 by move: t0; rewrite (Creal_ReP _ (cdot_real _)).
  have g1ok x a : M (diff g1) x a = 0.
    by apply/eqP; rewrite -oppr_eq0 -(ghost_neg es) (cdot_vanish t1).
  case: ifP => [dl|/negbT]; first by split=> //; exists g1.
  by rewrite -leqNgt => dl; right; split=> //; split=> //; exists g1.
set om := _ / cdot (M s) (M s); set g2 : field := (fun x a => ghost x a + _).
set r2 : field := (fun x a => residual x a - al * M p' x a - om * M s x a).
have er x a : r2 x a = src x a - M g2 x a.
  have -> : r2 x a = s x a - om * M s x a by [].
  have e2 y b : g2 y b = g1 y b + om * s y b by rewrite /g2 /g1 /s /p' addrA.
  by rewrite (ghost_ext U e2) (ghost_lin U g1 s om x a) es ar2.
have en : overlap (diff g2) (diff g2) = 'Re (cdot r2 r2).
  rewrite (Creal_ReP _ (cdot_real _)); apply: eq_bigr => x _; apply: eq_bigr => a _; rewrite er -opprB rmorphN mulrNN //.
case: ifP => [lt|_]; first by left; exists g2; rewrite en projectedE.
case: ifP => [lt|_]; last exact: IH.
apply: IH => //; first by apply: le_trans hm; exact: ltW.
right; exists g2; rewrite en projectedE; split=> //; exact: lt_le_trans lt hm.
Qed.
End Solver.
