(** Proofs: how the correlators change under the symmetries of the lattice and under gauge transformations. *)
From Coq Require Import ZArith Ring.
From mathcomp Require Import all_ssreflect all_algebra.
From Verif Require Import GaugeModel GaugeSpec GaugeProofs GaugeProofs2 LoopModel GammaModel GammaSpec GammaProofs DiracModel DiracSpec DiracProofs DiracProofs2.
From Verif Require Import StochModel StochSpec StochProofs StochProofs2 StochProofs3 StochProofs4 MesonModel MesonSpec MesonProofs.
Import GRing.Theory Num.Theory.
Set Implicit Arguments.
Unset Strict Implicit.
Unset Printing Implicit Defensive.
Local Open Scope ring_scope.

Section Covariance.
Variable C : numClosedFieldType.
Variable n : nat.
Variable G : grid.
Notation field := (G -> 'I_4 -> 'I_n -> C) (only parsing).
Notation T := [finType of G * 'I_4 * 'I_n].
Add Ring CMes2 : (Crth C).
(** A change of variables: a permutation f of the sites, a matrix R in spinor space, a unitary matrix at each site. *)
Variables (f : G -> G) (R R' : 'M[C]_4) (om : G -> 'M[C]_n).
Hypothesis finj : injective f.
Hypothesis RR : R *m R' = 1%:M.
Hypothesis un : forall y, unitary (om y).
Definition change (v : field) : field := fun x a c => \sum_(b < 4) R a b * \sum_e om x c e * v (f x) b e.
Variables D D' S S' : field -> field.
Hypotheses (linD : linear_on D) (linD' : linear_on D').
Hypotheses (sol : solves D S) (sol' : solves D' S').
Hypothesis cov : forall v, feq (D' (change v)) (change (D v)).
Lemma change_ext v w : feq v w -> feq (change v) (change w).
Proof. by move=> h x a c; apply: eq_bigr => b _; congr (_ * _); apply: eq_bigr => e _; rewrite h. Qed.
Lemma solve_change v : feq (S' (change v)) (change (S v)).
Proof.
have lS' := lin_solve linD' sol'.
have h : feq (change v) (D' (change (S v))) by move=> x a c; rewrite cov (change_ext (sol v)).
by move=> x a c; rewrite (lS'.1 _ _ h) (solve_left linD' sol').
Qed.
Lemma om_r y c e : \sum_d om y c d * (om y e d)^* = (c == e)%:R.
Proof.
have /matrixP/(_ c e) := unitary_r (un y); rewrite !mxE => <-.
by apply: eq_bigr => d _; rewrite /htrans !mxE.
Qed.
Lemma om_l y c e : \sum_d om y d c * (om y d e)^* = (c == e)%:R.
Proof.
have /matrixP/(_ e c) := unitary_l (un y); rewrite !mxE eq_sym => <-.
by apply: eq_bigr => d _; rewrite /htrans !mxE mulrC.
Qed.
Lemma prop_change x y c e :
  prop S' x y c e = \sum_c' \sum_e' (om x c c' * (om y e e')^*) *: (R *m prop S (f x) (f y) c' e' *m R').
Proof.
have lS := lin_solve linD sol; have lS' := lin_solve linD' sol'.
apply/matrixP => a b; rewrite mxE /element /=.
pose v : field := fun z b' e' => (z == f y)%:R * R' b' b * (om y e e')^*.
have hv : feq (change v) (unit_field C (y, b, e)).
  move=> z a' c'; rewrite /change /v /unit_field !xpair_eqE (inj_eq finj).
  transitivity ((z == y)%:R * (\sum_(b' < 4) R a' b' * R' b' b) * (\sum_e' om z c' e' * (om y e e')^*)).
    rewrite -!mulrA big_distrl big_distrr /=; apply: eq_bigr => b' _.
    rewrite !big_distrr /=; apply: eq_bigr => e' _.
    move: (R a' b') (R' b' b) (om z c' e') ((om y e e')^*) ((z == y)%:R : C) => p1 p2 p3 p4 p5; cring_fold C; ring.
  case: (z =P y) => [->|_]; last by rewrite !mul0r.
  have /matrixP/(_ a' b) := RR; rewrite !mxE => ->; rewrite om_r mul1r -natrM mulnb; by [].
rewrite -(lS'.1 _ _ hv) solve_change /change.
have ev z b' c' : S v z b' c' = \sum_(b'' < 4) \sum_e' element S (z, b', c') (f y, b'', e') * (R' b'' b * (om y e e')^*).
  have := op_expand v (z, b', c') lS; rewrite /at_ /= => ->.
  rewrite -(pair_bigA _ (fun p e' => element S (z, b', c') (p, e') * v p.1 p.2 e')) /=.
  rewrite -(pair_bigA _ (fun w b'' => \sum_e' element S (z, b', c') (w, b'', e') * v w b'' e')) /=.
  rewrite (bigD1 (f y)) //= [X in _ + X]big1 ?addr0; last first.
    move=> w /negPf ne; rewrite big1 // => b'' _; rewrite big1 // => e' _; by rewrite /v ne !mul0r mulr0.
  by apply: eq_bigr => b'' _; apply: eq_bigr => e' _; rewrite /v eqxx mul1r.
rewrite summxE; under [RHS]eq_bigr => c' _ do (rewrite summxE; under eq_bigr => e' _ do rewrite !mxE).
transitivity (\sum_(b' < 4) \sum_c' R a b' * (om x c c' * S v (f x) b' c')).
  by apply: eq_bigr => b' _; rewrite big_distrr.
rewrite exchange_big /=; apply: eq_bigr => c' _.
transitivity (\sum_(b' < 4) \sum_e' \sum_(b'' < 4) R a b' * (om x c c' * (element S (f x, b', c') (f y, b'', e') * (R' b'' b * (om y e e')^*)))).
  apply: eq_bigr => b' _; rewrite ev exchange_big big_distrr big_distrr /=; apply: eq_bigr => e' _.
  by rewrite !big_distrr.
rewrite exchange_big /=; apply: eq_bigr => e' _.
rewrite exchange_big /= big_distrr /=; apply: eq_bigr => b'' _; rewrite mxE big_distrl big_distrr /=; apply: eq_bigr => b' _.
rewrite mxE; move: (R a b') (R' b'' b) (om x c c') ((om y e e')^*) (element S _ _) => p1 p2 p3 p4 p5; cring_fold C; ring.
Qed.

Lemma two_point_change A B x y : two_point S' A B x y = two_point S (R' *m A *m R) (R' *m B *m R) (f x) (f y).
Proof.
rewrite /two_point.
pose F d' c' c'' d'' := \tr (R' *m A *m R *m prop S (f x) (f y) d' c' *m (R' *m B *m R) *m prop S (f y) (f x) c'' d'').
transitivity (\sum_c \sum_d \sum_d' \sum_c' \sum_c'' \sum_d'' (om x d d' * (om y c c')^*) * (om y c c'' * (om x d d'')^*) * F d' c' c'' d'').
  apply: eq_bigr => c _; apply: eq_bigr => d _; rewrite !prop_change.
  rewrite [A *m _]mulmx_sumr mulmx_suml mulmx_suml raddf_sum; apply: eq_bigr => d' _ /=.
  rewrite [A *m _]mulmx_sumr mulmx_suml mulmx_suml raddf_sum; apply: eq_bigr => c' _ /=.
  rewrite mulmx_sumr raddf_sum; apply: eq_bigr => c'' _ /=.
  rewrite mulmx_sumr raddf_sum; apply: eq_bigr => d'' _ /=.
  rewrite -!(scalemxAl, scalemxAr) !mxtraceZ mulrCA !mulrA; congr (_ * _).
  by rewrite /F !mulmxA mxtrace_mulC !mulmxA.
transitivity (\sum_d' \sum_c' \sum_c'' \sum_d'' (\sum_c om y c c'' * (om y c c')^*) * (\sum_d om x d d' * (om x d d'')^*) * F d' c' c'' d'').
  under eq_bigr => c _ do (rewrite exchange_big /=; under eq_bigr => d' _ do (rewrite exchange_big /=; under eq_bigr => c' _ do
    (rewrite exchange_big /=; under eq_bigr => c'' _ do rewrite exchange_big /=))).
  rewrite exchange_big /=; apply: eq_bigr => d' _; rewrite exchange_big /=; apply: eq_bigr => c' _.
  rewrite exchange_big /=; apply: eq_bigr => c'' _; rewrite exchange_big /=; apply: eq_bigr => d'' _.
  move: (F _ _ _ _) => z; rewrite !big_distrl /=; apply: eq_bigr => c _; rewrite big_distrr big_distrl /=; apply: eq_bigr => d _.
  move: (om x d d') (om y c c'')  (om y c c')^* (om x d d'')^* => p1 p2 p3 p4; cring_fold C; ring.
rewrite [RHS]exchange_big /=; apply: eq_bigr => d _; apply: eq_bigr => c _.
rewrite (bigD1 c) //= [X in _ + X]big1 ?addr0; last first.
  by move=> c'' /negPf ne; rewrite big1 // => d'' _; rewrite om_l ne !mul0r.
rewrite (bigD1 d) //= [X in _ + X]big1 ?addr0; last first.
  by move=> d'' /negPf ne; rewrite !om_l eq_sym ne mulr0 mul0r.
by rewrite !om_l !eqxx !mul1r.
Qed.
End Covariance.
