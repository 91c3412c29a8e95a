(** The divergence of the vector potential is the gradient of the Landau functional. *)
From Coq Require Import Ring.
From mathcomp Require Import all_ssreflect all_algebra.
From Verif Require Import GaugeModel GaugeSpec GaugeProofs GaugeProofs2 GaugeProofs3 FixModel FixSpec FixProofs3 LandauSpec UpdModel UpdProofs UpdProofs2.
Import GRing.Theory Num.Theory Order.POrderTheory.
Set Implicit Arguments.
Unset Strict Implicit.
Unset Printing Implicit Defensive.
Local Open Scope ring_scope.

Section Gradient.
Variable C : numClosedFieldType.
Add Ring Clandau : (Crth C).
Variable n : nat.
Variable L : lattice.
Notation GG := 'M[C]_n.
Implicit Types (U : gauge C n L) (w : L -> GG) (A B M : GG).

Definition div U (x : L) : GG := \sum_(mu < 4) (lie_field U x mu - lie_field U (sdn mu x) mu).

Lemma two0 : 2%:R != 0 :> C. Proof. by rewrite pnatr_eq0. Qed.
Lemma n0 : (0 < n)%N -> n%:R != 0 :> C. Proof. by rewrite pnatr_eq0 lt0n. Qed.
Lemma trB (A B : GG) : \tr (A - B) = \tr A - \tr B.
Proof. exact: (raddfB (mxtrace_additive _ _)). Qed.
Lemma tr_sum (I : finType) (P : pred I) (F : I -> GG) : \tr (\sum_(i | P i) F i) = \sum_(i | P i) \tr (F i).
Proof. exact: (raddf_sum (mxtrace_additive _ _)). Qed.
Lemma iV : (2%:R * 'i)^-1 = - 'i / 2%:R :> C.
Proof. by rewrite invfM mulrC invCi. Qed.
Lemma iVconj : ((2%:R * 'i)^-1)^* = - (2%:R * 'i)^-1 :> C.
Proof. by rewrite fmorphV rmorphM conjCi conjC_nat mulrN invrN. Qed.
Lemma ImV (z : C) : (2%:R * 'i)^-1 * (z - z^*) = 'Im z.
Proof. by rewrite iV ImE mulrAC -[z - _]opprB mulrNN. Qed.
Lemma lieE U x mu : lie_field U x mu = potential (U x mu).
Proof. by rewrite /lie_field /potential daggerE. Qed.
Lemma potE A : potential A = (2%:R * 'i)^-1 *: (A - htrans A) - ('Im (\tr A) / n%:R)%:M.
Proof.
rewrite /potential daggerE; congr (_ - (_ / _)%:M).
by rewrite mxtraceZ trB tr_htrans ImV.
Qed.
Lemma potH A : htrans (potential A) = potential A.
Proof.
rewrite !potE htransB htransZ iVconj htransB htransK htrans_scalar rmorphM fmorphV conjC_nat (conj_Creal (Creal_Im _)).
by rewrite -[X in - _ *: X]opprB scaleNr scalerN opprK.
Qed.
Lemma pot_tr A : (0 < n)%N -> \tr (potential A) = 0.
Proof. by move=> h; exact: tr_traceless. Qed.
Lemma tr_pot M A : htrans M = M -> \tr M = 0 -> \tr (M *m potential A) = 'Im (\tr (M *m A)).
Proof.
move=> hM tM; rewrite potE mulmxBr trB mul_mx_scalar mxtraceZ tM mulr0 subr0.
rewrite -scalemxAr mxtraceZ mulmxBr trB.
have -> : \tr (M *m htrans A) = (\tr (M *m A))^* by rewrite -tr_htrans htransM hM mxtrace_mulC.
exact: ImV.
Qed.
Lemma divH U x : htrans (div U x) = div U x.
Proof. by rewrite /div htrans_sum; apply: eq_bigr => mu _; rewrite htransB !lieE !potH. Qed.
Lemma div_tr U x : (0 < n)%N -> \tr (div U x) = 0.
Proof.
move=> h; rewrite /div tr_sum; apply: big1 => mu _ /=.
by rewrite trB !lieE !pot_tr // subr0.
Qed.
Lemma trAA (M : GG) : \tr (M *m htrans M) = \sum_i \sum_j `|M i j| ^+ 2.
Proof. by apply: eq_bigr => i _; rewrite mxE; apply: eq_bigr => j _; rewrite !mxE -normCK. Qed.
Lemma trAA_ge0 (M : GG) : 0 <= \tr (M *m htrans M).
Proof. by rewrite trAA; apply: sumr_ge0 => i _; apply: sumr_ge0 => j _; rewrite exprn_ge0. Qed.
Lemma trAA_eq0 (M : GG) : \tr (M *m htrans M) = 0 -> M = 0.
Proof.
rewrite trAA => h; apply/matrixP => i j; rewrite mxE.
have p1 i' : 0 <= \sum_j `|M i' j| ^+ 2 by apply: sumr_ge0 => j' _; rewrite exprn_ge0.
have h2 : \sum_j `|M i j| ^+ 2 = 0 by apply: (psumr_eq0P _ h).
have /eqP : `|M i j| ^+ 2 = 0 by apply: (psumr_eq0P _ h2) => // j' _; rewrite exprn_ge0.
by rewrite expf_eq0 /= normr_eq0 => /eqP.
Qed.
Lemma deviationE U : deviation U = (\sum_x \tr (div U x *m div U x)) / #|L|%:R.
Proof.
rewrite /deviation; congr (_ / _); apply: eq_bigr => x _; rewrite -/(div U x) /= /retr.
by rewrite (Creal_ReP _ _) ?ger0_real ?trAA_ge0 // divH.
Qed.
Lemma deviation_ge0 U : 0 <= deviation U.
Proof. by rewrite deviationE divr_ge0 ?ler0n //; apply: sumr_ge0 => x _; rewrite -{2}divH trAA_ge0. Qed.
Lemma deviation_eq0 U : deviation U = 0 -> forall x, div U x = 0.
Proof.
move=> /eqP; rewrite deviationE mulf_eq0 invr_eq0 pnatr_eq0 => h x.
have h2 : \sum_x \tr (div U x *m div U x) = 0.
  case/orP: h => [/eqP //|c]; have : (0 < #|L|)%N by apply/card_gt0P; exists x.
  by rewrite lt0n c.
apply: trAA_eq0; rewrite divH.
by apply: (psumr_eq0P _ h2) => // y _; rewrite -{2}divH trAA_ge0.
Qed.
Lemma div_deviation U : (forall x, div U x = 0) -> deviation U = 0.
Proof. by move=> h; rewrite deviationE big1 ?mul0r // => x _; rewrite h mul0mx mxtrace0. Qed.

Lemma Re_ie (e z : C) : e \is Num.real -> 'Re ((e * 'i) * z) = - (e * 'Im z).
Proof. by move=> r; rewrite -mulrA (ReMl r) ReMil mulrN. Qed.
Lemma first_order U w e : (forall x, in_algebra (w x)) -> e \is Num.real ->
  landau (turned (order1 e w) U) = landau U - e * (\sum_x \tr (w x *m div U x)) + e ^+ 2 * (\sum_x \sum_(mu < 4) retr (w x *m U x mu *m w (sup mu x))).
Proof.
move=> hw er.
have H x : htrans (w x) = w x by have [h _] := hw x; rewrite -daggerE.
have t0 x : \tr (w x) = 0 by have [] := hw x.
have step x mu : retr (turned (order1 e w) U x mu) = retr (U x mu)
   - e * (\tr (w x *m lie_field U x mu) - \tr (w (sup mu x) *m lie_field U x mu)) + e ^+ 2 * retr (w x *m U x mu *m w (sup mu x)).
  rewrite /turned /order1 daggerE htransD htrans1 htransZ H rmorphM conjCi (conj_Creal er) mulrN.
  have -> : (1%:M + (e * 'i) *: w x) *m U x mu *m (1%:M + - (e * 'i) *: w (sup mu x))
     = U x mu + (e * 'i) *: (w x *m U x mu) - (e * 'i) *: (U x mu *m w (sup mu x)) - (e * 'i) *: ((e * 'i) *: (w x *m U x mu *m w (sup mu x))).
    by rewrite scaleNr mulmxDr mulmx1 mulmxN -scalemxAr !mulmxDl mul1mx -!scalemxAl scalerDr opprD !addrA.
  rewrite !retrB retrD /retr !mxtraceZ.
  rewrite !Re_ie // !lieE !tr_pot //.
  have -> : \tr (U x mu *m w (sup mu x)) = \tr (w (sup mu x) *m U x mu) by rewrite mxtrace_mulC.
  rewrite -[e * 'i * _]mulrA (ImMl er) ImMil.
  rewrite expr2; move: ('Re (\tr (U x mu))) ('Im _) ('Im _) ('Re _) => a b c d; cring_fold C; ring.
rewrite -!landauE /functional.
transitivity (\sum_x \sum_(mu < 4) (retr (U x mu) - e * (\tr (w x *m lie_field U x mu) - \tr (w (sup mu x) *m lie_field U x mu)) + e ^+ 2 * retr (w x *m U x mu *m w (sup mu x)))).
  by apply: eq_bigr => x _; apply: eq_bigr => mu _; exact: step.
under eq_bigr do rewrite !big_split /=.
rewrite !big_split /=; congr (_ + _ + _); last by under eq_bigr do rewrite -big_distrr /=; rewrite -big_distrr.
rewrite -mulNr.
transitivity (- e * \sum_x \sum_(mu < 4) (\tr (w x *m lie_field U x mu) - \tr (w (sup mu x) *m lie_field U x mu))).
  by rewrite [RHS]big_distrr; apply: eq_bigr => x _ /=; rewrite [RHS]big_distrr; apply: eq_bigr => mu _; rewrite /= mulNr.
congr (_ * _).
transitivity (\sum_x \sum_(mu < 4) (\tr (w x *m lie_field U x mu) - \tr (w x *m lie_field U (sdn mu x) mu))).
  rewrite exchange_big [RHS]exchange_big; apply: eq_bigr => mu _ /=; rewrite !sumrB; congr (_ - _).
  rewrite [RHS](reindex_inj (can_inj (supK (l:=L) mu))); apply: eq_bigr => x _; by rewrite supK.
apply: eq_bigr => x _; rewrite /div mulmx_sumr tr_sum; apply: eq_bigr => mu _ /=.
by move: (lie_field U x mu) (lie_field U (sdn mu x) mu) => A B; rewrite mulmxBr trB.
Qed.
End Gradient.
