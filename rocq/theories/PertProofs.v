(** Perturbation of the inverse of a matrix: the change of phi^+ A^-1 phi to first order, with an explicit bound. *)
From mathcomp Require Import all_ssreflect all_algebra.
From Verif Require Import GaugeModel GaugeProofs.
Import Order.POrderTheory GRing.Theory Num.Theory.
Set Implicit Arguments.
Unset Strict Implicit.
Unset Printing Implicit Defensive.
Local Open Scope ring_scope.

Section Norm.
Variable C : numClosedFieldType.
(** The sum of the moduli of the entries. *)
Definition nrm m k (A : 'M[C]_(m, k)) : C := \sum_i \sum_j `|A i j|.
Lemma nrm_ge0 m k (A : 'M[C]_(m, k)) : 0 <= nrm A.
Proof. by apply: sumr_ge0 => i _; apply: sumr_ge0 => j _. Qed.
Lemma nrmD m k (A B : 'M[C]_(m, k)) : nrm (A + B) <= nrm A + nrm B.
Proof.
rewrite /nrm -big_split; apply: ler_sum => i _; rewrite -big_split; apply: ler_sum => j _ /=.
by rewrite mxE ler_norm_add.
Qed.
Lemma nrmZ m k (c : C) (A : 'M[C]_(m, k)) : nrm (c *: A) = `|c| * nrm A.
Proof.
rewrite /nrm mulr_sumr; apply: eq_bigr => i _; rewrite mulr_sumr; apply: eq_bigr => j _.
by rewrite mxE normrM.
Qed.
Lemma nrmN m k (A : 'M[C]_(m, k)) : nrm (- A) = nrm A.
Proof. by rewrite -scaleN1r nrmZ normrN1 mul1r. Qed.
Lemma nrmM m k l (A : 'M[C]_(m, k)) (B : 'M[C]_(k, l)) : nrm (A *m B) <= nrm A * nrm B.
Proof.
have -> : nrm A * nrm B = \sum_i \sum_(t < k) \sum_(s < k) \sum_j `|A i t| * `|B s j|.
  rewrite /nrm mulr_suml; apply: eq_bigr => i _; rewrite mulr_suml; apply: eq_bigr => t _.
  by rewrite mulr_sumr; apply: eq_bigr => s _; rewrite mulr_sumr.
apply: ler_sum => i _.
apply: (@le_trans _ _ (\sum_(t < k) \sum_j `|A i t| * `|B t j|)).
  rewrite exchange_big; apply: ler_sum => j _ /=; rewrite mxE.
  apply: (le_trans (ler_norm_sum _ _ _)); apply: ler_sum => t _; by rewrite normrM.
apply: ler_sum => t _; rewrite [X in _ <= X](bigD1 t) //= ler_addl.
by do 2 (apply: sumr_ge0 => ? _); rewrite mulr_ge0.
Qed.
Lemma nrm_eq0 m k (A : 'M[C]_(m, k)) : nrm A <= 0 -> A = 0.
Proof.
move=> le; have z : nrm A = 0 by apply/eqP; rewrite eq_le le nrm_ge0.
apply/matrixP => i j; rewrite mxE; apply/eqP; rewrite -normr_eq0; apply/eqP.
have /psumr_eq0P/(_ z i isT) z1 : forall i : 'I_m, true -> 0 <= \sum_(j < k) `|A i j|.
  by move=> ? _; apply: sumr_ge0 => ? _.
by have /psumr_eq0P/(_ z1 j isT) : forall j : 'I_k, true -> 0 <= `|A i j| by [].
Qed.
Lemma nrm11 (A : 'M[C]_1) : `|A ord0 ord0| = nrm A.
Proof. by rewrite /nrm !big_ord1. Qed.
Lemma nrmH m k (A : 'M[C]_(m, k)) : nrm (htrans A) = nrm A.
Proof.
rewrite /nrm exchange_big; apply: eq_bigr => i _; apply: eq_bigr => j _.
by rewrite !mxE norm_conjC.
Qed.

Section Pert.
Variable N : nat.
Variables (A B : 'M[C]_N) (R : C -> 'M[C]_N) (rho : C) (phi X : 'cV[C]_N).
Hypothesis Aherm : htrans A = A.
Hypothesis Aunit : A \in unitmx.
Hypothesis Rb : forall e, `|e| <= 1 -> nrm (R e) <= rho.
Hypothesis AX : A *m X = phi.
Definition moved e := A + e *: (B + e *: R e).
Definition quad (v w : 'cV[C]_N) : C := (htrans v *m w) ord0 ord0.

Lemma perturb : exists r K : C, [/\ 0 < r, 0 <= K & forall e, `|e| <= r ->
  moved e \in unitmx /\
  forall X', moved e *m X' = phi -> `|quad phi X' - quad phi X + e * quad X (B *m X)| <= `|e| ^+ 2 * K].
Proof.
have rho0 : 0 <= rho by apply: le_trans (nrm_ge0 (R 0)) (Rb _); rewrite normr0 ler01.
pose s := nrm B + rho; have s0 : 0 <= s by rewrite addr_ge0 ?nrm_ge0.
pose G := invmx A; pose g := nrm G; have g0 : 0 <= g by exact: nrm_ge0.
have d0 : 0 < 2%:R * (g * s + 1) by rewrite mulr_gt0 ?ltr0n // ltr_paddl ?mulr_ge0 ?ltr01.
exists (2%:R * (g * s + 1))^-1, (nrm X * (s * g * s * (2%:R * nrm X) + rho * nrm X)).
split; first by rewrite invr_gt0.
  by rewrite mulr_ge0 ?nrm_ge0 // addr_ge0 // ?mulr_ge0 ?nrm_ge0 // ler0n.
move=> e le.
have e1 : `|e| <= 1.
  apply: (le_trans le); rewrite invf_le1 // mulrDr mulr1 ler_paddl ?mulr_ge0 ?ler0n // ler1n //.
have small : `|e| * (g * s) <= 2%:R^-1.
  have h : 0 <= g * s by rewrite mulr_ge0.
  apply: (@le_trans _ _ ((2%:R * (g * s + 1))^-1 * (g * s))); first by rewrite ler_wpmul2r.
  rewrite invfM -mulrA ler_pimulr ?invr_ge0 ?ler0n // mulrC ler_pdivr_mulr ?mul1r ?ler_addl ?ler01 //.
  by rewrite ltr_paddl ?ltr01.
pose S := B + e *: R e.
have Sb : nrm S <= s.
  apply: (le_trans (nrmD _ _)); rewrite ler_add2l nrmZ -[rho]mul1r ler_pmul ?nrm_ge0 //; exact: Rb.
have GS m (v : 'M_(N, m)) : nrm (G *m (S *m v)) <= g * s * nrm v.
  apply: (le_trans (nrmM _ _)); rewrite -mulrA ler_wpmul2l //.
  by apply: (le_trans (nrmM _ _)); rewrite ler_wpmul2r ?nrm_ge0.
have eGS m (v : 'M_(N, m)) : nrm (e *: (G *m (S *m v))) <= nrm v / 2%:R.
  rewrite nrmZ mulrC; apply: (@le_trans _ _ (g * s * nrm v * `|e|)); first by rewrite ler_wpmul2r.
  by rewrite mulrC mulrA [nrm v / _]mulrC ler_wpmul2r ?nrm_ge0.
have half (x : C) : x - x / 2%:R = x / 2%:R.
  by rewrite {1}[x](splitr x) addrK.
have GA m (v : 'M_(N, m)) : G *m (A *m v) = v by rewrite mulmxA mulVmx // mul1mx.
split.
  rewrite -row_full_unit -cokermx_eq0; apply/eqP; apply: nrm_eq0; set W := cokermx _.
  have z : moved e *m W = 0 by exact: mulmx_coker.
  have E : W = - (e *: (G *m (S *m W))).
    rewrite -{1}(GA _ W) scalemxAr -mulmxN; congr (G *m _).
    by move: z; rewrite /moved mulmxDl -scalemxAl => /eqP; rewrite addr_eq0 => /eqP.
  have := eGS _ W; rewrite -nrmN -E => h.
  have : nrm W - nrm W / 2%:R <= 0 by rewrite subr_le0.
  by rewrite half pmulr_lle0 // invr_gt0 ltr0n.
move=> X' eX'.
have E : X' - X = - (e *: (G *m (S *m X'))).
  have Xe : X = G *m phi by rewrite -AX GA.
  have : A *m X' = phi - e *: (S *m X') by rewrite -eX' /moved mulmxDl -scalemxAl addrK.
  move/(congr1 (mulmx G)); rewrite GA mulmxBr -Xe -scalemxAr => {1}->.
  by rewrite addrC addKr.
have X'b : nrm X' <= 2%:R * nrm X.
  have h : nrm X' <= nrm X + nrm X' / 2%:R.
    rewrite -{1}(subrK X X') addrC; apply: (le_trans (nrmD _ _)); rewrite ler_add2l E nrmN; exact: eGS.
  rewrite -ler_subl_addr half ler_pdivr_mulr ?ltr0n // mulrC in h; exact: h.
have D : quad phi X' - quad phi X + e * quad X (B *m X)
       = e ^+ 2 * quad X (S *m (G *m (S *m X')) - R e *m X).
  have q1 : quad phi X' = quad X (A *m X').
    by rewrite /quad -AX (htransM A X) Aherm mulmxA.
  have q2 : quad phi X = quad X (A *m X') + e * quad X (S *m X').
    have -> : quad phi X = quad X phi by rewrite /quad -AX (htransM A X) Aherm mulmxA.
    by rewrite -eX' /quad /moved mulmxDl -scalemxAl mulmxDr -scalemxAr !mxE.
  rewrite q1 q2 opprD addrA subrr add0r addrC -mulrBr.
  have -> : quad X (B *m X) - quad X (S *m X') = quad X (e *: (S *m (G *m (S *m X')) - R e *m X)).
    have qB v w : quad X v - quad X w = quad X (v - w) by rewrite /quad mulmxBr !mxE.
    rewrite qB; congr quad; have -> : B = S - e *: R e by rewrite /S addrK.
    rewrite mulmxBl addrAC -mulmxBr -opprB mulmxN E mulmxN opprK -scalemxAr -scalemxAl scalerBr //.
  by rewrite /quad -scalemxAr mxE expr2 mulrA.
rewrite D normrM normrX ler_wpmul2l ?exprn_ge0 //.
rewrite nrm11; apply: (le_trans (nrmM _ _)); rewrite nrmH ler_wpmul2l ?nrm_ge0 //.
apply: (le_trans (nrmD _ _)); rewrite nrmN; apply: ler_add; last first.
  by apply: (le_trans (nrmM _ _)); rewrite ler_wpmul2r ?nrm_ge0 //; exact: Rb.
apply: (le_trans (nrmM _ _)); rewrite -!mulrA; apply: ler_pmul; rewrite ?nrm_ge0 //.
apply: (le_trans (GS _ _)); rewrite -mulrA; do 2 rewrite ler_wpmul2l //.
Qed.
End Pert.
End Norm.
