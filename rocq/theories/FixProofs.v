(** The polar factor of a block of the staple and the transformation at one site. *)
From mathcomp Require Import all_ssreflect all_algebra.
From Verif Require Import GaugeModel GaugeSpec GaugeProofs GaugeProofs2 ExpSpec ExpProofs FixModel FixSpec.
Import Order.POrderTheory GRing.Theory Num.Theory.
Set Implicit Arguments.
Unset Strict Implicit.
Unset Printing Implicit Defensive.
Local Open Scope ring_scope.

Section Polar.
Variable C : numClosedFieldType.
Variable n : nat.
Notation GaugeGroup := 'M[C]_n.
Implicit Types (Q W S : GaugeGroup).

Lemma gram_diag Q (i : 'I_n) : (htrans Q *m Q) i i = \sum_j `|Q j i| ^+ 2.
Proof. by rewrite mxE; apply: eq_bigr => j _; rewrite !mxE normCKC. Qed.
Lemma unitary_of_l Q : htrans Q *m Q = 1%:M -> unitary Q.
Proof. by rewrite /unitary daggerE; exact: mulmx1C. Qed.
Lemma re_le_norm (z : C) : 'Re z <= `|z|.
Proof. by have [] := leif_Re_Creal z. Qed.
Lemma unitary_diag W (i : 'I_n) : unitary W -> 'Re (W i i) <= 1.
Proof.
move=> /unitary_l u; have := congr1 (fun M : GaugeGroup => M i i) u; rewrite gram_diag mxE eqxx (bigD1 i) //= mulr1n => e.
have le1 : `|W i i| ^+ 2 <= 1.
  by rewrite -e ler_addl; apply: sumr_ge0 => j _; rewrite exprn_ge0 // normr_ge0.
have n1 : `|W i i| <= 1 by rewrite -(@ler_pexpn2r _ 2) ?expr1n // nnegrE ?ler01.
by apply: le_trans n1; exact: re_le_norm.
Qed.

Lemma tr_swap (o v D : GaugeGroup) : \tr (o *m (v *m D *m htrans v)) = \tr (htrans v *m o *m v *m D).
Proof. by rewrite mulmxA mxtrace_mulC !mulmxA. Qed.

Section Decomposed.
Variables (Q m : GaugeGroup) (lam : 'rV[C]_n).
Hypothesis d : decomposes (htrans Q *m Q) m lam.
Hypothesis nz : forall i, lam ord0 i != 0.
Let Dm : GaugeGroup := diag_mx (map_mx (fun z => 1 / sqrtC z) lam).
Let omega : GaugeGroup := Q *m m *m Dm *m htrans m.

Lemma lam_gt0 i : 0 < lam ord0 i.
Proof.
rewrite lt_def nz /=.
have := congr1 (fun M : GaugeGroup => M i i) (decomposes_diag d).
rewrite [diag_mx _ _ _]mxE eqxx mulr1n => <-.
have -> : htrans m *m (htrans Q *m Q) *m m = htrans (Q *m m) *m (Q *m m) by rewrite htransM !mulmxA.
by rewrite gram_diag; apply: sumr_ge0 => j _; rewrite exprn_ge0 // normr_ge0.
Qed.
Lemma root_gt0 i : 0 < sqrtC (lam ord0 i).
Proof. by rewrite sqrtC_gt0 lam_gt0. Qed.
Lemma rootK i : sqrtC (lam ord0 i) * sqrtC (lam ord0 i) = lam ord0 i.
Proof. by rewrite -expr2 sqrtCK. Qed.
Lemma root_conj i : (sqrtC (lam ord0 i))^* = sqrtC (lam ord0 i).
Proof. by apply/CrealP; apply: gtr0_real; exact: root_gt0. Qed.
Lemma DmH : htrans Dm = Dm.
Proof.
rewrite htrans_diag; congr diag_mx; apply/rowP=> i; rewrite !mxE.
by rewrite rmorphM rmorph1 /= fmorphV /= root_conj.
Qed.
Lemma mu_l : htrans m *m m = 1%:M.
Proof. by case: d => u _; exact: unitary_l. Qed.
Lemma mu_r : m *m htrans m = 1%:M.
Proof. by case: d => u _; exact: unitary_r. Qed.

Lemma omega_unitary : unitary omega.
Proof.
apply: unitary_of_l; rewrite /omega !htransM htransK DmH.
have -> : m *m (Dm *m (htrans m *m htrans Q)) *m (Q *m m *m Dm *m htrans m) =
   m *m (Dm *m (htrans m *m (htrans Q *m Q) *m m) *m Dm) *m htrans m by rewrite !mulmxA.
rewrite (decomposes_diag d) !diag_mul.
rewrite (_ : \row_i _ = const_mx 1); last first.
  apply/rowP=> i; rewrite !mxE -[lam ord0 i in X in _ * X * _]rootK.
  have h := lt0r_neq0 (root_gt0 i); move: (sqrtC _) h => r h.
  by rewrite !mul1r mulrA mulVf // mul1r divff.
by rewrite diag_const_mx mulmx1 mu_r.
Qed.

(** Q = omega H with H positive. *)
Let H : GaugeGroup := m *m diag_mx (map_mx sqrtC lam) *m htrans m.
Lemma omega_rec : omega *m H = Q.
Proof.
rewrite /omega /H.
have -> : Q *m m *m Dm *m htrans m *m (m *m diag_mx (map_mx sqrtC lam) *m htrans m) =
  Q *m m *m Dm *m (htrans m *m m) *m (diag_mx (map_mx sqrtC lam) *m htrans m) by rewrite !mulmxA.
rewrite mu_l mulmx1 -!mulmxA (mulmxA Dm) diag_mul.
rewrite (_ : \row_i _ = const_mx 1); last first.
  by apply/rowP=> i; rewrite !mxE mul1r mulVf // lt0r_neq0 // root_gt0.
by rewrite diag_const_mx mul1mx mu_r mulmx1.
Qed.
Lemma trace_H : \tr H = \sum_i sqrtC (lam ord0 i).
Proof.
rewrite /H mxtrace_mulC mulmxA mu_l mul1mx mxtrace_diag; by apply: eq_bigr => i _; rewrite mxE.
Qed.
Lemma polar_trace : retr Q <= retr (htrans omega *m Q).
Proof.
rewrite -{2}omega_rec mulmxA (unitary_l omega_unitary) mul1mx /retr trace_H.
rewrite -{1}omega_rec /H tr_swap.
have u : unitary (htrans m *m omega *m m).
  by case: d => u _; apply: unitaryM => //; apply: unitaryM; [exact: unitaryH|exact: omega_unitary].
set W := htrans m *m omega *m m in u *.
have -> : \tr (W *m diag_mx (map_mx sqrtC lam)) = \sum_i W i i * sqrtC (lam ord0 i).
  by apply: eq_bigr => i _; rewrite mul_mx_diag !mxE.
rewrite !raddf_sum /=; apply: ler_sum => i _.
have rr : sqrtC (lam ord0 i) \is Num.real by apply: gtr0_real; exact: root_gt0.
rewrite mulrC ReMl // (Creal_ReP _ rr) ger_pmulr ?root_gt0 //; exact: unitary_diag.
Qed.

(** Vectors fixed by Q and its adjoint are fixed by omega. *)
Lemma omega_fixes (e : 'cV[C]_n) : Q *m e = e -> htrans Q *m e = e -> omega *m e = e /\ htrans omega *m e = e.
Proof.
move=> qe qe'.
have we : diag_mx lam *m (htrans m *m e) = htrans m *m e.
  by rewrite -(decomposes_diag d) !mulmxA -(mulmxA _ m) mu_r mulmx1 -!mulmxA qe qe'.
have De : Dm *m (htrans m *m e) = htrans m *m e.
  move: (htrans m *m e) we => w we.
  apply/matrixP=> i j; have := congr1 (fun M : 'cV[C]_n => M i j) we; rewrite !mul_diag_mx !mxE.
  case: (altP (w i j =P 0)) => [-> _|nw /(congr1 (fun z => z / w i j))]; first by rewrite mulr0.
  by rewrite mulfK // divff // => ->; rewrite sqrtC1 divr1 mul1r.
have oe : omega *m e = e by rewrite /omega -!mulmxA De (mulmxA m) mu_r mul1mx.
split=> //; rewrite -{1}oe mulmxA (unitary_l omega_unitary) mul1mx //.
Qed.
End Decomposed.
End Polar.
