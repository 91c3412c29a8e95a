(** Consequences of completeness: orthonormality, and the trace formula as the matrix of conjugation. *)
From mathcomp Require Import all_ssreflect all_algebra.
From Verif Require Import GaugeModel GaugeSpec GaugeProofs GaugeProofs2 AdjTables AdjModel AdjSpec.
Import GRing.Theory Num.Theory.
Set Implicit Arguments.
Unset Strict Implicit.
Unset Printing Implicit Defensive.
Local Open Scope ring_scope.

Section Complete.
Variable C : numClosedFieldType.
Variable N : nat.
Add Ring CringA : (Crth C).
Hypothesis N0 : (0 < N)%N.
Notation d := (N * N - 1)%N.
Variable G : seq 'M[C]_N.
Hypothesis szG : size G = d.
Hypothesis hermG : forall T, T \in G -> hermitian T.
Hypothesis fierz : forall a b c e, \sum_(T <- G) T a b * T c e
   = 2%:R^-1 * ((a == e)%:R * (b == c)%:R - (a == b)%:R * (c == e)%:R / N%:R).
Implicit Types (A B H U V : 'M[C]_N).
Notation T_ a := (G`_(val a)).

Lemma two0 : 2%:R != 0 :> C. Proof. by rewrite pnatr_eq0. Qed.
Lemma sumG (V : zmodType) (F : 'M[C]_N -> V) : \sum_(T <- G) F T = \sum_(i < d) F G`_i.
Proof. by rewrite (big_nth 0) big_mkord szG. Qed.
Lemma memG (i : 'I_d) : G`_i \in G.
Proof. by apply: mem_nth; rewrite szG. Qed.
Lemma mxtr_mul A B : \tr (A *m B) = \sum_i \sum_j A i j * B j i.
Proof. by rewrite /mxtrace; apply: eq_bigr => i _; rewrite mxE. Qed.
Lemma delta_l (f : 'I_N -> C) k : \sum_i (i == k)%:R * f i = f k.
Proof.
rewrite (bigD1 k) //= eqxx mul1r big1 ?addr0 // => i /negbTE ->.
by rewrite mul0r.
Qed.
Lemma complete A B : \sum_(T <- G) \tr (A *m T) * \tr (T *m B) = 2%:R^-1 * (\tr (A *m B) - \tr A * \tr B / N%:R).
Proof.
have E : \sum_(T <- G) \tr (A *m T) * \tr (T *m B)
  = \sum_b \sum_a \sum_c \sum_e A b a * B e c * \sum_(T <- G) T a b * T c e.
  transitivity (\sum_(T <- G) \sum_b \sum_a \sum_c \sum_e A b a * B e c * (T a b * T c e)).
    apply: eq_bigr => T _; rewrite !mxtr_mul mulr_suml; apply: eq_bigr => b _.
    rewrite mulr_suml; apply: eq_bigr => a _; rewrite mulr_sumr; apply: eq_bigr => c _.
    rewrite mulr_sumr; apply: eq_bigr => e _; by cring_fold C; ring.
  rewrite exchange_big; apply: eq_bigr => b _; rewrite exchange_big; apply: eq_bigr => a _.
  rewrite exchange_big; apply: eq_bigr => c _; rewrite exchange_big; apply: eq_bigr => e _.
  by rewrite mulr_sumr.
rewrite {}E.
transitivity (\sum_b \sum_a (2%:R^-1 * (A b a * B a b) - 2%:R^-1 / N%:R * ((a == b)%:R * A b a * \tr B))).
  apply: eq_bigr => b _; apply: eq_bigr => a _.
  transitivity (\sum_c ((c == b)%:R * (2%:R^-1 * (A b a * B a c)) - 2%:R^-1 / N%:R * ((a == b)%:R * A b a * B c c))).
    apply: eq_bigr => c _.
    transitivity (\sum_e ((e == a)%:R * (2%:R^-1 * (A b a * B e c) * (c == b)%:R) - (e == c)%:R * (2%:R^-1 / N%:R * ((a == b)%:R * A b a * B e c)))).
      apply: eq_bigr => e _; rewrite fierz [a == e]eq_sym [b == c]eq_sym [c == e]eq_sym.
      move: (_ == _)%:R (_ == _)%:R (_ == _)%:R (_ == _)%:R => p q r s.
      by move: 2%:R^-1 N%:R^-1 => u v; cring_fold C; ring.
    rewrite sumrB !delta_l; congr (_ - _); by rewrite mulrC.
  by rewrite sumrB delta_l -mulr_sumr -mulr_sumr.
transitivity (\sum_b (2%:R^-1 * (A *m B) b b - 2%:R^-1 / N%:R * (A b b * \tr B))).
  apply: eq_bigr => b _; rewrite sumrB -!mulr_sumr mxE; congr (_ - _ * _).
  by rewrite -mulr_suml delta_l.
rewrite sumrB -!mulr_sumr -mulr_suml -/(\tr _) -/(\tr A).
by move: 2%:R^-1 N%:R^-1 (\tr _) (\tr _) (\tr _) => u v p q r; cring_fold C; ring.
Qed.

Lemma trC_herm A B : hermitian A -> hermitian B -> \tr (A *m B) \is Num.real.
Proof.
move=> HA HB; apply/CrealP; rewrite !mxtr_mul rmorph_sum exchange_big; apply: eq_bigr => i _.
rewrite rmorph_sum; apply: eq_bigr => j _.
by rewrite rmorphM -HA -HB mulrC.
Qed.
Lemma traceless (i : 'I_d) : \tr G`_i = 0.
Proof.
have N1 : N%:R != 0 :> C by rewrite pnatr_eq0 -lt0n.
have Z : \sum_(T <- G) \tr (1%:M *m T) * \tr (T *m 1%:M) = 0.
  by rewrite complete mul1mx mxtrace1 mulfK // subrr mulr0.
have r (j : 'I_d) : \tr G`_j \is Num.real.
  have := @trC_herm 1%:M G`_j; rewrite mul1mx; apply; last exact: hermG (memG j).
  by move=> a b; rewrite !mxE eq_sym conjC_nat.
have Z2 : \sum_(j < d) \tr G`_j ^+ 2 = 0.
  by rewrite -[RHS]Z sumG; apply: eq_bigr => j _; rewrite mul1mx mulmx1 expr2.
have := @psumr_eq0P _ _ xpredT (fun j : 'I_d => \tr G`_j ^+ 2).
move=> /(_ (fun j _ => _) Z2 i isT) => /(_ _) Q.
have /eqP : \tr G`_i ^+ 2 = 0 by apply: Q => j; rewrite real_exprn_even_ge0.
by rewrite sqrf_eq0 => /eqP.
Qed.

(** Twice the traces of products of generators. *)
Definition gram : 'M[C]_d := \matrix_(i, j) (2%:R * \tr (G`_i *m G`_j)).
Lemma gram_real i j : gram i j \is Num.real.
Proof. by rewrite mxE rpredM ?realn // trC_herm //; apply: hermG; exact: memG. Qed.
Lemma gram_sym : gram^T = gram.
Proof. by apply/matrixP => i j; rewrite !mxE mxtrace_mulC. Qed.
Lemma gram_idem : gram *m gram = gram.
Proof.
apply/matrixP => i j; rewrite !mxE.
transitivity (4%:R * \sum_(T <- G) \tr (G`_i *m T) * \tr (T *m G`_j)).
  rewrite sumG mulr_sumr; apply: eq_bigr => k _; rewrite !mxE.
  by rewrite (natrM C 2 2); move: 2%:R (\tr _) (\tr _) => u p q; cring_fold C; ring.
by rewrite complete traceless mul0r mul0r subr0 mulrA (natrM C 2 2) mulfK ?two0.
Qed.
Lemma gram_tr : \tr gram = d%:R.
Proof.
have N1 : N%:R != 0 :> C by rewrite pnatr_eq0 -lt0n.
rewrite /mxtrace; transitivity (2%:R * \sum_(T <- G) \tr (T *m T)).
  by rewrite sumG mulr_sumr; apply: eq_bigr => k _; rewrite !mxE.
have -> : \sum_(T <- G) \tr (T *m T) = \sum_a \sum_b \sum_(T <- G) T a b * T b a.
  transitivity (\sum_(T <- G) \sum_a \sum_b T a b * T b a); first by apply: eq_bigr => T _; rewrite mxtr_mul.
  by rewrite exchange_big; apply: eq_bigr => a _; rewrite exchange_big.
have -> : \sum_a \sum_b \sum_(T <- G) T a b * T b a = \sum_(a < N) (2%:R^-1 * (N%:R - N%:R^-1)).
  apply: eq_bigr => a _.
  transitivity (\sum_(b < N) ((2%:R^-1 : C) - (b == a)%:R * (2%:R^-1 / N%:R))).
    apply: eq_bigr => b _; rewrite fierz !eqxx mulr1 [a == b]eq_sym.
    by case: (b == a); rewrite ?mul1r ?mul0r ?subr0 ?mulr1 // mulrBr mulr1.
  by rewrite sumrB (delta_l (fun _ => 2%:R^-1 / N%:R)) sumr_const card_ord -[_^-1 *+ N]mulr_natr mulrBr.
rewrite sumr_const card_ord -[(_ * _) *+ N]mulr_natr mulrA [2%:R * (_ * _)]mulrA divff ?two0 // mul1r mulrBl mulVf //.
by rewrite -natrM natrB // muln_gt0 N0.
Qed.
Lemma gram1 : gram = 1%:M.
Proof.
pose P := 1%:M - gram.
have Pr i j : P i j \is Num.real by rewrite 2!mxE [in X in _ + X]mxE rpredB ?realn ?gram_real.
have PP : P *m P^T = P.
  rewrite /P linearB /= trmx1 gram_sym mulmxBl mulmxBr mulmxBr !mul1mx mulmx1 gram_idem.
  by rewrite subrr subr0.
have tP : \tr P = 0 by rewrite /P (raddfB (mxtrace_additive _ _)) /= mxtrace1 gram_tr subrr.
suff : P = 0 by move=> /eqP; rewrite subr_eq0 => /eqP.
clearbody P.
have S : \sum_(i < d) \sum_(j < d) P i j ^+ 2 = 0.
  rewrite -[RHS]tP -[in RHS]PP /mxtrace; apply: eq_bigr => i _; rewrite mxE.
  by apply: eq_bigr => j _; rewrite mxE expr2.
have sq i j : 0 <= P i j ^+ 2 by rewrite real_exprn_even_ge0.
apply/matrixP => i j; rewrite mxE.
have Si : \sum_(j < d) P i j ^+ 2 = 0.
  by apply: (psumr_eq0P (P := xpredT) (F := fun i => \sum_(j < d) P i j ^+ 2) _ S (i := i)) => // k _; apply: sumr_ge0.
have /eqP : P i j ^+ 2 = 0.
  by apply: (psumr_eq0P (P := xpredT) (F := fun j => P i j ^+ 2) _ Si (i := j)).
by rewrite sqrf_eq0 => /eqP.
Qed.
Lemma orthonormal (i j : 'I_d) : \tr (G`_i *m G`_j) = (i == j)%:R / 2%:R.
Proof.
have := congr1 (fun M : 'M[C]_d => M i j) gram1; rewrite !mxE => /(congr1 (fun x => x / 2%:R)).
by rewrite mulrAC divff ?two0 // mul1r.
Qed.
Lemma expand H : \tr H = 0 -> H = \sum_(a < d) (2%:R * \tr (G`_a *m H)) *: G`_a.
Proof.
move=> tH; apply/matrixP => c e; rewrite summxE.
transitivity (2%:R * \sum_(T <- G) \tr (H *m T) * \tr (T *m delta_mx e c)).
  rewrite complete tH !mul0r subr0 mulrA divff ?two0 // mul1r mxtr_mul.
  rewrite (bigD1 c) //= (bigD1 e) //= mxE !eqxx mulr1 big1 ?addr0; last first.
    by move=> j /negbTE Hj; rewrite mxE Hj mulr0.
  by rewrite big1 ?addr0 // => i /negbTE Hi; apply: big1 => j _; rewrite mxE Hi andbF mulr0.
rewrite sumG mulr_sumr; apply: eq_bigr => a _; rewrite mxE [\tr (H *m _)]mxtrace_mulC mulrA; congr (_ * _).
rewrite mxtr_mul (bigD1 c) //= (bigD1 e) //= mxE !eqxx mulr1 big1 ?addr0; last first.
  by move=> j /negbTE Hj; rewrite mxE Hj mulr0.
by rewrite big1 ?addr0 // => i /negbTE Hi; apply: big1 => j _; rewrite mxE Hi andbF mulr0.
Qed.
Lemma coeff (c : 'I_d -> C) (b : 'I_d) : 2%:R * \tr (G`_b *m \sum_a c a *: G`_a) = c b.
Proof.
rewrite mulmx_sumr (raddf_sum (mxtrace_additive _ _)) /= mulr_sumr (bigD1 b) //= big1 ?addr0.
  by rewrite -scalemxAr mxtraceZ orthonormal eqxx mul1r mulrCA divff ?two0 // mulr1.
by move=> a /negbTE Ha; rewrite -scalemxAr mxtraceZ orthonormal eq_sym Ha mul0r !mulr0.
Qed.
Lemma independent (c c' : 'I_d -> C) : \sum_a c a *: G`_a = \sum_a c' a *: G`_a -> c =1 c'.
Proof. by move=> E b; rewrite -(coeff c b) E coeff. Qed.
Lemma is_basis : su_basis G.
Proof.
split => //.
- move=> T HT; split; first exact: hermG.
  have K : (index T G < d)%N by rewrite -szG index_mem.
  by rewrite -(nth_index 0 HT); exact: (traceless (Ordinal K)).
- by move=> a b Ha Hb; exact: (orthonormal (Ordinal Ha) (Ordinal Hb)).
- by move=> H tH; exists (fun a => 2%:R * \tr (G`_a *m H)); exact: expand.
Qed.

Lemma conj_herm U A : hermitian A -> hermitian (U *m A *m htrans U).
Proof.
move=> HA i j; have HA' : htrans A = A by apply/matrixP => a b; rewrite !mxE -HA.
have : htrans (U *m A *m htrans U) = U *m A *m htrans U by rewrite !htransM htransK HA' mulmxA.
by move=> /(congr1 (fun M : 'M[C]_N => M i j)) <-; rewrite !mxE.
Qed.
Lemma linkE U i j : loop_link G U i j = 2%:R * \tr (G`_i *m (U *m G`_j *m htrans U)).
Proof.
rewrite mxE !mulmxA; congr (_ * _).
have := trC_herm (hermG (memG i)) (conj_herm U (hermG (memG j))).
by rewrite !mulmxA => /Creal_ReP ->.
Qed.
Lemma link_real U i j : loop_link G U i j \is Num.real.
Proof. by rewrite linkE rpredM ?realn // trC_herm //; [exact: hermG (memG i) | exact: conj_herm (hermG (memG j))]. Qed.
Lemma conj_tr0 U (j : 'I_d) : unitary U -> \tr (U *m G`_j *m htrans U) = 0.
Proof. by move=> HU; rewrite mxtrace_mulC mulmxA unitary_l // mul1mx traceless. Qed.
Lemma link_acts U : unitary U -> acts_as G U (loop_link G U).
Proof.
move=> HU j; rewrite daggerE [LHS]expand ?conj_tr0 //.
by apply: eq_bigr => i _; rewrite linkE.
Qed.
Lemma link1 : loop_link G 1%:M = 1%:M.
Proof. by rewrite -gram1; apply/matrixP => i j; rewrite linkE mxE htrans1 mul1mx mulmx1. Qed.
Lemma linkH U : loop_link G (htrans U) = (loop_link G U)^T.
Proof.
apply/matrixP => i j; rewrite linkE [in RHS]mxE linkE htransK; congr (_ * _).
by rewrite -[htrans U *m _ *m _]mulmxA mulmxA mxtrace_mulC !mulmxA.
Qed.
Lemma linkM U V : unitary U -> unitary V -> loop_link G (U *m V) = loop_link G U *m loop_link G V.
Proof.
move=> HU HV; apply/matrixP => i k; rewrite linkE [RHS]mxE.
transitivity (4%:R * \sum_(T <- G) \tr ((htrans U *m G`_i *m U) *m T) * \tr (T *m (V *m G`_k *m htrans V))).
  rewrite complete conj_tr0 // mulr0 mul0r subr0 mulrA (natrM C 2 2) mulfK ?two0 //.
  congr (_ * _); rewrite htransM -!mulmxA.
  by rewrite [in RHS]mxtrace_mulC !mulmxA.
rewrite sumG mulr_sumr; apply: eq_bigr => j _; rewrite !linkE.
rewrite (natrM C 2 2).
have -> : \tr (htrans U *m G`_i *m U *m G`_j) = \tr (G`_i *m (U *m G`_j *m htrans U)).
  by rewrite -!mulmxA mxtrace_mulC !mulmxA.
by move: 2%:R (\tr _) (\tr _) => u p q; cring_fold C; ring.
Qed.
Lemma link_orthogonal U : unitary U -> real_orthogonal (loop_link G U).
Proof.
move=> HU; split; first exact: link_real.
- by rewrite -linkH -linkM ?unitary_r ?link1 //; exact: unitaryH.
- by rewrite -linkH -linkM ?unitary_l ?link1 //; exact: unitaryH.
Qed.
Lemma link_trace U : unitary U -> \tr (loop_link G U) = `|\tr U| ^+ 2 - 1.
Proof.
move=> HU; have N1 : N%:R != 0 :> C by rewrite pnatr_eq0 -lt0n.
transitivity (2%:R * \sum_a \sum_b \sum_c \sum_e (\sum_(T <- G) T a b * T c e) * (U b c * (U a e)^*)).
  rewrite /mxtrace; transitivity (2%:R * \sum_(T <- G) \tr (T *m U *m T *m htrans U)).
    by rewrite sumG mulr_sumr; apply: eq_bigr => k _; rewrite linkE !mulmxA.
  congr (_ * _).
  transitivity (\sum_(T <- G) \sum_a \sum_b \sum_c \sum_e (T a b * T c e) * (U b c * (U a e)^*)).
    apply: eq_bigr => T _; rewrite -mulmxA mxtr_mul; apply: eq_bigr => a _.
    transitivity (\sum_c \sum_b \sum_e T a b * T c e * (U b c * (U a e)^*)).
      apply: eq_bigr => c _; rewrite !mxE mulr_suml; apply: eq_bigr => b _; rewrite mulr_sumr; apply: eq_bigr => e _.
      by rewrite !mxE -!mulrA; congr (_ * _); rewrite mulrCA.
    by rewrite exchange_big.
  rewrite exchange_big; apply: eq_bigr => a _; rewrite exchange_big; apply: eq_bigr => b _.
  rewrite exchange_big; apply: eq_bigr => c _; rewrite exchange_big; apply: eq_bigr => e _.
  by rewrite mulr_suml.
transitivity (\sum_a \sum_b (U b b * (U a a)^* - (b == a)%:R * (N%:R^-1 * (U *m htrans U) b a))).
  rewrite mulr_sumr; apply: eq_bigr => a _; rewrite mulr_sumr; apply: eq_bigr => b _.
  transitivity (\sum_c ((c == b)%:R * (U b c * (U a a)^*) - (b == a)%:R * (N%:R^-1 * (U b c * (U a c)^*)))).
    rewrite mulr_sumr; apply: eq_bigr => c _.
    transitivity (\sum_e ((e == a)%:R * ((c == b)%:R * (U b c * (U a e)^*)) - (e == c)%:R * ((b == a)%:R * (N%:R^-1 * (U b c * (U a e)^*))))).
      rewrite mulr_sumr; apply: eq_bigr => e _; rewrite fierz [a == e]eq_sym [b == c]eq_sym [c == e]eq_sym [a == b]eq_sym.
      rewrite mulrA [2%:R * (_ * _)]mulrA divff ?two0 // mul1r.
      by move: (e == a)%:R (c == b)%:R (b == a)%:R (e == c)%:R N%:R^-1 (U b c * _) => p q r s t w; cring_fold C; ring.
    by rewrite sumrB !delta_l.
  rewrite sumrB delta_l -!mulr_sumr [in RHS]mxE; congr (_ - _ * (_ * _)).
  by apply: eq_bigr => c _; rewrite !mxE.
transitivity (\sum_a (\tr U * (U a a)^* - N%:R^-1)).
  apply: eq_bigr => a _; rewrite sumrB delta_l -mulr_suml unitary_r // mxE eqxx mulr1.
  by [].
rewrite sumrB -mulr_sumr sumr_const card_ord -[_ *+ N]mulr_natr mulVf // normCK; congr (_ * _ - _).
by rewrite /mxtrace rmorph_sum.
Qed.

Lemma adjE (i : nat) (m k : 'I_d) : loop_adjoint G i m k = 2%:R * \tr (G`_m *m (G`_i *m G`_k - G`_k *m G`_i)).
Proof.
rewrite mxE; case: (altP (m =P k)) => [->|_] /=.
  rewrite mulmxBr (raddfB (mxtrace_additive _ _)) /=.
  by rewrite [\tr (_ *m (_ *m G`_i))]mxtrace_mulC -mulmxA subrr mulr0.
rewrite mulmxBl mulmxBr !(raddfB (mxtrace_additive _ _)) /= mulNr -mulrN opprB; congr (_ * (_ - _)).
  by rewrite -mulmxA mxtrace_mulC mulmxA.
by rewrite mulmxA.
Qed.
Lemma comm_tr0 A B : \tr (A *m B - B *m A) = 0.
Proof. by rewrite (raddfB (mxtrace_additive _ _)) /= mxtrace_mulC subrr. Qed.
Lemma adj_commutes (i : nat) : commutes_as G G`_i (loop_adjoint G i).
Proof.
by move=> j; rewrite [LHS]expand ?comm_tr0 //; apply: eq_bigr => m _; rewrite adjE.
Qed.
Lemma ad_sum A (c : 'I_d -> C) : A *m (\sum_k c k *: G`_k) - (\sum_k c k *: G`_k) *m A = \sum_k c k *: (A *m G`_k - G`_k *m A).
Proof.
rewrite mulmx_sumr mulmx_suml -sumrB; apply: eq_bigr => k _.
by rewrite -scalemxAr -scalemxAl scalerBr.
Qed.
Lemma ad2 (i j : nat) (k : 'I_d) :
  G`_i *m (G`_j *m G`_k - G`_k *m G`_j) - (G`_j *m G`_k - G`_k *m G`_j) *m G`_i
  = \sum_m (loop_adjoint G i *m loop_adjoint G j) m k *: G`_m.
Proof.
rewrite (adj_commutes j k) ad_sum.
transitivity (\sum_l \sum_m (loop_adjoint G j l k * loop_adjoint G i m l) *: G`_m).
  apply: eq_bigr => l _; rewrite (adj_commutes i l) scaler_sumr.
  by apply: eq_bigr => m _; rewrite scalerA.
rewrite exchange_big; apply: eq_bigr => m _; rewrite -scaler_suml mxE; congr (_ *: _).
by apply: eq_bigr => l _; rewrite mulrC.
Qed.
Lemma adj_lie (i : nat) (j : 'I_d) :
  loop_adjoint G i *m loop_adjoint G j - loop_adjoint G j *m loop_adjoint G i = \sum_k loop_adjoint G i k j *: loop_adjoint G k.
Proof.
apply/matrixP => m k; move: m.
apply: (@independent (fun m => (loop_adjoint G i *m loop_adjoint G j - loop_adjoint G j *m loop_adjoint G i) m k)
  (fun m => (\sum_l loop_adjoint G i l j *: loop_adjoint G l) m k)).
transitivity ((G`_i *m G`_j - G`_j *m G`_i) *m G`_k - G`_k *m (G`_i *m G`_j - G`_j *m G`_i)).
  transitivity (\sum_m (loop_adjoint G i *m loop_adjoint G j) m k *: G`_m - \sum_m (loop_adjoint G j *m loop_adjoint G i) m k *: G`_m).
    by rewrite -sumrB; apply: eq_bigr => m _; rewrite !mxE scalerBl.
  rewrite -!ad2 !(mulmxBl, mulmxBr) !mulmxA.
  move: (G`_i *m G`_j *m G`_k) (G`_i *m G`_k *m G`_j) (G`_j *m G`_k *m G`_i) (G`_k *m G`_j *m G`_i) (G`_j *m G`_i *m G`_k) (G`_k *m G`_i *m G`_j) => a b c e f g.
  apply/matrixP => s t; rewrite !mxE.
  by move: (a s t) (b s t) (c s t) (e s t) (f s t) (g s t) => ? ? ? ? ? ?; cring_fold C; ring.
rewrite (adj_commutes i j) -[LHS]opprB ad_sum -sumrN.
transitivity (\sum_l \sum_m (loop_adjoint G i l j * loop_adjoint G l m k) *: G`_m).
  apply: eq_bigr => l _; rewrite -scalerN opprB (adj_commutes l k) scaler_sumr.
  by apply: eq_bigr => m _; rewrite scalerA.
rewrite exchange_big; apply: eq_bigr => m _; rewrite -scaler_suml summxE; congr (_ *: _).
by apply: eq_bigr => l _; rewrite [RHS]mxE.
Qed.
End Complete.
