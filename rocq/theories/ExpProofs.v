From mathcomp Require Import all_ssreflect all_algebra.
From Verif Require Import GaugeModel GaugeSpec GaugeProofs GaugeProofs2 GaugeProofs3 ExpModel ExpSpec.
Import GRing.Theory Num.Theory.
Set Implicit Arguments.
Unset Strict Implicit.
Unset Printing Implicit Defensive.
Local Open Scope ring_scope.

Section Exp.
Variable C : numClosedFieldType.
Variable n : nat.
Notation GaugeGroup := 'M[C]_n.
Implicit Types (A B V g : GaugeGroup) (l : 'rV[C]_n).

Lemma diag_mul l l' : diag_mx l *m diag_mx l' = diag_mx (\row_i (l ord0 i * l' ord0 i)) :> GaugeGroup.
Proof.
apply/matrixP => i j; rewrite mul_diag_mx !mxE.
by case: eqP => [->|_]; rewrite ?mulr1n // !mulr0n mulr0.
Qed.
Lemma htrans_diag l : htrans (diag_mx l) = diag_mx (map_mx conjC l) :> GaugeGroup.
Proof.
apply/matrixP => i j; rewrite !mxE eq_sym.
by case: eqP => [->|_]; rewrite ?mulr1n // !mulr0n rmorph0.
Qed.
Lemma decomposes_rec A V l : decomposes A V l -> A = V *m diag_mx l *m htrans V.
Proof. by case=> u <-; rewrite -mulmxA unitary_r // mulmx1. Qed.
Lemma decomposes_diag A V l : decomposes A V l -> htrans V *m A *m V = diag_mx l.
Proof. by case=> u e; rewrite -mulmxA e mulmxA unitary_l // mul1mx. Qed.

(** Any two decompositions of the same matrix give the same function of it. *)
Lemma decomposes_unique (f : C -> C) A V l V' l' : decomposes A V l -> decomposes A V' l' ->
  V *m diag_mx (map_mx f l) *m htrans V = V' *m diag_mx (map_mx f l') *m htrans V'.
Proof.
move=> [u e] [u' e']; set W := htrans V' *m V.
have WE : diag_mx l' *m W = W *m diag_mx l.
  rewrite -(decomposes_diag (conj u' e')) /W -!mulmxA (mulmxA V') unitary_r // mul1mx e.
  by rewrite !mulmxA.
have WF : diag_mx (map_mx f l') *m W = W *m diag_mx (map_mx f l).
  apply/matrixP => i j; rewrite mul_diag_mx mul_mx_diag ![LHS]mxE ![RHS]mxE.
  move/matrixP: WE => /(_ i j); rewrite mul_diag_mx mul_mx_diag ![LHS]mxE ![RHS]mxE => E.
  rewrite [map_mx f l' _ _]mxE [map_mx f l _ _]mxE.
  have [->|W0] := eqVneq (W i j) 0; first by rewrite mulr0 mul0r.
  by move: E; rewrite mulrC => /(mulfI W0) ->; rewrite mulrC.
have VE : V = V' *m W by rewrite /W mulmxA unitary_r // mul1mx.
have W1 : W *m htrans W = 1%:M.
  by rewrite /W htransM htransK -mulmxA (mulmxA V) unitary_r // mul1mx unitary_l.
clearbody W; rewrite VE htransM -!mulmxA; congr (_ *m _).
by rewrite (mulmxA W) -WF -!mulmxA (mulmxA W (htrans W)) W1 mul1mx.
Qed.
Lemma decomposes_conj A V l g : unitary g -> decomposes A V l -> decomposes (g *m A *m htrans g) (g *m V) l.
Proof.
move=> ug [u e]; split; first exact: unitaryM.
by rewrite -!mulmxA (mulmxA (htrans g)) unitary_l // mul1mx e.
Qed.
Lemma decomposes_scale (c : C) A V l : decomposes A V l -> decomposes (c *: A) V (c *: l).
Proof.
case=> u e; split=> //; rewrite -scalemxAl e scalemxAr; congr (_ *m _).
by apply/matrixP => i j; rewrite !mxE -mulrnAr.
Qed.
Lemma decomposes_imag A V l i : anti_hermitian A -> decomposes A V l -> (l ord0 i)^* = - l ord0 i.
Proof.
rewrite /anti_hermitian daggerE => a d; have := decomposes_diag d.
move/(congr1 (fun M => htrans M)); rewrite !htransM htransK a mulNmx mulmxN mulmxA (decomposes_diag d) htrans_diag.
move/matrixP => /(_ i i); rewrite !mxE eqxx !mulr1n => <-; exact/esym.
Qed.
Lemma decomposes_trace A V l : decomposes A V l -> \tr A = \sum_i l ord0 i.
Proof.
move=> d; rewrite {1}(decomposes_rec d) mxtrace_mulC mulmxA; case: d => u _.
by rewrite unitary_l // mul1mx mxtrace_diag.
Qed.
Lemma anti_conj A g : anti_hermitian A -> anti_hermitian (g *m A *m htrans g).
Proof. by rewrite /anti_hermitian !daggerE => a; rewrite !htransM htransK a mulNmx mulmxN mulmxA. Qed.
Lemma anti_scale (c : C) A : c \is Num.real -> anti_hermitian A -> anti_hermitian (c *: A).
Proof. by rewrite /anti_hermitian !daggerE => cR a; rewrite htransZ a (conj_Creal cR) scalerN. Qed.
Lemma anti_add A B : anti_hermitian A -> anti_hermitian B -> anti_hermitian (A + B).
Proof. by rewrite /anti_hermitian !daggerE => a b; rewrite htransD a b opprD. Qed.
Lemma anti_opp A : anti_hermitian A -> anti_hermitian (- A).
Proof. by rewrite /anti_hermitian !daggerE => a; rewrite htransN a. Qed.
Lemma traceless_scale (c : C) A : traceless A -> traceless (c *: A).
Proof. by rewrite /traceless mxtraceZ => ->; rewrite mulr0. Qed.
Lemma traceless_add A B : traceless A -> traceless B -> traceless (A + B).
Proof. by rewrite /traceless mxtraceD => -> ->; rewrite addr0. Qed.
Lemma traceless_opp A : traceless A -> traceless (- A).
Proof. by rewrite /traceless => a; rewrite (raddfN (mxtrace_additive _ _)) /= a oppr0. Qed.

Section Oracle.
Variable cexp : C -> C.
Variable eig : GaugeGroup -> GaugeGroup * 'rV[C]_n.
Hypothesis Hc : good_cexp cexp.
Hypothesis He : good_eig eig.

Lemma spectralE f A V l : anti_hermitian A -> decomposes A V l ->
  spectral eig f A = V *m diag_mx (map_mx f l) *m htrans V.
Proof.
move=> a d; rewrite /spectral; have := He a; case: (eig A) => V' l' /= d'.
exact: decomposes_unique d' d.
Qed.
Lemma spectral_conj f A g : anti_hermitian A -> unitary g ->
  spectral eig f (g *m A *m htrans g) = g *m spectral eig f A *m htrans g.
Proof.
move=> a u; rewrite (spectralE f (anti_conj g a) (decomposes_conj u (He a))) (spectralE f a (He a)).
by rewrite htransM !mulmxA.
Qed.
Lemma spectral_mul f f' A : anti_hermitian A ->
  spectral eig f A *m spectral eig f' A = spectral eig (fun z => f z * f' z) A.
Proof.
move=> a; have d := He a; rewrite !(spectralE _ a d); case: d => u _.
rewrite !mulmxA -(mulmxA _ (htrans (eig A).1)) unitary_l // mulmx1.
congr (_ *m _); rewrite -!mulmxA diag_mul; congr (_ *m diag_mx _).
by apply/rowP => i; rewrite !mxE.
Qed.
Lemma spectral_ext f f' A : (forall i, f ((eig A).2 ord0 i) = f' ((eig A).2 ord0 i)) -> spectral eig f A = spectral eig f' A.
Proof.
rewrite /spectral; case: (eig A) => V l /= E; congr (_ *m diag_mx _ *m _).
by apply/rowP => i; rewrite !mxE.
Qed.
Lemma spectral_one A : anti_hermitian A -> spectral eig (fun=> 1) A = 1%:M.
Proof.
move=> a; have d := He a; rewrite (spectralE _ a d); case: d => u _.
have -> : map_mx (fun _ : C => 1 : C) (eig A).2 = const_mx 1 :> 'rV[C]_n by apply/rowP => i; rewrite !mxE.
by rewrite diag_const_mx mulmx1 unitary_r.
Qed.
Lemma spectral_scale f (c : C) A : c \is Num.real -> anti_hermitian A ->
  spectral eig f (c *: A) = spectral eig (fun z => f (c * z)) A.
Proof.
move=> cR a; rewrite (spectralE f (anti_scale cR a) (decomposes_scale c (He a))) (spectralE _ a (He a)).
by congr (_ *m diag_mx _ *m _); apply/rowP => i; rewrite !mxE.
Qed.

Lemma link_exp_add eps eps' A : anti_hermitian A ->
  link_exp cexp eig eps A *m link_exp cexp eig eps' A = link_exp cexp eig (eps + eps') A.
Proof.
move=> a; rewrite /link_exp spectral_mul //; apply: spectral_ext => i.
by case: Hc => _ h _; rewrite mulrDl h.
Qed.
Lemma link_exp_0 A : anti_hermitian A -> link_exp cexp eig 0 A = 1%:M.
Proof.
move=> a; rewrite /link_exp -(spectral_one a); apply: spectral_ext => i.
by case: Hc => h _ _; rewrite mul0r h.
Qed.
Lemma link_exp_scale eps c A : c \is Num.real -> anti_hermitian A ->
  link_exp cexp eig eps (c *: A) = link_exp cexp eig (eps * c) A.
Proof.
move=> cR a; rewrite /link_exp spectral_scale //; apply: spectral_ext => i; by rewrite mulrA.
Qed.
Lemma link_exp_opp eps A : anti_hermitian A -> link_exp cexp eig eps (- A) = link_exp cexp eig (- eps) A.
Proof.
move=> a; have -> : - A = (-1) *: A by rewrite scaleN1r.
by rewrite link_exp_scale ?mulrN1 // rpredN rpred1.
Qed.
Lemma link_exp_inv eps A : anti_hermitian A -> link_exp cexp eig eps (- A) *m link_exp cexp eig eps A = 1%:M.
Proof. by move=> a; rewrite link_exp_opp // link_exp_add // addNr link_exp_0. Qed.
Lemma link_exp_conj eps A g : anti_hermitian A -> unitary g ->
  link_exp cexp eig eps (g *m A *m htrans g) = g *m link_exp cexp eig eps A *m htrans g.
Proof. by move=> a u; exact: spectral_conj. Qed.

Lemma cexp_sum (I : finType) (F : I -> C) : \prod_i cexp (F i) = cexp (\sum_i F i).
Proof. by case: Hc => h0 hD _; rewrite (big_morph cexp hD h0). Qed.
Lemma link_exp_unitary eps A : eps \is Num.real -> anti_hermitian A -> unitary (link_exp cexp eig eps A).
Proof.
move=> eR a; have d := He a; rewrite /unitary daggerE /link_exp (spectralE _ a d) !htransM htransK htrans_diag.
have [u _] := d; rewrite -!mulmxA (mulmxA (htrans (eig A).1)) unitary_l // mul1mx (mulmxA (diag_mx _)) diag_mul.
rewrite (_ : \row_i _ = const_mx 1) ?diag_const_mx ?mul1mx ?unitary_r //.
apply/rowP => i; rewrite !mxE; case: Hc => h0 hD hJ.
by rewrite -hJ -hD rmorphM /= (conj_Creal eR) (decomposes_imag _ a d) mulrN addrN h0.
Qed.
Lemma link_exp_det eps A : anti_hermitian A -> \det (link_exp cexp eig eps A) = cexp (eps * \tr A).
Proof.
move=> a; have d := He a; rewrite /link_exp (spectralE _ a d) !det_mulmx mulrC mulrA -det_mulmx.
have [u _] := d; rewrite unitary_l // det1 mul1r det_diag (decomposes_trace d) mulr_sumr -cexp_sum.
by apply: eq_bigr => i _; rewrite !mxE.
Qed.
Lemma link_exp_su eps A : eps \is Num.real -> anti_hermitian A -> traceless A -> special_unitary (link_exp cexp eig eps A).
Proof.
move=> eR a t; split; first exact: link_exp_unitary.
by rewrite link_exp_det // t mulr0; case: Hc.
Qed.
Lemma link_exp_like eps : eps \is Num.real -> exponential_like (link_exp cexp eig eps).
Proof.
move=> eR; split=> [A a t|A g a u]; first exact: link_exp_su.
by rewrite daggerE link_exp_conj.
Qed.

(** The sum of the squared moduli of the eigenvalues does not depend on the basis. *)
Definition eig_norm A := \sum_i `|'Re (((eig A).2 ord0 i)^* * (eig A).2 ord0 i)|.
Lemma eig_normE A : anti_hermitian A -> eig_norm A = - \tr (A *m A).
Proof.
move=> a; have d := He a; have [u e] := d.
have d2 : decomposes (A *m A) (eig A).1 (\row_i ((eig A).2 ord0 i * (eig A).2 ord0 i)).
  by split=> //; rewrite -mulmxA e mulmxA e -mulmxA diag_mul.
rewrite (decomposes_trace d2) -sumrN; apply: eq_bigr => i _; rewrite mxE (decomposes_imag i a d) mulNr.
have r : - ((eig A).2 ord0 i * (eig A).2 ord0 i) = `|(eig A).2 ord0 i| ^+ 2.
  by rewrite normCK (decomposes_imag i a d) mulrN.
have rR : `|(eig A).2 ord0 i| ^+ 2 \is Num.real by rewrite rpredX // normr_real.
by rewrite r (Creal_ReP _ rR) ger0_norm // exprn_ge0.
Qed.
Lemma group_expE threshold A : group_exp cexp eig threshold A =
  if eig_norm A < threshold then 1%:M + A + 2%:R^-1 *: (A *m A) else spectral eig cexp A.
Proof. by rewrite /group_exp /eig_norm /spectral; case: (eig A). Qed.
Lemma group_exp_conj threshold A g : anti_hermitian A -> unitary g ->
  group_exp cexp eig threshold (g *m A *m htrans g) = g *m group_exp cexp eig threshold A *m htrans g.
Proof.
move=> a u; rewrite !group_expE !eig_normE // ?(anti_conj g a) //; last exact: anti_conj.
have E : g *m A *m htrans g *m (g *m A *m htrans g) = g *m (A *m A) *m htrans g.
  by rewrite -!mulmxA (mulmxA (htrans g)) unitary_l // mul1mx.
have -> : \tr (g *m A *m htrans g *m (g *m A *m htrans g)) = \tr (A *m A).
  by rewrite E mxtrace_mulC (mulmxA (htrans g)) unitary_l // mul1mx.
case: ifP => _; last exact: spectral_conj.
by rewrite E !mulmxDr !mulmxDl mulmx1 unitary_r // -scalemxAr -scalemxAl.
Qed.
Lemma spectral_cexp A : spectral eig cexp A = link_exp cexp eig 1 A.
Proof. by apply: spectral_ext => i; rewrite mul1r. Qed.
Lemma group_exp_su threshold A : anti_hermitian A -> traceless A -> A = 0 \/ ~~ (eig_norm A < threshold) ->
  special_unitary (group_exp cexp eig threshold A).
Proof.
move=> a t; rewrite group_expE; case: ifP => [lt [->|//]|_ _].
  by rewrite mulmx0 scaler0 !addr0; exact: su1.
by rewrite spectral_cexp; exact: link_exp_su (rpred1 _) a t.
Qed.
(** Below the threshold the truncated series is used, which is not unitary unless A^4 = 0. *)
Lemma series_unitary A : anti_hermitian A ->
  (1%:M + A + 2%:R^-1 *: (A *m A)) *m htrans (1%:M + A + 2%:R^-1 *: (A *m A)) = 1%:M + 4%:R^-1 *: (A *m A *m (A *m A)).
Proof.
rewrite /anti_hermitian daggerE => a.
have h2 : (2%:R^-1 : C)^* = 2%:R^-1 by rewrite fmorphV conjC_nat.
rewrite !htransD htrans1 htransZ htransM a h2 mulNmx mulmxN opprK.
set B := A *m A; set X := 1%:M + 2%:R^-1 *: B.
have -> : 1%:M + A + 2%:R^-1 *: B = X + A by rewrite addrAC.
have -> : 1%:M - A + 2%:R^-1 *: B = X - A by rewrite addrAC.
have XA : X *m A = A *m X by rewrite /X mulmxDl mulmxDr mul1mx mulmx1 -scalemxAl -scalemxAr /B mulmxA.
have X2 : X *m X = 1%:M + B + 4%:R^-1 *: (B *m B).
  rewrite {1}/X mulmxDl mul1mx -scalemxAl {2}/X mulmxDr mulmx1 -scalemxAr scalerDr scalerA -invfM -natrM.
  rewrite addrA; congr (_ + _); rewrite /X -addrA; congr (_ + _).
  by rewrite -scalerDl -mulr2n -mulr_natr mulVf ?scale1r // pnatr_eq0.
clearbody X; rewrite mulmxDl !mulmxDr !mulmxN XA addrA subrK -/B.
by rewrite X2 addrAC addrK.
Qed.
End Oracle.
End Exp.
