(** Property C73: the closed formula of the exponential for three colours; consequences for C36. *)
From Coq Require Import Reals Lra.
From Verif Require Import ComplexR Exp3RModel Exp3Scalar.
From mathcomp Require Import all_ssreflect all_algebra.
From mathcomp Require Import complex.
From Verif Require Import RealField GaugeModel GaugeSpec GaugeProofs GaugeProofs2 GaugeProofs3 ExpModel ExpSpec ExpProofs EigProofs Exp3Model Exp3Proofs.
Import Order.TTheory GRing.Theory Num.Theory.
Set Implicit Arguments.
Unset Strict Implicit.
Unset Printing Implicit Defensive.
Local Open Scope ring_scope.

(** The exponential of a matrix that has an orthonormal basis of eigenvectors: the same eigenvectors, exponentials of the
    eigenvalues. Every anti-Hermitian matrix has such a basis (EigProofs.spectral_theorem). *)
Definition is_exponential (A E : 'M[CR]_3) : Prop :=
  forall V l, decomposes A V l -> E = V *m diag_mx (map_mx cexpR l) *m dagger V.
(** The eigenvalues of A are i times the angles. Either two of them are equal, or any two are a tenth apart. *)
Definition well_separated (l : 'rV[CR]_3) : Prop :=
  (exists i j, i <> j /\ angle l i = angle l j) \/ (forall i j, i <> j -> far (angle l i) (angle l j)).

Lemma cexp_cis (x : R) : cexpR (toCR (mkC 0 x)) = toCR (cis x).
Proof. by rewrite /cexpR /toCR /= exp_0; congr (_ +i* _)%C; rewrite Rmult_1_l. Qed.

Section Diagonal.
Variables (A V : 'M[CR]_3) (l : 'rV[CR]_3).
Hypotheses (a : anti_hermitian A) (t : traceless A) (d : decomposes A V l).
Lemma separated_cases : well_separated l ->
  (angle l i0 = angle l i1 \/ angle l i0 = angle l i2 \/ angle l i1 = angle l i2) \/
  (far (angle l i0) (angle l i1) /\ far (angle l i0) (angle l i2) /\ far (angle l i1) (angle l i2)).
Proof.
case=> [[i [j [ne e]]]|h]; last by right; do !split; apply: h.
left; have [ei|[ei|ei]] := i3_cases i; have [ej|[ej|ej]] := i3_cases j; subst i j; auto; by case: ne.
Qed.
Lemma angle_of i : angle l i = angle l i0 \/ angle l i = angle l i1 \/ angle l i = angle l i2.
Proof. by have [->|[->| ->]] := i3_cases i; auto. Qed.
Lemma diagonal_exact : A <> 0 -> well_separated l ->
  exp3 A = Some (V *m diag_mx (map_mx cexpR l) *m htrans V).
Proof.
move=> A0 /separated_cases sep.
have [u [w [sg [f [ef [Hsg [W [U [E1 [E0 [F0 [F1 F2]]]]]]]]]]]] :=
  coefficients_spec _ _ _ _ _ (angles0 a t d) (c1E a t d) (c0E a d) (eq_ind_r _ (c1_pos a t d A0) (c1E a t d)).
rewrite (exp3_spectral a d ef); congr (Some (_ *m diag_mx _ *m _)); apply/rowP => i.
rewrite !mxE (eigenvalueE a d) cexp_cis; congr toCR.
rewrite (c1E a t d) in E1; rewrite (c0E a d) in E0.
have := exact_branch _ _ _ _ _ _ _ (angles0 a t d) Hsg W U E1 E0 F0 F1 F2 sep.
by move/(values_exact _ _ _ _ _ _ _ (angles0 a t d) Hsg W U E1 E0 F0 F1 F2 (angle l i)); apply; exact: angle_of.
Qed.
Lemma diagonal_error : A <> 0 -> exists e : 'I_3 -> ComplexR.C,
  exp3 A = Some (V *m diag_mx (\row_i toCR (e i)) *m htrans V) /\
  forall i, cexpR (l ord0 i) = toCR (cis (angle l i)) /\ within (e i) (cis (angle l i)).
Proof.
move=> A0.
have [u [w [sg [f [ef [Hsg [W [U [E1 [E0 [F0 [F1 F2]]]]]]]]]]]] :=
  coefficients_spec _ _ _ _ _ (angles0 a t d) (c1E a t d) (c0E a d) (eq_ind_r _ (c1_pos a t d A0) (c1E a t d)).
exists (fun i => quad f (angle l i)); split; first exact: exp3_spectral ef.
move=> i; split; first by rewrite {1}(eigenvalueE a d) cexp_cis.
rewrite (c1E a t d) in E1; rewrite (c0E a d) in E0.
by apply: (values_error _ _ _ _ _ _ _ (angles0 a t d) Hsg W U E1 E0 F0 F1 F2); exact: angle_of.
Qed.
Lemma diagonal_series : A <> 0 -> ~ well_separated l -> exists (e : 'I_3 -> ComplexR.C) i,
  exp3 A = Some (V *m diag_mx (\row_i toCR (e i)) *m htrans V) /\ Rlt (Cnorm2 (e i)) 1.
Proof.
move=> A0 ns.
have [u [w [sg [f [ef [Hsg [W [U [E1 [E0 [F0 [F1 F2]]]]]]]]]]]] :=
  coefficients_spec _ _ _ _ _ (angles0 a t d) (c1E a t d) (c0E a d) (eq_ind_r _ (c1_pos a t d A0) (c1E a t d)).
exists (fun i => quad f (angle l i)).
rewrite (c1E a t d) in E1; rewrite (c0E a d) in E0.
have ne i j : i <> j -> angle l i <> angle l j by move=> h e; apply: ns; left; exists i, j.
have cl : Rlt (Rabs (Rminus (angle l i0) (angle l i1))) (Rdiv 1 10) \/
          Rlt (Rabs (Rminus (angle l i0) (angle l i2))) (Rdiv 1 10) \/
          Rlt (Rabs (Rminus (angle l i1) (angle l i2))) (Rdiv 1 10).
  have [h|h1] := Rlt_dec (Rabs (Rminus (angle l i0) (angle l i1))) (Rdiv 1 10); first by left.
  have [h|h2] := Rlt_dec (Rabs (Rminus (angle l i0) (angle l i2))) (Rdiv 1 10); first by right; left.
  have [h|h3] := Rlt_dec (Rabs (Rminus (angle l i1) (angle l i2))) (Rdiv 1 10); first by right; right.
  case: ns; right.
  have s x y : far x y -> far y x by rewrite /far Rabs_minus_sym.
  have f01 : far (angle l i0) (angle l i1) by exact: Rnot_lt_le.
  have f02 : far (angle l i0) (angle l i2) by exact: Rnot_lt_le.
  have f12 : far (angle l i1) (angle l i2) by exact: Rnot_lt_le.
  move=> i j; have [ei|[ei|ei]] := i3_cases i; have [ej|[ej|ej]] := i3_cases j; subst i j; auto; by case.
have [q [Hq lt1]] := series_branch _ _ _ _ _ _ _ (angles0 a t d) Hsg W U E1 E0 F0 F1 F2 (ne i0 i1 ltac:(done)) (ne i0 i2 ltac:(done)) (ne i1 i2 ltac:(done)) cl.
have [i eq] : exists i, q = angle l i by case: Hq => [->|[->| ->]]; [exists i0|exists i1|exists i2].
by exists i; split; [exact: exp3_spectral ef|rewrite -eq].
Qed.
End Diagonal.

(** The columns of a unitary product of this form have unit eigenvalues. *)
Lemma unitary_diag (V : 'M[CR]_3) (e : 'I_3 -> ComplexR.C) : unitary V ->
  unitary (V *m diag_mx (\row_i toCR (e i)) *m htrans V) -> forall i, Cnorm2 (e i) = R1.
Proof.
move=> u; rewrite {1}/unitary daggerE !htransM htransK htrans_diag -!mulmxA (mulmxA (htrans V)) unitary_l // mul1mx.
rewrite (mulmxA (diag_mx _)) diag_mul => h i.
have {}h : diag_mx (\row_i ((\row_i toCR (e i)) ord0 i * (map_mx conjC (\row_i toCR (e i))) ord0 i)) = 1%:M :> 'M[CR]_3.
  have := congr1 (fun M => htrans V *m M *m V) h.
  by rewrite mulmx1 unitary_l // !mulmxA unitary_l // mul1mx -mulmxA unitary_l // mulmx1.
move/matrixP: h => /(_ i i); rewrite !mxE eqxx !mulr1n -toCRJ -toCRM.
have -> : (1 : CR) = toCR C1 by [].
move/toCR_inj/(congr1 re) => h; change (Cnorm2 (e i) = re C1); rewrite -h /Cnorm2 /=.
by ring.
Qed.

(** ** C73 *)
(** Two equal eigenvalues or all a tenth apart: the result is the exponential and lies in the group. *)
Theorem C73_exponential (A V : 'M[CR]_3) (l : 'rV[CR]_3) :
  anti_hermitian A -> traceless A -> A <> 0 -> decomposes A V l -> well_separated l ->
  exists E, exp3 A = Some E /\ is_exponential A E /\ special_unitary E.
Proof.
move=> a t A0 d sep; eexists; split; first exact: diagonal_exact d A0 sep.
split; first by move=> V' l' d'; rewrite daggerE; exact: (decomposes_unique cexpR d d').
have [eig He] := good_eig_exists CR 3.
have -> : V *m diag_mx (map_mx cexpR l) *m htrans V = link_exp cexpR eig 1 A.
  rewrite -spectral_cexp /spectral; have := He A a; case: (eig A) => V' l' /= d'.
  exact: (decomposes_unique cexpR d d').
apply: (link_exp_su cexpR_good He) => //; exact: rpred1.
Qed.
(** Every other exponent: every eigenvalue is off by at most 10^-17. *)
Theorem C73_error (A V : 'M[CR]_3) (l : 'rV[CR]_3) :
  anti_hermitian A -> traceless A -> A <> 0 -> decomposes A V l ->
  exists e : 'I_3 -> ComplexR.C, exp3 A = Some (V *m diag_mx (\row_i toCR (e i)) *m dagger V) /\
    forall i, cexpR (l ord0 i) = toCR (cis (angle l i)) /\ within (e i) (cis (angle l i)).
Proof. by move=> a t A0 d; rewrite daggerE; exact: diagonal_error. Qed.
(** and never exactly in the group. *)
Theorem C73_series_refuted (A V : 'M[CR]_3) (l : 'rV[CR]_3) :
  anti_hermitian A -> traceless A -> A <> 0 -> decomposes A V l -> ~ well_separated l ->
  exists E, exp3 A = Some E /\ ~ unitary E.
Proof.
move=> a t A0 d ns; have [e [i [eE lt1]]] := diagonal_series a t d A0 ns.
eexists; split; first exact: eE; have [u _] := d => /(unitary_diag u)/(_ i) h.
by rewrite h in lt1; exact: Rlt_irrefl lt1.
Qed.
(** The zero matrix: 0/0. *)
Theorem C73_zero_refuted : exp3 0 = None.
Proof.
rewrite /exp3 mulmx0 mxtrace0.
have -> : Rmult (Ropp (Rdiv 1 2)) (real_part 0) = R0 by rewrite /real_part /=; exact: Rmult_0_r.
by rewrite coefficients_zero.
Qed.
(** Changes of basis. *)
Theorem C73_change_of_basis (A g : 'M[CR]_3) : unitary g ->
  exp3 (g *m A *m dagger g) = omap (fun E => g *m E *m dagger g) (exp3 A).
Proof.
move=> u; rewrite daggerE /exp3.
have -> : \det (toCR (Copp Ci) *: (g *m A *m htrans g)) = \det (toCR (Copp Ci) *: A).
  rewrite !detZ; congr (_ * _); rewrite !det_mulmx mulrC mulrA -det_mulmx unitary_l // det1 mul1r //.
have -> : g *m A *m htrans g *m (g *m A *m htrans g) = g *m (A *m A) *m htrans g.
  by rewrite -!mulmxA (mulmxA (htrans g)) unitary_l // mul1mx.
have -> : \tr (g *m (A *m A) *m htrans g) = \tr (A *m A).
  by rewrite mxtrace_mulC (mulmxA (htrans g)) unitary_l // mul1mx.
case: exp3_coefficients => [[[f0 f1] f2]|] //=; congr Some.
by rewrite !mulmxDr !mulmxDl -!scalemxAr -!scalemxAl mulmx1 unitary_r.
Qed.

(** ** C36, three colours: the exponent of a trivial field is zero. *)
Theorem C36_three_colours_cold_refuted (L : lattice) (rho : CR) (x : L) (mu : 'I_4) : rho \is Num.real ->
  let U : gauge CR 3 L := fun _ _ => 1%:M in
  exp3 (to_exp (rho *: htrans (wilson_staple U x mu) *m htrans (U x mu))) = None.
Proof.
move=> rR U; have SE : wilson_staple U x mu = 6%:R%:M.
  rewrite /wilson_staple (eq_bigr (fun=> 2%:R%:M)) => [|k _]; last first.
    by rewrite /U !htrans1 !mulmx1 -raddfD /= -mulr2n.
  rewrite (eq_bigl (mem (predC1 mu))) => [|k]; last by rewrite !inE.
  by rewrite sumr_const cardC1 card_ord -raddfMn /= -mulrnA.
rewrite SE /U htrans1 mulmx1 htrans_scalar conjC_nat /to_exp.
have -> : htrans (rho *: 6%:R%:M) - rho *: 6%:R%:M = 0 :> 'M[CR]_3.
  by rewrite htransZ htrans_scalar conjC_nat (conj_Creal rR) subrr.
rewrite scaler0 mxtrace0 mul0r raddf0 subr0 oppr0; exact: C73_zero_refuted.
Qed.

(** Concrete cases: diag(i,-i,0) is well separated, diag(i/100,-i/100,0) is not. *)
Definition diag_case (s : R) : 'rV[CR]_3 :=
  \row_i (if i == i0 then toCR (mkC 0 s) else if i == i1 then toCR (mkC 0 (Ropp s)) else 0).
Lemma diag_case_ok (s : R) : s <> R0 ->
  [/\ anti_hermitian (diag_mx (diag_case s)), traceless (diag_mx (diag_case s)), diag_mx (diag_case s) <> 0 &
      decomposes (diag_mx (diag_case s)) 1%:M (diag_case s)].
Proof.
move=> s0; have cj (x : R) : (toCR (mkC 0 x))^* = - toCR (mkC 0 x).
  by rewrite -toCRJ -toCRN; congr toCR; apply: C_eq => /=; ring.
split.
- rewrite /anti_hermitian daggerE htrans_diag -raddfN; congr diag_mx; apply/rowP => i; rewrite !mxE.
  by case: ifP => _; [rewrite cj|case: ifP => _; rewrite ?cj // rmorph0 oppr0].
- rewrite /traceless mxtrace_diag sum3 !mxE /= addr0.
  rewrite -toCRD -toCR0; congr toCR; apply: C_eq => /=; ring.
- move/matrixP/(_ i0 i0); rewrite !mxE eqxx mulr1n /= -toCR0 => /toCR_inj/(congr1 im) /= h; exact: s0.
- by split; [exact: unitary1|rewrite mulmx1 mul1mx].
Qed.
Lemma diag_case_angle (s : R) : angle (diag_case s) i0 = s /\ angle (diag_case s) i1 = Ropp s /\ angle (diag_case s) i2 = R0.
Proof. by rewrite /angle !mxE. Qed.
Example C73_case : exists A V l, [/\ anti_hermitian A, traceless A, A <> 0, decomposes A V l & well_separated l].
Proof.
have [|a t z d] := @diag_case_ok (IZR 1); first by move=> h; lra.
exists (diag_mx (diag_case (IZR 1))), 1%:M, (diag_case (IZR 1)); split=> //; right=> i j.
have [e0 [e1 e2]] := diag_case_angle (IZR 1).
have F x y : Rle (Rdiv 1 10) (Rminus x y) \/ Rle (Rdiv 1 10) (Rminus y x) -> far x y.
  rewrite /far => [[h|h]]; last rewrite Rabs_minus_sym; rewrite Rabs_right //; lra.
by have [->|[->| ->]] := i3_cases i; have [->|[->| ->]] := i3_cases j; rewrite ?e0 ?e1 ?e2 => // _; apply: F; lra.
Qed.
Example C73_series_case : exists A V l, [/\ anti_hermitian A, traceless A, A <> 0, decomposes A V l & ~ well_separated l].
Proof.
pose s := Rdiv 1 100.
have [|a t z d] := @diag_case_ok s; first by rewrite /s => h; lra.
exists (diag_mx (diag_case s)), 1%:M, (diag_case s); split=> //.
have [e0 [e1 e2]] := diag_case_angle s.
case=> [[i [j [ne e]]]|h].
  have [ei|[ei|ei]] := i3_cases i; have [ej|[ej|ej]] := i3_cases j; move: e; rewrite ei ej ?e0 ?e1 ?e2 /s => e; try lra;
    by apply: ne; rewrite ei ej.
have := h i0 i2 ltac:(by []); rewrite e0 e2 /far /s Rabs_right; lra.
Qed.

Print Assumptions C73_exponential.
Print Assumptions C73_error.
Print Assumptions C73_series_refuted.
Print Assumptions C73_zero_refuted.
Print Assumptions C73_change_of_basis.
Print Assumptions C36_three_colours_cold_refuted.
