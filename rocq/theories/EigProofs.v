(** Every anti-Hermitian matrix has an orthonormal basis of eigenvectors: the requirement on the eigensolver can be met. *)
From mathcomp Require Import all_ssreflect all_algebra.
From Verif Require Import GaugeModel GaugeSpec GaugeProofs GaugeProofs2 GaugeProofs3 ExpModel ExpSpec ExpProofs.
Import GRing.Theory Num.Theory.
Set Implicit Arguments.
Unset Strict Implicit.
Unset Printing Implicit Defensive.
Local Open Scope ring_scope.

Section Eig.
Variable C : numClosedFieldType.

Definition norm2 m (w : 'cV[C]_m) : C := (htrans w *m w) ord0 ord0.
Lemma norm2E m (w : 'cV[C]_m) : norm2 w = \sum_i `|w i ord0| ^+ 2.
Proof. by rewrite /norm2 mxE; apply: eq_bigr => i _; rewrite !mxE normCK mulrC. Qed.
Lemma norm2_ge0 m (w : 'cV[C]_m) : 0 <= norm2 w.
Proof. by rewrite norm2E; apply: sumr_ge0 => i _; rewrite exprn_ge0. Qed.
Lemma norm2_eq0 m (w : 'cV[C]_m) : norm2 w = 0 -> w = 0.
Proof.
rewrite norm2E => /eqP; rewrite psumr_eq0 => [/allP h|i _]; last by rewrite exprn_ge0.
apply/matrixP => i j; rewrite ord1 mxE; have := h i; rewrite mem_index_enum => /(_ isT) /=.
by rewrite expf_eq0 /= normr_eq0 => /eqP.
Qed.
Lemma norm2_mx m (w : 'cV[C]_m) : htrans w *m w = (norm2 w)%:M.
Proof. by apply/matrixP => i j; rewrite !ord1 /norm2 [RHS]mxE eqxx mulr1n. Qed.

(** An eigenvector of an anti-Hermitian matrix. *)
Lemma eigenvector m (A : 'M[C]_m.+1) : exists a (w : 'cV[C]_m.+1), w != 0 /\ htrans A *m w = a *: w.
Proof.
have [a] : exists a, root (char_poly A) a by apply/closed_rootP; rewrite size_char_poly.
rewrite -eigenvalue_root_char => /eigenvalueP[v e v0].
exists a^*, (htrans v); split.
  by apply: contraNN v0 => /eqP h; rewrite -(htransK v) h htrans0.
by rewrite -htransM e htransZ.
Qed.

(** The reflection exchanging the first basis vector with a unit vector whose first entry is real. *)
Section Reflection.
Variable m : nat.
Variable w : 'cV[C]_m.+1.
Hypothesis w1 : norm2 w = 1.
Hypothesis w0 : w ord0 ord0 \is Num.real.
Let e : 'cV[C]_m.+1 := delta_mx ord0 ord0.
Let u := w - e.
Definition reflection : 'M[C]_m.+1 := 1%:M - (2%:R / norm2 u) *: (u *m htrans u).
Lemma htrans_delta : htrans e *m w = (w ord0 ord0)%:M.
Proof.
apply/matrixP => i j; rewrite !ord1 mxE (bigD1 ord0) //= big1 ?addr0 => [|k kn]; rewrite !mxE eqxx.
  by rewrite rmorph1 mul1r mulr1n.
by rewrite andbT (negPf kn) rmorph0 mul0r.
Qed.
Lemma e_e : htrans e *m e = 1%:M.
Proof.
apply/matrixP => i j; rewrite !ord1 mxE (bigD1 ord0) //= big1 ?addr0 => [|k kn]; rewrite !mxE eqxx.
  by rewrite rmorph1 mulr1.
by rewrite andbT (negPf kn) rmorph0 mul0r.
Qed.
Lemma w_w : htrans w *m w = 1%:M.
Proof. by rewrite norm2_mx w1. Qed.
Lemma w_e : htrans w *m e = (w ord0 ord0)%:M.
Proof. by rewrite -[LHS]htransK htransM htransK htrans_delta htrans_scalar (conj_Creal w0). Qed.
Lemma u_e : htrans u *m e = (w ord0 ord0 - 1)%:M.
Proof. by rewrite /u htransB mulmxBl w_e e_e -raddfB. Qed.
Lemma norm2_u : norm2 u = 2%:R * (1 - w ord0 ord0).
Proof.
have : htrans u *m u = (2%:R * (1 - w ord0 ord0))%:M.
  rewrite {2}/u mulmxBr u_e /u htransB mulmxBl w_w htrans_delta -!raddfB /=; congr _%:M.
  by rewrite opprB -mulr2n -mulr_natl.
by rewrite norm2_mx => /matrixP/(_ ord0 ord0); rewrite !mxE eqxx !mulr1n.
Qed.
Lemma reflection_herm : htrans reflection = reflection.
Proof.
rewrite /reflection htransB htrans1 htransZ htransM htransK; congr (_ - _ *: _).
by apply: conj_Creal; rewrite rpredM ?rpredV ?realn // ger0_real // norm2_ge0.
Qed.
Lemma reflection_inv : reflection *m reflection = 1%:M.
Proof.
rewrite /reflection mulmxBl mul1mx mulmxBr mulmx1 -scalemxAl -scalemxAr scalerA.
rewrite -!mulmxA (mulmxA (htrans u)) norm2_mx mul_scalar_mx -scalemxAr.
set k := 2%:R / norm2 u; set P := u *m htrans u.
rewrite scalerA; suff -> : k * k * norm2 u = k + k by rewrite scalerDl opprB addrK subrK.
have [N0|N0] := eqVneq (norm2 u) 0; first by rewrite /k N0 invr0 !mulr0 addr0.
have kN : k * norm2 u = 2%:R by rewrite /k divfK.
by rewrite -mulrA kN mulr_natr.
Qed.
Lemma reflection_e : reflection *m e = w.
Proof.
rewrite /reflection mulmxBl mul1mx -scalemxAl -mulmxA u_e mul_mx_scalar scalerA.
have [N0|N0] := eqVneq (norm2 u) 0.
  have u0 : u = 0 by exact: norm2_eq0.
  by rewrite u0 scaler0 subr0; apply/esym/eqP; rewrite -subr_eq0 -/u u0.
have -> : 2%:R / norm2 u * (w ord0 ord0 - 1) = -1.
  by rewrite mulrAC -[w _ _ - 1]opprB mulrN -norm2_u mulNr divff.
by rewrite scaleN1r opprK addrC /u subrK.
Qed.
End Reflection.

(** A unit vector in the direction of a given one, with real first entry. *)
Lemma unit_vector m (w : 'cV[C]_m.+1) : w != 0 -> exists c, norm2 (c *: w) = 1 /\ (c *: w) ord0 ord0 \is Num.real.
Proof.
move=> wn; have N0 : norm2 w != 0 by apply: contraNN wn => /eqP/norm2_eq0 ->.
pose r := sqrtC (norm2 w); have r0 : r != 0 by rewrite sqrtC_eq0.
have rR : r \is Num.real by rewrite ger0_real // sqrtC_ge0 norm2_ge0.
pose p := if w ord0 ord0 == 0 then 1 else (w ord0 ord0)^* / `|w ord0 ord0|.
have p1 : p^* * p = 1.
  rewrite mulrC -normCK /p; case: eqP => [_|/eqP h]; first by rewrite normr1 expr1n.
  by rewrite normrM norm_conjC normfV normr_id divff ?expr1n // normr_eq0.
have pw : p * w ord0 ord0 \is Num.real.
  rewrite /p; case: eqP => [->|_]; first by rewrite mulr0 rpred0.
  by rewrite mulrAC [_^* * _]mulrC -normCK rpredM ?rpredV ?rpredX // normr_real.
exists (p / r); split.
  rewrite /norm2 htransZ -scalemxAl -scalemxAr scalerA norm2_mx !mxE eqxx mulr1n.
  rewrite rmorphM fmorphV (conj_Creal rR) mulrACA p1 mul1r -invfM -expr2 sqrtCK mulVf //.
by rewrite mxE mulrAC rpredM // rpredV.
Qed.

Lemma spectral_theorem n (A : 'M[C]_n) : anti_hermitian A -> exists V l, decomposes A V l.
Proof.
elim: n A => [|n IH] A a.
  by exists 1%:M, 0; split; [exact: unitary1|apply/matrixP; case].
have ah : htrans A = - A by rewrite -daggerE.
have [b [v [v0 ev]]] := eigenvector A.
have [c [w1 w0]] := unit_vector v0.
set w := c *: v in w1 w0.
have ew : A *m w = (- b) *: w.
  by rewrite -[A]opprK -ah mulNmx /w -scalemxAr ev !scalerA mulNr scaleNr [b * c]mulrC.
pose H := reflection w.
have HH : H *m H = 1%:M by exact: reflection_inv.
have Hh : htrans H = H by exact: reflection_herm.
have He : H *m delta_mx ord0 ord0 = w by exact: reflection_e.
pose B := H *m A *m H.
have Ba : htrans B = - B by rewrite /B !htransM Hh ah mulNmx mulmxN mulmxA.
have Be : B *m delta_mx ord0 ord0 = (- b) *: delta_mx ord0 ord0 :> 'cV_n.+1.
  by rewrite /B -!mulmxA He ew -scalemxAr -He mulmxA HH mul1mx.
have AB : A = H *m B *m H by rewrite /B !mulmxA HH mul1mx -mulmxA HH mulmx1.
clearbody B.
have B0 i : B i ord0 = if i == ord0 then - b else 0.
  have := congr1 (fun M : 'cV_n.+1 => M i ord0) Be.
  rewrite !mxE (bigD1 ord0) //= big1 => [|k kn]; last by rewrite mxE (negPf kn) mulr0.
  by rewrite !mxE eqxx mulr1 addr0 andbT => ->; case: eqP => _; rewrite ?mulr1 ?mulr0.
have B0' i : B ord0 i = if i == ord0 then - b else 0.
  have := congr1 (fun M : 'M_n.+1 => M ord0 i) Ba; rewrite !mxE B0.
  case: eqP => [-> _|_]; first by rewrite B0 eqxx.
  by rewrite rmorph0 => /esym/eqP; rewrite oppr_eq0 => /eqP.
pose D : 'M[C]_n := drsubmx (B : 'M_(1 + n)).
have Da : anti_hermitian D.
  rewrite /anti_hermitian daggerE; apply/matrixP => i j; rewrite !mxE.
  by have := congr1 (fun M : 'M_n.+1 => M (rshift 1 i) (rshift 1 j)) Ba; rewrite !mxE.
have [V [l [u e]]] := IH D Da.
pose V' : 'M[C]_(1 + n) := block_mx 1%:M 0 0 V.
pose l' : 'rV[C]_(1 + n) := row_mx (- b)%:M l.
have BE : B = block_mx (- b)%:M 0 0 D :> 'M_(1 + n).
  rewrite -[LHS](@submxK _ 1 n 1 n); congr block_mx; apply/matrixP => i j; rewrite !mxE.
  - by rewrite !ord1 lshift0 B0 eqxx mulr1n.
  - by rewrite !ord1 lshift0 B0'.
  - by rewrite !ord1 lshift0 B0.
have VV : V' *m htrans V' = 1%:M.
  have -> : htrans V' = block_mx 1%:M 0 0 (htrans V).
    by rewrite /htrans map_block_mx tr_block_mx !map_mx0 !trmx0 map_mx1 trmx1.
  rewrite /V' mulmx_block !mulmx0 !mul0mx !addr0 add0r mul1mx unitary_r //.
  by rewrite -scalar_mx_block.
have V'u : unitary (V' : 'M_n.+1) by rewrite /unitary daggerE.
have dl : diag_mx l' = block_mx (- b)%:M 0 0 (diag_mx l).
  by rewrite diag_mx_row; congr block_mx; apply/matrixP => i j; rewrite !ord1 !mxE eqxx mulr1n.
have BV0 : block_mx (- b)%:M 0 0 D *m V' = V' *m diag_mx l'.
  by rewrite dl /V' !mulmx_block !mulmx0 !mul0mx !addr0 !add0r mulmx1 mul1mx e.
have BV : B *m V' = V' *m diag_mx l' by rewrite BE.
have Hu : unitary H by rewrite /unitary daggerE Hh.
exists (H *m (V' : 'M_n.+1)), (l' : 'rV_n.+1); split; first exact: unitaryM.
rewrite AB.
by rewrite -!mulmxA (mulmxA H H) HH mul1mx BV.
Qed.

Lemma good_eig_exists n : exists eig : 'M[C]_n -> 'M[C]_n * 'rV[C]_n, good_eig eig.
Proof.
pose ok (A : 'M[C]_n) (p : 'M[C]_n * 'rV[C]_n) := (p.1 *m dagger p.1 == 1%:M) && (A *m p.1 == p.1 *m diag_mx p.2).
have ex A : dagger A = - A -> exists p, ok A p.
  move=> a; have [V [l [u e]]] := spectral_theorem a; exists (V, l).
  by rewrite /ok /= e eqxx andbT; apply/eqP.
exists (fun A => match (dagger A =P - A) with ReflectT h => xchoose (ex A h) | ReflectF _ => (0, 0) end).
move=> A a; case: eqP => // h; have /andP[/eqP u /eqP e] := xchooseP (ex A h).
by split.
Qed.
End Eig.
