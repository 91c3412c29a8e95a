(** The exponential for three colours on eigenvectors. *)
From Coq Require Import Reals Lra Psatz.
From Verif Require Import ComplexR Exp3RModel Exp3Scalar.
From mathcomp Require Import all_ssreflect all_algebra.
From mathcomp Require Import complex.
From Verif Require Import RealField GaugeModel GaugeSpec GaugeProofs GaugeProofs2 ExpModel ExpSpec ExpProofs EigProofs Exp3Model.
Import Order.TTheory GRing.Theory Num.Theory.
Set Implicit Arguments.
Unset Strict Implicit.
Unset Printing Implicit Defensive.
Local Open Scope ring_scope.

Lemma toCRD a b : toCR (Cadd a b) = toCR a + toCR b. Proof. by []. Qed.
Lemma toCRM a b : toCR (Cmul a b) = toCR a * toCR b. Proof. by []. Qed.
Lemma toCRN a : toCR (Copp a) = - toCR a. Proof. by []. Qed.
Lemma toCRJ a : toCR (Cconj a) = (toCR a)^*. Proof. by []. Qed.
Lemma toCR1 : toCR C1 = 1. Proof. by []. Qed.
Lemma toCR0 : toCR C0 = 0. Proof. by []. Qed.
Lemma toCR_inj a b : toCR a = toCR b -> a = b.
Proof. by case: a b => [a a'] [b b'] [-> ->]. Qed.
Lemma toCR_ii : toCR (Copp Ci) * toCR (Copp Ci) = -1.
Proof. by rewrite -toCRM -[RHS]/(toCR (Copp C1)); congr toCR; apply: C_eq => /=; ring. Qed.

(** Polynomials of a diagonalised matrix. *)
Lemma poly_spectral (C : numClosedFieldType) n (A V : 'M[C]_n) (l : 'rV[C]_n) (x y z : C) : decomposes A V l ->
  x *: (A *m A) + y *: A + z *: 1%:M = V *m diag_mx (map_mx (fun t => x * (t * t) + y * t + z) l) *m htrans V.
Proof.
move=> d; have [u _] := d; have e := decomposes_rec d.
have e2 : A *m A = V *m diag_mx (\row_i (l ord0 i * l ord0 i)) *m htrans V.
  by rewrite -diag_mul {1 2}e -!mulmxA (mulmxA (htrans V)) unitary_l // mul1mx.
have -> : diag_mx (map_mx (fun t => x * (t * t) + y * t + z) l) =
    x *: diag_mx (\row_i (l ord0 i * l ord0 i)) + y *: diag_mx l + z *: 1%:M.
  apply/matrixP => i j; rewrite !mxE; case: eqP => [->|_]; first by rewrite !mulr1n mulr1.
  by rewrite !mulr0n !mulr0 !addr0.
by rewrite !mulmxDr !mulmxDl -!scalemxAr -!scalemxAl mulmx1 unitary_r // -e2 -e.
Qed.

(** The angle of an eigenvalue: the imaginary part. *)
Definition angle (l : 'rV[CR]_3) (i : 'I_3) : R := complex.Im (l ord0 i : R[i]).
Definition i0 : 'I_3 := @Ordinal 3 0 isT.
Definition i1 : 'I_3 := @Ordinal 3 1 isT.
Definition i2 : 'I_3 := @Ordinal 3 2 isT.
Lemma sum3 (V : zmodType) (F : 'I_3 -> V) : \sum_i F i = F i0 + (F i1 + F i2).
Proof. by rewrite !big_ord_recl big_ord0 addr0; congr (F _ + (F _ + F _)); apply/val_inj. Qed.
Lemma prod3 (V : comRingType) (F : 'I_3 -> V) : \prod_i F i = F i0 * (F i1 * F i2).
Proof. by rewrite !big_ord_recl big_ord0 mulr1; congr (F _ * (F _ * F _)); apply/val_inj. Qed.
Lemma i3_cases (i : 'I_3) : i = i0 \/ i = i1 \/ i = i2.
Proof. by case: i => [[|[|[|//]]] h]; [left|right; left|right; right]; apply/val_inj. Qed.

Section Diagonal.
Variables (A V : 'M[CR]_3) (l : 'rV[CR]_3).
Hypotheses (a : anti_hermitian A) (t : traceless A) (d : decomposes A V l).
Notation q := (angle l).
Lemma eigenvalueE i : l ord0 i = toCR (mkC 0 (q i)).
Proof.
have := decomposes_imag i a d; rewrite /toCR /angle /=; case: (l ord0 i) => x y [] h.
by congr (_ +i* _)%C; move: h; change (x = Ropp x -> x = R0) => h; lra.
Qed.
Lemma angles0 : Rplus (Rplus (q i0) (q i1)) (q i2) = R0.
Proof.
have := decomposes_trace d; rewrite t sum3 => /(congr1 (fun z : CR => complex.Im (z : R[i]))).
rewrite !eigenvalueE /= => h; symmetry; rewrite Rplus_assoc; exact: h.
Qed.
Lemma c0E : real_part (\det (toCR (Copp Ci) *: A)) = Rmult (Rmult (q i0) (q i1)) (q i2).
Proof.
rewrite (decomposes_rec (decomposes_scale (toCR (Copp Ci)) d)) !det_mulmx mulrC mulrA -det_mulmx.
have [u _] := d; rewrite unitary_l // det1 mul1r det_diag prod3 !mxE !eigenvalueE -!toCRM.
by rewrite /real_part /=; ring.
Qed.
Lemma trAA : real_part (\tr (A *m A)) = Ropp (Rplus (Rplus (Rmult (q i0) (q i0)) (Rmult (q i1) (q i1))) (Rmult (q i2) (q i2))).
Proof.
have [u _] := d; rewrite {1 2}(decomposes_rec d) -!mulmxA (mulmxA (htrans V)) unitary_l // mul1mx mxtrace_mulC -!mulmxA.
rewrite unitary_l // mulmx1 diag_mul mxtrace_diag sum3 !mxE !eigenvalueE -!toCRM -!toCRD.
by rewrite /real_part /=; ring.
Qed.
Lemma c1E : Rmult (Ropp (Rdiv 1 2)) (real_part (\tr (A *m A))) =
  Ropp (Rplus (Rplus (Rmult (q i0) (q i1)) (Rmult (q i0) (q i2))) (Rmult (q i1) (q i2))).
Proof.
rewrite trAA; have := angles0; move: (q i0) (q i1) (q i2) => x y z h.
have -> : z = Ropp (Rplus x y) by lra.
by field.
Qed.
Lemma c1_pos : A <> 0 -> Rlt 0 (Ropp (Rplus (Rplus (Rmult (q i0) (q i1)) (Rmult (q i0) (q i2))) (Rmult (q i1) (q i2)))).
Proof.
move=> A0; have h := angles0; apply: pairs_pos => //.
have [e0|n0] := Req_EM_T (q i0) R0; last by left.
have [e1|n1] := Req_EM_T (q i1) R0; last by right.
have z : q i2 = R0 by lra.
case: A0; rewrite (decomposes_rec d) (_ : l = 0) ?diag_mx0 ?mulmx0 ?mul0mx //.
  by rewrite (_ : diag_mx 0 = 0) ?mulmx0 ?mul0mx //; apply/matrixP => i j; rewrite !mxE mul0rn.
apply/rowP => i; rewrite eigenvalueE mxE -toCR0 /C0; congr (toCR (mkC _ _)).
by have [->|[->| ->]] := i3_cases i ; rewrite ?z ?e0 ?e1.
Qed.

(** The exponential as a function of the eigenvalues. *)
Lemma exp3_spectral f : exp3_coefficients (real_part (\det (toCR (Copp Ci) *: A))) (Rmult (Ropp (Rdiv 1 2)) (real_part (\tr (A *m A)))) = Some f ->
  exp3 A = Some (V *m diag_mx (\row_i toCR (quad f (q i))) *m htrans V).
Proof.
case: f => [[f0 f1] f2] e; rewrite /exp3 e (poly_spectral _ _ _ d); congr (Some (_ *m diag_mx _ *m _)).
apply/rowP => i; rewrite !mxE eigenvalueE -!toCRM -toCRN -!toCRM -!toCRD; congr toCR.
by case: f0 f1 f2 {e} => x x' [y y'] [z z']; apply: C_eq => /=; ring.
Qed.
End Diagonal.
