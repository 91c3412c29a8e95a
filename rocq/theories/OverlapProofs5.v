(** The mass of the overlap operator, its propagators and the chiral rotations. *)
From Coq Require Import List Ring.
From Verif Require Import Base SolverModel.
From mathcomp Require Import all_ssreflect all_algebra.
From Verif Require Import GaugeModel GaugeSpec GaugeProofs GaugeProofs2 GammaModel DiracModel DiracSpec DiracProofs DiracProofs2
  PertProofs VecProofs FForceModel FForceSpec FForceProofs2 OverlapModel OverlapSpec OverlapProofs OverlapProofs2 OverlapProofs3 OverlapProofs4.
Import GRing.Theory Num.Theory Order.POrderTheory.
Set Implicit Arguments.
Unset Strict Implicit.
Unset Printing Implicit Defensive.
Local Open Scope ring_scope.

Section Powers.
Variable C : numClosedFieldType.
Variable m : nat.
Implicit Types A B : 'M[C]_m.
Notation pw A i := (iter i (mulmx A) 1%:M).
Lemma pw_between A A' B i : A' *m B = B *m A -> pw A' i *m B = B *m pw A i.
Proof.
move=> h; elim: i => [|i IH] /=; first by rewrite mul1mx mulmx1.
by rewrite -mulmxA IH mulmxA h mulmxA.
Qed.
Lemma pw_add A i j : pw A (i + j) = pw A i *m pw A j.
Proof. by elim: i => [|i IH] /=; rewrite ?mul1mx // IH mulmxA. Qed.
Lemma pw_mul A B i : A *m B = B *m A -> pw (A *m B) i = pw A i *m pw B i.
Proof.
move=> h; elim: i => [|i IH] /=; first by rewrite mul1mx.
rewrite IH -!mulmxA; congr (_ *m _); rewrite !mulmxA; congr (_ *m _); apply/esym; exact: pw_between.
Qed.
End Powers.

Section Mass.
Variable C : numClosedFieldType.
Add Ring CringM : (Crth C).
Variable n : nat.
Variable L : lattice.
Notation field := (L -> 'I_4 -> 'I_n -> C) (only parsing).
Notation T := [finType of L * 'I_4 * 'I_n].
Notation N := #|T|.
Notation Gm := (Gm C n L).
Notation pw A i := (iter i (mulmx A) 1%:M).
Implicit Types (v w : field).
Variable S : 'M[C]_N.
Notation D ms := (Dm S ms false).
Lemma two_half : (1 + 1) * 2%:R^-1 = 1 :> C.
Proof. by rewrite -[1 + 1]/(2%:R : C) divff // pnatr_eq0. Qed.
Lemma Dm_false ms : D ms = ((1 + ms) / 2%:R) *: 1%:M + ((1 - ms) / 2%:R) *: (Gm *m S).
Proof. by rewrite /Dm scalemx1. Qed.
Lemma one_minus ms : 1%:M - D ms = (1 - ms) *: (1%:M - D 0).
Proof.
rewrite !Dm_false; move: (1%:M : 'M[C]_N) (Gm *m S) => I P.
apply/matrixP => i j; rewrite !(mxE, addr0, subr0); move: (I i j) (P i j) => d t.
rewrite {1 3}(_ : d = d * ((1 + 1) * 2%:R^-1)); last by rewrite two_half mulr1.
move: (2%:R^-1 : C) => hf.
by cring_fold C; ring.
Qed.
Lemma Dm_mass ms g (I : 'M[C]_N) : I = (if g then Gm else 1%:M) -> Dm S ms g = Dm S 0 g + ms *: (I - Dm S 0 g).
Proof.
move=> ->; case: g.
  rewrite /Dm; move: Gm => P; apply/matrixP => i j; rewrite !(mxE, addr0, subr0).
  move: (P i j) (S i j) => p t.
  rewrite {3}(_ : p = p * ((1 + 1) * 2%:R^-1)); last by rewrite two_half mulr1.
  move: (2%:R^-1 : C) => hf.
  by cring_fold C; ring.
rewrite !Dm_false; move: (1%:M : 'M[C]_N) (Gm *m S) => I' P.
apply/matrixP => i j; rewrite !(mxE, addr0, subr0); move: (I' i j) (P i j) => d t.
rewrite {3}(_ : d = d * ((1 + 1) * 2%:R^-1)); last by rewrite two_half mulr1.
move: (2%:R^-1 : C) => hf.
by cring_fold C; ring.
Qed.

(** An exact solver is the inverse matrix. *)
Lemma solver_matrix (M : 'M[C]_N) (solve : field -> field) : (forall v, M *m vec (solve v) = vec v) ->
  exists X, [/\ M *m X = 1%:M, X *m M = 1%:M & forall v, vec (solve v) = X *m vec v].
Proof.
move=> h; pose X : 'M[C]_N := \matrix_(i, j) vec (solve (unvec (delta_mx j ord0))) i ord0.
have MX : M *m X = 1%:M.
  apply/matrixP => i j; have /matrixP/(_ i ord0) := h (unvec (delta_mx j ord0)).
  rewrite unvecK !mxE eqxx andbT => <-; apply: eq_bigr => t _; by rewrite !mxE.
have XM : X *m M = 1%:M by apply: mulmx1C.
by exists X; split=> // v; rewrite -(h v) mulmxA XM mul1mx.
Qed.
(** (1 - D_0) D_m^-1, times 1 - m. *)
Lemma prop_mass ms (X : 'M[C]_N) : D ms *m X = 1%:M -> (1 - ms) *: ((1%:M - D 0) *m X) = X - 1%:M.
Proof. by move=> h; rewrite scalemxAl -one_minus mulmxBl mul1mx h. Qed.
Lemma prop_chiral (X : 'M[C]_N) : S *m S = 1%:M -> D 0 *m X = 1%:M -> X *m D 0 = 1%:M ->
  Gm *m ((1%:M - D 0) *m X) = - ((1%:M - D 0) *m X *m Gm).
Proof.
move=> s h h'; have := gw_matrix S; rewrite s subrr mulmx0 scaler0 /= => g.
have E : Gm *m X + X *m Gm = 2%:R *: Gm.
  have : X *m (Gm *m D 0 + D 0 *m Gm - 2%:R *: (D 0 *m (Gm *m D 0))) *m X = 0 by rewrite g mulmx0 mul0mx.
  move: (D 0) h h' => M h h'.
  rewrite mulmxBr mulmxDr mulmxBl mulmxDl -(mulmxA X (Gm *m M)) -(mulmxA Gm M X) h mulmx1 (mulmxA X M) h' mul1mx.
  rewrite -scalemxAr -scalemxAl (mulmxA X M) h' mul1mx -(mulmxA Gm M X) h mulmx1 => /eqP; rewrite subr_eq0 => /eqP <-.
  by rewrite addrC.
rewrite mulmxBl mul1mx h mulmxBr mulmx1 mulmxBl mul1mx opprB.
apply/eqP; rewrite -subr_eq0 opprB addrACA -opprD E.
by apply/eqP/matrixP => i j; rewrite !mxE mulr_natl mulr2n subrr.
Qed.

(** The rotations. *)
Lemma vec_g5_in_place v : vec (gamma5_in_place v) = Gm *m vec v.
Proof. by rewrite -vec_g5; apply: vec_ext => x a c; rewrite /gamma5_in_place g5E /sgn; case: ifP => _; rewrite ?mul1r ?mulN1r. Qed.
Section Rotation.
Variables (mul : field -> field) (M : 'M[C]_N).
Hypothesis mulE : forall v, vec (mul v) = M *m vec v.
Definition Am (h : C) := 1%:M + h *: (Gm *m (1%:M - M)).
Definition Bm (h : C) := 1%:M + h *: ((1%:M - M) *m Gm).
Lemma psi_stepE h v : vec (psi_step mul h v) = Am h *m vec v.
Proof.
have -> : vec (psi_step mul h v) = vec v + h *: (vec (g5 v) - vec (g5 (mul v))).
  apply/matrixP => i j; rewrite !mxE /psi_step !g5E /sgn; case: ifP => _; rewrite ?mul1r ?mulN1r; first by rewrite mulrBr.
  by rewrite opprK mulrDr mulrN mulNr.
by rewrite !vec_g5 mulE /Am mulmxDl mul1mx -scalemxAl mulmxBr mulmx1 mulmxBl mulmxA.
Qed.
Lemma psibar_stepE h v : vec (psibar_step mul h v) = Bm h *m vec v.
Proof.
have -> : vec (psibar_step mul h v) = vec v + h *: (vec (gamma5_in_place v) - vec (mul (gamma5_in_place v))).
  by apply/matrixP => i j; rewrite !mxE /psibar_step mulrBr.
by rewrite mulE !vec_g5_in_place /Bm mulmxDl mul1mx -scalemxAl mulmxBl mul1mx mulmxBl mulmxA.
Qed.
Lemma psiE steps th v : vec (chiral_rotation_psi mul steps th v) = pw (Am (th / steps%:R)) steps *m vec v.
Proof. by apply: iter_op => w; exact: psi_stepE. Qed.
Lemma psibarE steps th v : vec (chiral_rotation_psibar mul steps th v) = pw (Bm (th / steps%:R)) steps *m vec v.
Proof. by apply: iter_op => w; exact: psibar_stepE. Qed.
Lemma B_G h : Bm h *m Gm = Gm *m Am h.
Proof.
rewrite /Bm /Am mulmxDl mulmxDr mul1mx mulmx1 -scalemxAl -scalemxAr -mulmxA Gm_sq mulmx1 mulmxA Gm_sq mul1mx //.
Qed.
Lemma A_X h : Am h *m (Gm *m (1%:M - M)) = Gm *m (1%:M - M) *m Am h.
Proof. by rewrite /Am; move: (Gm *m (1%:M - M)) => X; rewrite mulmxDl mulmxDr mul1mx mulmx1 -scalemxAl -scalemxAr. Qed.
(** Both rotations around 1 - M. *)
Lemma both_rotations h steps : pw (Bm h) steps *m ((1%:M - M) *m pw (Am h) steps) = (1%:M - M) *m pw (Am h) (2 * steps).
Proof.
have E : 1%:M - M = Gm *m (Gm *m (1%:M - M)) by rewrite mulmxA Gm_sq mul1mx.
have A2 := A_X h; have B2 := B_G h; move: (Bm h) (Am h) B2 A2 => B A B2 A2.
rewrite E; move: (Gm *m (1%:M - M)) A2 => X A2.
rewrite mulmxA mulmxA (pw_between steps B2) -(mulmxA Gm) (pw_between steps A2) -(mulmxA Gm) -(mulmxA X) -pw_add addnn -mul2n.
by rewrite mulmxA.
Qed.
(** Around M itself. *)
Lemma invariant h steps : Gm *m M + M *m Gm = 2%:R *: (M *m (Gm *m M)) ->
  pw (Bm h) steps *m (M *m pw (Am h) steps) = M *m pw (1%:M - h ^+ 2 *: (Gm *m (1%:M - M) *m (Gm *m (1%:M - M)))) steps.
Proof.
move=> g; pose X := Gm *m (1%:M - M).
have k : Bm h *m M = M *m (1%:M - h *: X).
  have e : (1%:M - M) *m Gm *m M = - (M *m X).
    rewrite /X mulmxBl mul1mx mulmxBl !mulmxBr mulmx1 opprB -mulmxA.
    move: g; move: (Gm *m M) (M *m Gm) => P R; move: (M *m P) => Q; rewrite scaler_nat mulr2n => g.
    by apply/eqP; rewrite subr_eq -addrA [- R + Q]addrC addrA eq_sym subr_eq eq_sym g.
  by rewrite /Bm mulmxDl mul1mx mulmxBr mulmx1 -scalemxAl e -scalemxAr scalerN.
rewrite mulmxA (pw_between steps k) -mulmxA.
have <- : pw ((1%:M - h *: X) *m Am h) steps = pw (1%:M - h *: X) steps *m pw (Am h) steps.
  apply: pw_mul; rewrite /Am -/X mulmxBl mulmxBr mul1mx mulmx1 -scalemxAl -scalemxAr.
  by congr (_ - _ *: _); rewrite mulmxDl mulmxDr mul1mx mulmx1 -scalemxAl -scalemxAr.
have -> : (1%:M - h *: X) *m Am h = 1%:M - h ^+ 2 *: (X *m X); last by [].
rewrite /Am -/X mulmxDr mulmx1 mulmxBl mul1mx -scalemxAl -scalemxAr scalerA -expr2.
by rewrite addrA addrNK.
Qed.
End Rotation.
End Mass.
