(** The signed eigenvalues, and the smallest lattice for the counterexamples. *)
From Coq Require Import List Ring.
From Verif Require Import Base SolverModel.
From mathcomp Require Import all_ssreflect all_algebra.
From Verif Require Import GaugeModel GaugeSpec GaugeProofs GaugeProofs2 GaugeProofs3 GammaModel DiracModel DiracSpec DiracProofs DiracProofs2
  PertProofs VecProofs FForceModel FForceSpec FForceProofs2 ExpSpec EigProofs OverlapModel OverlapSpec OverlapProofs OverlapProofs2 OverlapProofs3
  OverlapProofs4 OverlapProofs5 OverlapProofs6.
Import GRing.Theory Num.Theory Order.POrderTheory.
Set Implicit Arguments.
Unset Strict Implicit.
Unset Printing Implicit Defensive.
Local Open Scope ring_scope.

Section Signed.
Variable C : numClosedFieldType.
Variable n : nat.
Variable L : lattice.
Notation field := (L -> 'I_4 -> 'I_n -> C) (only parsing).
Notation links := (L -> 'I_4 -> 'M[C]_n) (only parsing).
Implicit Types (U : links) (v w : field) (es : seq (C * (L -> 'I_4 -> 'I_n -> C))).
Variables (k : C) (old : field).
Lemma signed_value U w lam : lam \is Num.real -> inner w w = 1 -> feq (hermitian_dirac k U w) (fun x a c => lam * w x a c) ->
  (if 'Re (dot w (wilson5 k old U w)) < 0 then - sqrtC ('Re (lam ^+ 2)) else sqrtC ('Re (lam ^+ 2))) = lam.
Proof.
move=> lr n1 ev; have -> : dot w (wilson5 k old U w) = lam.
  rewrite dotE -[RHS]mulr1 -n1 /inner mulr_sumr; apply: eq_bigr => x _; rewrite mulr_sumr; apply: eq_bigr => a _.
  by rewrite mulr_sumr; apply: eq_bigr => c _; rewrite wilson5E ev mulrCA.
rewrite !(Creal_ReP _ _) ?rpredX //; have [l0|l0] := boolP (0 <= lam).
  by rewrite le_gtF // sqrCK.
have ln : lam < 0 by rewrite real_ltNge ?rpred0.
by rewrite ln -[lam ^+ 2]sqrrN sqrCK ?opprK // oppr_ge0 ltW.
Qed.
Lemma precision_exact U w lam : feq (hermitian_dirac k U w) (fun x a c => lam * w x a c) -> eigen_precision k old U (lam, w) = 0.
Proof.
move=> ev; rewrite /eigen_precision /= big1 // => x _; rewrite big1 // => a _; rewrite big1 // => c _.
by rewrite wilson5E ev subrr normr0.
Qed.
End Signed.

Section Small.
Variable C : numClosedFieldType.
Variable n : nat.
Variable L : lattice.
Notation field := (L -> 'I_4 -> 'I_n -> C) (only parsing).
Notation links := (L -> 'I_4 -> 'M[C]_n) (only parsing).
Implicit Types (U : links) (v w : field).
Lemma dirac0 U v : feq (hermitian_dirac 0 U v) (g5 v).
Proof. by move=> x a c; rewrite /hermitian_dirac !g5E /dirac mul0r subr0. Qed.
Lemma Qm0 U : Qm 0 U = Gm C n L.
Proof. by apply: mx_ext => v; rewrite -vec_Q -vec_g5; apply: vec_ext; exact: dirac0. Qed.
Lemma Sm0 U q : Sm 0 U q = q.[1] *: Gm C n L.
Proof.
apply: mx_ext => v; rewrite /Sm Qm0 Gm_sq -mulmxA (@polymx_eigen _ _ q 1%:M (vec v) 1); last by rewrite mul1mx scale1r.
by rewrite -scalemxAr scalemxAl.
Qed.
Lemma sign0 U q v : feq (sign_approx 0 U q v) (fun x a c => q.[1] * g5 v x a c).
Proof. by apply: vec_inj; rewrite sign_approxE Sm0 vecZ vec_g5 scalemxAl. Qed.
End Small.

(** The polynomials x - 2 and 2 - x. *)
Lemma held1 (C : numClosedFieldType) : (held_poly [:: 2%:R : C] 1).[1] = -1.
Proof.
rewrite /held_poly big_seq1 hornerZ hornerXsubC (Creal_ReP _ _) ?rpred1 // le_gtF ?ler01 // normr1 expr1 !mul1r.
by rewrite -[2%:R]/(1 + 1) opprD addrA subrr add0r.
Qed.
Lemma heldN1 (C : numClosedFieldType) : (held_poly [:: 2%:R : C] (-1)).[1] = 1.
Proof.
rewrite /held_poly big_seq1 hornerZ hornerXsubC (Creal_ReP _ _) ?rpredN ?rpred1 // oppr_lt0 ltr01 normrN normr1 expr1 mulr1.
by rewrite -[2%:R]/(1 + 1) opprD addrA subrr add0r mulrNN mul1r.
Qed.

(** One site and one colour. *)
Section One.
Variable C : numClosedFieldType.
Notation L := (box 0 0 0 0).
Notation field := (box 0 0 0 0 -> 'I_4 -> 'I_1 -> C) (only parsing).
Definition o1 : L := (ord0, ord0, ord0, ord0).
Lemma only (x : L) : x = o1.
Proof. by case: x => [[[a b] c] d]; rewrite (ord1 a) (ord1 b) (ord1 c) (ord1 d). Qed.
Lemma inner1 (v w : field) : inner v w = \sum_(a < 4) (v o1 a ord0)^* * w o1 a ord0.
Proof.
rewrite /inner (big_pred1 o1); last by move=> x; rewrite (only x) /= eqxx.
by apply: eq_bigr => a _; rewrite big_ord1.
Qed.
Definition spin (s : 'I_4 -> C) : field := fun _ a _ => s a.
(** The unit vectors in the two chiral halves, and half their sum, normalised. *)
Definition up : field := spin (fun a => ((a == 0 :> nat)%N)%:R).
Definition down : field := spin (fun a => ((a == 2 :> nat)%N)%:R).
Definition mix : field := spin (fun a => if (a == 0 :> nat)%N || (a == 2 :> nat)%N then sqrtC 2%:R^-1 else 0).
Lemma rt : sqrtC (2%:R^-1 : C) * sqrtC 2%:R^-1 = 2%:R^-1.
Proof. by rewrite -expr2 sqrtCK. Qed.
Lemma rt_conj : (sqrtC (2%:R^-1 : C))^* = sqrtC 2%:R^-1.
Proof. by apply: CrealP; rewrite ger0_real // sqrtC_ge0 invr_ge0 ler0n. Qed.
Lemma half2 : 2%:R^-1 + 2%:R^-1 = 1 :> C.
Proof. by rewrite -[RHS](two_half C) mulrDl !mul1r. Qed.
Lemma mix_mix : inner mix mix = 1.
Proof. by rewrite inner1 /mix /spin !big_ord_recl big_ord0 /= rt_conj rt conjC0 mul0r !add0r !addr0 half2. Qed.
Lemma mix_any (v : field) : inner mix v = sqrtC 2%:R^-1 * (v o1 (inord 0) ord0 + v o1 (inord 2) ord0).
Proof.
rewrite inner1 /mix /spin !big_ord_recl big_ord0 /= rt_conj conjC0 !mul0r !add0r addr0 mulrDr.
by congr (_ * v _ _ _ + _ * v _ _ _); apply: val_inj; rewrite /= inordK.
Qed.
End One.
