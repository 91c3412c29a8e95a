(** Proofs: the correlators as traces of propagators. *)
From Coq Require Import ZArith.
From mathcomp Require Import all_ssreflect all_algebra.
From Verif Require Import GaugeModel GaugeSpec GaugeProofs GaugeProofs2 LoopModel GammaModel GammaSpec GammaProofs DiracModel DiracSpec DiracProofs DiracProofs2.
From Verif Require Import StochModel StochSpec StochProofs StochProofs2 StochProofs3 StochProofs4 MesonModel MesonSpec.
Import GRing.Theory Num.Theory.
Set Implicit Arguments.
Unset Strict Implicit.
Unset Printing Implicit Defensive.
Local Open Scope ring_scope.

Section Meson.
Variable C : numClosedFieldType.
Variable n : nat.
Variable G : grid.
Notation field := (G -> 'I_4 -> 'I_n -> C) (only parsing).
Notation T := [finType of G * 'I_4 * 'I_n].
Variables D S : field -> field.
Hypothesis linD : linear_on D.
Hypothesis sol : solves D S.
Let linS := lin_solve linD sol.
Variable o : G.
Hypothesis o0 : forall mu, coord o mu = 0%N.
Lemma propagatorE alpha c x mu d : propagator S alpha c x mu d = prop S x o d c mu alpha.
Proof. by rewrite mxE /propagator (linS.1 _ _ (point_sourceE C alpha c o0)). Qed.
Hypothesis herm : forall v w, inner v (g5 (D w)) = inner (g5 (D v)) w.
Notation g5m := (gamma_five C).
Lemma element_herm (i j : T) : sgn C i.1.2 * element S i j = sgn C j.1.2 * (element S j i)^*.
Proof.
have h := herm (S (unit_field C i)) (S (unit_field C j)).
have e1 := @lin_g5 C n G.
rewrite (inner_ext (fun _ _ _ => erefl) (e1.1 _ _ (sol _))) (inner_ext (e1.1 _ _ (sol _)) (fun _ _ _ => erefl)) in h.
rewrite -(g5_herm _ (S _)) inner_unit -[X in X = _]conjCK inner_conj -g5_herm inner_unit in h.
by move: h; rewrite /at_ !g5E -/(element S i j) -/(element S j i) rmorphM sgn_conj.
Qed.
Lemma g5mE : g5m = diag_mx (\row_a sgn C a).
Proof.
apply/matrixP => a b; rewrite !mxE.
move: a b; apply: ord4P; apply: ord4P; by rewrite /gc /zc /sgn /= ?mulr0 ?addr0 ?mulr0n ?mulr1n.
Qed.
Lemma sgn2 a : sgn C a * sgn C a = 1.
Proof. by rewrite /sgn; case: ifP => _; rewrite ?mulrNN mulr1. Qed.
(** The propagator back to the origin. *)
Lemma prop_back x c d : prop S o x c d = g5m *m htrans (prop S x o d c) *m g5m.
Proof.
apply/matrixP => a b; rewrite g5mE mul_mx_diag mul_diag_mx !mxE.
have := element_herm (o, a, c) (x, b, d); move/(congr1 (fun z => sgn C a * z)); rewrite mulrA sgn2 mul1r => ->.
by rewrite mulrA mulrAC -mulrA mulrC.
Qed.

(** Gamma matrices. *)
Notation g3 := (gamma C d3).
Lemma of_giE g : of_gi C g = gc C g. Proof. by []. Qed.
Lemma g3E : g3 = \matrix_(a, b) (if (a < 2)%N then (b == a + 2 :> nat)%N else (a == b + 2 :> nat)%N)%:R.
Proof.
apply/matrixP => a b; rewrite !mxE.
by move: a b; apply: ord4P; apply: ord4P; rewrite /= ?gc0 ?gc1.
Qed.
Lemma g3T : g3^T = g3.
Proof. by rewrite g3E; apply/matrixP => a b; rewrite !mxE; move: a b; apply: ord4P; apply: ord4P. Qed.
Lemma g3S a b : g3 a b = g3 b a.
Proof. by rewrite -{1}g3T mxE. Qed.
Lemma g3H : htrans g3 = g3.
Proof. by rewrite g3E; apply/matrixP => a b; rewrite !mxE; move: a b; apply: ord4P; apply: ord4P; rewrite /= ?conjC1 ?conjC0. Qed.
Lemma g5H : htrans g5m = g5m.
Proof.
rewrite g5mE; apply/matrixP => a b; rewrite !mxE; move: a b.
by apply: ord4P; apply: ord4P; rewrite /sgn /= ?mulr1n ?mulr0n ?rmorphN ?conjC1 ?conjC0.
Qed.
Lemma g55 : g5m *m g5m = 1%:M.
Proof.
rewrite g5mE mulmx_diag; apply/matrixP => a b; rewrite !mxE sgn2; by [].
Qed.
Lemma g53 : g5m *m g3 = - (g3 *m g5m).
Proof.
rewrite g5mE mul_mx_diag mul_diag_mx g3E; apply/matrixP => a b; rewrite !mxE; move: a b.
by apply: ord4P; apply: ord4P; rewrite /sgn /= ?mul0r ?mulr0 ?oppr0 ?mul1r ?mulr1 ?opprK.
Qed.
Lemma table3E a b : table_gamma C a b = g3 a b.
Proof. by rewrite mxE. Qed.
Lemma table53E a b : table_gamma5_gamma C a b = (g5m *m g3) a b.
Proof.
rewrite g5mE mul_diag_mx g3E !mxE /table_gamma5_gamma of_giE; move: a b.
by apply: ord4P; apply: ord4P; rewrite /sgn /= ?gc0 ?gc1 ?gcm ?mulr1 ?mulr0.
Qed.
Lemma g53T : (g5m *m g3)^T = g3 *m g5m.
Proof. by rewrite trmx_mul g3T g5mE tr_diag_mx. Qed.

Lemma sums (F : 'I_4 -> 'I_n -> G -> 'I_4 -> 'I_n -> C) (P : pred G) :
  \sum_(al < 4) \sum_c \sum_(x : G | P x) \sum_(mu < 4) \sum_d F al c x mu d
  = \sum_(x : G | P x) \sum_c \sum_d \sum_(al < 4) \sum_(mu < 4) F al c x mu d.
Proof.
rewrite exchange_big /= [RHS]exchange_big /=; apply: eq_bigr => c _; rewrite exchange_big /=; apply: eq_bigr => x _.
rewrite [RHS]exchange_big /=; apply: eq_bigr => al _; exact: exchange_big.
Qed.
Notation M := (fun x c d => prop S x o d c).
Lemma correlatorE sink source t : (t < ext G d3)%N -> correlator S o sink source t
  = \sum_(x : G | coord x d3 == t) \sum_c \sum_d \tr (g5m *m sink *m M x c d *m (source *m g5m) *m htrans (M x c d)).
Proof.
move=> lt; rewrite /correlator o0 add0n modn_small //.
apply: eq_bigr => x _; apply: eq_bigr => c _; apply: eq_bigr => d _.
by rewrite prop_back !mulmxA mxtrace_mulC !mulmxA.
Qed.
Lemma re_real (z : C) : z^* = z -> 'Re z = z.
Proof. by move=> h; apply/Creal_ReP/CrealP. Qed.
Lemma sum_re (X : finType) (P : pred X) (F : X -> C) : \sum_(i | P i) 'Re (F i) = 'Re (\sum_(i | P i) F i).
Proof. by rewrite (raddf_sum (Re_additive C)). Qed.
Lemma tr_conj m (A : 'M[C]_m) : (\tr A)^* = \tr (htrans A).
Proof. by rewrite /mxtrace rmorph_sum; apply: eq_bigr => i _; rewrite /htrans !mxE. Qed.

Lemma pion_correlator t : (t < ext G d3)%N -> pion_operator S t = correlator S o g5m g5m t.
Proof.
move=> lt; rewrite /pion_operator sums correlatorE //; apply: eq_bigr => x _; apply: eq_bigr => c _; apply: eq_bigr => d _.
rewrite g55 mulmx1 mul1mx /mxtrace exchange_big /=; apply: eq_bigr => mu _; rewrite mxE; apply: eq_bigr => al _.
by rewrite !propagatorE !mxE re_real ?rmorphM ?conjCK 1?mulrC // mulrC.
Qed.

Lemma trace4 (A B N : 'M[C]_4) : \tr (A *m N *m B *m htrans N) = \sum_(al < 4) \sum_(be < 4) \sum_(mu < 4) \sum_(nu < 4) A mu nu * B be al * (N mu al)^* * N nu be.
Proof.
rewrite /mxtrace; under eq_bigr do rewrite mxE.
rewrite exchange_big /=; apply: eq_bigr => al _.
rewrite [RHS]exchange_big /=; apply: eq_bigr => mu _.
rewrite mxE big_distrl /=; apply: eq_bigr => be _.
rewrite mxE !big_distrl /=; apply: eq_bigr => nu _; rewrite !mxE.
by rewrite -!mulrA; congr (_ * _); rewrite mulrCA; congr (_ * _); rewrite mulrC.
Qed.
Lemma sums7 (F : 'I_4 -> 'I_4 -> 'I_n -> G -> 'I_4 -> 'I_4 -> 'I_n -> C) (P : pred G) :
  \sum_(al < 4) \sum_(be < 4) \sum_c \sum_(x : G | P x) \sum_(mu < 4) \sum_(nu < 4) \sum_d F al be c x mu nu d
  = \sum_(x : G | P x) \sum_c \sum_d \sum_(al < 4) \sum_(be < 4) \sum_(mu < 4) \sum_(nu < 4) F al be c x mu nu d.
Proof.
transitivity (\sum_(al < 4) \sum_c \sum_(x : G | P x) \sum_(be < 4) \sum_d \sum_(mu < 4) \sum_(nu < 4) F al be c x mu nu d).
  apply: eq_bigr => al _; rewrite exchange_big /=; apply: eq_bigr => c _; rewrite exchange_big /=; apply: eq_bigr => x _.
  apply: eq_bigr => be _; rewrite [RHS]exchange_big /=; apply: eq_bigr => mu _; exact: exchange_big.
by rewrite (sums (fun al c x be d => \sum_(mu < 4) \sum_(nu < 4) F al be c x mu nu d)).
Qed.
Lemma scalar_correlator t : (t < ext G d3)%N -> scalar_operator S t = correlator S o g3 g3 t.
Proof.
move=> lt; rewrite /scalar_operator sums7 correlatorE //; apply: eq_bigr => x _; apply: eq_bigr => c _; apply: eq_bigr => d _.
rewrite -g53T.
under eq_bigr => al _ do under eq_bigr => be _ do (under eq_bigr => mu _ do (under eq_bigr => nu _ do rewrite !propagatorE !table53E; rewrite sum_re); rewrite sum_re).
under eq_bigr => al _ do rewrite sum_re.
rewrite sum_re.
have -> : \sum_(al < 4) \sum_(be < 4) \sum_(mu < 4) \sum_(nu < 4) (g5m *m g3) mu nu * (g5m *m g3) al be * (M x c d mu al)^* * M x c d nu be
   = \tr (g5m *m g3 *m M x c d *m (g5m *m g3)^T *m htrans (M x c d)).
  rewrite trace4; do 4! [apply: eq_bigr => ? _]; by rewrite [(_^T) _ _]mxE.
move: (M x c d) => N; set A := g5m *m g3.
have e1 : A^T = - A by rewrite g53T /A g53 opprK.
have e2 : htrans A = - A by rewrite -e1 g53T /A htransM g3H g5H.
move: A e1 e2 => A e1 e2.
apply: re_real; rewrite tr_conj e1 !(mulmxN, mulNmx) htransN !htransM htransK e2 !(mulmxN, mulNmx) !opprK.
rewrite !(raddfN (mxtrace_additive _ _)) /=; congr (- _).
by rewrite !mulmxA mxtrace_mulC !mulmxA.
Qed.
Lemma ps_correlator t : (t < ext G d3)%N -> ps_operator S t = - (correlator S o g5m (g3 *m g5m) t + correlator S o (g3 *m g5m) g5m t).
Proof.
move=> lt; rewrite /ps_operator.
transitivity (\sum_(x : G | coord x d3 == t) \sum_c \sum_d 'Re (- \tr (M x c d *m g3 *m htrans (M x c d)) + \tr (g3 *m M x c d *m htrans (M x c d)))).
  transitivity (\sum_(al < 4) \sum_c \sum_(x : G | coord x d3 == t) \sum_(be < 4) \sum_d \sum_(mu < 4)
     'Re (0 - table_gamma C al be * (propagator S al c x mu d)^* * propagator S be c x mu d
          + table_gamma C al be * (propagator S mu c x al d)^* * propagator S mu c x be d)).
    apply: eq_bigr => al _; rewrite exchange_big /=; apply: eq_bigr => c _; rewrite exchange_big /=; apply: eq_bigr => x _.
    apply: eq_bigr => be _; exact: exchange_big.
  rewrite (sums (fun al c x be d => \sum_(mu < 4) 'Re (0 - table_gamma C al be * (propagator S al c x mu d)^* * propagator S be c x mu d
          + table_gamma C al be * (propagator S mu c x al d)^* * propagator S mu c x be d))).
  apply: eq_bigr => x _; apply: eq_bigr => c _; apply: eq_bigr => d _.
  under eq_bigr => al _ do under eq_bigr => be _ do rewrite sum_re.
  under eq_bigr => al _ do rewrite sum_re.
  rewrite sum_re; congr ('Re _).
  under eq_bigr => al _ do under eq_bigr => be _ do under eq_bigr => mu _ do rewrite !propagatorE !table3E.
  move: (M x c d) => N.
  under eq_bigr => al _ do under eq_bigr => be _ do (under eq_bigr => mu _ do rewrite sub0r; rewrite big_split /= sumrN).
  under eq_bigr => al _ do rewrite big_split /= sumrN.
  rewrite big_split /= sumrN; congr (- _ + _).
    rewrite /mxtrace; under [RHS]eq_bigr => mu _ do rewrite mxE.
    rewrite [RHS]exchange_big /=; apply: eq_bigr => al _.
    rewrite exchange_big /=; apply: eq_bigr => mu _.
    rewrite !mxE big_distrl /=; apply: eq_bigr => be _.
    by rewrite (g3S al be) -mulrA mulrCA mulrA mulrAC (mulrC (N _ _)^*) -!mulrA (mulrC (N _ _)^*).
  rewrite /mxtrace; apply: eq_bigr => al _; rewrite mxE exchange_big /=; apply: eq_bigr => mu _.
  by rewrite !mxE big_distrl /=; apply: eq_bigr => be _; rewrite mulrAC.
rewrite !correlatorE // -big_split /= -sumrN; apply: eq_bigr => x _; rewrite -big_split /= -sumrN; apply: eq_bigr => c _.
rewrite -big_split /= -sumrN; apply: eq_bigr => d _; move: (M x c d) => N.
rewrite re_real; last first.
  rewrite rmorphD rmorphN /= !tr_conj !htransM !htransK g3H; congr (- _ + _); first by rewrite mulmxA.
  by rewrite mulmxA mxtrace_mulC mulmxA.
have e : g5m *m (g3 *m g5m) = - g3 by rewrite mulmxA g53 mulNmx -mulmxA g55 mulmx1.
rewrite e -(mulmxA g3 g5m g5m) g55 !(mulNmx, mulmx1, mul1mx) (raddfN (mxtrace_additive _ _)) /=.
by rewrite opprD opprK.
Qed.
End Meson.
