(** The derivative of the Wilson operator in the direction of a change of the links. *)
From mathcomp Require Import all_ssreflect all_algebra.
From Verif Require Import GaugeModel GaugeSpec GaugeProofs GaugeProofs2 GammaModel DiracModel DiracSpec DiracProofs DiracProofs2.
From Verif Require Import AdjModel FForceModel.
Import GRing.Theory Num.Theory.
Set Implicit Arguments.
Unset Strict Implicit.
Unset Printing Implicit Defensive.
Local Open Scope ring_scope.

Section Der.
Variable C : numClosedFieldType.
Variable n : nat.
Variable L : lattice.
Notation colour := ('I_n -> C) (only parsing).
Notation field := (L -> 'I_4 -> 'I_n -> C) (only parsing).
Notation links := (L -> 'I_4 -> 'M[C]_n) (only parsing).
Implicit Types (V M W : links) (X Y : field) (x : L) (mu : 'I_4) (u w : colour).

Definition vdot u w : C := \sum_c (u c)^* * w c.
Lemma vdot_ext u w w' : w =1 w' -> vdot u w = vdot u w'.
Proof. by move=> E; apply: eq_bigr => c _; rewrite E. Qed.
Lemma vdot_adj (A : 'M[C]_n) u w : vdot (mulv A u) w = vdot u (mulv (htrans A) w).
Proof.
rewrite /vdot /mulv.
under eq_bigr => c _ do rewrite rmorph_sum mulr_suml.
rewrite exchange_big /=; apply: eq_bigr => b _; rewrite mulr_sumr; apply: eq_bigr => c _.
by rewrite rmorphM !mxE mulrAC mulrC mulrCA mulrA [_ * (u b)^*]mulrC -mulrA.
Qed.
Lemma trace_tensor u w (A : 'M[C]_n) : \tr (tensor u w *m A) = vdot u (mulv A w).
Proof.
rewrite /mxtrace; under eq_bigr => i _ do rewrite mxE.
rewrite exchange_big /=; apply: eq_bigr => j _; rewrite /mulv mulr_sumr; apply: eq_bigr => i _.
by rewrite mxE [w i * _]mulrC -mulrA [w i * _]mulrC.
Qed.

(** The two tables are gamma5 times the projectors. *)
Lemma g5idmgE (mu a b : 'I_4) : gc C (at3 gamma5_id_minus_gamma mu a b) = sgn C a * (1%:M - gamma C mu) a b.
Proof.
move: mu; apply: ord4P; move: a; apply: ord4P; move: b; apply: ord4P;
  by rewrite !mxE /at3 /at2 /sgn /= !gcE ?subr0 ?sub0r ?opprK ?mulrNN ?mul1r ?mulr0 ?mulr1 ?mulN1r ?oppr0 ?opprK.
Qed.
Lemma g5idpgE (mu a b : 'I_4) : gc C (at3 gamma5_id_plus_gamma mu a b) = sgn C a * (1%:M + gamma C mu) a b.
Proof.
move: mu; apply: ord4P; move: a; apply: ord4P; move: b; apply: ord4P;
  by rewrite !mxE /at3 /at2 /sgn /= !gcE ?addr0 ?add0r ?opprK ?mulrNN ?mul1r ?mulr0 ?mulr1 ?mulN1r ?oppr0 ?opprK.
Qed.
Lemma spin_sumE t k mu a (w : 'I_4 -> colour) c :
  spin_sum t k mu a w c = - k * \sum_(b < 4) gc C (at3 t mu a b) * w b c.
Proof.
rewrite /spin_sum mulr_sumr big_mkcond; apply: eq_bigr => b _.
by case: (altP eqP) => [->|_]; rewrite ?mul0r ?mulr0 // mulrA.
Qed.
Lemma spin_mulv t k mu a (A : 'M[C]_n) (w : 'I_4 -> colour) :
  mulv A (spin_sum t k mu a w) =1 spin_sum t k mu a (fun b => mulv A (w b)).
Proof.
move=> c; rewrite spin_sumE /mulv.
under eq_bigr => e _ do rewrite spin_sumE mulrCA.
rewrite -mulr_sumr; congr (_ * _).
under eq_bigr => e _ do rewrite mulr_sumr.
rewrite exchange_big /=; apply: eq_bigr => b _; rewrite mulr_sumr; apply: eq_bigr => e _; exact: mulrCA.
Qed.
Lemma hop_upE W X Y mu k : - k * hop_up W X Y mu =
  \sum_x \sum_(a < 4) vdot (X x a) (mulv (W x mu) (spin_sum gamma5_id_minus_gamma k mu a (Y (sup mu x)))).
Proof.
rewrite /hop_up mulr_sumr; apply: eq_bigr => x _; rewrite mulr_sumr; apply: eq_bigr => a _.
rewrite mulr_sumr; apply: eq_bigr => c _; rewrite spin_mulv spin_sumE mulrCA; congr (_ * _).
rewrite mulr_sumr; apply: eq_bigr => b _; rewrite !mulr_sumr; apply: eq_bigr => e _.
by rewrite g5idmgE !mulrA.
Qed.
Lemma hop_dnE W X Y mu k : - k * hop_dn W X Y mu =
  \sum_x \sum_(a < 4) vdot (X (sup mu x) a) (mulv (htrans (W x mu)) (spin_sum gamma5_id_plus_gamma k mu a (Y x))).
Proof.
rewrite /hop_dn (reindex (sup mu)) /=; last by exists (sdn mu) => y _; rewrite ?supK ?sdnK.
rewrite mulr_sumr; apply: eq_bigr => x _; rewrite mulr_sumr; apply: eq_bigr => a _.
rewrite mulr_sumr; apply: eq_bigr => c _; rewrite spin_mulv spin_sumE mulrCA; congr (_ * _).
rewrite mulr_sumr; apply: eq_bigr => b _; rewrite !mulr_sumr; apply: eq_bigr => e _.
by rewrite g5idpgE supK !mxE !mulrA.
Qed.
Lemma trace_half k V M X Y x mu : unitary (V x mu) -> anti_hermitian (M x mu) ->
  \tr (derivative_half k V X Y x mu 0 *m M x mu *m V x mu) =
  \sum_(a < 4) vdot (X x a) (mulv (M x mu *m V x mu) (spin_sum gamma5_id_minus_gamma k mu a (Y (sup mu x))))
  + \sum_(a < 4) vdot (X (sup mu x) a) (mulv (htrans (M x mu *m V x mu)) (spin_sum gamma5_id_plus_gamma k mu a (Y x))).
Proof.
move=> uV aM; rewrite /derivative_half add0r -mulmxA mulmxBl (raddfB (mxtrace_additive _ _)) /= !mulmx_suml !(raddf_sum (mxtrace_additive _ _)) /=.
congr (_ + _); first by apply: eq_bigr => a _; exact: trace_tensor.
rewrite -sumrN; apply: eq_bigr => a _; rewrite trace_tensor vdot_adj -sumrN.
apply: eq_bigr => c _; rewrite -mulrN; congr (_ * _).
rewrite mulvM -(mulv_ext _ (spin_mulv _ _ _ _ _ _)) mulvM.
rewrite htransM (_ : htrans (M x mu) = - M x mu); last by rewrite -aM daggerE.
rewrite mulmxN -!mulmxA (_ : V x mu *m htrans (V x mu) = 1%:M); last by rewrite -daggerE.
by rewrite mulmx1 /mulv -sumrN; apply: eq_bigr => b _; rewrite [in RHS]mxE mulNr.
Qed.
Lemma derivative_split k V X Y x mu : wilson_derivative k V X Y x mu
  = derivative_half k V X Y x mu 0 + derivative_half k V Y X x mu 0.
Proof. by rewrite /wilson_derivative {1}/derivative_half [in RHS]/(derivative_half k V Y X x mu 0) add0r addrA. Qed.
(** The trace with the derivative is the change of the operator between the two fields. *)
Lemma trace_derivative k V M X Y : (forall x mu, unitary (V x mu)) -> (forall x mu, anti_hermitian (M x mu)) ->
  let W := fun x mu => M x mu *m V x mu in
  \sum_x \sum_(mu < 4) \tr (wilson_derivative k V X Y x mu *m M x mu *m V x mu) =
  - k * inner X (g5 (hopping W Y)) + - k * inner Y (g5 (hopping W X)).
Proof.
move=> uV aM W; rewrite !inner_hop !mulr_sumr -big_split exchange_big /=; apply: eq_bigr => mu _.
rewrite !mulrDr !hop_upE !hop_dnE -!big_split /=; apply: eq_bigr => x _.
by rewrite derivative_split 2!mulmxDl mxtraceD (trace_half k X Y (uV x mu) (aM x mu)) (trace_half k Y X (uV x mu) (aM x mu)).
Qed.
End Der.
