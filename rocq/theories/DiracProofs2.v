(** Hermiticity, gauge covariance and linearity of the Wilson-Dirac operator. *)
From Coq Require Import ZArith.
From mathcomp Require Import all_ssreflect all_algebra.
From Verif Require Import GaugeModel GaugeSpec GaugeProofs GaugeProofs2 GammaModel DiracModel DiracSpec DiracProofs.
Import GRing.Theory Num.Theory.
Set Implicit Arguments.
Unset Strict Implicit.
Unset Printing Implicit Defensive.
Local Open Scope ring_scope.

Section Proofs.
Variable C : numClosedFieldType.
Add Ring Cring2 : (Crth C).
Variable n : nat.
Variable L : lattice.
Notation field := (L -> 'I_4 -> 'I_n -> C) (only parsing).
Implicit Types (U : L -> 'I_4 -> 'M[C]_n) (v w : field) (x : L).

(** The scalar products of the code. *)
Lemma mkc_sum (I : finType) (P : pred I) (f : I -> C) : mkc (\sum_(i | P i) 'Re (f i)) (\sum_(i | P i) 'Im (f i)) = \sum_(i | P i) f i.
Proof. by rewrite /mkc mulr_sumr -big_split; apply: eq_bigr => i _; rewrite /= rect. Qed.
Lemma ReS (I : finType) (P : pred I) (f : I -> C) : \sum_(i | P i) 'Re (f i) = 'Re (\sum_(i | P i) f i).
Proof. by rewrite (raddf_sum (Re_additive C)). Qed.
Lemma ImS (I : finType) (P : pred I) (f : I -> C) : \sum_(i | P i) 'Im (f i) = 'Im (\sum_(i | P i) f i).
Proof. by rewrite (raddf_sum (Im_additive C)). Qed.
Lemma dotE v w : dot v w = inner v w.
Proof.
rewrite /dot.
rewrite (eq_bigr (fun x => 'Re (\sum_(a < 4) vector_dot (v x a) (w x a)))); last by move=> x _; rewrite ReS.
rewrite [X in mkc _ X](eq_bigr (fun x => 'Im (\sum_(a < 4) vector_dot (v x a) (w x a)))); last by move=> x _; rewrite ImS.
by rewrite mkc_sum.
Qed.
Lemma inner_ge0 v : 0 <= inner v v.
Proof. by apply: sumr_ge0 => x _; apply: sumr_ge0 => a _; apply: sumr_ge0 => c _; rewrite mulrC mul_conjC_ge0. Qed.
Lemma inner_eq0 v : inner v v = 0 -> feq v (fun _ _ _ => 0).
Proof.
move=> H x a c; have P y b : 0 <= \sum_e (v y b e)^* * v y b e.
  by apply: sumr_ge0 => e _; rewrite mulrC mul_conjC_ge0.
have H1 : \sum_(b < 4) \sum_e (v x b e)^* * v x b e = 0.
  by apply: (psumr_eq0P _ H) => // y _; apply: sumr_ge0 => b _; exact: P.
have H2 : \sum_e (v x a e)^* * v x a e = 0 by apply: (psumr_eq0P _ H1) => // b _; exact: P.
have Q e : 0 <= (v x a e)^* * v x a e by rewrite mulrC mul_conjC_ge0.
have H3 : (v x a c)^* * v x a c = 0 by apply: (psumr_eq0P _ H2) => // e _; exact: Q.
by move/eqP: H3; rewrite mulrC mul_conjC_eq0 => /eqP.
Qed.
Lemma squared_normE v : squared_norm v = inner v v.
Proof.
rewrite /squared_norm.
rewrite (eq_bigr (fun x => 'Re (\sum_(a < 4) vector_dot (v x a) (v x a)))); last by move=> x _; rewrite ReS.
rewrite ReS -/(inner v v); apply/Creal_ReP; exact: ger0_real (inner_ge0 v).
Qed.
Lemma inner_ext v v' w w' : feq v v' -> feq w w' -> inner v w = inner v' w'.
Proof. by move=> E F; apply: eq_bigr => x _; apply: eq_bigr => a _; apply: eq_bigr => c _; rewrite E F. Qed.
Lemma inner_conj v w : (inner v w)^* = inner w v.
Proof.
rewrite rmorph_sum; apply: eq_bigr => x _; rewrite rmorph_sum; apply: eq_bigr => a _; rewrite rmorph_sum.
by apply: eq_bigr => c _; rewrite rmorphM conjCK mulrC.
Qed.
Lemma gamma5dotE v w : gamma5dot v w = inner v (g5 w).
Proof.
rewrite /gamma5dot.
have E (f : L -> 'I_4 -> C) : mkc (\sum_x (\sum_(a < 4 | (a < 2)%N) 'Re (f x a) - \sum_(a < 4 | (2 <= a)%N) 'Re (f x a)))
     (\sum_x (\sum_(a < 4 | (a < 2)%N) 'Im (f x a) - \sum_(a < 4 | (2 <= a)%N) 'Im (f x a)))
     = \sum_x \sum_(a < 4) (if (a < 2)%N then f x a else - f x a).
  rewrite -[RHS]mkc_sum; congr (mkc _ _); apply: eq_bigr => x _.
    rewrite -ReS [RHS](bigID (fun a : 'I_4 => (a < 2)%N)) /=; congr (_ + _).
      by apply: eq_bigr => a ->.
    rewrite -sumrN; apply: eq_big => a; first by rewrite -leqNgt.
    by rewrite leqNgt => /negbTE ->; rewrite raddfN.
  rewrite -ImS [RHS](bigID (fun a : 'I_4 => (a < 2)%N)) /=; congr (_ + _).
    by apply: eq_bigr => a ->.
  rewrite -sumrN; apply: eq_big => a; first by rewrite -leqNgt.
  by rewrite leqNgt => /negbTE ->; rewrite raddfN.
rewrite E; apply: eq_bigr => x _; apply: eq_bigr => a _; rewrite /vector_dot /g5.
case h: (a < 2)%N; last rewrite -sumrN; apply: eq_bigr => c _; rewrite gamma5E h ?mulrN //.
Qed.

(** Hermiticity. *)
Definition sgn (a : 'I_4) : C := if (a < 2)%N then 1 else -1.
Lemma g5E v x a c : g5 v x a c = sgn a * v x a c.
Proof. by rewrite /g5 gamma5E /sgn; case: ifP => _; rewrite ?mul1r ?mulN1r. Qed.
Lemma sgn_conj a : (sgn a)^* = sgn a.
Proof. by rewrite /sgn; case: ifP => _; rewrite ?rmorphN rmorph1. Qed.
Lemma g5_herm v w : inner v (g5 w) = inner (g5 v) w.
Proof.
apply: eq_bigr => x _; apply: eq_bigr => a _; apply: eq_bigr => c _.
by rewrite !g5E rmorphM sgn_conj mulrCA mulrA.
Qed.
Lemma g5K v : feq (g5 (g5 v)) v.
Proof. by move=> x a c; rewrite !g5E mulrA /sgn; case: ifP => _; rewrite ?mulrNN ?mulr1 mul1r. Qed.
Lemma conj_i : ('i : C)^* = - 'i. Proof. exact: conjCi. Qed.
(** The projectors times gamma5 are adjoint to each other. *)
Lemma proj_adj mu a b : (sgn a * (1%:M - gamma C mu) a b)^* = sgn b * (1%:M + gamma C mu) b a.
Proof.
rewrite rmorphM sgn_conj.
have E : ((1%:M - gamma C mu) a b)^* = (1%:M : 'M[C]_4) a b - (gamma C mu a b)^*.
  by rewrite !mxE rmorphB rmorph_nat.
rewrite {}E [in RHS]mxE.
have -> : (gamma C mu a b)^* = gamma C mu b a.
  by move: mu a b; apply: ord4P; apply: ord4P; apply: ord4P; rewrite !mxE /at3 /at2 /= !gcE;
    rewrite ?rmorph0 ?rmorph1 ?rmorphN ?rmorph1 ?conj_i ?opprK.
rewrite [(1%:M : 'M[C]_4) a b]mxE [(1%:M : 'M[C]_4) b a]mxE (eq_sym b).
rewrite mulrBr mulrDr; congr (_ + _); first by case: eqP => [->|_]; rewrite ?mulr0.
rewrite -mulNr.
by move: mu a b; apply: ord4P; apply: ord4P; apply: ord4P; rewrite !mxE /at3 /at2 /sgn /= !gcE ?opprK ?mulr0.
Qed.
Definition hop_up U v w mu : C :=
  \sum_x \sum_(a < 4) \sum_c \sum_(b < 4) \sum_e (v x a c)^* * (sgn a * (1%:M - gamma C mu) a b) * (U x mu c e * w (sup mu x) b e).
Definition hop_dn U v w mu : C :=
  \sum_x \sum_(a < 4) \sum_c \sum_(b < 4) \sum_e
    (v x a c)^* * (sgn a * (1%:M + gamma C mu) a b) * ((U (sdn mu x) mu e c)^* * w (sdn mu x) b e).
Lemma inner_hop U v w : inner v (g5 (hopping U w)) = \sum_mu (hop_up U v w mu + hop_dn U v w mu).
Proof.
have -> : inner v (g5 (hopping U w)) = \sum_x \sum_(a < 4) \sum_c \sum_(mu < 4)
  (\sum_(b < 4) \sum_e (v x a c)^* * (sgn a * (1%:M - gamma C mu) a b) * (U x mu c e * w (sup mu x) b e)
  + \sum_(b < 4) \sum_e (v x a c)^* * (sgn a * (1%:M + gamma C mu) a b) * ((U (sdn mu x) mu e c)^* * w (sdn mu x) b e)).
  apply: eq_bigr => x _; apply: eq_bigr => a _; apply: eq_bigr => c _.
  rewrite g5E mulrA mulr_sumr; apply: eq_bigr => mu _; rewrite big_split mulrDr !mulr_sumr; congr (_ + _).
    by apply: eq_bigr => b _; rewrite !mulrA mulr_sumr.
  by apply: eq_bigr => b _; rewrite !mulrA mulr_sumr.
rewrite /hop_up /hop_dn.
under eq_bigr => x _ do (under eq_bigr => a _ do rewrite exchange_big; rewrite exchange_big).
rewrite exchange_big; apply: eq_bigr => mu _.
rewrite -big_split; apply: eq_bigr => x _; rewrite -big_split; apply: eq_bigr => a _; rewrite -big_split.
by apply: eq_bigr => c _.
Qed.
Lemma hop_adj U v w mu : (hop_up U v w mu)^* = hop_dn U w v mu.
Proof.
rewrite /hop_dn (reindex (sup mu)) /=; last by exists (sdn mu) => y _; rewrite ?supK ?sdnK.
rewrite rmorph_sum; apply: eq_bigr => x _; rewrite supK.
have E (F : 'I_4 -> 'I_n -> 'I_4 -> 'I_n -> C) :
  \sum_(a < 4) \sum_c \sum_(b < 4) \sum_e F a c b e = \sum_(b < 4) \sum_e \sum_(a < 4) \sum_c F a c b e.
  under eq_bigr => a _ do rewrite exchange_big.
  rewrite exchange_big; apply: eq_bigr => b _.
  under eq_bigr => a _ do rewrite exchange_big.
  by rewrite exchange_big.
rewrite rmorph_sum (eq_bigr (fun a => \sum_c \sum_(b < 4) \sum_e
   (w (sup mu x) b e)^* * (sgn b * (1%:M + gamma C mu) b a) * ((U x mu c e)^* * v x a c))); first exact: E.
move=> a _; rewrite rmorph_sum; apply: eq_bigr => c _; rewrite rmorph_sum; apply: eq_bigr => b _.
rewrite rmorph_sum; apply: eq_bigr => e _; rewrite rmorphM (rmorphM _ ((v x a c)^*)) conjCK proj_adj rmorphM.
move: (sgn b * _) (v x a c) ((w _ _ _)^*) ((U _ _ _ _)^*) => p q r s; cring_fold C; ring.
Qed.
Lemma hop_adj' U v w mu : (hop_dn U v w mu)^* = hop_up U w v mu.
Proof. by rewrite -hop_adj conjCK. Qed.
Lemma hopping_herm U v w : inner v (g5 (hopping U w)) = (inner w (g5 (hopping U v)))^*.
Proof.
rewrite !inner_hop rmorph_sum; apply: eq_bigr => mu _.
by rewrite rmorphD hop_adj hop_adj' addrC.
Qed.
Lemma dirac_herm k U v w : k \is Num.real -> inner v (g5 (dirac k U w)) = inner (g5 (dirac k U v)) w.
Proof.
move=> kr; rewrite -[RHS]conjCK inner_conj.
have E (p q : field) : inner p (g5 (dirac k U q)) = inner p (g5 q) - k * inner p (g5 (hopping U q)).
  rewrite /inner mulr_sumr -sumrB; apply: eq_bigr => x _; rewrite mulr_sumr -sumrB; apply: eq_bigr => a _.
  rewrite mulr_sumr -sumrB; apply: eq_bigr => c _; rewrite !g5E /dirac.
  by rewrite !mulrBr (mulrCA (sgn a)) (mulrCA _ k).
rewrite !E rmorphB (rmorphM _ k) (conj_Creal kr) -hopping_herm; congr (_ - _).
by rewrite inner_conj g5_herm.
Qed.

(** Gauge covariance. *)
Lemma mulvM (A B : 'M[C]_n) f : mulv A (mulv B f) =1 mulv (A *m B) f.
Proof.
move=> c; rewrite /mulv; under eq_bigr => b _ do rewrite mulr_sumr.
rewrite exchange_big; apply: eq_bigr => e _; rewrite mxE mulr_suml; apply: eq_bigr => b _; exact: mulrA.
Qed.
Lemma rotateE om v x a : rotate om v x a =1 mulv (om x) (v x a). Proof. by []. Qed.
Lemma up_gauge om U v x mu b : (forall y, unitary (om y)) ->
  up (gauge_transform om U) (rotate om v) x mu b =1 mulv (om x) (up U v x mu b).
Proof.
move=> H c; rewrite /up (mulv_ext _ (rotateE _ _ _ _)) !mulvM /gauge_transform -mulmxA.
by rewrite (unitary_l (H _)) mulmx1.
Qed.
Lemma dn_gauge om U v x mu b : (forall y, unitary (om y)) ->
  dn (gauge_transform om U) (rotate om v) x mu b =1 mulv (om x) (dn U v x mu b).
Proof.
move=> H c; rewrite /dn (mulv_ext _ (rotateE _ _ _ _)) !mulvM /gauge_transform sdnK !htransM htransK -!mulmxA.
by rewrite (unitary_l (H _)) mulmx1.
Qed.
Lemma hoppingE' U v x a c : hopping U v x a c =
  \sum_(mu < 4) \sum_(b < 4) ((1%:M - gamma C mu) a b * up U v x mu b c + (1%:M + gamma C mu) a b * dn U v x mu b c).
Proof.
apply: eq_bigr => mu _; apply: eq_bigr => b _; congr (_ + _ * _).
by apply: eq_bigr => e _; rewrite !mxE.
Qed.
Lemma hopping_gauge om U v : (forall y, unitary (om y)) ->
  feq (hopping (gauge_transform om U) (rotate om v)) (rotate om (hopping U v)).
Proof.
move=> H x a c; rewrite hoppingE' /rotate.
under [RHS]eq_bigr => e _ do rewrite hoppingE' mulr_sumr.
rewrite [RHS]exchange_big; apply: eq_bigr => mu _.
under [RHS]eq_bigr => e _ do rewrite mulr_sumr.
rewrite [RHS]exchange_big; apply: eq_bigr => b _.
rewrite up_gauge // dn_gauge // /mulv !mulr_sumr -big_split; apply: eq_bigr => e _ /=.
by rewrite mulrDr !(mulrCA (om x c e)).
Qed.
Lemma dirac_gauge k om U v : (forall y, unitary (om y)) ->
  feq (dirac k (gauge_transform om U) (rotate om v)) (rotate om (dirac k U v)).
Proof.
move=> H x a c; rewrite /dirac hopping_gauge // /rotate mulr_sumr -sumrB.
by apply: eq_bigr => e _; rewrite mulrBr mulrCA.
Qed.
Lemma g5_rotate om v : feq (g5 (rotate om v)) (rotate om (g5 v)).
Proof.
move=> x a c; rewrite g5E /rotate mulr_sumr; apply: eq_bigr => e _; rewrite g5E; exact: mulrCA.
Qed.
Lemma maybe5_ext g v w : feq v w -> feq (maybe5 g v) (maybe5 g w).
Proof. by move=> E x a c; rewrite !maybe5E E. Qed.
Lemma maybe5_gauge g k om U v : (forall y, unitary (om y)) ->
  feq (maybe5 g (dirac k (gauge_transform om U) (rotate om v))) (rotate om (maybe5 g (dirac k U v))).
Proof.
move=> H x a c; rewrite (maybe5_ext _ (dirac_gauge k U v H)); case: g => //=; exact: g5_rotate.
Qed.
Lemma rotate_ext om v w : feq v w -> feq (rotate om v) (rotate om w).
Proof. by move=> E x a c; apply: eq_bigr => e _; rewrite E. Qed.

(** Linearity. *)
Lemma dirac_ext k U v w : feq v w -> feq (dirac k U v) (dirac k U w).
Proof.
move=> E x a c; rewrite /dirac E; congr (_ - _ * _); apply: eq_bigr => mu _; apply: eq_bigr => b _.
by congr (_ * _ + _ * _); apply: eq_bigr => e _; rewrite E.
Qed.
Lemma dirac_linear k U alpha v w : feq (dirac k U (combine alpha v w)) (combine alpha (dirac k U v) (dirac k U w)).
Proof.
move=> x a c; rewrite /combine /dirac.
have -> : hopping U (fun x a c => v x a c + alpha * w x a c) x a c = hopping U v x a c + alpha * hopping U w x a c.
  rewrite !hoppingE' mulr_sumr -big_split; apply: eq_bigr => mu _.
  rewrite mulr_sumr -big_split; apply: eq_bigr => b _ /=.
  rewrite /up /dn !mulvD !mulvZ; cring_fold C; ring.
cring_fold C; ring.
Qed.
End Proofs.
