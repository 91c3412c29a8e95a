(** The improved operators of the code are the textbook clover operator; Hermiticity, covariance, multiplyAdd, blocks. *)
From Coq Require Import ZArith Field.
From mathcomp Require Import all_ssreflect all_algebra.
From Verif Require Import GaugeModel GaugeSpec GaugeProofs GaugeProofs2 GaugeProofs3 AdjProofs3 ExpModel SmearProofs GammaModel DiracModel DiracSpec.
From Verif Require Import DiracProofs DiracProofs2 DiracProofs3 CloverModel CloverSpec CloverProofs.
Import GRing.Theory Num.Theory.
Set Implicit Arguments.
Unset Strict Implicit.
Unset Printing Implicit Defensive.
Local Open Scope ring_scope.

Section Proofs.
Variable C : numClosedFieldType.
Add Ring Cring_clover2 : (Crth C).
Variable n : nat.
Variable L : lattice.
Notation field := (L -> 'I_4 -> 'I_n -> C) (only parsing).
Implicit Types (U : L -> 'I_4 -> 'M[C]_n) (F : L -> 'I_6 -> 'M[C]_n) (v w : field) (x : L) (o : improved C n L).
Ltac cringi := cring_fold C; ring [(cii C)].

Lemma sgnK (a : 'I_4) : sgn C a * sgn C a = 1.
Proof. by rewrite /sgn; case: ifP => _; rewrite ?mulrNN mulr1. Qed.
Lemma cloverT U v x a c : clover (update_field_strength U) v x a c = sgn C a * clover_term U v x a c.
Proof. by rewrite clover_termE mulrA sgnK mul1r. Qed.

(** The settings keep the field strength in step with the lattice. *)
Definition coherent o := im_F o = update_field_strength (im_lattice o).
Lemma settings_coherent ss o : coherent o -> coherent (foldl (@apply_setting C n L) o ss).
Proof. by elim: ss o => [|s ss IH] o H //=; apply: IH; case: s. Qed.
Lemma foldl_lattice ss o : im_lattice (foldl (@apply_setting C n L) o ss) = last_lattice (im_lattice o) ss.
Proof. by elim: ss o => [|s ss IH] o //=; rewrite IH; case: s. Qed.
Lemma foldl_csw ss o : im_csw (foldl (@apply_setting C n L) o ss) = last_csw (im_csw o) ss.
Proof. by elim: ss o => [|s ss IH] o //=; rewrite IH; case: s. Qed.
Lemma foldl_kappa ss o : im_kappa (foldl (@apply_setting C n L) o ss) = last_kappa (im_kappa o) ss.
Proof. by elim: ss o => [|s ss IH] o //=; rewrite IH; case: s. Qed.
Lemma foldl_gamma5 ss o : im_gamma5 (foldl (@apply_setting C n L) o ss) = last_gamma5 (im_gamma5 o) ss.
Proof. by elim: ss o => [|s ss IH] o //=; rewrite IH; case: s. Qed.

(** multiply and multiplyAdd. *)
Lemma sg5E (a : 'I_4) (z : C) : sg5 true a z = sgn C a * z.
Proof. by rewrite /sg5 /sgn; move: a; apply: ord4P; rewrite /= ?mul1r ?mulN1r. Qed.
Lemma improved5 adj k c U v x out a e :
  dw_rest k U v x (dw_step1 k U v x (dw_step0 k U v x out)) a e
    + k * c * the_clover adj (update_field_strength U) v x a e = sgn C a * clover_dirac k c U v x a e.
Proof. rewrite wilson5 sg5E the_cloverE cloverT /clover_dirac [RHS]mulrDr; congr (_ + _); exact: mulrCA. Qed.
Lemma improved_correct adj o old v : coherent o ->
  feq (improved_multiply adj o old v) (maybe5 (im_gamma5 o) (clover_dirac (im_kappa o) (im_csw o) (im_lattice o) v)).
Proof.
move=> H x a e; rewrite maybe5E /improved_multiply /= H; case: (im_gamma5 o) => /=; first by rewrite improved5 -sg5E.
rewrite !putE !improved5 /sgn /sg5; move: a; apply: ord4P => /=; rewrite ?mul1r ?mulN1r ?opprK //.
Qed.
Lemma improved_add_correct adj o old old' : coherent o ->
  multiply_add_law (improved_multiply adj o old) (improved_multiply_add adj o old').
Proof.
move=> H v w alpha x a e; rewrite /combine improved_correct // maybe5E /improved_multiply_add /= H.
have E (b : 'I_4) : dw_rest (im_kappa o) (im_lattice o) v x (dw_step1_add (im_kappa o) (im_lattice o) v w alpha x
      (dw_step0_add (im_kappa o) (im_lattice o) v w alpha x (old' x))) b e
      + im_kappa o * im_csw o * the_clover adj (update_field_strength (im_lattice o)) v x b e
    = alpha * w x b e + sgn C b * clover_dirac (im_kappa o) (im_csw o) (im_lattice o) v x b e.
  rewrite -(improved5 adj _ _ _ _ _ (old' x)) addrA; congr (_ + _); apply: dw_rest_add; exact: dw_step01_addE.
case: (im_gamma5 o); first by rewrite E -sg5E addrC.
rewrite !putE !E !(mulr_natl alpha) !mulr2n /sgn /sg5; move: a; apply: ord4P => /=; cringi.
Qed.
Lemma clover_dirac_ext k c U v w : feq v w -> feq (clover_dirac k c U v) (clover_dirac k c U w).
Proof.
move=> H x a e; rewrite /clover_dirac (dirac_ext _ _ H); congr (_ + _ * (_ * _)).
apply: eq_bigr => mu _; apply: eq_bigr => nu _; apply: eq_bigr => b _; congr (_ * _); apply: eq_bigr => d _.
by rewrite H.
Qed.
Lemma clover_zero k U v : feq (clover_dirac k 0 U v) (dirac k U v).
Proof. by move=> x a e; rewrite /clover_dirac mulr0 mul0r addr0. Qed.

(** Hermiticity. *)
Definition bil F v w x (i : 'I_6) (a b : 'I_4) : C := \sum_c (v x a c)^* * act F w x i b c.
Lemma bil_adj F v w x i a b : (forall j, htrans (F x j) = - F x j) -> (bil F v w x i a b)^* = - bil F w v x i b a.
Proof.
move=> H; rewrite /bil /act /mulv rmorph_sum.
under eq_bigr => c _ do rewrite rmorphM conjCK rmorph_sum mulr_sumr.
under [X in _ = - X]eq_bigr => c _ do rewrite mulr_sumr.
rewrite [X in _ = - X]exchange_big -sumrN; apply: eq_bigr => c _; rewrite -sumrN; apply: eq_bigr => e _.
have -> : (F x i c e * w x b e)^* = - (F x i e c) * (w x b e)^*.
  by rewrite rmorphM; congr (_ * _); have := congr1 (fun M : 'M[C]_n => M e c) (H i); rewrite !mxE.
by rewrite mulNr mulrN mulrCA (mulrC (v x a c)) mulrCA.
Qed.
Lemma inner_clover F v w : inner v (clover F w) = \sum_x (
  ('i * (- bil F v w x i0 d0 d0 + bil F v w x i5 d0 d0)
     + (bil F v w x i1 d0 d1 + bil F v w x i4 d0 d1 + 'i * (bil F v w x i2 d0 d1 - bil F v w x i3 d0 d1)))
  + ('i * (bil F v w x i0 d1 d1 - bil F v w x i5 d1 d1)
     + (- bil F v w x i1 d1 d0 - bil F v w x i4 d1 d0 + 'i * (bil F v w x i2 d1 d0 - bil F v w x i3 d1 d0)))
  + ('i * (bil F v w x i0 d2 d2 + bil F v w x i5 d2 d2)
     + (- bil F v w x i1 d2 d3 + bil F v w x i4 d2 d3 + 'i * (bil F v w x i2 d2 d3 + bil F v w x i3 d2 d3)))
  + ('i * (- bil F v w x i0 d3 d3 - bil F v w x i5 d3 d3)
     + (bil F v w x i1 d3 d2 - bil F v w x i4 d3 d2 + 'i * (bil F v w x i2 d3 d2 + bil F v w x i3 d3 d2)))).
Proof.
apply: eq_bigr => x _; rewrite sum4E'; congr (_ + _ + _ + _);
  rewrite /bil -?(sumrB, sumrN, big_split) ?mulr_sumr -?(sumrB, sumrN, big_split) ?mulr_sumr -?(sumrB, sumrN, big_split);
  apply: eq_bigr => c _; rewrite cloverE /=; cringi.
Qed.
Lemma clover_herm F v w : (forall x j, htrans (F x j) = - F x j) -> inner v (clover F w) = (inner w (clover F v))^*.
Proof.
move=> H; rewrite !inner_clover rmorph_sum; apply: eq_bigr => x _.
rewrite !(rmorphD, rmorphB, rmorphN, rmorphM) conj_i /= !(fun i a b => bil_adj w v i a b (H x)).
cringi.
Qed.
Lemma update_anti U x j : htrans (update_field_strength U x j) = - update_field_strength U x j.
Proof. exact: field_anti. Qed.
Lemma g5_clover k c U v : feq (g5 (clover_dirac k c U v))
  (fun x a e => g5 (dirac k U v) x a e + k * c * clover (update_field_strength U) v x a e).
Proof. move=> x a e; rewrite !g5E /clover_dirac cloverT [LHS]mulrDr; congr (_ + _); exact: mulrCA. Qed.
Lemma clover_dirac_herm k c U v w : k \is Num.real -> c \is Num.real ->
  inner v (g5 (clover_dirac k c U w)) = inner (g5 (clover_dirac k c U v)) w.
Proof.
move=> kr cr; rewrite -[RHS]conjCK inner_conj.
have E (p q : field) : inner p (g5 (clover_dirac k c U q))
    = inner p (g5 (dirac k U q)) + k * c * inner p (clover (update_field_strength U) q).
  rewrite (inner_ext (fun _ _ _ => erefl) (g5_clover k c U q)).
  rewrite /inner mulr_sumr -big_split; apply: eq_bigr => x _; rewrite mulr_sumr -big_split; apply: eq_bigr => a _.
  rewrite mulr_sumr -big_split; apply: eq_bigr => e _ /=.
  by rewrite [LHS]mulrDr; congr (_ + _); exact: mulrCA.
rewrite !E rmorphD !rmorphM (conj_Creal kr) (conj_Creal cr) -clover_herm; last exact: update_anti.
by congr (_ + _); rewrite inner_conj dirac_herm.
Qed.

(** Covariance. *)
Lemma clover_term_gauge om U v : (forall x, unitary (om x)) ->
  feq (clover_term (gauge_transform om U) (rotate om v)) (rotate om (clover_term U v)).
Proof.
move=> u x a c; rewrite /rotate /clover_term.
under [RHS]eq_bigr => e _ do rewrite mulrCA mulr_sumr.
rewrite -mulr_sumr; congr (_ * _); rewrite [RHS]exchange_big; apply: eq_bigr => mu _.
under [RHS]eq_bigr => e _ do rewrite mulr_sumr.
rewrite [RHS]exchange_big; apply: eq_bigr => nu _.
under [RHS]eq_bigr => e _ do rewrite mulr_sumr.
rewrite [RHS]exchange_big; apply: eq_bigr => b _.
under [RHS]eq_bigr => e _ do rewrite mulrCA.
rewrite -mulr_sumr; congr (_ * _).
have E : \sum_e field_strength (gauge_transform om U) x mu nu c e * (\sum_d om x e d * v x b d)
   = mulv (field_strength (gauge_transform om U) x mu nu) (mulv (om x) (v x b)) c by [].
rewrite {}E mulvM !strength_flow field_gauge // -!mulmxA unitary_l // mulmx1 -mulvM.
by [].
Qed.
Lemma clover_dirac_gauge k c om U v : (forall x, unitary (om x)) ->
  feq (clover_dirac k c (gauge_transform om U) (rotate om v)) (rotate om (clover_dirac k c U v)).
Proof.
move=> u x a e; rewrite /clover_dirac dirac_gauge // clover_term_gauge // /rotate mulr_sumr -big_split.
by apply: eq_bigr => d _ /=; rewrite [RHS]mulrDr; congr (_ + _); exact: mulrCA.
Qed.
Lemma clover_maybe5_gauge g k c om U v : (forall x, unitary (om x)) ->
  feq (maybe5 g (clover_dirac k c (gauge_transform om U) (rotate om v))) (rotate om (maybe5 g (clover_dirac k c U v))).
Proof.
move=> u; case: g => /=; last exact: clover_dirac_gauge.
move=> x a e; rewrite -g5_rotate !g5E; congr (_ * _); exact: clover_dirac_gauge.
Qed.

(** The block operator. *)
Lemma block_cloverE adj k c g U v x a e : block_improved_clover adj k c g (update_field_strength U) v x a e
  = sg5 g a (k * c * clover_term U v x a e).
Proof.
rewrite /block_improved_clover the_cloverE cloverT /sgn /sg5; case: g; move: a; apply: ord4P => /=;
  by rewrite ?mul1r ?mulN1r ?mulrN ?opprK.
Qed.
Lemma sg5D g a (y z : C) : sg5 g a (y + z) = sg5 g a y + sg5 g a z.
Proof. by rewrite /sg5; case: ifP => _; rewrite ?opprD. Qed.
Lemma block_improved_correct adj blk k c t g U v : feq (block_improved_multiply adj blk k c t g U (update_field_strength U) v)
  (maybe5 g (fun x a e => (if blk x then dirac k U (restrict blk v) x a e else v x a e)
     + 'i * t * g5 v x a e + k * c * clover_term U v x a e)).
Proof. by move=> x a e; rewrite maybe5E sg5D /block_improved_multiply block_cloverE block_correct maybe5E. Qed.
Lemma block_improved_add_iff adj blk k c t g : k != 0 -> (0 < n)%N ->
  (forall U, multiply_add_law (block_improved_multiply adj blk k c t g U (update_field_strength U))
     (block_improved_multiply_add adj blk k c t g U (update_field_strength U))) <-> closed_block blk.
Proof.
move=> k0 n0; rewrite -(block_add_iff blk t g k0 n0); split=> H U v w alpha x a e; have := H U v w alpha x a e.
  rewrite /combine /block_improved_multiply /block_improved_multiply_add addrAC; exact: addIr.
by rewrite /combine /block_improved_multiply /block_improved_multiply_add => ->; rewrite addrAC.
Qed.
End Proofs.
