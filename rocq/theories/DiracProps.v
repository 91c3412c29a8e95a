(** C41 to C44, C61, C62: the Wilson-Dirac operators. *)
From Coq Require Import ZArith.
From mathcomp Require Import all_ssreflect all_algebra all_field.
From Verif Require Import GaugeModel GaugeSpec GaugeProofs GaugeProofs2 GaugeProofs3 LoopModel LoopGrid GammaModel DiracModel DiracSpec.
From Verif Require Import DiracProofs DiracProofs2 DiracProofs3.
Import GRing.Theory Num.Theory.
Set Implicit Arguments.
Unset Strict Implicit.
Unset Printing Implicit Defensive.
Local Open Scope ring_scope.

(** C41: both implementations are 1 - kappa * sum over directions of (1 -+ gamma_mu) times link times neighbour, with
    gamma5 in front when the flag is set; the previous content of the output vector has no influence. *)
Theorem C41_wilson : forall (C : numClosedFieldType) n (L : lattice) (kappa : C) (gamma5 : bool)
  (U : L -> 'I_4 -> 'M[C]_n) old v,
  feq (wilson_multiply kappa gamma5 U old v) (maybe5 gamma5 (dirac kappa U v)).
Proof. exact wilson_correct. Qed.
Theorem C41_basic : forall (C : numClosedFieldType) n (L : lattice) (kappa : C) (gamma5 : bool)
  (U : L -> 'I_4 -> 'M[C]_n) v,
  feq (basic_multiply kappa gamma5 U v) (maybe5 gamma5 (dirac kappa U v)).
Proof. exact basic_correct. Qed.
Theorem C41_agree : forall (C : numClosedFieldType) n (L : lattice) (kappa : C) (gamma5 : bool)
  (U : L -> 'I_4 -> 'M[C]_n) old v,
  feq (wilson_multiply kappa gamma5 U old v) (basic_multiply kappa gamma5 U v).
Proof. by move=> *; move=> x a c; rewrite wilson_correct basic_correct. Qed.
(** A case: on constant fields with all links one the operator is the number 1 - 8 kappa. *)
Example C41_case : forall (kappa : algC) old (p : 'I_4 -> 'I_3 -> algC) (x : box 3 3 3 7) a c,
  wilson_multiply kappa false (fun _ _ => 1%:M) old (fun _ => p) x a c = (1 - 8%:R * kappa) * p a c.
Proof.
move=> k old p x a c; rewrite wilson_correct /= /dirac hoppingE.
have F (A : 'M[algC]_3) f : A = 1%:M -> mulv A f c = f c.
  move=> ->; rewrite /mulv (bigD1 c) //= !mxE eqxx mul1r big1 ?addr0 // => b nb.
  by rewrite !mxE eq_sym (negbTE nb) mul0r.
rewrite (eq_bigr (fun _ => p a c + p a c)); last first.
  by move=> mu _; rewrite /up /dn !F ?htrans1 // [LHS]addrACA addNr addr0.
rewrite big_const card_ord iter_addr_0 -mulr2n -mulrnA mulrBl mul1r; congr (_ - _).
by rewrite -[p a c *+ _]mulr_natl mulrCA mulrA.
Qed.
Print Assumptions C41_wilson.
Print Assumptions C41_basic.
Print Assumptions C41_agree.

(** C42: with gamma5 the operator is Hermitian for the scalar product of the code, for any links and real kappa. *)
Theorem C42_hermitian : forall (C : numClosedFieldType) n (L : lattice) (kappa : C) (U : L -> 'I_4 -> 'M[C]_n) old old' v w,
  kappa \is Num.real ->
  dot v (wilson_multiply kappa true U old w) = dot (wilson_multiply kappa true U old' v) w
  /\ dot v (basic_multiply kappa true U w) = dot (basic_multiply kappa true U v) w.
Proof.
move=> C n L k U old old' v w kr; rewrite !dotE.
rewrite (inner_ext (fun _ _ _ => erefl) (wilson_correct k true U old w)) (inner_ext (wilson_correct k true U old' v) (fun _ _ _ => erefl)).
rewrite (inner_ext (fun _ _ _ => erefl) (basic_correct k true U w)) (inner_ext (basic_correct k true U v) (fun _ _ _ => erefl)).
by split; exact: dirac_herm.
Qed.
(** Without gamma5 the operator is Hermitian for gamma5dot. *)
Theorem C42_gamma5dot : forall (C : numClosedFieldType) n (L : lattice) (kappa : C) (U : L -> 'I_4 -> 'M[C]_n) old old' v w,
  kappa \is Num.real ->
  gamma5dot v (wilson_multiply kappa false U old w) = (gamma5dot w (wilson_multiply kappa false U old' v))^*.
Proof.
move=> C n L k U old old' v w kr; rewrite !gamma5dotE !g5_herm.
rewrite (inner_ext (fun _ _ _ => erefl) (wilson_correct k false U old w)).
rewrite (inner_ext (fun _ _ _ => erefl) (wilson_correct k false U old' v)) -!g5_herm dirac_herm //.
by rewrite inner_conj.
Qed.
(** The squared operator has expectation values |Q v|^2, which are real, non-negative and zero only when Q v is zero. *)
Theorem C42_square : forall (C : numClosedFieldType) n (L : lattice) (kappa : C) (U : L -> 'I_4 -> 'M[C]_n) old v,
  kappa \is Num.real ->
  let Q := wilson_multiply kappa true U old in
  dot v (square_multiply Q v) = squared_norm (Q v) /\ 0 <= dot v (square_multiply Q v)
  /\ (dot v (square_multiply Q v) = 0 -> feq (Q v) (fun _ _ _ => 0)).
Proof.
move=> C n L k U old v kr Q.
have E : dot v (square_multiply Q v) = squared_norm (Q v).
  by rewrite squared_normE -dotE; exact: (proj1 (C42_hermitian U old old v (Q v) kr)).
rewrite E squared_normE; split=> //; split; [exact: inner_ge0 | exact: inner_eq0].
Qed.
(** A case: a gauge field that is not unitary, a real hopping parameter. *)
Example C42_case : forall v w : box 1 2 3 4 -> 'I_4 -> 'I_2 -> algC,
  dot v (wilson_multiply (8%:R)^-1 true (fun _ mu => \matrix_(c, e) (c + e + mu)%:R) (fun _ _ _ => 5%:R) w)
  = dot (wilson_multiply (8%:R)^-1 true (fun _ mu => \matrix_(c, e) (c + e + mu)%:R) (fun _ _ _ => 5%:R) v) w.
Proof. by move=> v w; apply: (proj1 (C42_hermitian _ _ _ _ _ _)); rewrite realV realn. Qed.
Print Assumptions C42_hermitian.
Print Assumptions C42_gamma5dot.
Print Assumptions C42_square.

(** C43: the operator on the transformed links and rotated vector is the rotated result. *)
Theorem C43_covariant : forall (C : numClosedFieldType) n (L : lattice) (kappa : C) (gamma5 : bool)
  (U : L -> 'I_4 -> 'M[C]_n) (om : L -> 'M[C]_n) old old' v,
  (forall x, unitary (om x)) ->
  feq (wilson_multiply kappa gamma5 (gauge_transform om U) old (rotate om v))
      (rotate om (wilson_multiply kappa gamma5 U old' v))
  /\ feq (basic_multiply kappa gamma5 (gauge_transform om U) (rotate om v)) (rotate om (basic_multiply kappa gamma5 U v)).
Proof.
move=> C n L k g U om old old' v H; split=> x a c.
  by rewrite wilson_correct maybe5_gauge // (rotate_ext om (wilson_correct k g U old' v)).
by rewrite basic_correct maybe5_gauge // (rotate_ext om (basic_correct k g U v)).
Qed.
(** A case: the transformation by i at the sites with odd first coordinate. *)
Example C43_case : forall (U : box 3 3 3 3 -> 'I_4 -> 'M[algC]_3) v kappa,
  let om := fun x : box_grid 3 3 3 3 => (if odd (coord x d0) then 'i else 1)%:M : 'M[algC]_3 in
  feq (wilson_multiply kappa true (gauge_transform om U) v (rotate om v)) (rotate om (wilson_multiply kappa true U v v)).
Proof.
move=> U v k om; apply: (proj1 (C43_covariant _ _ _ _ _ _ _)) => x.
rewrite /om /unitary daggerE htrans_scalar -scalar_mxM; case: ifP => _; last by rewrite rmorph1 mulr1.
by rewrite conjCi mulrN -expr2 sqrCi opprK.
Qed.
Print Assumptions C43_covariant.

(** C44: multiplyAdd.  The law holds for the Wilson, basic and squared operators and the twisted one. *)
Theorem C44_wilson : forall (C : numClosedFieldType) n (L : lattice) (kappa : C) (gamma5 : bool) (U : L -> 'I_4 -> 'M[C]_n) old old',
  multiply_add_law (wilson_multiply kappa gamma5 U old) (wilson_multiply_add kappa gamma5 U old')
  /\ multiply_add_law (basic_multiply kappa gamma5 U) (basic_multiply_add kappa gamma5 U).
Proof. by move=> *; split; [exact: wilson_add_correct | exact: basic_add_correct]. Qed.
Theorem C44_square : forall (C : numClosedFieldType) n (L : lattice) (kappa : C) (U : L -> 'I_4 -> 'M[C]_n) gamma5 old old',
  multiply_add_law (square_multiply (wilson_multiply kappa gamma5 U old))
     (square_multiply_add (wilson_multiply kappa gamma5 U old) (wilson_multiply_add kappa gamma5 U old'))
  /\ multiply_add_law (square_multiply (basic_multiply kappa gamma5 U))
     (square_multiply_add (basic_multiply kappa gamma5 U) (basic_multiply_add kappa gamma5 U)).
Proof.
by move=> *; split; apply: square_add_correct; [exact: wilson_add_correct | exact: basic_add_correct].
Qed.
Theorem C44_twisted : forall (C : numClosedFieldType) n (L : lattice) (kappa twist : C) gamma5 (U : L -> 'I_4 -> 'M[C]_n) old old',
  multiply_add_law (twisted_multiply (wilson_multiply kappa gamma5 U old) twist)
     (twisted_multiply_add (wilson_multiply_add kappa gamma5 U old') twist).
Proof. by move=> *; apply: twisted_add_correct; exact: wilson_add_correct. Qed.
(** The block operator: multiplyAdd does not leave out the neighbours outside the block, so the law holds exactly when
    no site of the block has a neighbour outside. *)
Theorem C44_block_exactly_closed : forall (C : numClosedFieldType) n (L : lattice) (blk : L -> bool) (kappa twist : C) gamma5,
  kappa != 0 -> (0 < n)%N ->
  ((forall U, multiply_add_law (@block_multiply C n L blk kappa twist gamma5 U) (@block_multiply_add C n L blk kappa twist gamma5 U))
   <-> (forall x mu, blk x -> blk (sup mu x) && blk (sdn mu x))).
Proof. move=> *; exact: block_add_iff. Qed.
(** The chequerboard of blocks set up by the code is not closed: the law fails for the block operator. *)
Theorem C44_block_refuted : forall (C : numClosedFieldType) n (kappa twist : C) gamma5, kappa != 0 -> (0 < n)%N ->
  ~ forall U, multiply_add_law
      (@block_multiply C n (box 3 3 3 3) (block_mask (G := box_grid 3 3 3 3) (fun _ => 2%N) false) kappa twist gamma5 U)
      (@block_multiply_add C n (box 3 3 3 3) (block_mask (G := box_grid 3 3 3 3) (fun _ => 2%N) false) kappa twist gamma5 U).
Proof. by move=> C n k t g k0 n0 /(block_add_iff (L := box 3 3 3 3) _ t g k0 n0) /mask_open. Qed.
(** The squared twisted operator adds the twist to alpha: the law fails whenever the twist is not zero. *)
Theorem C44_square_twisted_refuted : forall (C : numClosedFieldType) n (L : lattice) (kappa twist : C) gamma5
  (U : L -> 'I_4 -> 'M[C]_n) old (x : L) (c : 'I_n), twist != 0 ->
  ~ multiply_add_law
      (square_twisted_multiply (square_multiply (wilson_multiply kappa gamma5 U old)) twist)
      (square_twisted_multiply_add (square_multiply_add (wilson_multiply kappa gamma5 U old) (wilson_multiply_add kappa gamma5 U old)) twist).
Proof.
move=> C n L k t g U old x c t0; apply: (square_twisted_add_refuted x c) => //.
by apply: square_add_correct; exact: wilson_add_correct.
Qed.
(** A case: the four colours of a field at alpha = 2 + i. *)
Example C44_case : forall (v w : box 3 3 3 3 -> 'I_4 -> 'I_4 -> algC) x a c,
  wilson_multiply_add 3%:R false (fun _ _ => 1%:M) w v w (2%:R + 'i) x a c
  = wilson_multiply 3%:R false (fun _ _ => 1%:M) w v x a c + (2%:R + 'i) * w x a c.
Proof. move=> v w x a c; exact: (proj1 (C44_wilson _ _ _ _ _)). Qed.
Print Assumptions C44_wilson.
Print Assumptions C44_square.
Print Assumptions C44_twisted.
Print Assumptions C44_block_exactly_closed.
Print Assumptions C44_block_refuted.
Print Assumptions C44_square_twisted_refuted.

(** C61: the twisted operator is the operator plus i twist gamma5; twists below the threshold are ignored. *)
Theorem C61_twisted : forall (C : numClosedFieldType) n (L : lattice) (kappa twist : C) (U : L -> 'I_4 -> 'M[C]_n) old v,
  feq (twisted_multiply (wilson_multiply kappa false U old) twist v)
      (fun x a c => dirac kappa U v x a c + (if (10%:R ^+ 17)^-1 < `|twist| then 'i * twist * g5 v x a c else 0)).
Proof.
move=> C n L k t U old v x a c; rewrite -/(twist_active t); case: (boolP (twist_active t)) => H.
  by rewrite twistedE // wilson_correct.
by rewrite twisted_off // wilson_correct addr0.
Qed.
(** With gamma5 set the twist is still i twist gamma5: the result is never gamma5 times the operator without it. *)
Theorem C61_gamma5_refuted : forall (C : numClosedFieldType) n (L : lattice) (kappa twist : C) (U : L -> 'I_4 -> 'M[C]_n)
  (x : L) (c : 'I_n), (10%:R ^+ 17)^-1 < `|twist| ->
  ~ (forall v, feq (twisted_multiply (basic_multiply kappa true U) twist v)
                   (g5 (twisted_multiply (basic_multiply kappa false U) twist v))).
Proof. move=> C n L k t U x c H; exact: twisted_gamma5_wrong. Qed.
Example C61_case : (10%:R ^+ 17)^-1 < `|1%:R : algC|.
Proof. by rewrite normr1 invf_lt1 ?exprn_gt0 ?ltr0n // exprn_egt1 // ltr1n. Qed.
Print Assumptions C61_twisted.
Print Assumptions C61_gamma5_refuted.

(** C62: the block operator is, on the block, the Wilson-Dirac operator of the field set to zero outside, and the
    identity outside; the twist i twist gamma5 is added everywhere, and gamma5 multiplies the whole. *)
Theorem C62_block : forall (C : numClosedFieldType) n (L : lattice) (blk : L -> bool) (kappa twist : C) gamma5
  (U : L -> 'I_4 -> 'M[C]_n) v,
  feq (block_multiply blk kappa twist gamma5 U v)
    (maybe5 gamma5 (fun x a c => (if blk x then dirac kappa U (restrict blk v) x a c else v x a c) + 'i * twist * g5 v x a c)).
Proof. exact block_correct. Qed.
(** So the inside of the block does not depend on the outside. *)
Theorem C62_decoupled : forall (C : numClosedFieldType) n (L : lattice) (blk : L -> bool) (kappa twist : C) gamma5
  (U : L -> 'I_4 -> 'M[C]_n) v w, (forall x a c, blk x -> v x a c = w x a c) ->
  forall x a c, blk x -> block_multiply blk kappa twist gamma5 U v x a c = block_multiply blk kappa twist gamma5 U w x a c.
Proof.
move=> C n L blk k t g U v w H x a c Hx; rewrite !block_correct !maybe5E Hx !g5E H //; congr (sg5 g a (_ + _)).
by apply: dirac_ext => y b e; rewrite /restrict; case E: (blk y) => //; exact: H.
Qed.
Example C62_case : exists x : box 3 3 3 3, exists y : box 3 3 3 3,
  block_mask (G := box_grid 3 3 3 3) (fun _ => 2%N) false x /\ ~~ block_mask (G := box_grid 3 3 3 3) (fun _ => 2%N) false y.
Proof.
exists (ord0, ord0, ord0, ord0); exists (inord 2, ord0, ord0, ord0).
by rewrite /block_mask /= /box_coord /= inordK.
Qed.
Print Assumptions C62_block.
Print Assumptions C62_decoupled.
