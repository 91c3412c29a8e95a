(** C79: the improved Wilson operator with the clover term. *)
From Coq Require Import ZArith Ring.
From mathcomp Require Import all_ssreflect all_algebra all_field.
From Verif Require Import GaugeModel GaugeSpec GaugeProofs GaugeProofs2 GaugeProofs3 LoopModel LoopGrid GammaModel DiracModel DiracSpec.
From Verif Require Import DiracProofs DiracProofs2 DiracProofs3 CloverModel CloverSpec CloverProofs CloverProofs2.
Import GRing.Theory Num.Theory.
Set Implicit Arguments.
Unset Strict Implicit.
Unset Printing Implicit Defensive.
Local Open Scope ring_scope.

(** A concrete gauge field on four sites in every direction: the links in direction 0 are i to the power of coordinate 1,
    the others are one.  Every plaquette in the plane (0,1) is -i. *)
Section Flux.
Notation B := (box 3 3 3 3).
Definition phase (x : B) : algC := 'i ^+ (coord (g := box_grid 3 3 3 3) x d1).
Variable n : nat.
Definition flux (x : B) (mu : 'I_4) : 'M[algC]_n := (if mu == d0 then phase x else 1)%:M.
Lemma phase_up x : phase (sup d1 x) = 'i * phase x.
Proof.
rewrite /phase /= box_coord_up /box_ext /=; case: x => [[[x0 x1] x2] x3]; rewrite /box_coord /=.
case: x1 => [[|[|[|[|m]]]] h] //=; rewrite ?expr0 ?mulr1 -?exprS //.
by rewrite -[4%N]/(2 * 2)%N exprM sqrCi sqrrN expr1n.
Qed.
Lemma phase_dn x : phase (sdn d1 x) = - 'i * phase x.
Proof. by rewrite -{2}[x](sdnK d1) phase_up mulrA mulNr -expr2 sqrCi opprK mul1r. Qed.
Lemma phase_other mu x : mu != d1 -> phase (sup mu x) = phase x /\ phase (sdn mu x) = phase x.
Proof.
move=> h; have E y : phase (sup mu y) = phase y.
  by rewrite /phase /= box_coord_other // eq_sym.
by split=> //; rewrite -{2}[x](sdnK mu) E.
Qed.
Lemma phase1 x : phase x * (phase x)^* = 1.
Proof. by rewrite -normCK /phase normrX normCi expr1n expr1n. Qed.
Lemma flux_strength x i : update_field_strength flux x i = (if i == i0 then - 'i else 0)%:M.
Proof.
have [h0 h2 h3] : [/\ d0 != d1, d2 != d1 & d3 != d1] by [].
have e1 := phase1 x; have e2 : (phase x)^* * phase x = 1 by rewrite mulrC.
rewrite /update_field_strength /leaves /flux !htrans_scalar -!scalar_mxM -!raddfD /= !htrans_scalar -raddfB scale_scalar_mx.
congr (_%:M); case: i => [[|[|[|[|[|[|m]]]]]] h] //=; rewrite ?rmorph1 ?mulr1 ?mul1r
  ?(phase_up, phase_dn, (phase_other _ h0).1, (phase_other _ h0).2, (phase_other _ h2).1, (phase_other _ h2).2,
    (phase_other _ h3).1, (phase_other _ h3).2) ?rmorph1 ?mulr1 ?mul1r ?e1 ?e2 ?rmorph1 ?subrr ?mulr0 //.
{ have -> : (phase x)^* * (- 'i * phase x) = - 'i by rewrite mulrCA e2 mulr1.
  have -> : - 'i * phase x * (phase x)^* = - 'i by rewrite -mulrA e1 mulr1.
  have -> : phase x * ('i * phase x)^* = - 'i by rewrite rmorphM /= conjCi mulrCA e1 mulr1.
  have -> : ('i * phase x)^* * phase x = - 'i by rewrite mulrC rmorphM /= conjCi mulrCA e1 mulr1.
  rewrite !rmorphD rmorphN conjCi opprK.
  have -> : - 'i - 'i - 'i - 'i - ('i + 'i + 'i + 'i) = 8%:R * (- 'i) :> algC.
    by rewrite mulr_natl mulNrn !mulrS mulr0n addr0 !opprD !addrA.
  by rewrite mulrA mulVf ?mul1r // pnatr_eq0. }
all: by rewrite !rmorphD rmorph1 subrr mulr0.
Qed.
End Flux.

(** The operator after any sequence of settings is 1 - kappa H + kappa csw (i/2) sum sigma F with the last values set, with
    gamma5 in front when the flag is set, for either choice of the links; the previous content of the output is irrelevant. *)
Theorem C79_multiply : forall (C : numClosedFieldType) n (L : lattice) adj (U : L -> 'I_4 -> 'M[C]_n) (kappa csw : C) gamma5 ss old v,
  feq (improved_multiply adj (foldl (@apply_setting C n L) (make_improved U kappa csw gamma5) ss) old v)
      (maybe5 (last_gamma5 gamma5 ss) (clover_dirac (last_kappa kappa ss) (last_csw csw ss) (last_lattice U ss) v)).
Proof.
move=> C n L adj U k c g ss old v x a e; rewrite improved_correct; last exact: settings_coherent.
by rewrite foldl_gamma5 foldl_kappa foldl_csw foldl_lattice.
Qed.
(** The law of multiplyAdd, for the operator and its square. *)
Theorem C79_multiply_add : forall (C : numClosedFieldType) n (L : lattice) adj (U : L -> 'I_4 -> 'M[C]_n) (kappa csw : C) gamma5 ss old old',
  let o := foldl (@apply_setting C n L) (make_improved U kappa csw gamma5) ss in
  multiply_add_law (improved_multiply adj o old) (improved_multiply_add adj o old')
  /\ forall g tmp tmp', multiply_add_law (square_improved_multiply adj g o tmp old) (square_improved_multiply_add adj g o tmp' old').
Proof.
move=> C n L adj U k c g ss old old' o.
have : coherent o by exact: settings_coherent.
move: o => o H; split; first exact: improved_add_correct.
move=> g' tmp tmp' v w alpha x a e; have H' : coherent (set_gamma5 g' o) by exact: H.
rewrite /square_improved_multiply_add (improved_add_correct adj old old' H').
rewrite /combine /square_improved_multiply; move: (set_gamma5 g' o) H' => q H'.
suff E : improved_multiply adj q old (improved_multiply adj q tmp' v) x a e
  = improved_multiply adj q old (improved_multiply adj q tmp v) x a e.
  exact: (congr1 (fun z => z + alpha * w x a e) E).
rewrite [LHS](improved_correct adj old _ H') [RHS](improved_correct adj old _ H') [LHS]maybe5E [RHS]maybe5E; have X := clover_dirac_ext (im_kappa q) (im_csw q) (im_lattice q).
apply: (congr1 (sg5 _ _)); apply: X => y b d.
by rewrite [LHS](improved_correct adj _ _ H') [RHS](improved_correct adj _ _ H').
Qed.
(** The squared operator is the operator applied twice. *)
Theorem C79_square : forall (C : numClosedFieldType) n (L : lattice) adj (U : L -> 'I_4 -> 'M[C]_n) (kappa csw : C) gamma5 g tmp old v,
  let D w := maybe5 g (clover_dirac kappa csw U w) in
  feq (square_improved_multiply adj g (make_improved U kappa csw gamma5) tmp old v) (D (D v)).
Proof.
move=> C n L adj U k c g0 g tmp old v D x a e; rewrite /square_improved_multiply /D.
have H' : coherent (set_gamma5 g (make_improved U k c g0)) by [].
rewrite (improved_correct adj _ _ H') !maybe5E.
have E := clover_dirac_ext k c U (improved_correct adj tmp v H'); by rewrite E.
Qed.
(** With gamma5 the operator is Hermitian for any links and real kappa and csw. *)
Theorem C79_hermitian : forall (C : numClosedFieldType) n (L : lattice) adj (U : L -> 'I_4 -> 'M[C]_n) (kappa csw : C) old old' v w,
  kappa \is Num.real -> csw \is Num.real ->
  let Q := improved_multiply adj (make_improved U kappa csw true) in
  dot v (Q old w) = dot (Q old' v) w.
Proof.
move=> C n L adj U k c old old' v w kr cr Q; rewrite !dotE /Q.
rewrite (inner_ext (fun _ _ _ => erefl) (improved_correct adj old w (o := make_improved U k c true) (erefl _))).
rewrite (inner_ext (improved_correct adj old' v (o := make_improved U k c true) (erefl _)) (fun _ _ _ => erefl)).
exact: clover_dirac_herm.
Qed.
(** It transforms with the field under a gauge transformation. *)
Theorem C79_covariant : forall (C : numClosedFieldType) n (L : lattice) adj (U : L -> 'I_4 -> 'M[C]_n) (kappa csw : C) gamma5 om old old' v,
  (forall x, unitary (om x)) ->
  feq (improved_multiply adj (make_improved (gauge_transform om U) kappa csw gamma5) old (rotate om v))
      (rotate om (improved_multiply adj (make_improved U kappa csw gamma5) old' v)).
Proof.
move=> C n L adj U k c g om old old' v u x a e; rewrite improved_correct //= clover_maybe5_gauge //.
by rewrite (rotate_ext om (improved_correct adj old' v (o := make_improved U k c g) (erefl _))).
Qed.
(** With csw zero it is the Wilson operator. *)
Theorem C79_wilson : forall (C : numClosedFieldType) n (L : lattice) adj (U : L -> 'I_4 -> 'M[C]_n) (kappa : C) gamma5 old old' v,
  feq (improved_multiply adj (make_improved U kappa 0 gamma5) old v) (wilson_multiply kappa gamma5 U old' v).
Proof.
move=> C n L adj U k g old old' v x a e; rewrite improved_correct //= wilson_correct.
by apply: maybe5_ext => y b d; exact: clover_zero.
Qed.
(** The block version: the Wilson operator inside the block, the identity outside, the twist and the clover term on every
    site.  The law of its multiplyAdd holds exactly when no site of the block has a neighbour outside. *)
Theorem C79_block : forall (C : numClosedFieldType) n (L : lattice) adj blk (U : L -> 'I_4 -> 'M[C]_n) (kappa csw twist : C) gamma5 v,
  feq (block_improved_multiply adj blk kappa csw twist gamma5 U (update_field_strength U) v)
    (maybe5 gamma5 (fun x a c => (if blk x then dirac kappa U (restrict blk v) x a c else v x a c)
       + 'i * twist * g5 v x a c + kappa * csw * clover_term U v x a c)).
Proof. move=> C n L adj blk U k c t g v; exact: block_improved_correct. Qed.
Theorem C79_block_add_refuted : forall (C : numClosedFieldType) n (L : lattice) adj blk (kappa csw twist : C) gamma5,
  kappa != 0 -> (0 < n)%N ->
  ((forall U : L -> 'I_4 -> 'M[C]_n, multiply_add_law
       (block_improved_multiply adj blk kappa csw twist gamma5 U (update_field_strength U))
       (block_improved_multiply_add adj blk kappa csw twist gamma5 U (update_field_strength U)))
   <-> (forall x mu, blk x -> blk (sup mu x) && blk (sdn mu x))).
Proof. move=> *; exact: block_improved_add_iff. Qed.

(** Cases.  On the flux field the clover term is minus one on the first component, so it is there and has its sign. *)
Example C79_case : forall (kappa csw : algC) old (v : box 3 3 3 3 -> 'I_4 -> 'I_1 -> algC) x c,
  improved_multiply false (make_improved (flux 1) kappa csw true) old v x d0 c
  = wilson_multiply kappa true (flux 1) old v x d0 c - kappa * csw * v x d0 c.
Proof.
move=> k cs old v x c; rewrite /improved_multiply /wilson_multiply /= -mulrN; congr (_ + _ * _).
have Z A f : A = 0 :> 'M[algC]_1 -> mulv A f c = 0 by move=> ->; rewrite /mulv big1 // => j _; rewrite mxE mul0r.
have O : (0%:M : 'M[algC]_1) = 0 by rewrite raddf0.
rewrite cloverE /= /act !flux_strength /= O !(Z _ _ (erefl 0)) ?subrr ?addr0 ?mulr0 ?addr0 /mulv big_ord1.
by rewrite (ord1 c) mxE eqxx mulr1n mulNr opprK mulrA -expr2 sqrCi mulN1r.
Qed.
Example C79_settings_case : forall (U U' : box 1 1 1 1 -> 'I_4 -> 'M[algC]_3) old v,
  feq (improved_multiply true (foldl (@apply_setting _ _ _) (make_improved U 1 1 true)
         [:: SetCSW _ _ 2%:R; SetLattice U'; SetKappa _ _ 8%:R^-1; SetGamma5 _ _ _ false]) old v)
      (clover_dirac 8%:R^-1 2%:R U' v).
Proof. by move=> U U' old v x a c; rewrite C79_multiply. Qed.
Example C79_block_case : ~ forall U, multiply_add_law
  (block_improved_multiply false (L := box 3 3 3 3) (block_mask (G := box_grid 3 3 3 3) (fun _ => 2%N) false) 1 1 0 true U (update_field_strength U))
  (block_improved_multiply_add (C := algCnumClosedField) (n := 3) false (block_mask (G := box_grid 3 3 3 3) (fun _ => 2%N) false) 1 1 0 true U (update_field_strength U)).
Proof. move=> H; apply: mask_open; apply/(C79_block_add_refuted (C := algCnumClosedField) (n := 3)); last exact: H; by rewrite ?oner_neq0. Qed.
Print Assumptions C79_multiply.
Print Assumptions C79_multiply_add.
Print Assumptions C79_square.
Print Assumptions C79_hermitian.
Print Assumptions C79_covariant.
Print Assumptions C79_wilson.
Print Assumptions C79_block.
Print Assumptions C79_block_add_refuted.
