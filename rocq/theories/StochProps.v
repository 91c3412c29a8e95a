(** C82: the stochastic estimators. *)
From Coq Require Import ZArith.
From mathcomp Require Import all_ssreflect all_algebra all_field.
From Verif Require Import GaugeModel GaugeSpec GaugeProofs GaugeProofs2 GaugeProofs3 LoopModel LoopGrid GammaModel DiracModel DiracSpec DiracProofs DiracProofs2.
From Verif Require Import StochModel StochSpec StochProofs StochProofs2 StochProofs3 StochProofs4 StochProofs5.
Import GRing.Theory Num.Theory Order.POrderTheory.
Set Implicit Arguments.
Unset Strict Implicit.
Unset Printing Implicit Defensive.
Local Open Scope ring_scope.

(** Over all noise vectors, the scalar product of the noise with A times the noise is on average the trace of A, and its
    mean square distance from it is the sum over different components of |A_ij|^2 + A_ij conj(A_ji). *)
Theorem C82_trace (C : numClosedFieldType) (n : nat) (L : lattice) (A : (L -> 'I_4 -> 'I_n -> C) -> L -> 'I_4 -> 'I_n -> C) :
  linear_on A ->
  average (fun t : tape n L => dot (noise C t) (A (noise C t))) = trace_of A
  /\ spread (fun t : tape n L => dot (noise C t) (A (noise C t)))
     = \sum_i \sum_(j | j != i) (`|element A i j| ^+ 2 + element A i j * (element A j i)^*).
Proof. exact: trace_average. Qed.
(** The noise on the time slices t0, ..., t1 - 1 gives the trace over those slices. *)
Theorem C82_slab (C : numClosedFieldType) (n : nat) (G : grid) (t0 t1 : Z) (A : (G -> 'I_4 -> 'I_n -> C) -> G -> 'I_4 -> 'I_n -> C) :
  linear_on A ->
  let P (j : G * 'I_4 * 'I_n) := Z.leb t0 (Z.of_nat (coord j.1.1 d3)) && Z.ltb (Z.of_nat (coord j.1.1 d3)) t1 in
  average (fun t : tape n G => dot (noise_slab C t0 t1 t) (A (noise_slab C t0 t1 t))) = trace_on P A
  /\ spread (fun t : tape n G => dot (noise_slab C t0 t1 t) (A (noise_slab C t0 t1 t)))
     = \sum_(i | P i) \sum_(j | P j && (j != i)) (`|element A i j| ^+ 2 + element A i j * (element A j i)^*).
Proof. exact: slab_estimate. Qed.
(** The four diluted vectors give together the trace over one time slice, and the elements of A between different spinor
    indices no longer contribute to the spread. *)
Theorem C82_diluted (C : numClosedFieldType) (n : nat) (G : grid) (t0 : Z) (A : (G -> 'I_4 -> 'I_n -> C) -> G -> 'I_4 -> 'I_n -> C) :
  linear_on A ->
  let P (j : G * 'I_4 * 'I_n) := Z.eqb (Z.of_nat (coord j.1.1 d3)) t0 in
  average (fun t : tape n G => \sum_nu dot (noise_diluted C t0 t nu) (A (noise_diluted C t0 t nu))) = trace_on P A
  /\ spread (fun t : tape n G => \sum_nu dot (noise_diluted C t0 t nu) (A (noise_diluted C t0 t nu)))
     = \sum_(i | P i) \sum_(j | P j && (j.1.2 == i.1.2) && (j != i)) (`|element A i j| ^+ 2 + element A i j * (element A j i)^*).
Proof. exact: diluted_estimate. Qed.
(** The mean of N estimators: same average, and a spread N times smaller. *)
Theorem C82_mean (C : numClosedFieldType) (T : finType) (N : nat) (f : T -> C) : (0 < #|T|)%N -> (0 < N)%N ->
  exists m : {ffun 'I_N -> T} -> C, (forall s : {ffun 'I_N -> T}, mean [seq f (s i) | i <- enum 'I_N] = Some (m s))
    /\ average m = average f /\ spread m = spread f / N%:R.
Proof. by move=> T0; exact: mean_estimate. Qed.
(** The square of the standard deviation of N > 1 real estimators is on average the spread of one. *)
Theorem C82_deviation (C : numClosedFieldType) (T : finType) (N : nat) (f : T -> C) : (0 < #|T|)%N -> (1 < N)%N ->
  (forall t, f t \is Num.real) ->
  exists d : {ffun 'I_N -> T} -> C, (forall s : {ffun 'I_N -> T}, standard_deviation [seq f (s i) | i <- enum 'I_N] = Some (d s))
    /\ (forall s, 0 <= d s) /\ average (fun s => d s ^+ 2) = spread f.
Proof. by move=> T0; exact: sd_estimate. Qed.
(** With one estimator there is no standard deviation (zero over zero), without estimators no mean. *)
Theorem C82_deviation_refuted (C : numClosedFieldType) (z : C) : standard_deviation [:: z] = None /\ mean ([::] : seq C) = None.
Proof. by []. Qed.
(** Chiral condensate: the four measured numbers, for any linear operator and any exact inverter. *)
Theorem C82_condensate (C : numClosedFieldType) (n : nat) (L : lattice) (D S : (L -> 'I_4 -> 'I_n -> C) -> L -> 'I_4 -> 'I_n -> C) :
  linear_on D -> solves D S ->
  [/\ average (fun t => m_condensate (measure S t)) = trace_of S / #|L|%:R,
      average (fun t => m_pseudo (measure S t)) = trace_of (fun v => g5 (S v)) / #|L|%:R,
      average (fun t => m_pion (measure S t)) = (\sum_i \sum_j `|element S i j| ^+ 2) / #|L|%:R &
      average (fun t => m_connected (measure S t)) = trace_of (fun v => S (S v)) / #|L|%:R].
Proof.
by move=> lin sol; split; [exact: condensate_average sol|exact: pseudo_average sol|exact: pion_average sol|exact: connected_average sol].
Qed.
(** What is written after N noise vectors: real and imaginary part of the mean, whose average is that of one vector. *)
Theorem C82_written (C : numClosedFieldType) (n : nat) (L : lattice) (S : (L -> 'I_4 -> 'I_n -> C) -> L -> 'I_4 -> 'I_n -> C)
    (f : measured C -> C) (N : nat) : (0 < N)%N ->
  exists re im : {ffun 'I_N -> tape n L} -> C,
    (forall s : {ffun 'I_N -> tape n L}, written S f [seq s i | i <- enum 'I_N] = (Some (re s), Some (im s)))
    /\ average re + 'i * average im = average (fun t => f (measure S t)).
Proof. exact: written_estimate. Qed.
(** For the Wilson operator with real kappa the averages of the condensate and of the pseudocondensate are real. *)
Theorem C82_real (C : numClosedFieldType) (n : nat) (L : lattice) (kappa : C) (U : L -> 'I_4 -> 'M[C]_n) old S :
  kappa \is Num.real -> solves (wilson_multiply kappa false U old) S ->
  average (fun t => m_condensate (measure S t)) \is Num.real /\ average (fun t => m_pseudo (measure S t)) \is Num.real.
Proof.
move=> kr sol; have lin := lin_dirac kappa U.
have sol' : solves (dirac kappa U) S by move=> v x a c; rewrite -[RHS](sol v) wilson_correct.
have [r1 r2] := trace_real lin sol' (fun v w => dirac_herm U v w kr).
rewrite (condensate_average lin sol') (pseudo_average lin sol').
by rewrite !rpredM ?realV ?realn.
Qed.
(** For every gauge field the Wilson operator can be inverted when kappa is small enough. *)
Theorem C82_solvable (C : numClosedFieldType) (n : nat) (L : lattice) (U : L -> 'I_4 -> 'M[C]_n) old :
  exists2 k0 : C, 0 < k0 & forall kappa, `|kappa| < k0 -> exists S, solves (wilson_multiply kappa false U old) S.
Proof.
have [k0 h0 h] := heavy U; exists k0 => // kappa hk; have [S sol] := h kappa hk; exists S => v x a c.
by rewrite wilson_correct /= sol.
Qed.
(** Singlet operators: the averages of the numbers written, for the sixteen products of gamma matrices; and, for each noise
    vector, the terms of the hopping expansion with alternating signs add up to the full result. *)
Theorem C82_singlet (C : numClosedFieldType) (n : nat) (L : lattice) (mul D S : (L -> 'I_4 -> 'I_n -> C) -> L -> 'I_4 -> 'I_n -> C)
    (kappa : C) (h k : nat) :
  (forall v, feq (mul v) (D v)) -> linear_on D -> solves D S -> (k < 16)%N ->
  [/\ average (disconnected S mul kappa h k) = 2%:R * kappa * trace_of (fun v => spin_product k (iter h (minus_one D) (S v))),
      average (hopping_term mul kappa h k) = 2%:R * kappa * trace_of (fun v => spin_product k (iter h (minus_one D) v)) &
      forall t, disconnected S mul kappa 0 k t
        = \sum_(j < h) (-1) ^+ j * hopping_term mul kappa j k t + (-1) ^+ h * disconnected S mul kappa h k t].
Proof.
move=> e lin sol k16; split; [exact: (disconnected_average lin sol e)|exact: (hopping_average lin e)|].
by move=> t; exact: (expansion lin sol e).
Qed.
(** The hopping operator of the Wilson operator is -kappa times the sum over the neighbours. *)
Theorem C82_hopping (C : numClosedFieldType) (n : nat) (L : lattice) (kappa : C) (U : L -> 'I_4 -> 'M[C]_n) old v :
  feq (hopping_apply (wilson_multiply kappa false U old) v) (fun x a c => - kappa * hopping U v x a c).
Proof. by move=> x a c; rewrite /hopping_apply wilson_correct /= /dirac addrAC subrr add0r mulNr. Qed.
(** The point source resolves one column of the propagator. *)
Theorem C82_source (C : numClosedFieldType) (n : nat) (G : grid) (D S : (G -> 'I_4 -> 'I_n -> C) -> G -> 'I_4 -> 'I_n -> C)
    (o : G) (alpha : 'I_4) (c : 'I_n) y b e :
  (forall mu, coord o mu = 0%N) -> linear_on D -> solves D S ->
  S (@point_source C n G alpha c) y b e = element S (y, b, e) (o, alpha, c).
Proof. by move=> h lin sol; rewrite ((lin_solve lin sol).1 _ _ (point_sourceE C alpha c h)). Qed.
(** Smearing of sources: linear, covariant under gauge transformations, Hermitian for real parameters, and it leaves any
    set of sites invariant under the steps in the smeared directions. *)
Theorem C82_smear (C : numClosedFieldType) (n : nat) (L : lattice) (U : L -> 'I_4 -> 'M[C]_n) (levels : nat) (alpha : C) (dir : Z) (K : C) :
  [/\ linear_on (smear_source U levels alpha dir K),
      forall om v, (forall y, unitary (om y)) ->
        feq (smear_source (gauge_transform om U) levels alpha dir K (rotate om v)) (rotate om (smear_source U levels alpha dir K v)),
      alpha \is Num.real -> K \is Num.real -> forall v w,
        inner v (smear_source U levels alpha dir K w) = inner (smear_source U levels alpha dir K v) w &
      forall (P : L -> bool) v, (forall (nu : 'I_4) x, Z.of_nat nu <> dir -> P (sup nu x) = P x) ->
        feq (smear_source U levels alpha dir K (restrict P v)) (restrict P (smear_source U levels alpha dir K v))].
Proof.
split.
- exact: (lin_iter levels (smear_linear U alpha dir K)).
- move=> om v u; elim: levels => [|h IH] //= x a c.
  by rewrite ((smear_linear (gauge_transform om U) alpha dir K).1 _ _ IH) smear_gauge.
- move=> ar kr; elim: levels => [|h IH] v w //=.
  by rewrite (smear_herm U dir _ _ ar kr) IH /smear_source -iterSr.
- move=> P v h; elim: levels => [|l IH] //= x a c.
  rewrite ((smear_linear U alpha dir K).1 _ _ IH); apply: smear_restrict => nu y hn; apply: h => e.
  by rewrite e Z.eqb_refl in hn.
Qed.
(** In particular with the default direction 3 a source on one time slice stays on it. *)
Theorem C82_smear_slice (C : numClosedFieldType) (n : nat) (G : grid) (U : G -> 'I_4 -> 'M[C]_n) (levels : nat) (alpha K : C) (t : nat) v :
  (forall x a c, coord x d3 != t -> v x a c = 0) ->
  forall x a c, coord x d3 != t -> smear_source U levels alpha (Z.of_nat 3) K v x a c = 0.
Proof.
move=> h x a c ne; have [lin _ _ r] := C82_smear U levels alpha (Z.of_nat 3) K.
have e : feq v (restrict (fun y : G => coord y d3 == t) v).
  by move=> y b d; rewrite /restrict; case: ifP => // /negbT q; rewrite h.
rewrite (lin.1 _ _ e) (r (fun y : G => coord y d3 == t)); last first.
  move=> nu y q; rewrite coord_other //; apply/eqP => en; apply: q; by rewrite -en.
by rewrite /restrict (negPf ne).
Qed.

(** A case: a heavy Wilson operator, with any links, on an eight by four by four by four lattice, with its inverse. *)
Example C82_case (U : box 7 3 3 3 -> 'I_4 -> 'M[algC]_3) :
  (exists kappa S, kappa != 0 /\ kappa \is Num.real
    /\ solves (wilson_multiply kappa false U (fun _ _ _ => 0)) S
    /\ average (fun t => m_condensate (measure S t)) \is Num.real)
  /\ linear_on (dirac 1 U) /\ (0 < #|[finType of tape 3 (box 7 3 3 3)]|)%N.
Proof.
split; last by split; [exact: lin_dirac|exact: card_tape].
have [k0 h0 h] := C82_solvable U (fun _ _ _ => 0).
have p : 0 < k0 / 2%:R by rewrite divr_gt0 ?ltr0n.
have [S sol] : exists S, solves (wilson_multiply (k0 / 2%:R) false U (fun _ _ _ => 0)) S.
  apply: h; rewrite gtr0_norm // ltr_pdivr_mulr ?ltr0n // mulr_natr mulr2n ltr_addl //.
exists (k0 / 2%:R), S; split; first by rewrite gt_eqF.
have kr : k0 / 2%:R \is Num.real by exact: gtr0_real.
by split=> //; split=> //; have [] := C82_real kr sol.
Qed.
(** A case for the trace: the operator that exchanges two colours has trace zero although single noise vectors give 8. *)
Example C82_case_spread :
  let A : (box 0 0 0 0 -> 'I_4 -> 'I_2 -> algC) -> box 0 0 0 0 -> 'I_4 -> 'I_2 -> algC :=
    fun v x a c => v x a (if c == ord0 then lift ord0 ord0 else ord0) in
  linear_on A /\ trace_of A = 0 /\ exists t : tape 2 (box 0 0 0 0), dot (noise _ t) (A (noise _ t)) = 8%:R.
Proof.
move=> A; split; first by split=> [v w h|al v w] x a c; rewrite /A /combine ?h.
split.
  rewrite /trace_of big1 // => [[[x a] c]] _; rewrite /element /A /unit_field /=.
  case: (altP ((_, _, _) =P _)) => // [[]]; case: (altP (c =P ord0)) => [->|ne e] //; by rewrite -e eqxx in ne.
exists [ffun=> true]; rewrite dotE inner_at (eq_bigr (fun=> 1)); last first.
  by case=> [[x a] c] _; rewrite /at_ /A /noise /draw !ffunE rmorph1 mulr1.
rewrite sumr_const !card_prod !card_ord //.
Qed.
Print Assumptions C82_trace.
Print Assumptions C82_slab.
Print Assumptions C82_diluted.
Print Assumptions C82_mean.
Print Assumptions C82_deviation.
Print Assumptions C82_deviation_refuted.
Print Assumptions C82_condensate.
Print Assumptions C82_written.
Print Assumptions C82_real.
Print Assumptions C82_solvable.
Print Assumptions C82_singlet.
Print Assumptions C82_hopping.
Print Assumptions C82_source.
Print Assumptions C82_smear.
Print Assumptions C82_smear_slice.
