(** Properties C36 (stout smearing), C56 (Wilson flow) and C60 (field strength, energy and topological charge of the flow). *)
From Coq Require Import Reals.
From mathcomp Require Import all_ssreflect all_algebra.
From Verif Require Import GaugeModel GaugeSpec GaugeProofs GaugeProofs2 GaugeProofs3 ExpModel ExpSpec ExpProofs EigProofs RealField SmearProofs.
Import Order.TTheory GRing.Theory Num.Theory.
Set Implicit Arguments.
Unset Strict Implicit.
Unset Printing Implicit Defensive.
Local Open Scope ring_scope.

(** ** C36 *)
(** With any exponential that maps the Lie algebra to the group and commutes with changes of basis. *)
Theorem C36_smearing (C : numClosedFieldType) (n : nat) (L : lattice) (gexp : 'M[C]_n -> 'M[C]_n) (rho : C) (levels : nat)
    (U : gauge C n L) (om : L -> 'M[C]_n) :
  exponential_like gexp -> (forall x mu, special_unitary (U x mu)) -> (forall x, unitary (om x)) ->
  (forall x mu, special_unitary (stout_smearing gexp rho U x mu)) /\
  (forall x mu, special_unitary (spatial_smearing gexp levels rho U x mu)) /\
  (forall x mu, stout_smearing gexp rho (gauge_transform om U) x mu = gauge_transform om (stout_smearing gexp rho U) x mu) /\
  (forall x mu, spatial_smearing gexp levels rho (gauge_transform om U) x mu
                = gauge_transform om (spatial_smearing gexp levels rho U) x mu) /\
  (forall x, spatial_smearing gexp levels rho U x (inord 3) = U x (inord 3)) /\
  spatial_smearing gexp 0 rho U = U.
Proof.
move=> [Gs Gc] u ou.
have Gc' A g : anti_hermitian A -> unitary g -> gexp (g *m A *m htrans g) = g *m gexp A *m htrans g.
  by move=> a ug; rewrite -daggerE Gc.
split; first exact: smearing_su.
split; first exact: spatial_su.
split; first by move=> x mu; exact: smear_gauge.
split; first exact: spatial_gauge.
by split=> // x; exact: spatial_time.
Qed.
(** The exponential used for more than three colours: it commutes with changes of basis, and it is special unitary when the
    matrix is zero or the sum of its squared eigenvalues reaches the threshold. *)
Theorem C36_exponential_partial (C : numClosedFieldType) (n : nat) (cexp : C -> C) (eig : 'M[C]_n -> 'M[C]_n * 'rV[C]_n) (threshold : C)
    (A g : 'M[C]_n) : good_cexp cexp -> good_eig eig -> anti_hermitian A -> unitary g ->
  group_exp cexp eig threshold (g *m A *m dagger g) = g *m group_exp cexp eig threshold A *m dagger g /\
  (traceless A -> A = 0 \/ ~~ (- \tr (A *m A) < threshold) -> special_unitary (group_exp cexp eig threshold A)).
Proof.
move=> Hc He a u; split; first by rewrite daggerE; exact: group_exp_conj.
by move=> t h; apply: group_exp_su => //; rewrite eig_normE.
Qed.
(** Below the threshold the result is not unitary. *)
Theorem C36_small_exponent_refuted (C : numClosedFieldType) (n : nat) (cexp : C -> C) (eig : 'M[C]_n -> 'M[C]_n * 'rV[C]_n) (threshold : C)
    (A : 'M[C]_n) : good_eig eig -> anti_hermitian A -> A *m A *m (A *m A) != 0 -> - \tr (A *m A) < threshold ->
  ~ unitary (group_exp cexp eig threshold A).
Proof.
move=> He a A4 lt; rewrite /unitary daggerE group_expE eig_normE // lt series_unitary // => /eqP.
rewrite -subr_eq0 addrC addKr scaler_eq0 invr_eq0 pnatr_eq0 /=; exact/negP.
Qed.
(** A small exponent exists for every number of colours above one and every positive threshold. *)
Definition tiny_exponent (C : numClosedFieldType) (n : nat) (t : C) : 'M[C]_n.+2 :=
  diag_mx (\row_i (if i == ord0 then 'i * t else if i == lift ord0 ord0 then - ('i * t) else 0)).
Lemma tiny_exponent_ok (C : numClosedFieldType) (n : nat) (t : C) : 0 < t ->
  [/\ anti_hermitian (tiny_exponent n t), traceless (tiny_exponent n t),
      tiny_exponent n t *m tiny_exponent n t *m (tiny_exponent n t *m tiny_exponent n t) != 0 &
      - \tr (tiny_exponent n t *m tiny_exponent n t) = 2%:R * t ^+ 2].
Proof.
move=> t0; have tR : t \is Num.real by rewrite ger0_real // ltW.
have ii : ('i * t) * ('i * t) = - t ^+ 2 by rewrite mulrACA -expr2 sqrCi mulN1r expr2.
have ij : - ('i * t) * - ('i * t) = - t ^+ 2 by rewrite mulrNN.
have cj : ('i * t)^* = - ('i * t) by exact: imag_conj.
split.
- rewrite /anti_hermitian daggerE /tiny_exponent htrans_diag -raddfN; congr diag_mx.
  apply/rowP => i; rewrite !mxE; case: ifP => _; first by rewrite cj.
  by case: ifP => _; rewrite ?rmorphN ?cj ?opprK // rmorph0 oppr0.
- rewrite /traceless /tiny_exponent mxtrace_diag !big_ord_recl big1 => [|i _]; last by rewrite !mxE.
  by rewrite !mxE /= addr0 addrN.
- apply/eqP => /matrixP/(_ ord0 ord0); rewrite /tiny_exponent !diag_mul !mxE eqxx mulr1n /= ii mulrNN.
  by move/eqP; rewrite mulf_eq0 orbb expf_eq0 /= gt_eqF.
- rewrite /tiny_exponent diag_mul mxtrace_diag !big_ord_recl big1 => [|i _]; last by rewrite !mxE /= mul0r.
  by rewrite !mxE /= ii ij addr0 -opprD opprK mulr_natl mulr2n.
Qed.
Example C36_small_exponent_case : forall threshold : CR, 0 < threshold -> exists A : 'M[CR]_4,
  [/\ anti_hermitian A, traceless A, A *m A *m (A *m A) != 0 & - \tr (A *m A) < threshold].
Proof.
move=> h h0; pose r := if h < 1 then h else 1.
have r0 : 0 < r by rewrite /r; case: ifP => _; rewrite ?ltr01.
have hR : h \is Num.real by rewrite ger0_real // ltW.
have rh : r <= h by rewrite /r; case: ifP => // /negbT; rewrite -real_leNgt ?rpred1.
have r1 : r <= 1 by rewrite /r; case: ifP => // /ltW.
have t0 : 0 < r / 2%:R by rewrite divr_gt0 ?ltr0n.
have [a t f e] := tiny_exponent_ok 2 t0.
exists (tiny_exponent 2 (r / 2%:R)); split=> //; rewrite e.
apply: lt_le_trans rh; rewrite expr2 mulrA mulrC [2%:R * _]mulrC divfK ?pnatr_eq0 //.
rewrite mulrAC ltr_pdivr_mulr ?ltr0n // mulr_natr.
by apply: le_lt_trans (ler_pimulr (ltW r0) r1) _; rewrite mulr2n ltr_addl.
Qed.

(** The smearing of fields in the adjoint representation is not gauge covariant. *)
Definition cycle3 (C : numClosedFieldType) : 'M[C]_3 := \matrix_(i, j) (nat_of_ord j == (i.+1 %% 3)%N)%:R.
Lemma cycle3_cube (C : numClosedFieldType) : htrans (cycle3 C) *m htrans (cycle3 C) = cycle3 C /\ unitary (cycle3 C).
Proof.
rewrite /unitary daggerE; split; apply/matrixP => i j; rewrite mxE !big_ord_recl big_ord0 !mxE /= ?rmorph_nat;
  case: i => [[|[|[|//]]] ?]; case: j => [[|[|[|//]]] ?]; rewrite /= ?mulr0 ?mul0r ?mulr1 ?addr0 ?add0r //.
Qed.
Theorem C36_adjoint_refuted (C : numClosedFieldType) (L : lattice) (x : L) (mu : 'I_4) (rho : C) : sup mu x <> x -> rho \is Num.real -> rho != 0 ->
  exists (U : gauge C 3 L) (om : L -> 'M[C]_3) (A : 'M[C]_3),
    (forall y nu, unitary (U y nu)) /\ (forall y, unitary (om y)) /\ A != 0 /\
    forall gexp, gexp 0 = 1%:M -> gexp A <> 1%:M ->
      adjoint_smear_link gexp 2 rho (gauge_transform om U) x mu
      <> gauge_transform om (fun y nu => adjoint_smear_link gexp 2 rho U y nu) x mu.
Proof.
move=> ne rR r0; pose O := cycle3 C; have [O2 Ou] := cycle3_cube C.
pose U : gauge C 3 L := fun _ _ => 1%:M.
pose om (y : L) := if y == x then O else 1%:M.
have ou y : unitary (om y) by rewrite /om; case: ifP => _ //; exact: unitary1.
exists U, om, (- (3%:R * rho) *: (htrans O - O)).
split; first by move=> y nu; exact: unitary1.
split=> //; split.
  rewrite scaler_eq0 oppr_eq0 mulf_eq0 pnatr_eq0 (negPf r0) /=; apply/eqP => /matrixP/(_ ord0 (lift ord0 ord0)).
  by rewrite !mxE /= rmorph0 sub0r => /eqP; rewrite oppr_eq0 oner_eq0.
have SE y nu : wilson_staple U y nu = 6%:R%:M.
  rewrite /wilson_staple (eq_bigr (fun=> 2%:R%:M)) => [|k _]; last first.
    by rewrite /U !htrans1 !mulmx1 -raddfD /= -mulr2n.
  rewrite (eq_bigl (mem (predC1 nu))) => [|k]; last by rewrite !inE.
  by rewrite sumr_const cardC1 card_ord -raddfMn /= -mulrnA.
have tE (M : 'M[C]_3) : \tr M = 0 -> adjoint_to_exp 2 M = - 2%:R^-1 *: (htrans M - M).
  move=> t; have T : \tr (htrans M - M) = 0 by rewrite (raddfB (mxtrace_additive _ _)) /= tr_htrans t rmorph0 subrr.
  by rewrite /adjoint_to_exp mxtraceZ T mulr0 mul0r raddf0 subr0 scaleNr.
move=> gexp g0 gA.
have e0 : adjoint_smear_link gexp 2 rho U x mu = 1%:M.
  rewrite /adjoint_smear_link SE /U htrans1 !mulmx1 /adjoint_to_exp.
  have -> : htrans (rho *: 6%:R%:M) - rho *: 6%:R%:M = 0 :> 'M[C]_3.
    by rewrite htransZ htrans_scalar conjC_nat (conj_Creal rR) subrr.
  by rewrite scaler0 mxtrace0 mul0r raddf0 subr0 oppr0 g0.
rewrite {2}/gauge_transform e0 mulmx1.
have o1 : om x = O by rewrite /om eqxx.
have o2 : om (sup mu x) = 1%:M by rewrite /om; case: eqP.
rewrite /adjoint_smear_link staple_gauge // SE /gauge_transform o1 o2 /U mul1mx !mulmx1 htrans1 mulmx1.
have -> : rho *: (6%:R%:M *m htrans O) *m htrans O = (6%:R * rho) *: O.
  by rewrite mul_scalar_mx scalerA -scalemxAl O2 mulrC.
rewrite tE; last first.
  by rewrite mxtraceZ /mxtrace !big_ord_recl big_ord0 !mxE /= !addr0 mulr0.
rewrite htransZ rmorphM conjC_nat (conj_Creal rR) -scalerBr scalerA.
have -> : - 2%:R^-1 * (6%:R * rho) = - (3%:R * rho) :> C.
  by rewrite mulNr mulrA -[6%N]/(2 * 3)%N natrM mulrA mulVf ?mul1r // pnatr_eq0.
set E := gexp _ => /(congr1 (fun M => M *m htrans O)); rewrite -mulmxA unitary_r // mulmx1 => h.
exact: gA.
Qed.
Example C36_adjoint_case : exists (U : gauge CR 3 (box 1 1 1 1)) (om : box 1 1 1 1 -> 'M[CR]_3) (x : box 1 1 1 1) (gexp : 'M[CR]_3 -> 'M[CR]_3),
  gexp 0 = 1%:M /\ (forall y, unitary (om y)) /\
  adjoint_smear_link gexp 2 1 (gauge_transform om U) x (inord 0)
  <> gauge_transform om (fun y nu => adjoint_smear_link gexp 2 1 U y nu) x (inord 0).
Proof.
pose x : box 1 1 1 1 := (ord0, ord0, ord0, ord0).
have ne : sup (inord 0) x <> x by exact: (box_extent2 (ltn0Sn 0) (ltn0Sn 0) (ltn0Sn 0) (ltn0Sn 0)).
have [U [om [A [_ [ou [A0 H]]]]]] := C36_adjoint_refuted (C := CR) ne (rpred1 _) (oner_neq0 _).
exists U, om, x, (fun M => 1%:M + M); split; first by rewrite addr0.
split=> //; apply: H; first by rewrite addr0.
by move/eqP; rewrite -subr_eq0 addrC addKr; apply/negP.
Qed.

(** ** C56 *)
(** The force of the flow: the Wilson action or the improved action with u0 = 1, at any coupling beta. *)
Definition flow_action (C : numClosedFieldType) (n : nat) (L : lattice) (improved : bool) (beta : C) (U : gauge C n L) : gauge C n L :=
  fun x mu => gauge_force beta (U x mu) (if improved then improved_staple 1 U x mu else wilson_staple U x mu).
Section ActionFacts.
Variables (C : numClosedFieldType) (n : nat) (L : lattice) (improved : bool) (beta : C).
Hypothesis bR : beta \is Num.real.
Lemma action_algebra (U : gauge C n L) : algebra_field (flow_action improved beta U).
Proof. by move=> x mu; split; [exact: force_anti_hermitian|exact: force_traceless]. Qed.
Lemma action_ext (U V : gauge C n L) : (forall x mu, U x mu = V x mu) ->
  forall x mu, flow_action improved beta U x mu = flow_action improved beta V x mu.
Proof.
move=> E x mu; rewrite /flow_action E; congr (gauge_force _ _ _); case: improved.
- by rewrite /improved_staple; apply: eq_bigr => nu _; rewrite !E.
- by rewrite /wilson_staple; apply: eq_bigr => nu _; rewrite !E.
Qed.
Lemma action_gauge (om : L -> 'M[C]_n) (U : gauge C n L) x mu : (forall y, unitary (om y)) ->
  flow_action improved beta (gauge_transform om U) x mu = om x *m flow_action improved beta U x mu *m htrans (om x).
Proof.
move=> ou; rewrite /flow_action; case: improved.
- by rewrite improved_staple_gauge // [in LHS]/gauge_transform force_gauge.
- by rewrite staple_gauge // [in LHS]/gauge_transform force_gauge.
Qed.
End ActionFacts.
Theorem C56_flow (C : numClosedFieldType) (n : nat) (L : lattice) (cexp : C -> C) (eig : 'M[C]_n -> 'M[C]_n * 'rV[C]_n)
    (improved : bool) (beta time : C) (nSteps : nat) (U : gauge C n L) (om : L -> 'M[C]_n) :
  good_cexp cexp -> good_eig eig -> beta \is Num.real -> time \is Num.real ->
  (forall x mu, special_unitary (U x mu)) -> (forall x, unitary (om x)) ->
  let flow := flow_integrate (link_exp cexp eig) (flow_action improved beta) time nSteps in
  (forall x mu, special_unitary (flow U x mu)) /\
  (forall x mu, flow (gauge_transform om U) x mu = gauge_transform om (flow U) x mu).
Proof.
move=> Hc He bR tR u ou flow; rewrite /flow.
have dR : time / nSteps%:R \is Num.real by rewrite rpred_div // realn.
split.
- apply: flow_su; last exact: u.
  + by move=> V; exact: action_algebra.
  + by move=> V W; exact: action_ext.
  + by move=> A a t; exact: link_exp_su.
- apply: flow_iter_gauge.
  + by move=> V; exact: action_algebra.
  + by move=> V W; exact: action_ext.
  + exact: ou.
  + by move=> V x mu; exact: action_gauge.
  + by move=> A g a ug; exact: link_exp_conj.
Qed.
Example C56_case : exists (eig : 'M[CR]_3 -> 'M[CR]_3 * 'rV[CR]_3), good_cexp (C:=CR) cexpR /\ good_eig eig /\
  forall (om : box 3 3 3 3 -> 'M[CR]_3), (forall x, unitary (om x)) ->
  forall x mu, flow_integrate (link_exp (C:=CR) cexpR eig) (flow_action true 6%:R) 1 20 (gauge_transform om (fun _ _ => 1%:M)) x mu
    = gauge_transform om (flow_integrate (link_exp (C:=CR) cexpR eig) (flow_action true 6%:R) 1 20 (fun _ _ => 1%:M)) x mu.
Proof.
have [eig He] := good_eig_exists CR 3; exists eig; split; first exact: cexpR_good.
split=> // om ou.
have uu : forall (x : box 3 3 3 3) (mu : 'I_4), special_unitary (1%:M : 'M[CR]_3) by move=> x mu; exact: su1.
by case: (C56_flow (U := fun _ _ => 1%:M) true 20 cexpR_good He (realn CR 6) (rpred1 _) uu ou).
Qed.
(** The weights of the three stages add up to the step: a force that does not depend on the links moves every link along its
    one-parameter group for exactly the requested time, however many intervals are used, except none. *)
Theorem C56_total_time (C : numClosedFieldType) (n : nat) (L : lattice) (cexp : C -> C) (eig : 'M[C]_n -> 'M[C]_n * 'rV[C]_n)
    (time : C) (nSteps : nat) (Z : gauge C n L) (U : gauge C n L) :
  good_cexp cexp -> good_eig eig -> (forall x mu, anti_hermitian (Z x mu)) -> (0 < nSteps)%N ->
  forall x mu, flow_integrate (link_exp cexp eig) (fun _ x mu => - Z x mu) time nSteps U x mu
               = link_exp cexp eig time (Z x mu) *m U x mu.
Proof. by move=> Hc He Za k x mu; exact: (flow_const Hc He Za (aforce := fun _ x mu => - Z x mu)). Qed.
(** With no intervals the links do not move, whatever the time: the law above fails as soon as they should have moved. *)
Theorem C56_no_intervals_refuted (C : numClosedFieldType) (n : nat) (L : lattice) (cexp : C -> C) (eig : 'M[C]_n -> 'M[C]_n * 'rV[C]_n)
    (time : C) (Z U : gauge C n L) (x : L) (mu : 'I_4) : unitary (U x mu) -> link_exp cexp eig time (Z x mu) != 1%:M ->
  flow_integrate (link_exp cexp eig) (fun _ x mu => - Z x mu) time 0 U x mu <> link_exp cexp eig time (Z x mu) *m U x mu.
Proof.
move=> u /eqP ne; rewrite /flow_integrate [iter 0 _ _]/= => E; apply: ne.
by have := congr1 (fun M => M *m htrans (U x mu)) E; rewrite -mulmxA !unitary_r // mulmx1.
Qed.
(** One link rotating in the plane of two colours. *)
Example C56_total_time_case : exists (eig : 'M[CR]_2 -> 'M[CR]_2 * 'rV[CR]_2), good_eig eig /\ anti_hermitian (tiny_exponent 0 (1 : CR)) /\
  forall (U : gauge CR 2 (box 1 1 1 1)) x mu,
  flow_integrate (link_exp (C:=CR) cexpR eig) (fun _ _ _ => - tiny_exponent 0 1) 1 3 U x mu = link_exp (C:=CR) cexpR eig 1 (tiny_exponent 0 1) *m U x mu.
Proof.
have [eig He] := good_eig_exists CR 2; exists eig; split=> //.
have [a _ _ _] := tiny_exponent_ok 0 (@ltr01 CR); split=> // U x mu.
exact: (C56_total_time (Z := fun _ _ => tiny_exponent 0 1) 1 U cexpR_good He (fun _ _ => a)).
Qed.

(** ** C60 *)
(** The sign of four indices: the product of the signs of their differences. *)
Definition zsgn (a b : nat) : int := if (a < b)%N then 1 else if (b < a)%N then -1 else 0.
Definition levi_civita (a b c d : nat) : int := zsgn a b * zsgn a c * zsgn a d * zsgn b c * zsgn b d * zsgn c d.
Definition contraction (C : numClosedFieldType) (T : nat -> nat -> nat -> nat -> C) : C :=
  \sum_(a <- iota 0 4) \sum_(b <- iota 0 4) \sum_(c <- iota 0 4) \sum_(d <- iota 0 4) (levi_civita a b c d)%:~R * T a b c d.
Section Contraction.
Variables (C : numClosedFieldType) (T : nat -> nat -> nat -> nat -> C).
Hypothesis T1 : forall a b c d, T b a c d = - T a b c d.
Hypothesis T2 : forall a b c d, T a b d c = - T a b c d.
Hypothesis T3 : forall a b c d, T c d a b = T a b c d.
Add Ring Cring2 : (Crth C).
Lemma sz (x : C) : (0 : int)%:~R * x = 0. Proof. by rewrite mul0r. Qed.
Lemma so (x : C) : (1 : int)%:~R * x = x. Proof. by rewrite mul1r. Qed.
Lemma sm (x : C) : (-1 : int)%:~R * x = - x. Proof. by rewrite mulrN1z mulN1r. Qed.
Lemma perm6 (p q r s t u : int) : p * q * r * s * t * u = p * s * t * q * r * u.
Proof. by congr (_ * _); rewrite -!mulrA; congr (_ * _); rewrite mulrA mulrC -mulrA. Qed.
Ltac signs := rewrite /= !big_cons !big_nil;
repeat match goal with |- context [levi_civita ?a ?b ?c ?d] =>
  let v := eval vm_compute in (levi_civita a b c d) in
  match v with
  | Posz 0 => change (levi_civita a b c d) with (0 : int); rewrite (sz (T a b c d))
  | Posz 1 => change (levi_civita a b c d) with (1 : int); rewrite (so (T a b c d))
  | _ => change (levi_civita a b c d) with (-1 : int); rewrite (sm (T a b c d))
  end end; rewrite !addr0 ?add0r //.
Lemma contractionE : contraction T = 8%:R * (T 0 3 1 2 - T 0 2 1 3 + T 0 1 2 3).
Proof.
pose f a b := \sum_(c <- iota 0 4) \sum_(d <- iota 0 4) (levi_civita a b c d)%:~R * T a b c d.
have f0 a : a \in iota 0 4 -> f a a = 0.
  by rewrite !inE /f => /or4P[]/eqP->; signs.
have f01 : f 0%N 1%N = T 0 1 2 3 - T 0 1 3 2 by rewrite /f; signs.
have f02 : f 0%N 2%N = - T 0 2 1 3 + T 0 2 3 1 by rewrite /f; signs.
have f03 : f 0%N 3%N = T 0 3 1 2 - T 0 3 2 1 by rewrite /f; signs.
have f12 : f 1%N 2%N = T 1 2 0 3 - T 1 2 3 0 by rewrite /f; signs.
have f13 : f 1%N 3%N = - T 1 3 0 2 + T 1 3 2 0 by rewrite /f; signs.
have f23 : f 2%N 3%N = T 2 3 0 1 - T 2 3 1 0 by rewrite /f; signs.
have zN a b : zsgn b a = - zsgn a b by rewrite /zsgn; case: ltngtP; rewrite ?opprK ?oppr0.
have fN a b : f b a = f a b.
  apply: eq_bigr => c _; apply: eq_bigr => d _; rewrite T1 mulrN -mulNr -rmorphN; congr (_%:~R * _).
  by rewrite /levi_civita (zN a b) !mulNr opprK perm6.
have -> : contraction T = \sum_(a <- iota 0 4) \sum_(b <- iota 0 4) f a b by [].
rewrite /= !big_cons !big_nil !f0 // (fN 0%N 1%N) (fN 0%N 2%N) (fN 0%N 3%N) (fN 1%N 2%N) (fN 1%N 3%N) (fN 2%N 3%N) f01 f02 f03 f12 f13 f23.
rewrite !addr0 !add0r.
repeat match goal with |- context [T ?a ?b ?c ?d] =>
  lazymatch eval vm_compute in (b < a)%N with
  | true => rewrite (T1 b a c d)
  | false => lazymatch eval vm_compute in (d < c)%N with
    | true => rewrite (T2 a b d c)
    | false => lazymatch eval vm_compute in (c < a)%N with
      | true => rewrite (T3 c d a b)
      end end end end.
move: (T 0 1 2 3) (T 0 2 1 3) (T 0 3 1 2) => p q r.
have -> : 8%:R = 1 + 1 + 1 + 1 + 1 + 1 + 1 + 1 :> C by rewrite -[1]/(1%:R) -!natrD.
by cring_fold C; ring.
Qed.
End Contraction.
Theorem C60_observables (C : numClosedFieldType) (n : nat) (L : lattice) (pi : C) (U : gauge C n L) (om : L -> 'M[C]_n) :
  (forall x, unitary (om x)) ->
  flow_energy (gauge_transform om U) = flow_energy U /\
  topological_charge pi (gauge_transform om U) = topological_charge pi U /\
  0 <= flow_energy U /\
  (forall x, site_charge pi U x = 'Re (contraction (fun a b c d => \tr (flow_field U x (inord a) (inord b) *m flow_field U x (inord c) (inord d))))
                                  / (32%:R * pi * pi)) /\
  (forall x mu nu, anti_hermitian (flow_field U x mu nu) /\ flow_field U x nu mu = - flow_field U x mu nu).
Proof.
move=> ou; split.
  by rewrite /flow_energy; congr (- _ / _); apply: eq_bigr => x _; rewrite energy_gauge.
split; first by apply: eq_bigr => x _; rewrite charge_gauge.
split; first exact: flow_energy_ge0.
split=> [x|x mu nu]; last by rewrite /anti_hermitian daggerE field_anti; split=> //; exact: field_sym.
rewrite contractionE.
- rewrite /site_charge; set z := _ + _ + _.
  have -> : 'Re (8%:R * z) = 8%:R * 'Re z.
    by rewrite -[8%:R]conjC_nat mulrC !ReE rmorphM conjCK conjC_nat -mulrDl mulrAC mulrC mulrA.
  have -> : 32%:R * pi * pi = 8%:R * (4%:R * pi * pi) by rewrite -[32%N]/(8 * 4)%N natrM !mulrA.
  by rewrite -mulf_div divff ?mul1r // pnatr_eq0.
- by move=> a b c d; rewrite field_sym mulNmx raddfN.
- by move=> a b c d; rewrite (field_sym U x (inord c) (inord d)) mulmxN raddfN.
- by move=> a b c d; rewrite mxtrace_mulC.
Qed.
Print Assumptions C36_smearing.
Print Assumptions C36_exponential_partial.
Print Assumptions C36_small_exponent_refuted.
Print Assumptions C36_adjoint_refuted.
Print Assumptions C56_flow.
Print Assumptions C56_case.
Print Assumptions C56_total_time.
Print Assumptions C56_no_intervals_refuted.
Print Assumptions C60_observables.
