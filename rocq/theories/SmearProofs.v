From mathcomp Require Import all_ssreflect all_algebra.
From Verif Require Import GaugeModel GaugeSpec GaugeProofs GaugeProofs2 GaugeProofs3 ExpModel ExpSpec ExpProofs.
Import GRing.Theory Num.Theory.
Set Implicit Arguments.
Unset Strict Implicit.
Unset Printing Implicit Defensive.
Local Open Scope ring_scope.

Section Smear.
Variable C : numClosedFieldType.
Variable n : nat.
Notation GaugeGroup := 'M[C]_n.
Variable L : lattice.
Notation gauge := (gauge C n L).
Implicit Types (U : gauge) (om : L -> GaugeGroup).

Lemma half_conj : (2%:R^-1 : C)^* = 2%:R^-1.
Proof. by rewrite fmorphV conjC_nat. Qed.
Lemma to_exp_traceless (w : GaugeGroup) : traceless (to_exp w).
Proof. by apply: traceless_opp; exact: tr_traceless. Qed.
Lemma to_exp_anti (w : GaugeGroup) : anti_hermitian (to_exp w).
Proof.
apply: anti_opp; rewrite /anti_hermitian daggerE; apply: anti_sub.
by rewrite htransZ htransB htransK half_conj -scalerN opprB.
Qed.
Lemma to_exp_conj (w g : GaugeGroup) : unitary g -> to_exp (g *m w *m htrans g) = g *m to_exp w *m htrans g.
Proof.
move=> u; rewrite /to_exp !htransM htransK.
have -> : g *m (htrans w *m htrans g) - g *m w *m htrans g = g *m (htrans w - w) *m htrans g.
  by rewrite mulmxBr mulmxBl mulmxA.
rewrite scalemxAl scalemxAr; set F := 2%:R^-1 *: _.
have -> : \tr (g *m F *m htrans g) = \tr F by rewrite mxtrace_mulC mulmxA unitary_l // mul1mx.
by rewrite mulmxN mulNmx mulmxBr mulmxBl mul_mx_scalar -scalemxAl unitary_r // scalemx1.
Qed.
Lemma omega_gauge (rho : C) (g g' S A : GaugeGroup) : unitary g' ->
  rho *: htrans (g' *m S *m htrans g) *m htrans (g *m A *m htrans g') = g *m (rho *: htrans S *m htrans A) *m htrans g.
Proof.
move=> u; rewrite !htransM !htransK -!scalemxAl -!scalemxAr -!scalemxAl !mulmxA; congr (_ *: _).
by rewrite -(mulmxA _ (htrans g') g') unitary_l // mulmx1.
Qed.
Lemma spatial_stapleE U x mu : spatial_staple U x mu
  = \sum_(nu < 4 | (nu < 3)%N && (nu != mu)) (transport U (sup mu x) (staple_up mu nu) + transport U (sup mu x) (staple_down mu nu)).
Proof. by apply: eq_bigr => nu _; rewrite staple_upE staple_downE. Qed.
Lemma spatial_staple_gauge om U x mu : (forall y, unitary (om y)) ->
  spatial_staple (gauge_transform om U) x mu = om (sup mu x) *m spatial_staple U x mu *m htrans (om x).
Proof.
move=> u; rewrite !spatial_stapleE mulmx_sumr mulmx_suml; apply: eq_bigr => nu _.
by rewrite !transport_gauge // endpoint_up endpoint_down mulmxDr mulmxDl.
Qed.

Variable gexp : GaugeGroup -> GaugeGroup.
Lemma update_gauge (g g' E A : GaugeGroup) : unitary g -> (g *m E *m htrans g) *m (g *m A *m htrans g') = g *m (E *m A) *m htrans g'.
Proof. by move=> u; rewrite -!mulmxA (mulmxA (htrans g)) unitary_l // mul1mx. Qed.
Hypothesis Gc : forall A g, anti_hermitian A -> unitary g -> gexp (g *m A *m htrans g) = g *m gexp A *m htrans g.
Lemma smear_gauge rho om U x mu : (forall y, unitary (om y)) ->
  stout_smearing gexp rho (gauge_transform om U) x mu = gauge_transform om (stout_smearing gexp rho U) x mu.
Proof.
move=> u; rewrite /stout_smearing /smear_link staple_gauge // {2}/gauge_transform omega_gauge // to_exp_conj //.
rewrite Gc //; last exact: to_exp_anti.
by rewrite /gauge_transform update_gauge.
Qed.
Lemma spatial_level_gauge rho om U V : (forall y, unitary (om y)) -> (forall x mu, V x mu = gauge_transform om U x mu) ->
  forall x mu, spatial_level gexp rho V x mu = gauge_transform om (spatial_level gexp rho U) x mu.
Proof.
move=> u E x mu; rewrite [RHS]/gauge_transform /spatial_level; case: ifP => _; last exact: E.
have -> : spatial_staple V x mu = spatial_staple (gauge_transform om U) x mu by apply: eq_bigr => nu _; rewrite !E.
rewrite !E spatial_staple_gauge // {1}/gauge_transform omega_gauge // to_exp_conj // Gc //; last exact: to_exp_anti.
by rewrite /gauge_transform update_gauge.
Qed.
Lemma spatial_gauge levels rho om U : (forall y, unitary (om y)) ->
  forall x mu, spatial_smearing gexp levels rho (gauge_transform om U) x mu = gauge_transform om (spatial_smearing gexp levels rho U) x mu.
Proof. by move=> u; elim: levels => // k IH x mu; rewrite /spatial_smearing !iterS; apply: spatial_level_gauge. Qed.
Lemma spatial_time levels rho U x mu : mu = inord 3 -> spatial_smearing gexp levels rho U x mu = U x mu.
Proof. by move=> m; elim: levels => //= k IH; rewrite /spatial_level m inordK //= -m IH. Qed.
Lemma smear_su rho U x mu : special_unitary (U x mu) ->
  special_unitary (gexp (to_exp (rho *: htrans (wilson_staple U x mu) *m htrans (U x mu)))) ->
  special_unitary (stout_smearing gexp rho U x mu).
Proof. by move=> u e; apply: suM. Qed.
Hypothesis Gs : forall A, anti_hermitian A -> traceless A -> special_unitary (gexp A).
Lemma smearing_su rho U : (forall x mu, special_unitary (U x mu)) -> forall x mu, special_unitary (stout_smearing gexp rho U x mu).
Proof. by move=> u x mu; apply: smear_su => //; apply: Gs; [exact: to_exp_anti|exact: to_exp_traceless]. Qed.
Lemma spatial_su levels rho U : (forall x mu, special_unitary (U x mu)) ->
  forall x mu, special_unitary (spatial_smearing gexp levels rho U x mu).
Proof.
move=> u; elim: levels => // k IH x mu; rewrite /spatial_smearing iterS -/(spatial_smearing gexp k rho U).
move: (spatial_smearing _ _ _ _) IH => V IH; rewrite /spatial_level; case: ifP => _; last exact: IH.
by apply: suM; [apply: Gs; [exact: to_exp_anti|exact: to_exp_traceless]|exact: IH].
Qed.
End Smear.

Section Flow.
Variable C : numClosedFieldType.
Variable n : nat.
Notation GaugeGroup := 'M[C]_n.
Variable L : lattice.
Notation gauge := (gauge C n L).
Implicit Types (U Z : gauge) (om : L -> GaugeGroup).
Variable lexp : C -> GaugeGroup -> GaugeGroup.
Variable aforce : gauge -> gauge.
Definition algebra_field Z : Prop := forall x mu, anti_hermitian (Z x mu) /\ traceless (Z x mu).
Definition rotated om Z : gauge := fun x mu => om x *m Z x mu *m htrans (om x).
Hypothesis Fa : forall U, algebra_field (aforce U).

Lemma combo_real (a b : nat) : (a%:R / b%:R : C) \is Num.real.
Proof. by rewrite rpredM ?rpredV ?realn. Qed.
Definition comb (c0 c1 c2 : C) (Z0 Z1 Z2 : GaugeGroup) := c2 *: Z2 + (c1 *: Z1 + c0 *: Z0).
Lemma comb_algebra c0 c1 c2 (Z0 Z1 Z2 : GaugeGroup) : c0 \is Num.real -> c1 \is Num.real -> c2 \is Num.real ->
  anti_hermitian Z0 /\ traceless Z0 -> anti_hermitian Z1 /\ traceless Z1 -> anti_hermitian Z2 /\ traceless Z2 ->
  anti_hermitian (comb c0 c1 c2 Z0 Z1 Z2) /\ traceless (comb c0 c1 c2 Z0 Z1 Z2).
Proof.
move=> r0 r1 r2 [a0 t0] [a1 t1] [a2 t2]; split.
  by apply: anti_add; [exact: anti_scale|apply: anti_add; exact: anti_scale].
by apply: traceless_add; [exact: traceless_scale|apply: traceless_add; exact: traceless_scale].
Qed.
Lemma comb1 (Z0 : GaugeGroup) : (1 / 4%:R) *: Z0 = comb (1 / 4%:R) 0 0 Z0 0 0.
Proof. by rewrite /comb !scale0r !add0r. Qed.
Lemma comb2 (Z0 Z1 : GaugeGroup) : (8%:R / 9%:R) *: Z1 - (17%:R / 36%:R) *: Z0 = comb (- (17%:R / 36%:R)) (8%:R / 9%:R) 0 Z0 Z1 0.
Proof. by rewrite /comb !scale0r !add0r scaleNr. Qed.
Lemma comb3 (Z0 Z1 Z2 : GaugeGroup) :
  (3%:R / 4%:R) *: Z2 - (8%:R / 9%:R) *: Z1 + (17%:R / 36%:R) *: Z0 = comb (17%:R / 36%:R) (- (8%:R / 9%:R)) (3%:R / 4%:R) Z0 Z1 Z2.
Proof. by rewrite /comb scaleNr addrA. Qed.
Lemma combo_real1 : (1 / 4%:R : C) \is Num.real.
Proof. exact: (combo_real 1 4). Qed.
Lemma real0 : (0 : C) \is Num.real. Proof. exact: rpred0. Qed.
Lemma algebra0 : anti_hermitian (0 : GaugeGroup) /\ traceless (0 : GaugeGroup).
Proof. by split; rewrite /anti_hermitian ?daggerE ?htrans0 ?oppr0 // /traceless mxtrace0. Qed.
Lemma flow_force_algebra U : algebra_field (flow_force aforce U).
Proof. by move=> x mu; case: (Fa U x mu) => a t; split; [exact: anti_opp|exact: traceless_opp]. Qed.


Definition flow_X1 dt U : gauge := fun x mu => lexp dt (comb (1 / 4%:R) 0 0 (flow_force aforce U x mu) 0 0) *m U x mu.
Definition flow_X2 dt U : gauge := fun x mu =>
  lexp dt (comb (- (17%:R / 36%:R)) (8%:R / 9%:R) 0 (flow_force aforce U x mu) (flow_force aforce (flow_X1 dt U) x mu) 0) *m flow_X1 dt U x mu.
Definition flow_X3 dt U : gauge := fun x mu =>
  lexp dt (comb (17%:R / 36%:R) (- (8%:R / 9%:R)) (3%:R / 4%:R) (flow_force aforce U x mu) (flow_force aforce (flow_X1 dt U) x mu)
             (flow_force aforce (flow_X2 dt U) x mu)) *m flow_X2 dt U x mu.
Hypothesis Fx : forall U V, (forall x mu, U x mu = V x mu) -> forall x mu, aforce U x mu = aforce V x mu.
Lemma flow_force_ext U V : (forall x mu, U x mu = V x mu) -> forall x mu, flow_force aforce U x mu = flow_force aforce V x mu.
Proof. by move=> E x mu; rewrite /flow_force (Fx E). Qed.
Lemma flow_stepE dt U x mu : flow_step lexp aforce dt U x mu = flow_X3 dt U x mu.
Proof.
rewrite /flow_step; set X1 : gauge := fun x0 mu0 => lexp dt ((1 / 4%:R) *: _) *m _.
set X2 : gauge := fun x0 mu0 => lexp dt (_ - _) *m _.
have e1 y nu : X1 y nu = flow_X1 dt U y nu by rewrite /X1 comb1.
have e2 y nu : X2 y nu = flow_X2 dt U y nu by rewrite /X2 comb2 (flow_force_ext e1) comb1.
by rewrite comb3 (flow_force_ext e2) (flow_force_ext e1) comb2 comb1.
Qed.
Lemma flow_step_su dt U : (forall A, anti_hermitian A -> traceless A -> special_unitary (lexp dt A)) ->
  (forall x mu, special_unitary (U x mu)) -> forall x mu, special_unitary (flow_step lexp aforce dt U x mu).
Proof.
move=> G u x mu; rewrite flow_stepE.
have G' (c0 c1 c2 : C) (Z0 Z1 Z2 : GaugeGroup) (r0 : c0 \is Num.real) (r1 : c1 \is Num.real) (r2 : c2 \is Num.real)
    (h0 : anti_hermitian Z0 /\ traceless Z0) (h1 : anti_hermitian Z1 /\ traceless Z1) (h2 : anti_hermitian Z2 /\ traceless Z2) :
    special_unitary (lexp dt (comb c0 c1 c2 Z0 Z1 Z2)).
  by case: (comb_algebra r0 r1 r2 h0 h1 h2) => a t; exact: G.
have nr a b : (- (a%:R / b%:R) : C) \is Num.real by rewrite rpredN; exact: combo_real.
have s1 y nu : special_unitary (flow_X1 dt U y nu).
  by apply: suM => //; apply: G'; [exact: combo_real1|exact: real0|exact: real0|exact: flow_force_algebra|exact: algebra0|exact: algebra0].
have s2 y nu : special_unitary (flow_X2 dt U y nu).
  by apply: suM => //; apply: G'; [exact: nr|exact: combo_real|exact: real0|exact: flow_force_algebra|exact: flow_force_algebra|exact: algebra0].
apply: suM => //.
by apply: G'; [exact: combo_real|exact: nr|exact: combo_real|exact: flow_force_algebra|exact: flow_force_algebra|exact: flow_force_algebra].
Qed.
Lemma flow_su time k U : (forall A, anti_hermitian A -> traceless A -> special_unitary (lexp (time / k%:R) A)) ->
  (forall x mu, special_unitary (U x mu)) -> forall x mu, special_unitary (flow_integrate lexp aforce time k U x mu).
Proof.
move=> G u; rewrite /flow_integrate; move: (time / k%:R) G => dt G.
by elim: k => // k IH x mu; rewrite iterS; apply: flow_step_su.
Qed.

(** Gauge covariance. *)
Section Covariance.
Variable om : L -> GaugeGroup.
Hypothesis ou : forall x, unitary (om x).
Hypothesis Fc : forall U x mu, aforce (gauge_transform om U) x mu = om x *m aforce U x mu *m htrans (om x).
Variable dt : C.
Hypothesis Gc : forall A g, anti_hermitian A -> unitary g -> lexp dt (g *m A *m htrans g) = g *m lexp dt A *m htrans g.
Lemma force_conj U V : (forall x mu, V x mu = gauge_transform om U x mu) ->
  forall x mu, flow_force aforce V x mu = om x *m flow_force aforce U x mu *m htrans (om x).
Proof. by move=> E x mu; rewrite /flow_force (Fx E) Fc mulmxN mulNmx. Qed.
Lemma comb_conj c0 c1 c2 (g Z0 Z1 Z2 : GaugeGroup) :
  comb c0 c1 c2 (g *m Z0 *m htrans g) (g *m Z1 *m htrans g) (g *m Z2 *m htrans g) = g *m comb c0 c1 c2 Z0 Z1 Z2 *m htrans g.
Proof. by rewrite /comb !mulmxDr !mulmxDl -!scalemxAr -!scalemxAl. Qed.
Lemma comb_conj1 c0 (g Z0 : GaugeGroup) : comb c0 0 0 (g *m Z0 *m htrans g) 0 0 = g *m comb c0 0 0 Z0 0 0 *m htrans g.
Proof. by rewrite -comb_conj mulmx0 mul0mx. Qed.
Lemma comb_conj2 c0 c1 (g Z0 Z1 : GaugeGroup) :
  comb c0 c1 0 (g *m Z0 *m htrans g) (g *m Z1 *m htrans g) 0 = g *m comb c0 c1 0 Z0 Z1 0 *m htrans g.
Proof. by rewrite -comb_conj mulmx0 mul0mx. Qed.
Lemma stage_gauge (B A : GaugeGroup) x y : anti_hermitian B ->
  lexp dt (om x *m B *m htrans (om x)) *m (om x *m A *m htrans (om y)) = om x *m (lexp dt B *m A) *m htrans (om y).
Proof. by move=> a; rewrite Gc // update_gauge. Qed.
Lemma flow_X1_gauge U V : (forall x mu, V x mu = gauge_transform om U x mu) ->
  forall x mu, flow_X1 dt V x mu = gauge_transform om (flow_X1 dt U) x mu.
Proof.
move=> E x mu; rewrite /flow_X1 (force_conj E) E comb_conj1 stage_gauge //.
by case: (comb_algebra combo_real1 real0 real0 (flow_force_algebra U x mu) algebra0 algebra0).
Qed.
Lemma flow_X2_gauge U V : (forall x mu, V x mu = gauge_transform om U x mu) ->
  forall x mu, flow_X2 dt V x mu = gauge_transform om (flow_X2 dt U) x mu.
Proof.
move=> E x mu; rewrite /flow_X2 (force_conj E) (force_conj (flow_X1_gauge E)) (flow_X1_gauge E).
rewrite comb_conj2 stage_gauge //.
have nr : (- (17%:R / 36%:R) : C) \is Num.real by rewrite rpredN; exact: combo_real.
by case: (comb_algebra nr (combo_real 8 9) real0 (flow_force_algebra U x mu) (flow_force_algebra (flow_X1 dt U) x mu) algebra0).
Qed.
Lemma flow_X3_gauge U V : (forall x mu, V x mu = gauge_transform om U x mu) ->
  forall x mu, flow_X3 dt V x mu = gauge_transform om (flow_X3 dt U) x mu.
Proof.
move=> E x mu; rewrite /flow_X3 (force_conj E) (force_conj (flow_X1_gauge E)) (force_conj (flow_X2_gauge E)) (flow_X2_gauge E).
rewrite comb_conj stage_gauge //.
have nr : (- (8%:R / 9%:R) : C) \is Num.real by rewrite rpredN; exact: combo_real.
by case: (comb_algebra (combo_real 17 36) nr (combo_real 3 4) (flow_force_algebra U x mu)
   (flow_force_algebra (flow_X1 dt U) x mu) (flow_force_algebra (flow_X2 dt U) x mu)).
Qed.
Lemma flow_iter_gauge k U : forall x mu,
  iter k (flow_step lexp aforce dt) (gauge_transform om U) x mu = gauge_transform om (iter k (flow_step lexp aforce dt) U) x mu.
Proof.
elim: k => // k IH x mu; rewrite !iterS flow_stepE (flow_X3_gauge IH) /gauge_transform.
by rewrite flow_stepE.
Qed.
End Covariance.
End Flow.

(** A constant force flows along its one-parameter group for the whole time. *)
Section Constant.
Variable C : numClosedFieldType.
Variable n : nat.
Notation GaugeGroup := 'M[C]_n.
Variable L : lattice.
Notation gauge := (gauge C n L).
Variable cexp : C -> C.
Variable eig : GaugeGroup -> GaugeGroup * 'rV[C]_n.
Hypothesis Hc : good_cexp cexp.
Hypothesis He : good_eig eig.
Notation lexp := (link_exp cexp eig).
Variable Z : gauge.
Hypothesis Za : forall x mu, anti_hermitian (Z x mu).
Variable aforce : gauge -> gauge.
Hypothesis Fz : forall U x mu, aforce U x mu = - Z x mu.
Add Ring Cring : (Crth C).
Lemma cancel_weights (a b c d : C) : a - b + c + ((b - a) + d) = c + d.
Proof. by cring_fold C; ring. Qed.
Lemma reorder_weights (a b c d : C) : c - b + a + (b - a) + d = a - b + c + ((b - a) + d).
Proof. by cring_fold C; ring. Qed.
Lemma weights_sum : (17%:R / 36%:R - 8%:R / 9%:R + 3%:R / 4%:R) + ((8%:R / 9%:R - 17%:R / 36%:R) + 1 / 4%:R) = 1 :> C.
Proof.
by rewrite cancel_weights -mulrDl -(natrD C 3 1) divff // pnatr_eq0.
Qed.
Lemma comb_same c0 c1 c2 (A : GaugeGroup) : comb c0 c1 c2 A A A = (c0 + c1 + c2) *: A.
Proof. by rewrite /comb -!scalerDl addrC [c1 + c0]addrC. Qed.
Lemma const_force U x mu : flow_force aforce U x mu = Z x mu.
Proof. by rewrite /flow_force Fz opprK. Qed.
Lemma flow_const_step dt U x mu : flow_step lexp aforce dt U x mu = lexp dt (Z x mu) *m U x mu.
Proof.
have a := Za x mu; have r p q := combo_real C p q.
rewrite /flow_step !const_force -scalerBl -scaleNr -!scalerDl !link_exp_scale //; last first.
- by rewrite rpredD // rpredB.
- by rewrite rpredB.
- exact: (r 1%N 4%N).
rewrite !mulmxA !link_exp_add //; congr (link_exp _ _ _ _ *m _).
by rewrite -!mulrDr reorder_weights weights_sum mulr1.
Qed.
Lemma flow_const time k U x mu : (0 < k)%N -> flow_integrate lexp aforce time k U x mu = lexp time (Z x mu) *m U x mu.
Proof.
move=> k0; rewrite /flow_integrate; set dt := time / _.
have H j : iter j (flow_step lexp aforce dt) U x mu = lexp (dt *+ j) (Z x mu) *m U x mu.
  elim: j => [|j IH]; first by rewrite mulr0n link_exp_0 // mul1mx.
  by rewrite iterS flow_const_step IH mulmxA link_exp_add // -mulrS.
by rewrite H -mulr_natr divfK // pnatr_eq0 -lt0n.
Qed.
End Constant.

(** The field strength and what is measured from it. *)
Section Clover.
Variable C : numClosedFieldType.
Variable n : nat.
Notation GaugeGroup := 'M[C]_n.
Variable L : lattice.
Notation gauge := (gauge C n L).
Implicit Types (U : gauge).
Definition leaf1 (mu nu : 'I_4) : seq step := [:: bwd mu; bwd nu; fwd mu; fwd nu].
Definition leaf2 (mu nu : 'I_4) : seq step := [:: bwd nu; fwd mu; fwd nu; bwd mu].
Definition leaf3 (mu nu : 'I_4) : seq step := [:: fwd mu; fwd nu; bwd mu; bwd nu].
Definition leaf4 (mu nu : 'I_4) : seq step := [:: fwd nu; bwd mu; bwd nu; fwd mu].
Lemma leaves_closed (x : L) mu nu : [/\ endpoint x (leaf1 mu nu) = x, endpoint x (leaf2 mu nu) = x,
  endpoint x (leaf3 mu nu) = x & endpoint x (leaf4 mu nu) = x].
Proof.
rewrite /endpoint /= /move /=; split.
- by rewrite (sup_sdnC mu nu) !sdnK.
- by rewrite (sup_sdnC mu nu) sdnK supK.
- by rewrite (supC nu mu) !supK.
- by rewrite (sdnC nu mu) supK sdnK.
Qed.
Lemma clover_transport U x mu nu : clover_leaves U x mu nu
  = transport U x (leaf1 mu nu) + transport U x (leaf2 mu nu) + transport U x (leaf3 mu nu) + transport U x (leaf4 mu nu).
Proof.
rewrite /clover_leaves /= /hop /move /= !daggerE !mulmx1 !mulmxA.
rewrite (sup_sdnC mu nu) sdnK !(supC nu mu) !supK !(sdnC nu mu) !supK !sdnK.
by rewrite ?(sup_sdnC mu nu) ?(sup_sdnC nu mu) ?sdnK ?supK.
Qed.
Lemma clover_gauge om U x mu nu : (forall y, unitary (om y)) ->
  clover_leaves (gauge_transform om U) x mu nu = om x *m clover_leaves U x mu nu *m htrans (om x).
Proof.
move=> u; have [e1 e2 e3 e4] := leaves_closed x mu nu.
by rewrite !clover_transport !transport_gauge // e1 e2 e3 e4 !mulmxDr !mulmxDl.
Qed.
Lemma field_gauge om U x mu nu : (forall y, unitary (om y)) ->
  flow_field (gauge_transform om U) x mu nu = om x *m flow_field U x mu nu *m htrans (om x).
Proof.
move=> u; rewrite /flow_field clover_gauge // !htransM htransK -scalemxAr -scalemxAl mulmxBr mulmxBl.
by rewrite !mulmxA.
Qed.
Lemma trace_pair (g A B : GaugeGroup) : unitary g -> \tr (g *m A *m htrans g *m (g *m B *m htrans g)) = \tr (A *m B).
Proof.
move=> u; rewrite -!mulmxA (mulmxA (htrans g)) unitary_l // mul1mx mxtrace_mulC !mulmxA -(mulmxA _ (htrans g)).
by rewrite unitary_l // mulmx1.
Qed.
Lemma pair_gauge om U x a b c d : (forall y, unitary (om y)) ->
  \tr (flow_field (gauge_transform om U) x a b *m flow_field (gauge_transform om U) x c d) = \tr (flow_field U x a b *m flow_field U x c d).
Proof. by move=> u; rewrite !field_gauge // trace_pair. Qed.
Lemma field_anti U x mu nu : htrans (flow_field U x mu nu) = - flow_field U x mu nu.
Proof.
rewrite /flow_field htransZ htransB htransK rmorphM rmorph1 fmorphV conjC_nat -scalerN.
by rewrite opprB.
Qed.
Lemma swap4 (V : zmodType) (a b c d : V) : a + b + c + d = a + d + c + b.
Proof. by rewrite -!addrA; congr (_ + _); rewrite addrC [c + d]addrC -addrA. Qed.
(** Exchanging the two directions reverses the loops. *)
Lemma leaves_sym U x mu nu : clover_leaves U x nu mu = htrans (clover_leaves U x mu nu).
Proof.
rewrite /clover_leaves !htransD !htransM !htransK !mulmxA (sdnC mu nu).
exact: swap4.
Qed.
Lemma field_sym U x mu nu : flow_field U x nu mu = - flow_field U x mu nu.
Proof. by rewrite /flow_field leaves_sym htransK -scalerN opprB. Qed.
Lemma energy_gauge om U x : (forall y, unitary (om y)) -> site_energy (gauge_transform om U) x = site_energy U x.
Proof. by move=> u; apply: eq_bigr => p _; rewrite pair_gauge. Qed.
Lemma charge_gauge pi om U x : (forall y, unitary (om y)) -> site_charge pi (gauge_transform om U) x = site_charge pi U x.
Proof.
move=> u; rewrite /site_charge; congr ('Re _ / _).
congr (_ + _); last exact: (pair_gauge U x _ _ _ _ u).
by congr (_ - _); exact: (pair_gauge U x _ _ _ _ u).
Qed.
(** Minus the trace of the square of an anti-Hermitian matrix is the sum of the squared moduli of its entries. *)
Lemma anti_square (A : GaugeGroup) : htrans A = - A -> - \tr (A *m A) = \sum_i \sum_j `|A i j| ^+ 2.
Proof.
move=> a; rewrite -(raddfN (mxtrace_additive _ _)) /= -mulmxN -a /mxtrace; apply: eq_bigr => i _.
by rewrite mxE; apply: eq_bigr => j _; rewrite !mxE normCK.
Qed.
Lemma sum_le0 (I : Type) (r : seq I) (F : I -> C) : (forall i, F i <= 0) -> \sum_(i <- r) F i <= 0.
Proof. by move=> h; rewrite -oppr_ge0 -sumrN; apply: sumr_ge0 => i _; rewrite oppr_ge0. Qed.
Lemma site_energy_le0 U x : site_energy U x <= 0.
Proof.
rewrite /site_energy; apply: sum_le0 => p.
set F := flow_field U x p.1 p.2; have := anti_square (field_anti U x p.1 p.2); rewrite -/F => E.
have E' : \tr (F *m F) = - \sum_i \sum_j `|F i j| ^+ 2 by rewrite -E opprK.
have r : \sum_i \sum_j `|F i j| ^+ 2 >= 0 by apply: sumr_ge0 => i _; apply: sumr_ge0 => j _; rewrite exprn_ge0.
by rewrite E' (Creal_ReP _ _) ?oppr_le0 // rpredN ger0_real.
Qed.
Lemma flow_energy_ge0 U : 0 <= flow_energy U.
Proof.
rewrite /flow_energy mulNr oppr_ge0 mulr_le0_ge0 ?invr_ge0 ?ler0n //.
by apply: sum_le0 => x; exact: site_energy_le0.
Qed.
End Clover.
