(** Matrix exponentials by eigenvectors, stout smearing and the Wilson flow, for any number of colours. *)
From mathcomp Require Import all_ssreflect all_algebra.
From Verif Require Import GaugeModel.
Import GRing.Theory Num.Theory.
Set Implicit Arguments.
Unset Strict Implicit.
Unset Printing Implicit Defensive.
Local Open Scope ring_scope.

Section Exp.
Variable C : numClosedFieldType.
Variable n : nat.
Notation GaugeGroup := 'M[C]_n.
(** std::exp on complex numbers. *)
Variable cexp : C -> C.
(** The library eigensolver (Eigen::ComplexEigenSolver, arma::eig_gen, matrix_toolkit::eigensystem): the matrix of
    eigenvectors and the eigenvalues. An oracle: what it must satisfy is stated in ExpSpec.v. *)
Variable eig : GaugeGroup -> GaugeGroup * 'rV[C]_n.

(** eigvec * diag(f(eigval)) * htrans(eigvec). *)
Definition spectral (f : C -> C) (A : GaugeGroup) : GaugeGroup :=
  let: (V, l) := eig A in V *m diag_mx (map_mx f l) *m htrans V.
(** hmc_integrators/Integrate.cpp 20-53 (EIGEN and ARMADILLO branches) and wilson_flow/WilsonFlow.cpp 139-170:
    the matrix updatenew. *)
Definition link_exp (epsilon : C) (A : GaugeGroup) : GaugeGroup := spectral (fun z => cexp (epsilon * z)) A.
(** utils/ExpMap.h 155-169: exp for NUMCOLORS other than 2 and 3 with EIGEN; the threshold is 1e-16. *)
Definition group_exp (threshold : C) (A : GaugeGroup) : GaugeGroup :=
  let: (V, l) := eig A in
  if \sum_i `|'Re ((l ord0 i)^* * l ord0 i)| < threshold
  then 1%:M + A + 2%:R^-1 *: (A *m A)
  else V *m diag_mx (map_mx cexp l) *m htrans V.
End Exp.

Section Smearing.
Variable C : numClosedFieldType.
Variable n : nat.
Notation GaugeGroup := 'M[C]_n.
Variable L : lattice.
Notation gauge := (gauge C n L).
Implicit Types U : gauge.
(** ExponentialMap::exp. *)
Variable gexp : GaugeGroup -> GaugeGroup.

(** utils/StoutSmearing.cpp 54-57 and 39-41: from omega to toExp. *)
Definition to_exp (omega : GaugeGroup) : GaugeGroup :=
  let iStout := 2%:R^-1 *: (htrans omega - omega) in
  - (iStout - (\tr iStout / n%:R)%:M).
(** utils/StoutSmearing.cpp 52-60: smearLink. *)
Definition smear_link (rho : C) U (x : L) (mu : 'I_4) : GaugeGroup :=
  let staple := htrans (wilson_staple U x mu) in
  gexp (to_exp (rho *: staple *m htrans (U x mu))) *m U x mu.
(** utils/StoutSmearing.cpp 12-20: smearing. *)
Definition stout_smearing (rho : C) U : gauge := fun x mu => smear_link rho U x mu.
(** utils/StoutSmearing.cpp 31-38: the spatial staple. *)
Definition spatial_staple U (x : L) (mu : 'I_4) : GaugeGroup :=
  \sum_(nu < 4 | (nu < 3)%N && (nu != mu))
    (U (sup mu x) nu *m htrans (U (sup nu x) mu) *m htrans (U x nu)
     + htrans (U (sup mu (sdn nu x)) nu) *m htrans (U (sdn nu x) mu) *m U (sdn nu x) nu).
(** utils/StoutSmearing.cpp 28-49: one level of spatialSmearing. *)
Definition spatial_level (rho : C) U : gauge := fun x mu =>
  if (mu < 3)%N then gexp (to_exp (rho *: htrans (spatial_staple U x mu) *m htrans (U x mu))) *m U x mu else U x mu.
(** utils/StoutSmearing.cpp 22-50: spatialSmearing. *)
Definition spatial_smearing (levels : nat) (rho : C) U : gauge := iter levels (spatial_level rho) U.
(** utils/StoutSmearing.cpp 63-77: smearLink of a field in the adjoint representation: the staple is not conjugated and the
    trace is divided by nc = numberColors, while the matrices have n = nc * nc - 1 rows. *)
Definition adjoint_to_exp (nc : nat) (omega : GaugeGroup) : GaugeGroup :=
  let iStout := 2%:R^-1 *: (htrans omega - omega) in
  - (iStout - (\tr iStout / nc%:R)%:M).
Definition adjoint_smear_link (nc : nat) (rho : C) U (x : L) (mu : 'I_4) : GaugeGroup :=
  gexp (adjoint_to_exp nc (rho *: wilson_staple U x mu *m htrans (U x mu))) *m U x mu.
End Smearing.

Section Flow.
Variable C : numClosedFieldType.
Variable n : nat.
Notation GaugeGroup := 'M[C]_n.
Variable L : lattice.
Notation gauge := (gauge C n L).
Implicit Types U : gauge.
(** WilsonFlow::exponential(link, force, epsilon) without the final product: updatenew. *)
Variable lexp : C -> GaugeGroup -> GaugeGroup.
(** GaugeAction::force of the flow action. *)
Variable aforce : gauge -> gauge.
(** wilson_flow/WilsonFlow.cpp 130-137: getForce. *)
Definition flow_force U : gauge := fun x mu => - aforce U x mu.
(** wilson_flow/WilsonFlow.cpp 95-124: one step of integrate. *)
Definition flow_step (dt : C) (X0 : gauge) : gauge :=
  let Z0 := flow_force X0 in
  let X1 : gauge := fun x mu => lexp dt ((1 / 4%:R) *: Z0 x mu) *m X0 x mu in
  let Z1 := flow_force X1 in
  let X2 : gauge := fun x mu => lexp dt ((8%:R / 9%:R) *: Z1 x mu - (17%:R / 36%:R) *: Z0 x mu) *m X1 x mu in
  let Z2 := flow_force X2 in
  fun x mu => lexp dt ((3%:R / 4%:R) *: Z2 x mu - (8%:R / 9%:R) *: Z1 x mu + (17%:R / 36%:R) *: Z0 x mu) *m X2 x mu.
(** wilson_flow/WilsonFlow.cpp 90-128: integrate; with nSteps = 0 the quotient time / 0 is not used. *)
Definition flow_integrate (time : C) (nSteps : nat) U : gauge := iter nSteps (flow_step (time / nSteps%:R)) U.

(** wilson_flow/WilsonFlow.cpp 180-185: the array tmpF; entry i is the sum of four leaves for the plane (mu, nu) with
    i = 0..5 for (0,1), (0,2), (0,3), (1,2), (1,3), (2,3). The six lines have the same form. *)
Definition clover_leaves U (x : L) (mu nu : 'I_4) : GaugeGroup :=
  htrans (U (sdn mu x) mu) *m htrans (U (sdn nu (sdn mu x)) nu) *m U (sdn nu (sdn mu x)) mu *m U (sdn nu x) nu
  + htrans (U (sdn nu x) nu) *m U (sdn nu x) mu *m U (sup mu (sdn nu x)) nu *m htrans (U x mu)
  + U x mu *m U (sup mu x) nu *m htrans (U (sup nu x) mu) *m htrans (U x nu)
  + U x nu *m htrans (U (sup nu (sdn mu x)) mu) *m htrans (U (sdn mu x) nu) *m U (sdn mu x) mu.
(** wilson_flow/WilsonFlow.cpp 186-191. *)
Definition flow_field U (x : L) (mu nu : 'I_4) : GaugeGroup :=
  (1 / 8%:R) *: (clover_leaves U x mu nu - htrans (clover_leaves U x mu nu)).
Definition planes : seq ('I_4 * 'I_4) :=
  [:: (inord 0, inord 1); (inord 0, inord 2); (inord 0, inord 3); (inord 1, inord 2); (inord 1, inord 3); (inord 2, inord 3)].
Definition site_energy U (x : L) : C :=
  \sum_(p <- planes) 'Re (\tr (flow_field U x p.1 p.2 *m flow_field U x p.1 p.2)).
(** wilson_flow/WilsonFlow.cpp 192; pi is the constant PI. *)
Definition site_charge (pi : C) U (x : L) : C :=
  let F a b := flow_field U x (inord a) (inord b) in
  'Re (\tr (F 0%N 3%N *m F 1%N 2%N) - \tr (F 0%N 2%N *m F 1%N 3%N) + \tr (F 0%N 1%N *m F 2%N 3%N)) / (4%:R * pi * pi).
(** wilson_flow/WilsonFlow.cpp 197-231: gaugeEnergy and topologicalCharge. *)
Definition flow_energy U : C := - (\sum_(x : L) site_energy U x) / #|L|%:R.
Definition topological_charge (pi : C) U : C := \sum_(x : L) site_charge pi U x.
End Flow.
