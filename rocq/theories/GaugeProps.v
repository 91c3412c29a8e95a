(** Properties C27-C29 and C31: actions, staples, plaquettes, forces and momenta, any number of colours. *)
From mathcomp Require Import all_ssreflect all_algebra all_field.
From Verif Require LayoutModel LayoutSpec.
From Verif Require Import GaugeModel GaugeSpec GaugeProofs GaugeProofs2 GaugeProofs3 GaugeGeom.
Import GRing.Theory Num.Theory.
Set Implicit Arguments.
Unset Strict Implicit.
Unset Printing Implicit Defensive.
Local Open Scope ring_scope.

(** ** C27: the total action is the textbook one, and a local change is the change of the total. *)
Theorem C27_energy_is_wilson_action (C : numClosedFieldType) (n : nat) (L : lattice) (beta : C) (U : gauge C n L) :
  wilson_energy beta U = wilson_action beta U.
Proof. exact: wilson_is_action. Qed.
Theorem C27_local_is_global (C : numClosedFieldType) (n : nat) (L : lattice) (beta : C) (U : gauge C n L) (x : L) (mu : 'I_4)
    (V : 'M[C]_n) : extent2 L ->
  wilson_action beta (set_link U x mu V) - wilson_action beta U = delta_action beta U V (wilson_staple U x mu) x mu.
Proof. by move=> e; rewrite -!wilson_is_action; apply: wilson_change. Qed.
(** The hypothesis holds on the tables built by MPILayout.h as soon as every extent is at least 2. *)
Theorem C27_tables_have_extent2 (g : LayoutModel.geom) (Hg : LayoutSpec.positive_extents g) :
  (forall mu, (mu < 4)%coq_nat -> BinInt.Z.le (BinNums.Zpos (BinNums.xO BinNums.xH)) (LayoutSpec.extent g mu)) ->
  extent2 (geom_lattice Hg).
Proof. exact: geom_extent2. Qed.
(** A link of the unit configuration replaced by the zero matrix: the action grows by 6 beta. *)
Example C27_case (beta : algCnumClosedField) :
  let U : gauge algCnumClosedField 3 (box 1 1 1 1) := fun _ _ => 1%:M in
  extent2 (box 1 1 1 1) /\ delta_action beta U 0 (wilson_staple U (ord0, ord0, ord0, ord0) ord0) (ord0, ord0, ord0, ord0) ord0 = beta * 6%:R.
Proof.
move=> U; split; first exact: box_extent2.
have -> : wilson_staple U (ord0, ord0, ord0, ord0) ord0 = 6%:R%:M.
  rewrite /wilson_staple /U /= (eq_bigr (fun _ => 2%:R%:M)) => [|i _]; last first.
    by rewrite !htrans1 !mulmx1 -raddfD /= -mulr2n.
  by rewrite sumr_const cardC1 card_ord -raddfMn /= -mulrnA.
rewrite /delta_action mul0mx retr0 /U mul1mx sub0r /retr mxtrace_scalar mulrNN.
have -> : 'Re ((6%:R : algCnumClosedField) *+ 3) = 6%:R * 3%:R.
  by rewrite -[_ *+ 3]mulr_natr; apply/Creal_ReP; rewrite rpredM ?realn.
by rewrite mulrA mulfK // pnatr_eq0.
Qed.
Print Assumptions C27_energy_is_wilson_action.
Print Assumptions C27_local_is_global.
Print Assumptions C27_tables_have_extent2.

(** ** C28 *)
Theorem C28_energy_is_symanzik_action (C : numClosedFieldType) (n : nat) (L : lattice) (beta u0 : C) (U : gauge C n L) :
  u0 \is Num.real -> u0 != 0 -> improved_energy beta u0 U = symanzik_action beta u0 U.
Proof. by move=> r _; apply: improved_is_action. Qed.
Theorem C28_local_is_global (C : numClosedFieldType) (n : nat) (L : lattice) (beta u0 : C) (U : gauge C n L) (x : L) (mu : 'I_4)
    (V : 'M[C]_n) : u0 \is Num.real -> u0 != 0 -> extent3 L ->
  symanzik_action beta u0 (set_link U x mu V) - symanzik_action beta u0 U
  = delta_action beta U V (improved_staple u0 U x mu) x mu.
Proof. by move=> r _ e; rewrite -!improved_is_action //; apply: improved_change. Qed.
Theorem C28_tables_have_extent3 (g : LayoutModel.geom) (Hg : LayoutSpec.positive_extents g) :
  (forall mu, (mu < 4)%coq_nat -> BinInt.Z.le (BinNums.Zpos (BinNums.xI BinNums.xH)) (LayoutSpec.extent g mu)) ->
  extent3 (geom_lattice Hg).
Proof. exact: geom_extent3. Qed.
Example C28_case : extent3 (box 2 3 2 4) /\ (2%:R : algCnumClosedField) \is Num.real /\ (2%:R : algCnumClosedField) != 0.
Proof. by split; [exact: box_extent3 | rewrite realn pnatr_eq0]. Qed.
Print Assumptions C28_energy_is_symanzik_action.
Print Assumptions C28_local_is_global.
Print Assumptions C28_tables_have_extent3.

(** ** C29 *)
Theorem C29_gauge_invariance (C : numClosedFieldType) (n : nat) (L : lattice) (beta u0 : C) (U : gauge C n L)
    (om : L -> 'M[C]_n) : (forall x, unitary (om x)) -> u0 \is Num.real ->
  let U' := gauge_transform om U in
  wilson_energy beta U' = wilson_energy beta U /\ improved_energy beta u0 U' = improved_energy beta u0 U /\
  plaquette_average U' = plaquette_average U /\ plaquette_t U' = plaquette_t U /\ plaquette_s U' = plaquette_s U.
Proof.
move=> u r U'; have pt x mu nu : plaquette_term U' x mu nu = plaquette_term U x mu nu.
  by rewrite !plaquette_termE loop_gauge // endpoint_square.
split; first by rewrite !wilson_is_action wilson_action_gauge.
split; first by rewrite !improved_is_action // symanzik_action_gauge.
by do !split; congr (_ / _); do 3! (apply: eq_bigr => ? _); rewrite pt.
Qed.
Theorem C29_covariance (C : numClosedFieldType) (n : nat) (L : lattice) (beta u0 : C) (U : gauge C n L)
    (om : L -> 'M[C]_n) (x : L) (mu : 'I_4) : (forall x, unitary (om x)) ->
  let U' := gauge_transform om U in
  wilson_staple U' x mu = om (sup mu x) *m wilson_staple U x mu *m dagger (om x) /\
  improved_staple u0 U' x mu = om (sup mu x) *m improved_staple u0 U x mu *m dagger (om x) /\
  gauge_force beta (U' x mu) (wilson_staple U' x mu) = om x *m gauge_force beta (U x mu) (wilson_staple U x mu) *m dagger (om x) /\
  gauge_force beta (U' x mu) (improved_staple u0 U' x mu) = om x *m gauge_force beta (U x mu) (improved_staple u0 U x mu) *m dagger (om x).
Proof.
move=> u U'; rewrite /U' !staple_gauge // !improved_staple_gauge // /gauge_transform !force_gauge //.
by rewrite !daggerE.
Qed.
(** The averages are the sums over all plaquettes, the temporal ones and the spatial ones; on the unit configuration
    they are all 1. *)
Theorem C29_plaquettes (C : numClosedFieldType) (n : nat) (L : lattice) (U : gauge C n L) :
  plaquette_average U = (\sum_(x : L) \sum_(mu < 4) \sum_(nu < 4 | (mu < nu)%N) loop_re U x (square mu nu)) / (6%:R * n%:R * #|L|%:R) /\
  plaquette_average U = (plaquette_t U + plaquette_s U) / 2%:R.
Proof.
split; first by congr (_ / _); do 3! (apply: eq_bigr => ? _); rewrite plaquette_termE.
rewrite /plaquette_average /plaquette_t /plaquette_s -mulrDl -[RHS]mulrA -[in RHS]invfM; congr (_ / _).
  rewrite -big_split; apply: eq_bigr => x _; rewrite -big_split; apply: eq_bigr => mu _ /=.
  by rewrite (bigID (fun nu : 'I_4 => (mu == 3%N :> nat) || (nu == 3%N :> nat))).
have -> : 6%:R = 2%:R * 3%:R :> C by rewrite -natrM.
by rewrite [RHS]mulrC !mulrA.
Qed.
Example C29_case : unitary ('i%:M : 'M[algCnumClosedField]_3) /\ ('i%:M : 'M[algCnumClosedField]_3) != 1%:M.
Proof.
split; first by rewrite /unitary daggerE htrans_scalar conjCi -scalar_mxM mulrN -expr2 sqrCi opprK.
apply/eqP => /matrixP /(_ ord0 ord0); rewrite !mxE /= mulr1n => E.
by have := sqrCi algCnumClosedField; rewrite E expr1n => /eqP; rewrite -subr_eq0 opprK -mulr2n pnatr_eq0.
Qed.
Print Assumptions C29_gauge_invariance.
Print Assumptions C29_covariance.
Print Assumptions C29_plaquettes.

(** ** C31 *)
Theorem C31_force (C : numClosedFieldType) (n : nat) (beta : C) (link staple : 'M[C]_n) : beta \is Num.real ->
  anti_hermitian (gauge_force beta link staple) /\ traceless (gauge_force beta link staple).
Proof. by move=> r; split; [exact: force_anti_hermitian | exact: force_traceless]. Qed.
Theorem C31_momenta (C : numClosedFieldType) (n : nat) (re im : 'I_n -> 'I_n -> C) (dg : 'I_n -> C) (A : 'M[C]_n) :
  (forall i j, re i j \is Num.real) -> (forall i j, im i j \is Num.real) -> (forall i, dg i \is Num.real) ->
  anti_hermitian (random_momentum re im dg A) /\ traceless (random_momentum re im dg A).
Proof. by move=> *; apply: random_momentum_algebra. Qed.
Example C31_case : let F := gauge_force (1 : algCnumClosedField) ('i%:M + delta_mx ord0 ord0 : 'M_2) 'i%:M in
  (1 : algCnumClosedField) \is Num.real /\ F ord0 ord0 = 'i / 8%:R.
Proof.
move=> F; split; first exact: rpred1.
have E : ('i%:M + delta_mx ord0 ord0 : 'M[algCnumClosedField]_2) *m 'i%:M = - 1%:M + 'i *: delta_mx ord0 ord0.
  by rewrite mul_mx_scalar scalerDr scale_scalar_mx -expr2 sqrCi raddfN.
rewrite /F /gauge_force E htransD htransN htrans1 htransZ conjCi.
have -> : htrans (delta_mx ord0 ord0 : 'M[algCnumClosedField]_2) = delta_mx ord0 ord0.
  by apply/matrixP => i j; rewrite !mxE andbC; case: (_ && _); rewrite ?conjC1 ?conjC0.
have -> : - 1%:M + - 'i *: delta_mx ord0 ord0 - (- 1%:M + 'i *: delta_mx ord0 ord0)
  = (- ('i * 2%:R)) *: delta_mx ord0 ord0 :> 'M[algCnumClosedField]_2.
  by rewrite opprD addrACA subrr add0r -scaleNr -scalerDl -opprD -mulr2n mulr_natr.
rewrite scalerA -scaleNr mxtraceZ.
have -> : \tr (delta_mx ord0 ord0 : 'M[algCnumClosedField]_2) = 1.
  by rewrite /mxtrace !big_ord_recl big_ord0 !mxE /= !addr0.
rewrite !mxE /= !mulr1n !mulr1 mulrN opprK.
have -> : 4%:R^-1 / 2%:R * ('i * 2%:R) = 'i / 4%:R :> algCnumClosedField.
  by rewrite -mulrA [2%:R^-1 * _]mulrC mulrK ?unitfE ?pnatr_eq0 // mulrC.
have half : 'i / 4%:R / 2%:R = 'i / 8%:R :> algCnumClosedField by rewrite -mulrA -invfM -natrM.
have dbl : 'i / 4%:R = 'i / 8%:R + 'i / 8%:R :> algCnumClosedField.
  by rewrite -half -mulr2n -[RHS]mulr_natr [RHS]mulfVK // pnatr_eq0.
by rewrite half [X in X - _]dbl addrK.
Qed.
Print Assumptions C31_force.
Print Assumptions C31_momenta.

(** ** C58: the force is the gradient of the action, in the normalisation of the kinetic energy: along the equations of
    motion dU = P U, dP = - F the total energy does not change to first order. *)
Theorem C58_force_is_gradient (C : numClosedFieldType) (n : nat) (L : lattice) (beta u0 eps : C) (U : gauge C n L)
    (x : L) (mu : 'I_4) (P : 'M[C]_n) :
  beta \is Num.real -> eps \is Num.real -> u0 \is Num.real -> u0 != 0 -> anti_hermitian P -> traceless P ->
  let moved := set_link U x mu (U x mu + eps *: (P *m U x mu)) in
  (extent2 L ->
    let F := gauge_force beta (U x mu) (wilson_staple U x mu) in
    wilson_action beta moved - wilson_action beta U = - (eps * (2%:R * retr (P *m F))) /\
    - retr ((P - eps *: F) *m (P - eps *: F)) - - retr (P *m P) = eps * (2%:R * retr (P *m F)) - eps ^+ 2 * retr (F *m F)) /\
  (extent3 L ->
    let F := gauge_force beta (U x mu) (improved_staple u0 U x mu) in
    symanzik_action beta u0 moved - symanzik_action beta u0 U = - (eps * (2%:R * retr (P *m F)))).
Proof.
move=> bR eR uR u0n ah tl moved; split=> e F.
  split; last exact: kinetic_step.
  by rewrite -!wilson_is_action wilson_change // delta_gradient.
by rewrite -!improved_is_action // improved_change // delta_gradient.
Qed.
Example C58_case : anti_hermitian ('i *: (delta_mx ord0 ord0 - delta_mx ord_max ord_max) : 'M[algCnumClosedField]_2) /\
  traceless ('i *: (delta_mx ord0 ord0 - delta_mx ord_max ord_max) : 'M[algCnumClosedField]_2).
Proof.
split.
  rewrite /anti_hermitian daggerE htransZ conjCi htransB scaleNr; congr (- (_ *: (_ - _)));
  by apply/matrixP => i j; rewrite !mxE andbC; case: (_ && _); rewrite ?conjC1 ?conjC0.
by rewrite /traceless /mxtrace !big_ord_recl big_ord0 !mxE /= !subr0 sub0r mulr1 mulrN1 addr0 subrr.
Qed.
Print Assumptions C58_force_is_gradient.
