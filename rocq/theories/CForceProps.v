(** C81: the force of the improved Wilson operator is the gradient of the pseudofermion action. *)
From Coq Require Import List.
From mathcomp Require Import all_ssreflect all_algebra all_field.
From Verif Require Import GaugeModel GaugeSpec GaugeProofs GaugeProofs2 GaugeProofs3 DiracModel DiracSpec DiracProofs AdjModel CloverModel CloverSpec CloverProofs CloverProofs2.
From Verif Require Import FForceModel FForceSpec FForceProofs2 FForceProofs3 FForceProofs4 FForceProofs5 FForceWitness CloverProps.
From Verif Require Import CForceModel CForceSpec CForceProofs CForceProofs2 CForceProofs3 CForceProofs4 CForceProofs5.
Import GRing.Theory Num.Theory.
Set Implicit Arguments.
Unset Strict Implicit.
Unset Printing Implicit Defensive.
Local Open Scope ring_scope.

(** For every number of colours, lattice, real kappa and csw, boundary signs, unitary links, momenta in the algebra, previous
    state of the operator and of the force object with the same kappa and csw, and every action whose equations are regular:
    updateForce is defined and returns the gradient of the energy of the clover operator. *)
Theorem C81_gradient (C : numClosedFieldType) (N : nat) (L : lattice) (adj : bool) (f : cforce C N L) (o : improved C N L)
    (flip : L -> 'I_4 -> bool) (U P : gauge C N L) action run :
  (0 < N)%N -> im_kappa o \is Num.real -> im_csw o \is Num.real -> im_gamma5 o = true ->
  cf_kappa f = im_kappa o -> cf_csw f = im_csw o -> (forall x mu, unitary (U x mu)) ->
  (forall x mu, anti_hermitian (P x mu)) -> (forall x mu, traceless (P x mu)) ->
  let r := fundamental C N in let Q := @hermitian_clover C N L (im_kappa o) (im_csw o) in
  well_posed_by Q (fermion_links r flip U) action -> solved_by Q (fermion_links r flip U) action run ->
  exists2 F, improved_force r adj f o flip U run = Some F & is_gradient_by Q r flip U P action run F.
Proof. by move=> N0 kR cR g5 fk fc uU aP tP r Q; exact: fundamental_clover_gradient. Qed.
(** The same for fermions in the adjoint representation. *)
Theorem C81_gradient_adjoint (C : numClosedFieldType) (N : nat) (L : lattice) (adj : bool)
    (f : cforce C (N * N - 1) L) (o : improved C (N * N - 1) L) (flip : L -> 'I_4 -> bool) (U P : gauge C N L) action run :
  (0 < N)%N -> im_kappa o \is Num.real -> im_csw o \is Num.real -> im_gamma5 o = true ->
  cf_kappa f = im_kappa o -> cf_csw f = im_csw o -> (forall x mu, unitary (U x mu)) ->
  (forall x mu, anti_hermitian (P x mu)) -> (forall x mu, traceless (P x mu)) ->
  let r := adjoint C N in let Q := @hermitian_clover C (N * N - 1) L (im_kappa o) (im_csw o) in
  well_posed_by Q (fermion_links r flip U) action -> solved_by Q (fermion_links r flip U) action run ->
  exists2 F, improved_force r adj f o flip U run = Some F & is_gradient_by Q r flip U P action run F.
Proof. by move=> N0 kR cR g5 fk fc uU aP tP r Q; exact: adjoint_clover_gradient. Qed.
(** The force is anti-Hermitian and traceless, whatever the links and the solutions. *)
Theorem C81_algebra (C : numClosedFieldType) (N n : nat) (L : lattice) (r : representation C N n) adj (f : cforce C n L) (o : improved C n L)
    (flip : L -> 'I_4 -> bool) (U : gauge C N L) run F : (0 < N)%N ->
  improved_force r adj f o flip U run = Some F -> forall x mu, anti_hermitian (F x mu) /\ traceless (F x mu).
Proof. by move=> N0; exact: improved_algebra. Qed.
(** Positive shifts make the equations regular, whatever the links, and then there are solutions. *)
Theorem C81_regular (C : numClosedFieldType) (n : nat) (L : lattice) (kappa csw b : C) (V : L -> 'I_4 -> 'M[C]_n) :
  kappa \is Num.real -> csw \is Num.real -> 0 < b -> regular_by (@hermitian_clover C n L kappa csw) V b.
Proof. by move=> kR cR; apply: regular_by_positive => v w; exact: clover_dirac_herm. Qed.
Theorem C81_solvable (C : numClosedFieldType) (n : nat) (L : lattice) (kappa csw : C) (V : L -> 'I_4 -> 'M[C]_n) action :
  well_posed_by (@hermitian_clover C n L kappa csw) V action ->
  exists run, solved_by (@hermitian_clover C n L kappa csw) V action run.
Proof. by apply: well_posed_by_run; exact: hermitian_clover_lin. Qed.
(** Without the clover term the force is the one of the Wilson operator. *)
Theorem C81_wilson (C : numClosedFieldType) (N n : nat) (L : lattice) (r : representation C N n) adj (f : cforce C n L) (o : improved C n L)
    (flip : L -> 'I_4 -> bool) (U : gauge C N L) run :
  im_gamma5 o = true -> cf_kappa f = im_kappa o -> cf_csw f = 0 -> im_csw o = 0 ->
  exists2 F, improved_force r adj f o flip U run = Some F & forall x mu, F x mu = nflavor_force r (im_kappa o) flip U run x mu.
Proof. exact: improved_wilson. Qed.
(** The copy constructor loses the arrays: derivative on a copy of a force that has its lattice is undefined. *)
Theorem C81_copy_refuted (C : numClosedFieldType) (n : nat) (L : lattice) (kappa csw : C) (V : L -> 'I_4 -> 'M[C]_n) X Y x mu :
  let f := cf_set_lattice V (cf_make n L kappa csw) in
  (exists D, cf_derivative f V X Y x mu = Some D) /\ cf_derivative (cf_copy f) V X Y x mu = None.
Proof. by split; first by eexists. Qed.

(** Cases: the flux field of CloverProps.v on four sites in every direction, whose field strength is -i in one plane, with
    antiperiodic signs, csw = 2 and momenta diag(i, -i) on the links of direction 0. *)
Notation B := (box 3 3 3 3).
Definition case_links : gauge algCnumClosedField 2 B := flux 2.
Definition case_momenta : gauge algCnumClosedField 2 B := fun x mu => if mu == 0 then w_diag _ else 0.
Definition case_flip : B -> 'I_4 -> bool := @antiperiodic 3 3 3 3.
Definition case_operator (n : nat) : improved algCnumClosedField n B := make_improved (fun _ _ => 1%:M) 1 2%:R true.
Lemma case_unitary x mu : unitary (case_links x mu).
Proof.
rewrite /case_links /flux /unitary daggerE htrans_scalar -scalar_mxM; case: ifP => _; last by rewrite rmorph1 mulr1.
by rewrite phase1.
Qed.
Lemma case_anti x mu : anti_hermitian (case_momenta x mu).
Proof.
rewrite /anti_hermitian daggerE /case_momenta; case: ifP => _; first exact: w_diag_h.
by rewrite oppr0; apply/matrixP => i j; rewrite !mxE conjC0.
Qed.
Lemma case_traceless x mu : traceless (case_momenta x mu).
Proof.
rewrite /traceless /case_momenta; case: ifP => _; last by rewrite mxtrace0.
by rewrite mxtrace_diag !big_ord_recl big_ord0 !mxE /w_phase /= addr0 subrr.
Qed.
(** One pseudofermion with weight one half and shift one; X is the solution. *)
Definition case_run n (Q : (B -> 'I_4 -> 'M[algC]_n) -> (B -> 'I_4 -> 'I_n -> algC) -> B -> 'I_4 -> 'I_n -> algC) V (X : B -> 'I_4 -> 'I_n -> algC)
    : seq ((B -> 'I_4 -> 'I_n -> algC) * seq (algC * (B -> 'I_4 -> 'I_n -> algC))) :=
  [:: (@shifted_by algCnumClosedField n B Q V 1 X, [:: (2%:R^-1, X)])].
Definition case_action n Q V (X : B -> 'I_4 -> 'I_n -> algC) : seq ((B -> 'I_4 -> 'I_n -> algC) * seq (algC * algC)) :=
  [:: (@shifted_by algCnumClosedField n B Q V 1 X, [:: (2%:R^-1, 1)])].
Lemma case_posed n V X : let Q := @hermitian_clover algCnumClosedField n B 1 2%:R in
  well_posed_by Q V (case_action Q V X) /\ solved_by Q V (case_action Q V X) (case_run Q V X).
Proof.
split; last by do 2 (constructor; last constructor; split=> //).
do 2 (constructor; last constructor); split; rewrite ?real1 //= ?realV ?realn //.
by apply: C81_regular; [exact: real1 | exact: realn | exact: ltr01].
Qed.
Definition case_site : B := (ord0, ord0, ord0, ord0).
Definition case_X n : B -> 'I_4 -> 'I_n -> algC := fun x a c => (a + c)%:R + 'i * (x == case_site)%:R.
Example C81_case : let r := fundamental algCnumClosedField 2 in let V := fermion_links r case_flip case_links in
  let Q := @hermitian_clover algCnumClosedField 2 B 1 2%:R in let run := case_run Q V (@case_X 2) in
  field_strength case_links case_site d0 d1 != 0 /\
  exists2 F, improved_force r false (get_force (case_operator 2)) (case_operator 2) case_flip case_links run = Some F
    & is_gradient_by Q r case_flip case_links case_momenta (case_action Q V (@case_X 2)) run F.
Proof.
move=> r V Q run; split.
  have := flux_strength 2 case_site i0; rewrite updateE strength_flow /case_links => -> /=.
  by apply/negP => /eqP /matrixP /(_ 0 0); rewrite !mxE eqxx mulr1n => /eqP; rewrite oppr_eq0 (negPf (neq0Ci _)).
have [wp sv] := case_posed V (@case_X 2).
exact: (@C81_gradient algCnumClosedField 2 B false (get_force (case_operator 2)) (case_operator 2) case_flip case_links case_momenta _ _
  isT (real1 _) (realn _ _) erefl erefl erefl case_unitary case_anti case_traceless wp sv).
Qed.
(** Adjoint fermions on the same links; a generic operator with another previous lattice. *)
Example C81_case_adjoint : let r := adjoint algCnumClosedField 2 in let V := fermion_links r case_flip case_links in
  let Q := @hermitian_clover algCnumClosedField (2 * 2 - 1) B 1 2%:R in let run := case_run Q V (@case_X (2 * 2 - 1)) in
  exists2 F, improved_force r true (get_force (case_operator (2 * 2 - 1))) (case_operator (2 * 2 - 1)) case_flip case_links run = Some F
    & is_gradient_by Q r case_flip case_links case_momenta (case_action Q V (@case_X (2 * 2 - 1))) run F.
Proof.
move=> r V Q run; have [wp sv] := case_posed V (@case_X (2 * 2 - 1)).
exact: (@C81_gradient_adjoint algCnumClosedField 2 B true (get_force (case_operator (2 * 2 - 1))) (case_operator (2 * 2 - 1)) case_flip case_links case_momenta _ _
  isT (real1 _) (realn _ _) erefl erefl erefl case_unitary case_anti case_traceless wp sv).
Qed.
(** The force of the Wilson operator on the same links. *)
Example C81_case_wilson : let r := fundamental algCnumClosedField 2 in let o := set_csw 0 (case_operator 2) in
  let run := [:: (@case_X 2, [:: (1, @case_X 2)])] in
  exists2 F, improved_force r false (get_force o) o case_flip case_links run = Some F
    & (forall x mu, F x mu = nflavor_force r 1 case_flip case_links run x mu) /\ forall x mu, traceless (F x mu).
Proof.
move=> r o run; have [F E h] := @C81_wilson algCnumClosedField 2 2 B r false (get_force o) o case_flip case_links run erefl erefl erefl erefl.
by exists F => //; split=> // x mu; have [] := @C81_algebra algCnumClosedField 2 2 B r false (get_force o) o case_flip case_links run F isT E x mu.
Qed.
Print Assumptions C81_gradient.
Print Assumptions C81_gradient_adjoint.
Print Assumptions C81_algebra.
Print Assumptions C81_regular.
Print Assumptions C81_solvable.
Print Assumptions C81_wilson.
Print Assumptions C81_copy_refuted.
