(** C75: the fermion force is the gradient of the pseudofermion action. *)
From Coq Require Import List.
From mathcomp Require Import all_ssreflect all_algebra all_field.
From Verif Require Import GaugeModel GaugeSpec GaugeProofs GaugeProofs3 DiracModel DiracSpec AdjModel.
From Verif Require Import FForceModel FForceSpec FForceProofs3 FForceProofs5 FForceWitness.
Import GRing.Theory Num.Theory.
Set Implicit Arguments.
Unset Strict Implicit.
Unset Printing Implicit Defensive.
Local Open Scope ring_scope.

(** For every number of colours, lattice, real kappa, boundary signs, unitary links, momenta in the algebra, and every
    action whose equations are regular: the force computed from the solutions is the gradient of the energy. *)
Theorem C75_gradient (C : numClosedFieldType) (N : nat) (L : lattice) (kappa : C) (flip : L -> 'I_4 -> bool)
    (U P : gauge C N L) action run :
  (0 < N)%N -> kappa \is Num.real -> (forall x mu, unitary (U x mu)) ->
  (forall x mu, anti_hermitian (P x mu)) -> (forall x mu, traceless (P x mu)) ->
  let V := fermion_links (fundamental C N) flip U in
  well_posed kappa V action -> solved kappa V action run ->
  is_gradient kappa (fundamental C N) flip U P action run (nflavor_force (fundamental C N) kappa flip U run).
Proof. by move=> N0 kR uU aP tP V; exact: fundamental_gradient. Qed.
(** The same for fermions in the adjoint representation. *)
Theorem C75_gradient_adjoint (C : numClosedFieldType) (N : nat) (L : lattice) (kappa : C) (flip : L -> 'I_4 -> bool)
    (U P : gauge C N L) action run :
  (0 < N)%N -> kappa \is Num.real -> (forall x mu, unitary (U x mu)) ->
  (forall x mu, anti_hermitian (P x mu)) -> (forall x mu, traceless (P x mu)) ->
  let V := fermion_links (adjoint C N) flip U in
  well_posed kappa V action -> solved kappa V action run ->
  is_gradient kappa (adjoint C N) flip U P action run (nflavor_force (adjoint C N) kappa flip U run).
Proof. by move=> N0 kR uU aP tP V; exact: adjoint_gradient. Qed.
(** The energy reported is the value of the action, phi^+ r(Q^2) phi, which is real. *)
Theorem C75_energy (C : numClosedFieldType) (n : nat) (L : lattice) (kappa : C) (V : L -> 'I_4 -> 'M[C]_n) action run :
  kappa \is Num.real -> well_posed kappa V action -> solved kappa V action run ->
  nflavor_energy run = action_value run.
Proof. by move=> kR wp sv; rewrite energyE; apply/Creal_ReP; exact: action_real wp sv. Qed.
(** Positive shifts make the equations regular, whatever the links. *)
Theorem C75_regular (C : numClosedFieldType) (n : nat) (L : lattice) (kappa b : C) (V : L -> 'I_4 -> 'M[C]_n) :
  kappa \is Num.real -> 0 < b -> regular kappa V b.
Proof. by move=> kR; exact: regular_positive. Qed.
(** Two flavours, when no link has its sign changed (fermion_periodic).  Missing from the claim: antiperiodic boundary
    conditions, the default, where it is false. *)
Theorem C75_two_flavor_partial (C : numClosedFieldType) (N : nat) (L : lattice) (kappa : C)
    (U P : gauge C N L) (phi X Y : L -> 'I_4 -> 'I_N -> C) :
  (0 < N)%N -> kappa \is Num.real -> (forall x mu, unitary (U x mu)) ->
  (forall x mu, anti_hermitian (P x mu)) -> (forall x mu, traceless (P x mu)) ->
  let V := fermion_links (fundamental C N) (fun _ _ => false) U in
  regular kappa V 0 -> two_solves kappa V phi X Y ->
  is_two_flavor_gradient kappa (fundamental C N) (fun _ _ => false) U P phi Y
    (two_flavor_force (fundamental C N) kappa (fun _ _ => false) U X Y).
Proof.
move=> N0 kR uU aP tP V rg sv.
have wp : well_posed kappa V [:: (phi, [:: (1, 0)])] by do 2 (constructor; last constructor); split; rewrite ?real1 ?real0.
apply: (two_of_n kR sv (fundamental_gradient N0 kR uU aP tP wp (two_solved sv))) => x mu.
by rewrite (two_force x mu sv).
Qed.
Theorem C75_two_flavor_adjoint_partial (C : numClosedFieldType) (N : nat) (L : lattice) (kappa : C)
    (U P : gauge C N L) (phi X Y : L -> 'I_4 -> 'I_(N * N - 1) -> C) :
  (0 < N)%N -> kappa \is Num.real -> (forall x mu, unitary (U x mu)) ->
  (forall x mu, anti_hermitian (P x mu)) -> (forall x mu, traceless (P x mu)) ->
  let V := fermion_links (adjoint C N) (fun _ _ => false) U in
  regular kappa V 0 -> two_solves kappa V phi X Y ->
  is_two_flavor_gradient kappa (adjoint C N) (fun _ _ => false) U P phi Y
    (two_flavor_force (adjoint C N) kappa (fun _ _ => false) U X Y).
Proof.
move=> N0 kR uU aP tP V rg sv.
have wp : well_posed kappa V [:: (phi, [:: (1, 0)])] by do 2 (constructor; last constructor); split; rewrite ?real1 ?real0.
apply: (two_of_n kR sv (adjoint_gradient N0 kR uU aP tP wp (two_solved sv))) => x mu.
by rewrite (two_force x mu sv).
Qed.
(** With antiperiodic boundary conditions the two flavour force is not the gradient: one site, two colours. *)
Theorem C75_two_flavor_refuted (C : numClosedFieldType) :
  exists (U P : gauge C 2 (box 0 0 0 0)) (phi X Y : box 0 0 0 0 -> 'I_4 -> 'I_2 -> C),
  let flip := @antiperiodic 0 0 0 0 : box 0 0 0 0 -> 'I_4 -> bool in
  [/\ forall x mu, unitary (U x mu) /\ \det (U x mu) = 1,
      forall x mu, anti_hermitian (P x mu) /\ traceless (P x mu),
      regular 1 (fermion_links (fundamental C 2) flip U) 0,
      two_solves 1 (fermion_links (fundamental C 2) flip U) phi X Y &
      ~ is_two_flavor_gradient 1 (fundamental C 2) flip U P phi Y (two_flavor_force (fundamental C 2) 1 flip U X Y)].
Proof.
exists (@w_links C), (@w_momenta C), (@w_phi C), (@w_X C), (@w_Y C); split.
- by move=> x mu; split; [exact: w_unitary | exact: w_det].
- by move=> x mu; split; [exact: w_anti | exact: w_tr].
- exact: w_regular.
- exact: w_solves.
- exact: w_refuted.
Qed.

(** The links, momenta and antiperiodic signs of the counterexample, with the solution w_X of the equation with shift 1
    and weight 1/2: the hypotheses of the gradient hold and the general action does get the gradient there. *)
Definition case_action : seq ((box 0 0 0 0 -> 'I_4 -> 'I_2 -> algC) * seq (algC * algC)) :=
  [:: (shifted 1 (@w_V _) 1 (@w_X _), [:: (2%:R^-1, 1)])].
Definition case_run : seq ((box 0 0 0 0 -> 'I_4 -> 'I_2 -> algC) * seq (algC * (box 0 0 0 0 -> 'I_4 -> 'I_2 -> algC))) :=
  [:: (shifted 1 (@w_V _) 1 (@w_X _), [:: (2%:R^-1, @w_X _)])].
Example C75_case :
  let flip := @antiperiodic 0 0 0 0 : box 0 0 0 0 -> 'I_4 -> bool in
  [/\ well_posed 1 (@w_V algCnumClosedField) case_action, solved 1 (@w_V algCnumClosedField) case_action case_run &
  is_gradient 1 (fundamental algCnumClosedField 2) flip (@w_links _) (@w_momenta _) case_action case_run
    (nflavor_force (fundamental algCnumClosedField 2) 1 flip (@w_links _) case_run)].
Proof.
have wp : well_posed 1 (@w_V algCnumClosedField) case_action.
  do 2 (constructor; last constructor); split; rewrite ?real1 //= ?realV ?realn //.
  by apply: C75_regular; [exact: real1 | exact: ltr01].
have sv : solved 1 (@w_V algCnumClosedField) case_action case_run by do 2 (constructor; last constructor; split=> //).
split=> //; apply: C75_gradient wp sv => //; [exact: w_unitary | exact: w_anti | exact: w_tr].
Qed.
(** Adjoint fermions on the same links. *)
Definition case_field : box 0 0 0 0 -> 'I_4 -> 'I_(2 * 2 - 1) -> algC := fun x a c => (a + c)%:R + 'i.
Example C75_case_adjoint :
  let flip := @antiperiodic 0 0 0 0 : box 0 0 0 0 -> 'I_4 -> bool in
  let V := fermion_links (adjoint algCnumClosedField 2) flip (@w_links _) in
  let phi := shifted 1 V 1 case_field in
  is_gradient 1 (adjoint algCnumClosedField 2) flip (@w_links _) (@w_momenta _) [:: (phi, [:: (1, 1)])] [:: (phi, [:: (1, case_field)])]
    (nflavor_force (adjoint algCnumClosedField 2) 1 flip (@w_links _) [:: (phi, [:: (1, case_field)])]).
Proof.
move=> flip V phi; apply: C75_gradient_adjoint => //; [exact: w_unitary | exact: w_anti | exact: w_tr | |].
  do 2 (constructor; last constructor); split; rewrite ?real1 //=.
  by apply: C75_regular; [exact: real1 | exact: ltr01].
by do 2 (constructor; last constructor; split=> //).
Qed.
(** Two flavours on trivial links, where the operator is - 7. *)
Example C75_case_two :
  let U : gauge algCnumClosedField 2 (box 0 0 0 0) := fun _ _ => 1%:M in
  let V := fermion_links (fundamental algCnumClosedField 2) (fun _ _ => false) U in
  let X := @w_X algCnumClosedField in let Y := hermitian_dirac 1 V X in let phi := hermitian_dirac 1 V Y in
  regular 1 V 0 /\
  is_two_flavor_gradient 1 (fundamental algCnumClosedField 2) (fun _ _ => false) U (@w_momenta _) phi Y
    (two_flavor_force (fundamental algCnumClosedField 2) 1 (fun _ _ => false) U X Y).
Proof.
move=> U V X Y phi; have rg : regular 1 V 0 by exact: w_trivial_regular.
split=> //; apply: C75_two_flavor_partial => //; [by move=> *; rewrite /U /unitary daggerE htrans1 mulmx1 | exact: w_anti | exact: w_tr].
Qed.
Print Assumptions C75_gradient.
Print Assumptions C75_gradient_adjoint.
Print Assumptions C75_energy.
Print Assumptions C75_regular.
Print Assumptions C75_two_flavor_partial.
Print Assumptions C75_two_flavor_adjoint_partial.
Print Assumptions C75_two_flavor_refuted.
