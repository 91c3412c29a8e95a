(** C78: the scalar action and its force. *)
From mathcomp Require Import all_ssreflect all_algebra all_field.
From Verif Require Import GaugeModel GaugeSpec GaugeProofs GaugeProofs2 GaugeProofs3 AdjModel AdjProofs5.
From Verif Require Import FForceModel FForceProofs4 FForceProofs5.
From Verif Require Import ScalarModel ScalarSpec ScalarProofs SForceModel SForceSpec SForceProofs SForceProofs2.
Import GRing.Theory Num.Theory.
Set Implicit Arguments.
Unset Strict Implicit.
Unset Printing Implicit Defensive.
Local Open Scope ring_scope.

(** For every number of colours and of scalar fields, every periodic lattice, unitary links, momenta in the algebra, and
    couplings: the force is the gradient of the energy. *)
Theorem C78_gradient (C : numClosedFieldType) (N a f : nat) (L : lattice) (g : couplings C) (U P : gauge C N L)
    (s : scalars C N (N * N - 1) a f L) :
  (0 < N)%N -> (forall x mu, unitary (U x mu)) -> (forall x mu, anti_hermitian (P x mu)) ->
  (forall x mu, traceless (P x mu)) -> real_adjoint s ->
  is_scalar_gradient (fun V => scalar_energy g V s) U P (update_force U s).
Proof. by move=> N0; exact: gradient. Qed.
(** The two ways to get the force of a link agree, and it is in the algebra. *)
Theorem C78_forces_agree (C : numClosedFieldType) (N a f : nat) (L : lattice) (U : gauge C N L) (s : scalars C N (N * N - 1) a f L) x mu :
  (0 < N)%N -> update_force U s x mu = site_force U s x mu.
Proof. by move=> N0; exact: force_same. Qed.
Theorem C78_algebra (C : numClosedFieldType) (N a f : nat) (L : lattice) (U : gauge C N L) (s : scalars C N (N * N - 1) a f L) x mu :
  (0 < N)%N -> anti_hermitian (update_force U s x mu) /\ traceless (update_force U s x mu).
Proof. by move=> N0; exact: force_algebra. Qed.
(** The energy is the action of matrix valued fields: masses and three quartic couplings. *)
Theorem C78_matrix_action (C : numClosedFieldType) (N a f : nat) (L : lattice) (ma mf lf la lm l8 : C) (U : gauge C N L)
    (s : scalars C N (N * N - 1) a f L) :
  (0 < N)%N -> (forall x mu, unitary (U x mu)) -> real_adjoint s ->
  scalar_energy (Couplings ma mf lf la lm l8) U s = matrix_action ma mf lf la lm U s.
Proof. by move=> N0; exact: energy_matrix_action. Qed.
(** The fourth quartic coupling, lambda_8, has no effect: its term is the square of the expectation value of an
    antisymmetric matrix in a real vector. *)
Theorem C78_lambda_8_refuted (C : numClosedFieldType) (N a f : nat) (L : lattice) (ma mf lf la lm l8 l8' : C) (U : gauge C N L)
    (s : scalars C N (N * N - 1) a f L) :
  (0 < N)%N -> (forall x mu, unitary (U x mu)) -> real_adjoint s ->
  scalar_energy (Couplings ma mf lf la lm l8) U s = scalar_energy (Couplings ma mf lf la lm l8') U s.
Proof. by move=> N0 uU rs; rewrite !energy_matrix_action. Qed.
(** Gauge invariance. *)
Theorem C78_invariant (C : numClosedFieldType) (N a f : nat) (L : lattice) (g : couplings C) (om : L -> 'M[C]_N) (U : gauge C N L)
    (s s' : scalars C N (N * N - 1) a f L) :
  (0 < N)%N -> (forall x mu, unitary (U x mu)) -> (forall x, unitary (om x)) -> real_adjoint s -> real_adjoint s' ->
  rotated om s s' -> scalar_energy g (gauge_transform om U) s' = scalar_energy g U s.
Proof. by move=> N0; exact: energy_invariant. Qed.
(** Several actions: their energies add up and the force is the gradient of the sum, unless there is no action. *)
Theorem C78_multi (C : numClosedFieldType) (N a f : nat) (L : lattice) (gs : seq (couplings C)) (U P old : gauge C N L)
    (s : scalars C N (N * N - 1) a f L) :
  (0 < N)%N -> gs <> [::] -> (forall x mu, unitary (U x mu)) -> (forall x mu, anti_hermitian (P x mu)) ->
  (forall x mu, traceless (P x mu)) -> real_adjoint s ->
  is_scalar_gradient (fun V => \sum_(g <- gs) scalar_energy g V s) U P (multi_update_force gs U s old)
  /\ multi_energy gs U s = \sum_(g <- gs) scalar_energy g U s
  /\ forall x mu, multi_update_force gs U s old x mu = multi_site_force gs U s x mu.
Proof.
move=> N0 ne uU aP tP rs; split; last first.
  by split=> [|x mu]; rewrite ?multi_energyE // multi_updateE // multi_siteE force_same.
have [K K0 H] := multi_gradient N0 old ne uU aP tP rs; exists K => // e eR; have := H e eR.
by rewrite !multi_energyE.
Qed.
(** With no action updateForce leaves the old values in the force. *)
Theorem C78_multi_empty_refuted (C : numClosedFieldType) (N a f : nat) (L : lattice) (U : gauge C N.+1 L)
    (s : scalars C N.+1 (N.+1 * N.+1 - 1) a f L) x mu :
  exists old : gauge C N.+1 L, multi_update_force [::] U s old x mu <> multi_site_force [::] U s x mu.
Proof. by exists (fun _ _ => 1%:M) => /matrixP /(_ ord0 ord0); rewrite !mxE => /eqP; rewrite oner_eq0. Qed.

(** One adjoint and two fundamental fields on a lattice of 4 x 3 x 2 x 5 sites, three colours, non-zero momenta. *)
Definition case_state : scalars algCnumClosedField 3 (3 * 3 - 1) 1 2 (box 3 2 1 4) :=
  Scalars [ffun q : 'I_1 * box 3 2 1 4 => \col_c (c + (q.2.2 : 'I_5))%:R] [ffun q : 'I_2 * box 3 2 1 4 => \col_c ('i *+ (c + q.1 + (q.2.2 : 'I_5)))].
Definition case_momenta : gauge algCnumClosedField 3 (box 3 2 1 4) := fun _ _ => 'i *: (delta_mx ord0 ord0 - delta_mx ord_max ord_max).
Lemma case_anti x mu : anti_hermitian (case_momenta x mu) /\ traceless (case_momenta x mu).
Proof.
split; first by apply/matrixP => i j; rewrite !mxE rmorphM rmorphB !rmorph_nat /= conjCi mulNr ![(j == _) && _]andbC.
by rewrite /traceless /mxtrace !big_ord_recl big_ord0 !mxE /= !(subr0, subrr, mulr0, sub0r, mulr1, addr0, add0r) mulrN1 subrr.
Qed.
Example C78_case (g : couplings algCnumClosedField) :
  [/\ real_adjoint case_state, (forall (x : box 3 2 1 4) (mu : 'I_4), unitary (1%:M : 'M[algCnumClosedField]_3)),
      case_momenta (ord0, ord0, ord0, ord0) ord0 <> 0 &
      is_scalar_gradient (fun V => scalar_energy g V case_state) (fun _ _ => 1%:M) case_momenta (update_force (fun _ _ => 1%:M) case_state)].
Proof.
have rs : real_adjoint case_state by move=> i x c; rewrite ffunE mxE realn.
have u1 (x : box 3 2 1 4) (mu : 'I_4) : unitary (1%:M : 'M[algCnumClosedField]_3) by exact: unitary1.
split=> //.
  move=> /matrixP /(_ ord0 ord0); rewrite !mxE /= subr0 mulr1 => /eqP; by rewrite (negPf (neq0Ci _)).
by apply: C78_gradient => // x mu; have [] := case_anti x mu.
Qed.
(** The force is not zero: one fundamental field, 1 and i at neighbouring sites. *)
Definition case_pair : scalars algCnumClosedField 2 (2 * 2 - 1) 0 1 (box 1 0 0 0) :=
  Scalars [ffun=> 0] [ffun q : 'I_1 * box 1 0 0 0 => \col_c (if c == ord0 then (if (q.2.1.1.1 : 'I_2) == ord0 then 1 else 'i) else 0)].
Definition case_origin : box 1 0 0 0 := (ord0, ord0, ord0, ord0).
Example C78_case_force :
  update_force (fun _ _ => 1%:M) case_pair case_origin ord0 <> 0.
Proof.
move=> E; pose P : 'M[algCnumClosedField]_2 := 'i *: (delta_mx ord0 ord0 - delta_mx ord_max ord_max).
have aP : anti_hermitian P.
  by apply/matrixP => i j; rewrite !mxE rmorphM rmorphB !rmorph_nat /= conjCi mulNr ![(j == _) && _]andbC.
have tP : traceless P by rewrite /traceless /mxtrace !big_ord_recl big_ord0 !mxE /= !(subr0, subrr, mulr0, sub0r, mulr1, addr0, add0r) mulrN1 subrr.
have := @trace_force _ _ _ (isT : (0 < 2)%N) (fundamental algCnumClosedField 2) P 1%:M
  (fund case_pair (ord0, sup ord0 case_origin) *m htrans (fund case_pair (ord0, case_origin))) aP.
have F := forceE (isT : (0 < 2)%N) (fun _ _ => 1%:M) case_pair case_origin ord0.
move: F; rewrite E big_ord0 add0r big_ord1 => <-.
rewrite mulmx0 /retr mxtrace0 raddf0 mulr0 fund_algebra // mulmx1 -mulmxA mxtrace_mulC /mxtrace big_ord1.
rewrite !mxE big_ord_recl big_ord1 !mxE !ffunE !mxE.
rewrite !big_ord_recl !big_ord0 !mxE /= !(conjC1, conjC0, mul1r, mul0r, addr0, mulr0, subr0, mulr1).
have -> : (cyc_up ord0 == ord0 :> 'I_2) = false by apply/eqP; exact: cyc_up_neq.
rewrite -expr2 sqrCi.
rewrite raddfN /= Re_real ?real1 // opprK => /eqP; by rewrite eq_sym oner_eq0.
Qed.

Print Assumptions C78_gradient.
Print Assumptions C78_forces_agree.
Print Assumptions C78_algebra.
Print Assumptions C78_matrix_action.
Print Assumptions C78_lambda_8_refuted.
Print Assumptions C78_invariant.
Print Assumptions C78_multi.
Print Assumptions C78_multi_empty_refuted.
