(** C55 and C67: the generators and the adjoint representation, for every number of colours. *)
From mathcomp Require Import all_ssreflect all_algebra all_field.
From Verif Require Import GaugeModel GaugeSpec GaugeProofs GaugeProofs2 AdjTables AdjModel AdjSpec AdjProofs5.
Import GRing.Theory Num.Theory.
Set Implicit Arguments.
Unset Strict Implicit.
Unset Printing Implicit Defensive.
Local Open Scope ring_scope.

Section Props.
Variable C : numClosedFieldType.
Variable N : nat.
Hypothesis N0 : (0 < N)%N.
Implicit Types U V : 'M[C]_N.

(** The generators are a basis of the traceless Hermitian matrices, orthonormal for twice the trace. *)
Theorem C55_generators : su_basis (generators C N).
Proof. exact: basis. Qed.
(** Tables and loops all compute the trace formula, for every matrix. *)
Theorem C55_tables U (i j : 'I_(N * N - 1)) :
  to_adjoint U i j = 2%:R * 'Re (\tr ((generators C N)`_i *m U *m (generators C N)`_j *m dagger U)).
Proof. exact: adjoint_entry. Qed.
(** The adjoint link is the matrix of conjugation with the fundamental link. *)
Theorem C55_action U : unitary U -> acts_as (generators C N) U (to_adjoint U).
Proof. exact: adjoint_acts. Qed.
(** Products go to products, the identity to the identity, inverses to transposes. *)
Theorem C55_homomorphism U V : unitary U -> unitary V ->
  [/\ to_adjoint (U *m V) = to_adjoint U *m to_adjoint V, to_adjoint (1%:M : 'M[C]_N) = 1%:M
    & to_adjoint (dagger U) = (to_adjoint U)^T].
Proof. by move=> HU HV; split; [exact: adjointM | exact: adjoint1 | exact: adjointH]. Qed.
(** Unitary links become real orthogonal matrices, and their trace is the squared modulus less one. *)
Theorem C55_orthogonal U : unitary U -> real_orthogonal (to_adjoint U).
Proof. exact: adjoint_orthogonal. Qed.
Theorem C55_character U : unitary U -> \tr (to_adjoint U) = `|\tr U| ^+ 2 - 1.
Proof. exact: adjoint_trace. Qed.
(** On the lattice: products along any path, and gauge transformations. *)
Theorem C55_paths (L : lattice) (U : gauge C N L) x p : (forall y mu, unitary (U y mu)) ->
  transport (convert U) x p = to_adjoint (transport U x p).
Proof. exact: adjoint_transport. Qed.
Theorem C55_covariance (L : lattice) (om : L -> 'M[C]_N) (U : gauge C N L) x mu :
  (forall y, unitary (om y)) -> (forall y nu, unitary (U y nu)) ->
  convert (fun y nu => om y *m U y nu *m dagger (om (sup nu y))) x mu
  = to_adjoint (om x) *m convert U x mu *m dagger (to_adjoint (om (sup mu x))).
Proof.
move=> Ho HU; have := adjoint_gauge N0 x mu Ho HU; rewrite /gauge_transform daggerE => <-.
by rewrite /convert daggerE.
Qed.

(** The adjoint generators are the matrices of the commutators, hence obey the same algebra. *)
Theorem C67_commutators (i : nat) : (i < N * N - 1)%N ->
  commutes_as (generators C N) (generators C N)`_i (adjoint_generator C N i).
Proof. exact: adjgen_commutes. Qed.
Theorem C67_algebra (i j : 'I_(N * N - 1)) :
  adjoint_generator C N i *m adjoint_generator C N j - adjoint_generator C N j *m adjoint_generator C N i
  = \sum_(k < N * N - 1) adjoint_generator C N i k j *: adjoint_generator C N k.
Proof. exact: adjgen_lie. Qed.
End Props.

(** A link of two colours that is not a multiple of the identity. *)
Definition link_case : 'M[algCnumClosedField]_2 := \matrix_(i, j) (if i == j then (if i == ord0 then 'i else - 'i) else 0).
Example C55_case : unitary link_case /\ to_adjoint link_case (@Ordinal 3 0 isT) (@Ordinal 3 0 isT) = - 1.
Proof.
split.
  apply/matrixP => i j; rewrite !mxE (bigD1 i) //= big1 ?addr0; last first.
    by move=> k Hk; rewrite mxE eq_sym (negbTE Hk) mul0r.
  rewrite !mxE eqxx [j == i]eq_sym; case: (altP (i =P j)) => [<-|_]; last by rewrite conjC0 mulr0.
  by case: ifP => _; rewrite ?rmorphN /= conjCi ?opprK ?mulrN ?mulNr -expr2 sqrCi ?opprK.
rewrite mxE /= /at_re /at_im.
pose k0 := @Ordinal 2 0 isT; pose k1 := @Ordinal 2 1 isT.
have a (x y : 'I_2) : at_ link_case x y = link_case x y by rewrite /at_ !valK.
have -> : at_ link_case 0 0 = 'i by rewrite (a k0 k0) mxE.
have -> : at_ link_case 0 1 = 0 by rewrite (a k0 k1) mxE.
have -> : at_ link_case 1 0 = 0 by rewrite (a k1 k0) mxE.
have -> : at_ link_case 1 1 = - 'i by rewrite (a k1 k1) mxE.
by rewrite !raddfN /= !raddf0 Re_i Im_i ?(mul0r, add0r, addr0, mul1r, oppr0).
Qed.
(** The generators of three colours that do not commute. *)
Example C67_case : adjoint_generator algCnumClosedField 3 0 (@Ordinal 8 3 isT) (@Ordinal 8 6 isT) = - 'i
  /\ adjoint_generator algCnumClosedField 3 0 != 0.
Proof.
have E : adjoint_generator algCnumClosedField 3 0 (@Ordinal 8 3 isT) (@Ordinal 8 6 isT) = - 'i by rewrite mxE.
split=> //; apply/eqP => /matrixP /(_ (@Ordinal 8 3 isT) (@Ordinal 8 6 isT)); rewrite E mxE => /eqP.
by rewrite oppr_eq0 (negbTE (neq0Ci _)).
Qed.

Print Assumptions C55_generators.
Print Assumptions C55_tables.
Print Assumptions C55_action.
Print Assumptions C55_homomorphism.
Print Assumptions C55_orthogonal.
Print Assumptions C55_character.
Print Assumptions C55_paths.
Print Assumptions C55_covariance.
Print Assumptions C67_commutators.
Print Assumptions C67_algebra.
