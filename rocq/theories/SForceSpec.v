(** The scalar action in matrix notation, its gradient and gauge transformations of the scalar fields. *)
From mathcomp Require Import all_ssreflect all_algebra.
From Verif Require Import GaugeModel GaugeSpec AdjModel ScalarModel.
Import GRing.Theory Num.Theory.
Set Implicit Arguments.
Unset Strict Implicit.
Unset Printing Implicit Defensive.
Local Open Scope ring_scope.

Section Spec.
Variable C : numClosedFieldType.
Variable N : nat.
Variables a f : nat.
Variable L : lattice.
Notation d := (N * N - 1)%N.
Notation state := (scalars C N d a f L).
Implicit Types (U P F : gauge C N L) (s : state).

(** An adjoint field is the Hermitian matrix Phi = sum of phi_c T_c, and a fundamental field a column. *)
Definition matrix_field s (k : 'I_a) (x : L) : 'M[C]_N := \sum_(c < d) adj s (k, x) c 0 *: (generators C N)`_c.
(** 2 tr Phi^2 and phi^+ phi, summed over the fields at a site. *)
Definition adjoint_square s x : C := \sum_(k < a) 2%:R * \tr (matrix_field s k x *m matrix_field s k x).
Definition fundamental_square s x : C := \sum_(k < f) \sum_(c < N) `|fund s (k, x) c 0| ^+ 2.
(** 2 tr Phi(x) U Phi(x+mu) U^+ and Re phi(x)^+ U phi(x+mu). *)
Definition hop_adjoint U s x mu : C :=
  \sum_(k < a) 2%:R * 'Re (\tr (matrix_field s k x *m (U x mu *m matrix_field s k (sup mu x) *m dagger (U x mu)))).
Definition hop_fundamental U s x mu : C :=
  \sum_(k < f) 'Re (\tr (dagger (fund s (k, x)) *m (U x mu *m fund s (k, sup mu x)))).
(** The action with masses, and quartic couplings of the fundamental, the adjoint and both fields. *)
Definition matrix_action ma mf lf la lm U s : C :=
  \sum_x (\sum_(mu < 4) (hop_adjoint U s x mu + hop_fundamental U s x mu)
    + (ma / 2%:R - 8%:R) * adjoint_square s x + (mf / 2%:R - 8%:R) * fundamental_square s x
    + (lf * fundamental_square s x ^+ 2 + la * adjoint_square s x ^+ 2 + lm * (adjoint_square s x * fundamental_square s x)) / 24%:R).

(** F is minus half the gradient of the energy: when every link is moved to U + e P U the energy changes by - e times the
    sum of 2 Re tr (P F), up to second order. *)
Definition is_scalar_gradient (energy : gauge C N L -> C) U P F : Prop :=
  exists2 K : C, 0 <= K & forall e, e \is Num.real ->
    `|energy (fun x mu => U x mu + e *: (P x mu *m U x mu)) - energy U
      + e * \sum_x \sum_(mu < 4) 2%:R * retr (P x mu *m F x mu)| <= `|e| ^+ 2 * K.

(** The gauge transformation of the fields: Phi -> om Phi om^+ and phi -> om phi. *)
Definition rotated (om : L -> 'M[C]_N) s s' : Prop :=
  (forall k x, matrix_field s' k x = om x *m matrix_field s k x *m dagger (om x)) /\
  (forall k x, fund s' (k, x) = om x *m fund s (k, x)).
End Spec.
