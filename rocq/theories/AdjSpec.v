(** What generators and the adjoint representation are, independently of how the code computes them. *)
From mathcomp Require Import all_ssreflect all_algebra.
From Verif Require Import GaugeModel GaugeSpec.
Import GRing.Theory Num.Theory.
Set Implicit Arguments.
Unset Strict Implicit.
Unset Printing Implicit Defensive.
Local Open Scope ring_scope.

Section AdjSpec.
Variable C : numClosedFieldType.
Definition hermitian N (A : 'M[C]_N) := forall i j, A i j = (A j i)^*.
(** A basis of the traceless Hermitian matrices, orthonormal for twice the trace of the product. *)
Definition su_basis N (G : seq 'M[C]_N) :=
  [/\ size G = (N * N - 1)%N,
      forall T, T \in G -> hermitian T /\ \tr T = 0,
      forall a b, (a < N * N - 1)%N -> (b < N * N - 1)%N -> \tr (G`_a *m G`_b) = (a == b)%:R / 2%:R
    & forall H : 'M[C]_N, \tr H = 0 -> exists c : 'I_(N * N - 1) -> C, H = \sum_a c a *: G`_a].
(** R is the matrix of the map H -> U H U^+ in that basis. *)
Definition acts_as N (G : seq 'M[C]_N) (U : 'M[C]_N) (R : 'M[C]_(N * N - 1)) :=
  forall j : 'I_(N * N - 1), U *m G`_j *m dagger U = \sum_i R i j *: G`_i.
Definition real_orthogonal k (R : 'M[C]_k) :=
  [/\ forall i j, R i j \is Num.real, R *m R^T = 1%:M & R^T *m R = 1%:M].
(** A is the matrix of the map H -> [T, H] in that basis. *)
Definition commutes_as N (G : seq 'M[C]_N) (T : 'M[C]_N) (A : 'M[C]_(N * N - 1)) :=
  forall j : 'I_(N * N - 1), T *m G`_j - G`_j *m T = \sum_i A i j *: G`_i.
End AdjSpec.
