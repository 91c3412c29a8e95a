(** What a minimal residual method promises. *)
From mathcomp Require Import all_ssreflect all_algebra.
Import GRing.Theory Num.Theory.
Set Implicit Arguments.
Unset Strict Implicit.
Unset Printing Implicit Defensive.
Local Open Scope ring_scope.

Section Spec.
Variable C : numClosedFieldType.
Variable m : nat.
(** The squared norm of the residual of M x = b. *)
Definition residual2 (M : 'M[C]_m) (b x : 'cV[C]_m) : C := \sum_i `|(b - M *m x) i ord0| ^+ 2.
(** M^i r. *)
Definition power_on (M : 'M[C]_m) (r : 'cV[C]_m) (i : nat) : 'cV[C]_m := iter i (mulmx M) r.
(** x0 + p(M) (b - M x0) for the polynomial p with the given coefficients. *)
Definition krylov (M : 'M[C]_m) (b x0 : 'cV[C]_m) (k : nat) (p : 'I_k -> C) : 'cV[C]_m :=
  x0 + \sum_(i < k) p i *: power_on M (b - M *m x0) i.
(** The Hermitian part of M is positive definite. *)
Definition positive_part (M : 'M[C]_m) : Prop :=
  forall v : 'cV[C]_m, v != 0 -> 0 < 'Re (\sum_i (v i ord0)^* * (M *m v) i ord0).
End Spec.
