(** What the eigensolver and the scalar exponential are required to do, and eigen-decompositions. *)
From mathcomp Require Import all_ssreflect all_algebra.
From Verif Require Import GaugeModel GaugeSpec.
Import GRing.Theory Num.Theory.
Set Implicit Arguments.
Unset Strict Implicit.
Unset Printing Implicit Defensive.
Local Open Scope ring_scope.

Section Spec.
Variable C : numClosedFieldType.
Variable n : nat.
Notation GaugeGroup := 'M[C]_n.
(** Columns of V are orthonormal eigenvectors of A with eigenvalues l. *)
Definition decomposes (A V : GaugeGroup) (l : 'rV[C]_n) : Prop := unitary V /\ A *m V = V *m diag_mx l.
(** The solver diagonalises every anti-Hermitian matrix with orthonormal eigenvectors. *)
Definition good_eig (eig : GaugeGroup -> GaugeGroup * 'rV[C]_n) : Prop :=
  forall A, anti_hermitian A -> decomposes A (eig A).1 (eig A).2.
(** The scalar exponential. *)
Definition good_cexp (e : C -> C) : Prop :=
  [/\ e 0 = 1, forall x y, e (x + y) = e x * e y & forall x, e x^* = (e x)^*].
(** An exponential of the group: Lie algebra to group, commuting with changes of basis. *)
Definition exponential_like (gexp : GaugeGroup -> GaugeGroup) : Prop :=
  (forall A, anti_hermitian A -> traceless A -> special_unitary (gexp A)) /\
  (forall A g, anti_hermitian A -> unitary g -> gexp (g *m A *m dagger g) = g *m gexp A *m dagger g).
End Spec.
