(** The words of the properties of MinResModel.v. *)
From mathcomp Require Import all_ssreflect all_algebra.
From Verif Require Import SolverModel SolverSpec.
Import GRing.Theory Num.Theory.
Set Implicit Arguments.
Unset Strict Implicit.
Unset Printing Implicit Defensive.
Local Open Scope ring_scope.

Section Spec.
Variable C : numClosedFieldType.
Variable m : nat.
(** The result for a shift is a solution of (A + shift) x = b within the precision. *)
Definition solved (A : 'cV[C]_m -> 'cV[C]_m) (epsilon : C) (b : 'cV[C]_m) (shift : C) (o : option 'cV[C]_m) : Prop :=
  exists2 x, o = Some x & residual_norm (shifted A shift) b x < epsilon.
(** <v, A v> >= 0. *)
Definition nonnegative_op (A : 'cV[C]_m -> 'cV[C]_m) : Prop := forall v, 0 <= scalar_product v (A v).
(** mu |v|^2 <= <v, A v> and |A v|^2 <= Lambda |v|^2. *)
Definition spectrum_within (A : 'cV[C]_m -> 'cV[C]_m) (mu Lambda : C) : Prop :=
  forall v, mu * scalar_product v v <= scalar_product v (A v) /\ scalar_product (A v) (A v) <= Lambda * scalar_product v v.
End Spec.
