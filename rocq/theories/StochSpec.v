(** The words of the properties of the stochastic estimators: the unit fields, the trace of an operator, and averages over
    equally likely outcomes. *)
From Coq Require Import ZArith.
From mathcomp Require Import all_ssreflect all_algebra.
From Verif Require Import GaugeModel GammaModel GammaSpec DiracSpec.
Import GRing.Theory Num.Theory.
Set Implicit Arguments.
Unset Strict Implicit.
Unset Printing Implicit Defensive.
Local Open Scope ring_scope.

(** The average of f over all the elements of a finite set, and its mean square distance from a number. *)
Definition average (C : numClosedFieldType) (T : finType) (f : T -> C) : C := (\sum_t f t) / #|T|%:R.
Definition spread (C : numClosedFieldType) (T : finType) (f : T -> C) : C := average (fun t => `|f t - average f| ^+ 2).

Section Spec.
Variable C : numClosedFieldType.
Variable n : nat.
Variable L : lattice.
Notation field := (L -> 'I_4 -> 'I_n -> C) (only parsing).
Notation T := [finType of L * 'I_4 * 'I_n].
Implicit Types (A D S : field -> field) (v : field).

(** The field that is one in one component, the matrix elements and the trace of an operator. *)
Definition unit_field (j : T) : field := fun x a c => ((x, a, c) == j)%:R.
Definition element A (i j : T) : C := A (unit_field j) i.1.1 i.1.2 i.2.
Definition trace_of A : C := \sum_j element A j j.
(** The trace over a set of components. *)
Definition trace_on (P : pred T) A : C := \sum_(j | P j) element A j j.
(** The product of the gamma matrices given by the bits of k (GammaSpec) acting on a field; the hopping part D - 1. *)
Definition spin_product (k : nat) v : field := fun x a c => \sum_(b < 4) gc C (gproduct k a b) * v x b c.
Definition minus_one D v : field := fun x a c => D v x a c - v x a c.
(** An operator on fields that is linear; one that solves the equations of another. *)
Definition linear_on A : Prop :=
  (forall v w, feq v w -> feq (A v) (A w)) /\
  (forall alpha v w, feq (A (combine alpha v w)) (combine alpha (A v) (A w))).
Definition solves D S : Prop := forall v, feq (D (S v)) v.
End Spec.
