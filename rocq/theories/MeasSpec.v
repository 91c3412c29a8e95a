(** Vocabulary for the measurements: averages over finite sets and symmetries of a lattice. *)
From mathcomp Require Import all_ssreflect all_algebra.
From Verif Require Import GaugeModel GaugeSpec.
Import GRing.Theory Num.Theory.
Set Implicit Arguments.
Unset Strict Implicit.
Unset Printing Implicit Defensive.
Local Open Scope ring_scope.

(** The average of [f] over the elements that satisfy [Q]. *)
Definition average (C : numClosedFieldType) (F : finType) (Q : pred F) (f : F -> C) : C :=
  (\sum_(i | Q i) f i) / #|Q|%:R.

(** A symmetry of the lattice: it maps the step in direction mu to the step in direction sg mu and keeps the time. *)
Definition symmetry (L : lattice) (nt : nat) (time : L -> 'I_nt) (rho : L -> L) (sg : 'I_4 -> 'I_4) : Prop :=
  injective rho /\ injective sg /\ (forall mu x, sup (sg mu) (rho x) = rho (sup mu x)) /\
  (forall x, time (rho x) = time x) /\ (forall mu : 'I_4, nat_of_ord mu = 3%N -> sg mu = mu).
(** The configuration seen after the symmetry. *)
Definition turned (C : numClosedFieldType) (n : nat) (L : lattice) (rho : L -> L) (sg : 'I_4 -> 'I_4)
    (U : L -> 'I_4 -> 'M[C]_n) : L -> 'I_4 -> 'M[C]_n := fun x mu => U (rho x) (sg mu).
