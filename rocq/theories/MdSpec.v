(** What the statements about the integrators speak about. *)
From mathcomp Require Import all_ssreflect all_algebra.
From Verif Require Import GaugeModel GaugeSpec MdModel.
Import GRing.Theory Num.Theory.
Set Implicit Arguments.
Unset Strict Implicit.
Unset Printing Implicit Defensive.
Local Open Scope ring_scope.
Section Spec.
Variable C : numClosedFieldType.
Variable n : nat.
Variable L : lattice.
Notation state := (state C n L).
Notation force := (force C n L).
Notation levels := (levels C n L).
(** The same links and momenta everywhere. *)
Definition same (s s' : state) : Prop := forall x mu, links s x mu = links s' x mu /\ momenta s x mu = momenta s' x mu.
(** Flipping the momenta. *)
Definition flip (s : state) : state := State (links s) (fun x mu => - momenta s x mu) (force_lattice s).
(** A force depends on the values of the links only, and its values are anti-Hermitian and traceless. *)
Definition good_force (f : force) : Prop :=
  (forall U V, (forall x mu, U x mu = V x mu) -> forall x mu, f U x mu = f V x mu) /\
  (forall U x mu, anti_hermitian (f U x mu) /\ traceless (f U x mu)).
(** Momenta in the Lie algebra. *)
Definition good_state (s : state) : Prop := forall x mu, anti_hermitian (momenta s x mu) /\ traceless (momenta s x mu).
(** All forces of a nesting are good, and all constants are real. *)
Definition good_levels (lv : levels) : Prop := forall l, List.In l lv -> good_force l.1.
Definition good_integrator (i : integrator C) : Prop :=
  match i with
  | SecondOrder => True
  | FourthOrder r => r \is Num.real
  | SixthOrder r q => r \is Num.real /\ q \is Num.real
  | Omelyan l => l \is Num.real
  | FourthOmelyan th rh mu l => [/\ th \is Num.real, rh \is Num.real, mu \is Num.real & l \is Num.real]
  end.
(** The constants of the composed integrators are the roots of two. *)
Definition nonsingular (i : integrator C) : Prop :=
  match i with
  | FourthOrder r => r ^+ 3 = 2%:R
  | SixthOrder r q => r ^+ 3 = 2%:R /\ q ^+ 5 = 2%:R
  | _ => True
  end.
End Spec.
