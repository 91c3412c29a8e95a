(** The correlation function of two meson fields on one configuration: the trace of the two propagators between the origin
    and a site, with a matrix in spinor space at each end, summed over a time slice. *)
From mathcomp Require Import all_ssreflect all_algebra.
From Verif Require Import GaugeModel LoopModel DiracModel DiracSpec StochSpec.
Import GRing.Theory Num.Theory.
Set Implicit Arguments.
Unset Strict Implicit.
Unset Printing Implicit Defensive.
Local Open Scope ring_scope.

Section Spec.
Variable C : numClosedFieldType.
Variable n : nat.
Variable G : grid.
Notation field := (G -> 'I_4 -> 'I_n -> C) (only parsing).
Variable S : field -> field.
(** The propagator from site y and colour e to site x and colour c, a matrix in spinor space. *)
Definition prop (x y : G) (c e : 'I_n) : 'M[C]_4 := \matrix_(a, b) element S (x, a, c) (y, b, e).
(** The two fields at x and at o, and the sum over the sites t steps after o in the time direction. *)
Definition two_point (sink source : 'M[C]_4) (x o : G) : C :=
  \sum_c \sum_d \tr (sink *m prop x o d c *m source *m prop o x c d).
Definition correlator (o : G) (sink source : 'M[C]_4) (t : nat) : C :=
  \sum_(x : G | coord x d3 == ((coord o d3 + t) %% ext G d3)%N) two_point sink source x o.
End Spec.

(** Symmetries of the lattice: translations, and a reflection of the time direction. *)
Section Symmetry.
Variable C : numClosedFieldType.
Variable n : nat.
Variable G : grid.
Definition translation (k : 'I_4 -> nat) (x : G) : G :=
  iter (k d0) (sup d0) (iter (k d1) (sup d1) (iter (k d2) (sup d2) (iter (k d3) (sup d3) x))).
Definition translated (k : 'I_4 -> nat) (U : G -> 'I_4 -> 'M[C]_n) : G -> 'I_4 -> 'M[C]_n := fun x mu => U (translation k x) mu.
Definition time_reflection (theta : G -> G) : Prop :=
  forall x, (forall mu, mu != d3 -> coord (theta x) mu = coord x mu) /\ coord (theta x) d3 = ((ext G d3 - coord x d3) %% ext G d3)%N.
Definition reflected (theta : G -> G) (U : G -> 'I_4 -> 'M[C]_n) : G -> 'I_4 -> 'M[C]_n :=
  fun x mu => if mu == d3 then htrans (U (sdn d3 (theta x)) d3) else U (theta x) mu.
End Symmetry.
