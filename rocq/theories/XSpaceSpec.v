(** The words of the properties of the correlators in coordinate space. *)
From Coq Require Import ZArith.
From mathcomp Require Import all_ssreflect all_algebra.
From Verif Require Import GaugeModel LoopModel GammaModel GammaSpec DiracModel DiracSpec StochSpec MesonSpec.
Import GRing.Theory Num.Theory.
Set Implicit Arguments.
Unset Strict Implicit.
Unset Printing Implicit Defensive.
Local Open Scope ring_scope.

Section Spec.
Variable C : numClosedFieldType.
(** The product of the gamma matrices given by the bits of k (GammaSpec), and the Dirac adjoint of a matrix. *)
Definition spin (k : nat) : 'M[C]_4 := \matrix_(a, b) gc C (gproduct k a b).
Definition bar (M : 'M[C]_4) : 'M[C]_4 := gamma C d3 *m htrans M *m gamma C d3.
Variable n : nat.
Variable G : grid.
Notation field := (G -> 'I_4 -> 'I_n -> C) (only parsing).
(** A closed quark line at one site. *)
Definition quark_loop (S : field -> field) (M : 'M[C]_4) (x : G) : C := \sum_c \tr (M *m prop S x x c c).
End Spec.
