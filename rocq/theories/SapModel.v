(** The Schwarz alternating procedure: dirac_operators/ComplementBlockDiracOperator.cpp and SAPPreconditioner.cpp, over
    exact complex arithmetic.  The solutions of the block equations by GMRESR are functions of the source; fields are
    their values at every site, so updateHalo is the identity (the subject of the Halo files), and the adaptive choice of
    the precision (SAPPreconditioner.cpp 12-14) only concerns those functions. *)
From mathcomp Require Import all_ssreflect all_algebra.
From Verif Require Import GaugeModel DiracModel.
Import GRing.Theory Num.Theory.
Set Implicit Arguments.
Unset Strict Implicit.
Unset Printing Implicit Defensive.
Local Open Scope ring_scope.

Section Sap.
Variable C : numClosedFieldType.
Variable n : nat.
Variable L : lattice.
Notation field := (L -> 'I_4 -> 'I_n -> C) (only parsing).
(** ComplementBlockDiracOperator.cpp 26-63: multiply; [solveR] and [solveB] are gmresr->solve for the red and the black
    block operator, [red] and [black] their index lattices. *)
Definition complement_multiply (D solveR solveB : field -> field) (red black : L -> bool) (input : field) : field :=
  let tmp1 := block_project red (solveR input) in
  let tmp2 : field := fun x a c => input x a c - D tmp1 x a c in
  let output := block_project black (solveB tmp2) in
  fun x a c => output x a c + tmp1 x a c.
(** SAPPreconditioner.cpp 10-29: multiply. *)
Definition sap_multiply (D K : field -> field) (steps : nat) (input : field) : field :=
  iter steps (fun output : field => fun x a c => output x a c - K (D output) x a c + K input x a c) input.
End Sap.
