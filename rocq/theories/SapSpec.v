(** What the Schwarz procedure is for: exact block solvers and the residual of an equation. *)
From mathcomp Require Import all_ssreflect all_algebra.
From Verif Require Import GaugeModel DiracSpec LoopModel.
Import GRing.Theory Num.Theory.
Set Implicit Arguments.
Unset Strict Implicit.
Unset Printing Implicit Defensive.
Local Open Scope ring_scope.

Section Spec.
Variable C : numClosedFieldType.
Variable n : nat.
Variable L : lattice.
Notation field := (L -> 'I_4 -> 'I_n -> C) (only parsing).
(** solve returns a solution of B y = v for every v. *)
Definition exact_solver (B solve : field -> field) : Prop := forall v, feq (B (solve v)) v.
(** The equation D y = b holds at the site x. *)
Definition holds_at (D : field -> field) (y b : field) (x : L) : Prop := forall a c, D y x a c = b x a c.
(** A site whose neighbours are all in the set. *)
Definition interior (S : L -> bool) (x : L) : Prop := S x /\ forall mu, S (sup mu x) /\ S (sdn mu x).
End Spec.
(** The block of a site is the vector of the integer parts of its coordinates divided by the block sizes. *)
Definition same_block (G : grid) (size : 'I_4 -> nat) (x y : G) : Prop :=
  forall mu, (coord x mu %/ size mu)%N = (coord y mu %/ size mu)%N.
