(** Words for the even-odd preconditioning of the clover operator. *)
From mathcomp Require Import all_ssreflect all_algebra.
From Verif Require Import GaugeModel GaugeSpec LoopModel DiracSpec CloverSpec.
Import GRing.Theory Num.Theory.
Set Implicit Arguments.
Unset Strict Implicit.
Unset Printing Implicit Defensive.
Local Open Scope ring_scope.

Section Spec.
Variable C : numClosedFieldType.
Variable n : nat.
Variable G : grid.
Notation field := (G -> 'I_4 -> 'I_n -> C) (only parsing).
Implicit Types (U : G -> 'I_4 -> 'M[C]_n) (v w : field) (x : G).

Definition even_site x : bool := ~~ odd (\sum_(mu < 4) coord x mu)%N.
Definition even_extents : Prop := forall mu, ~~ odd (ext G mu).
(** The part of the clover operator that stays at a site, and that it is invertible at the even sites. *)
Definition diagonal_part (kappa csw : C) U v : field := fun x a c => v x a c + kappa * csw * clover_term U v x a c.
Definition regular_diagonal (kappa csw : C) U : Prop := forall v x, even_site x ->
  (forall a c, diagonal_part kappa csw U v x a c = 0) -> forall a c, v x a c = 0.
(** The clover operator has no zero mode. *)
Definition regular_operator (kappa csw : C) U : Prop := forall v,
  feq (clover_dirac kappa csw U v) (fun _ _ _ => 0) -> feq v (fun _ _ _ => 0).
(** The even components are eliminated: [w] is [v] at the odd sites and the operator gives zero at the even ones. *)
Definition eliminated (kappa csw : C) U v w : Prop :=
  (forall x a c, ~~ even_site x -> w x a c = v x a c) /\
  (forall x a c, even_site x -> clover_dirac kappa csw U w x a c = 0).
(** What is left at the odd sites, with gamma5 by the flag there, and the vector itself at the even sites. *)
Definition reduced_operator (kappa csw : C) (gamma5 : bool) U v w : field := fun x a c =>
  if even_site x then v x a c else maybe5 gamma5 (clover_dirac kappa csw U w) x a c.
End Spec.
