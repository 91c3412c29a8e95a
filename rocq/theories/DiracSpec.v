(** The textbook Wilson-Dirac operator, written with sums over the entries of the gamma matrices, and the words of the
    Dirac operator properties. *)
From Coq Require Import ZArith.
From mathcomp Require Import all_ssreflect all_algebra.
From Verif Require Import GaugeModel GaugeSpec GammaModel.
Import GRing.Theory Num.Theory.
Set Implicit Arguments.
Unset Strict Implicit.
Unset Printing Implicit Defensive.
Local Open Scope ring_scope.

Section Spec.
Variable C : numClosedFieldType.
Variable n : nat.
Variable L : lattice.
Notation field := (L -> 'I_4 -> 'I_n -> C) (only parsing).
Implicit Types (U : L -> 'I_4 -> 'M[C]_n) (v w : field) (x : L).

(** The complex number re + i im, and the gamma matrices with the entries of the tables (whose algebra is C40). *)
Definition zc (z : Z) : C := match z with Z0 => 0 | Zpos p => (Pos.to_nat p)%:R | Zneg p => - (Pos.to_nat p)%:R end.
Definition gc (g : gi) : C := zc g.1 + 'i * zc g.2.
Definition gamma (mu : 'I_4) : 'M[C]_4 := \matrix_(a, b) gc (at3 gammamu mu a b).
Definition gamma_five : 'M[C]_4 := \matrix_(a, b) gc (at2 gamma5_table a b).

(** Multiplication by gamma5; the sum over the eight neighbours; the operator 1 - kappa * hopping. *)
Definition g5 v : field := fun x a c => \sum_(b < 4) gamma_five a b * v x b c.
Definition hopping U v : field := fun x a c =>
  \sum_(mu < 4) \sum_(b < 4)
    ((1%:M - gamma mu) a b * (\sum_e U x mu c e * v (sup mu x) b e)
     + (1%:M + gamma mu) a b * (\sum_e (U (sdn mu x) mu e c)^* * v (sdn mu x) b e)).
Definition dirac (kappa : C) U v : field := fun x a c => v x a c - kappa * hopping U v x a c.
(** With the flag gamma5 the operator is multiplied by gamma5 from the left. *)
Definition maybe5 (gamma5 : bool) v : field := if gamma5 then g5 v else v.

(** Equality of fields, scalar product, restriction to a set of sites, rotation in colour space. *)
Definition feq v w : Prop := forall x a c, v x a c = w x a c.
Definition inner v w : C := \sum_x \sum_(a < 4) \sum_c (v x a c)^* * w x a c.
Definition restrict (S : L -> bool) v : field := fun x a c => if S x then v x a c else 0.
Definition rotate (om : L -> 'M[C]_n) v : field := fun x a c => \sum_e om x c e * v x a e.
Definition combine (alpha : C) v w : field := fun x a c => v x a c + alpha * w x a c.
(** The law of multiplyAdd. *)
Definition multiply_add_law (mul : field -> field) (mad : field -> field -> C -> field) : Prop :=
  forall v w alpha, feq (mad v w alpha) (combine alpha (mul v) w).
End Spec.
