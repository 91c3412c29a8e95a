(** Words for the properties of the multigrid solvers. *)
From mathcomp Require Import all_ssreflect all_algebra.
From Verif Require Import GmresSpec.
Import GRing.Theory Num.Theory.
Set Implicit Arguments.
Unset Strict Implicit.
Unset Printing Implicit Defensive.
Local Open Scope ring_scope.

Section Spec.
Variable C : numClosedFieldType.
Variable m : nat.
(** A call has solved M x = b within the precision if it began with a residual that was not below it and ended with one
    that is. *)
Definition has_solved (M : 'M[C]_m) (b start x : 'cV[C]_m) (precision : C) : bool :=
  ~~ (residual2 M b start < precision) && (residual2 M b x < precision).
(** The vector a solver starts from. *)
Definition first_guess (precision : C) (b : 'cV[C]_m) (guess : option 'cV[C]_m) : 'cV[C]_m :=
  if guess is Some g then g else if precision < \sum_i `|b i ord0| ^+ 2 then b else 0.
(** D + i mu G, and (G D)^2 + sigma. *)
Definition twisted_matrix (D G : 'M[C]_m) (mu : C) : 'M[C]_m := D + ('i * mu) *: G.
Definition shifted_square (D G : 'M[C]_m) (sigma : C) : 'M[C]_m := G *m D *m (G *m D) + sigma%:M.
(** Lambda bounds the square of the norm of M. *)
Definition square_bound (M : 'M[C]_m) (Lambda : C) : Prop :=
  forall v : 'cV[C]_m, \sum_i `|(M *m v) i ord0| ^+ 2 <= Lambda * \sum_i `|v i ord0| ^+ 2.
End Spec.
