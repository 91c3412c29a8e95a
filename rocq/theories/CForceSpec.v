(** The pseudofermion action of any family of operators, one for each configuration of the fermion links, and its gradient;
    the family of the clover operators. *)
From Coq Require Import List.
From mathcomp Require Import all_ssreflect all_algebra.
From Verif Require Import GaugeModel GaugeSpec DiracSpec CloverSpec FForceModel FForceSpec.
Import GRing.Theory Num.Theory.
Set Implicit Arguments.
Unset Strict Implicit.
Unset Printing Implicit Defensive.
Local Open Scope ring_scope.

Section Spec.
Variable C : numClosedFieldType.
Variable n : nat.
Variable L : lattice.
Notation field := (L -> 'I_4 -> 'I_n -> C) (only parsing).
Notation links := (L -> 'I_4 -> 'M[C]_n) (only parsing).
Variable Q : links -> field -> field.
Implicit Types (V : links) (v : field).
(** Q^2 + b, and when its equation has at most one solution. *)
Definition shifted_by V (b : C) v : field := fun x a c => Q V (Q V v) x a c + b * v x a c.
Definition regular_by V b := forall v, feq (shifted_by V b v) (fun _ _ _ => 0) -> feq v (fun _ _ _ => 0).
(** As in FForceSpec.v: the pseudofermions with weights and shifts, and the solutions of their equations. *)
Definition solved_by V (action : seq (field * seq (C * C))) (run : seq (field * seq (C * field))) : Prop :=
  Forall2 (fun p q => q.1 = p.1 /\ Forall2 (fun ab t => t.1 = ab.1 /\ feq (shifted_by V ab.2 t.2) p.1) p.2 q.2) action run.
Definition well_posed_by V (action : seq (field * seq (C * C))) : Prop :=
  Forall (fun p => Forall (fun ab => [/\ ab.1 \is Num.real, ab.2 \is Num.real & regular_by V ab.2]) p.2) action.
(** F is minus half the gradient of the energy: see is_gradient in FForceSpec.v. *)
Definition is_gradient_by N (r : representation C N n) flip (U P : gauge C N L)
    (action : seq (field * seq (C * C))) (run : seq (field * seq (C * field))) (F : gauge C N L) : Prop :=
  exists eps K : C, [/\ 0 < eps, 0 <= K & forall e, e \is Num.real -> `|e| <= eps ->
    let V' := fermion_links r flip (fun x mu => U x mu + e *: (P x mu *m U x mu)) in
    (exists run', solved_by V' action run') /\
    forall run', solved_by V' action run' ->
      `|nflavor_energy run' - nflavor_energy run + e * \sum_x \sum_(mu < 4) 2%:R * retr (P x mu *m F x mu)| <= `|e| ^+ 2 * K].
End Spec.
(** gamma5 times the clover operator. *)
Definition hermitian_clover (C : numClosedFieldType) n (L : lattice) (kappa csw : C) (V : L -> 'I_4 -> 'M[C]_n)
    (v : L -> 'I_4 -> 'I_n -> C) : L -> 'I_4 -> 'I_n -> C := g5 (clover_dirac kappa csw V v).
