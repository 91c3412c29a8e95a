(** What the pseudofermion action is: the Hermitian Wilson operator, the shifted equations and their solutions. *)
From Coq Require Import List.
From mathcomp Require Import all_ssreflect all_algebra.
From Verif Require Import GaugeModel GaugeSpec DiracSpec FForceModel.
Import GRing.Theory Num.Theory.
Set Implicit Arguments.
Unset Strict Implicit.
Unset Printing Implicit Defensive.
Local Open Scope ring_scope.

Section Spec.
Variable C : numClosedFieldType.
Variable n : nat.
Variable L : lattice.
Notation field := (L -> 'I_4 -> 'I_n -> C) (only parsing).
Notation links := (L -> 'I_4 -> 'M[C]_n) (only parsing).
Variable k : C.
Implicit Types (V : links) (v : field).
(** Q = gamma5 (1 - kappa hopping) and Q^2 + b. *)
Definition hermitian_dirac V v : field := g5 (dirac k V v).
Definition shifted V (b : C) v : field := fun x a c => hermitian_dirac V (hermitian_dirac V v) x a c + b * v x a c.
(** The shifted equation has at most one solution. *)
Definition regular V b := forall v, feq (shifted V b v) (fun _ _ _ => 0) -> feq v (fun _ _ _ => 0).
(** An action is a list of pseudofermions phi, each with a rational function, the list of its weights a and shifts b:
    S = sum over phi and over (a, b) of a phi^+ (Q^2 + b)^-1 phi.  A run has, in the same order, the weights together
    with the solutions. *)
Definition solved V (action : seq (field * seq (C * C))) (run : seq (field * seq (C * field))) : Prop :=
  Forall2 (fun p q => q.1 = p.1 /\ Forall2 (fun ab t => t.1 = ab.1 /\ feq (shifted V ab.2 t.2) p.1) p.2 q.2) action run.
Definition action_value (run : seq (field * seq (C * field))) : C :=
  \sum_(q <- run) \sum_(t <- q.2) t.1 * inner q.1 t.2.
(** All the weights and shifts are real and all the equations regular. *)
Definition well_posed V (action : seq (field * seq (C * C))) : Prop :=
  Forall (fun p => Forall (fun ab => [/\ ab.1 \is Num.real, ab.2 \is Num.real & regular V ab.2]) p.2) action.
End Spec.
(** The links whose sign is changed by antiperiodic boundary conditions in time, on a periodic box. *)
Definition antiperiodic (a b c d : nat) (x : box_site a b c d) (mu : 'I_4) : bool := (mu == 3 :> nat)%N && (x.2 == d :> nat)%N.
(** F is minus half the gradient of the energy reported by the action: when every link is moved to U + e P U, the
    equations still have solutions for small real e, and whichever solutions are used the energy changes by
    - e times the sum of 2 Re tr (P F), up to second order. *)
Definition is_gradient (C : numClosedFieldType) N n (L : lattice) (kappa : C) (r : representation C N n) flip (U P : gauge C N L)
    (action : seq ((L -> 'I_4 -> 'I_n -> C) * seq (C * C))) (run : seq ((L -> 'I_4 -> 'I_n -> C) * seq (C * (L -> 'I_4 -> 'I_n -> C))))
    (F : gauge C N L) : Prop :=
  exists eps K : C, [/\ 0 < eps, 0 <= K & forall e, e \is Num.real -> `|e| <= eps ->
    let V' := fermion_links r flip (fun x mu => U x mu + e *: (P x mu *m U x mu)) in
    (exists run', solved kappa V' action run') /\
    forall run', solved kappa V' action run' ->
      `|nflavor_energy run' - nflavor_energy run + e * \sum_x \sum_(mu < 4) 2%:R * retr (P x mu *m F x mu)| <= `|e| ^+ 2 * K].
(** The two equations of the two flavour action, and the same bound for its energy. *)
Definition two_solves (C : numClosedFieldType) n (L : lattice) (kappa : C) (V : L -> 'I_4 -> 'M[C]_n) (phi X Y : L -> 'I_4 -> 'I_n -> C) :=
  feq (hermitian_dirac kappa V Y) phi /\ feq (hermitian_dirac kappa V X) Y.
Definition is_two_flavor_gradient (C : numClosedFieldType) N n (L : lattice) (kappa : C) (r : representation C N n) flip
    (U P : gauge C N L) (phi Y : L -> 'I_4 -> 'I_n -> C) (F : gauge C N L) : Prop :=
  exists eps K : C, [/\ 0 < eps, 0 <= K & forall e, e \is Num.real -> `|e| <= eps ->
    let V' := fermion_links r flip (fun x mu => U x mu + e *: (P x mu *m U x mu)) in
    (exists X' Y', two_solves kappa V' phi X' Y') /\
    forall X' Y', two_solves kappa V' phi X' Y' ->
      `|two_flavor_energy Y' - two_flavor_energy Y + e * \sum_x \sum_(mu < 4) 2%:R * retr (P x mu *m F x mu)| <= `|e| ^+ 2 * K].
