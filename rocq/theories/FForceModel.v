(** The fermion force of the hybrid Monte Carlo (hmc_forces/FermionForce.cpp, DiracWilsonFermionForce.cpp) and the two
    pseudofermion actions using it (actions/NFlavorFermionAction.cpp, actions/TwoFlavorFermionAction.cpp), over exact
    complex arithmetic, for any number of colours and any periodic lattice.  The solutions of the Dirac equations are
    inputs: the solvers are the subject of the Solver files.  Fields are their values at every site; the halo updates of
    the force are the subject of the Halo files.  Stout smearing of the fermion links is off (smearing_levels == 0). *)
From Coq Require Import ZArith.
From mathcomp Require Import all_ssreflect all_algebra.
From Verif Require Import GaugeModel GammaModel DiracModel DiracSpec AdjModel.
Import GRing.Theory Num.Theory.
Set Implicit Arguments.
Unset Strict Implicit.
Unset Printing Implicit Defensive.
Local Open Scope ring_scope.

Section FForce.
Variable C : numClosedFieldType.
Variable n : nat.            (* diracVectorLength *)
Variable L : lattice.
Notation colour := ('I_n -> C) (only parsing).
Notation field := (L -> 'I_4 -> 'I_n -> C) (only parsing).
Notation links := (L -> 'I_4 -> 'M[C]_n) (only parsing).
Implicit Types (V F : links) (X Y : field) (x : L) (mu : 'I_4).

(** hmc_forces/FermionForce.cpp 22-31: tensor. *)
Definition tensor (u w : colour) : 'M[C]_n := \matrix_(i, j) (w i * (u j)^*).
(** hmc_forces/DiracWilsonFermionForce.cpp 17-21 (and 26-30, 38-42, 47-51): the sum over beta into tmp; gc is the complex
    number of a table entry. *)
Definition spin_sum (table : table3) (kappa : C) mu (alpha : 'I_4) (w : 'I_4 -> colour) : colour := fun c =>
  \sum_(beta < 4 | gc C (at3 table mu alpha beta) != 0) - kappa * gc C (at3 table mu alpha beta) * w beta c.
(** hmc_forces/DiracWilsonFermionForce.cpp 15-32: the first two loops over alpha, starting from the matrix [force]; 36-52
    repeat them with X and Y exchanged. *)
Definition derivative_half (kappa : C) V X Y x mu (force : 'M[C]_n) : 'M[C]_n :=
  force + (\sum_(alpha < 4) tensor (X x alpha) (spin_sum gamma5_id_minus_gamma kappa mu alpha (Y (sup mu x))))
  - (\sum_(alpha < 4) tensor (mulv (V x mu) (X (sup mu x) alpha))
       (spin_sum gamma5_id_plus_gamma kappa mu alpha (fun beta => mulv (htrans (V x mu)) (Y x beta)))).
(** hmc_forces/DiracWilsonFermionForce.cpp 10-55: derivative at one link. *)
Definition wilson_derivative (kappa : C) V X Y x mu : 'M[C]_n :=
  derivative_half kappa V Y X x mu (derivative_half kappa V X Y x mu 0).
(** hmc_forces/FermionForce.cpp 11-20: derivative on the whole lattice, subtracted from fermionForce. *)
Definition add_derivative (kappa : C) V (F : links) X Y (weight : C) : links :=
  fun x mu => F x mu - weight *: wilson_derivative kappa V X Y x mu.
(** One rational approximation: the pseudofermion, and for every weight the solution X of its shifted equation. *)
Notation part := (field * seq (C * field))%type (only parsing).
(** actions/NFlavorFermionAction.cpp 85-96, diracOperator->multiply with gamma5, and 47-74: derivative. *)
Definition nflavor_derivative (kappa : C) V (run : seq part) : links :=
  foldl (fun F (p : part) =>
    foldl (fun F (t : C * field) => add_derivative kappa V F t.2 (wilson_multiply kappa true V t.2 t.2) t.1) F p.2)
    (fun _ _ => 0) run.
(** actions/NFlavorFermionAction.cpp 103-133: the signs of the boundary conditions; [flip] tells the links multiplied by
    minus one (C24 shows, on the arrays of each process, that they are those of the fermion links). *)
Definition flip_links (flip : L -> 'I_4 -> bool) (F : links) : links := fun x mu => if flip x mu then - F x mu else F x mu.
(** actions/NFlavorFermionAction.cpp 193-207: energy; dirac_functions/RationalApproximation.cpp evaluate computes the sum
    of the solutions. *)
Definition nflavor_energy (run : seq part) : C :=
  \sum_(p <- run) 'Re (dot p.1 (fun x a c => \sum_(t <- p.2) t.1 * t.2 x a c)).
End FForce.

Section Force.
Variable C : numClosedFieldType.
Variable N : nat.            (* numberColors *)
Variable n : nat.            (* diracVectorLength *)
Variable L : lattice.
(** The fermionic link of a gauge link and the generators in the representation of the fermions. *)
Record representation := Representation { rep_link : 'M[C]_N -> 'M[C]_n; rep_gen : nat -> 'M[C]_n }.
Variable r : representation.
Implicit Types (U : gauge C N L) (flip : L -> 'I_4 -> bool).
(** Environment.h 26-62 without open boundary conditions: getFermionLattice. *)
Definition fermion_links flip U : L -> 'I_4 -> 'M[C]_n := flip_links flip (fun x mu => rep_link r (U x mu)).
(** hmc_forces/FermionForce.cpp 33-54: force; the two branches of ADJOINT differ in the link and the generators. *)
Definition fermion_force (link : 'M[C]_N) (derivative : 'M[C]_n) : 'M[C]_N :=
  \sum_(i < N * N - 1) (- 'i * 'Im (\tr (derivative *m rep_gen r i *m rep_link r link))) *: (generators C N)`_i.
(** actions/NFlavorFermionAction.cpp 76-158 (smearing_levels == 0) and 43-45: updateForce. *)
Definition nflavor_force (kappa : C) flip U run : gauge C N L :=
  fun x mu => fermion_force (U x mu) (flip_links flip (nflavor_derivative kappa (fermion_links flip U) run) x mu).
(** actions/TwoFlavorFermionAction.cpp 16-19 and 21-40: updateForce; Y solves D Y = phi and X solves D X = Y. *)
Definition two_flavor_force (kappa : C) flip U (X Y : L -> 'I_4 -> 'I_n -> C) : gauge C N L :=
  fun x mu => - fermion_force (U x mu) (wilson_derivative kappa (fermion_links flip U) X Y x mu).
End Force.
(** actions/TwoFlavorFermionAction.cpp 42-50: energy. *)
Definition two_flavor_energy (C : numClosedFieldType) n (L : lattice) (Y : L -> 'I_4 -> 'I_n -> C) : C := squared_norm Y.
(** hmc_forces/FermionForce.cpp 45-53 and 34-44. *)
Definition fundamental (C : numClosedFieldType) N : representation C N N := Representation id (nth 0 (generators C N)).
Definition adjoint (C : numClosedFieldType) N : representation C N (N * N - 1) := Representation (@to_adjoint C N) (adjoint_generator C N).
