(** Scalar fields: the action and the Metropolis update, for any number of colours and of fields, over exact complex
    arithmetic.  The adjoint fields and links are real in the code; here they are complex numbers that the theorems
    assume to be real.  Rounding is not modelled. *)
From Coq Require Import ZArith.
From Verif Require Import Base.
From mathcomp Require Import all_ssreflect all_algebra.
From Verif Require Import GaugeModel LoopModel.
Import GRing.Theory Num.Theory.
Set Implicit Arguments.
Unset Strict Implicit.
Unset Printing Implicit Defensive.
Local Open Scope ring_scope.
Delimit Scope Z_scope with coqZ.

Section Scalar.
Variable C : numClosedFieldType.
Variables n m : nat.           (* numberColors and numberColors * numberColors - 1 *)
Variables a f : nat.           (* environment.adjoint_scalar_fields.size(), fundamental_scalar_fields.size() *)
Variable L : lattice.
Variable U : L -> 'I_4 -> 'M[C]_n.    (* env.getFundamentalLattice() *)
Variable R : L -> 'I_4 -> 'M[C]_m.    (* env.getAdjointLattice() *)
Variable gens : seq 'M[C]_m.          (* adjointLieGenerator.get(j) *)

(** actions/ScalarAction.h: the six couplings. *)
Record couplings := Couplings {
  mass_adjoint : C; mass_fundamental : C;
  lambda_fundamental : C; lambda_adjoint : C; lambda_mixed : C; lambda_8 : C }.
Variable g : couplings.

(** environment.adjoint_scalar_fields[i][site] and fundamental_scalar_fields[i][site]. *)
Record scalars := Scalars { adj : {ffun 'I_a * L -> 'cV[C]_m}; fund : {ffun 'I_f * L -> 'cV[C]_n} }.
Implicit Types s : scalars.

(** utils/MatrixToolkit.h 232-238: vector_dot. *)
Definition vdot k (v w : 'cV[C]_k) : C := \sum_(i < k) (v i 0)^* * w i 0.

(** actions/ScalarAction.cpp 11-22 and 24-35: getKineticCoupling of a field at a site. *)
Definition kinetic k (V : L -> 'I_4 -> 'M[C]_k) (phi : L -> 'cV[C]_k) (x : L) : 'cV[C]_k :=
  \sum_(mu < 4) (- (V x mu *m phi (sup mu x)) - htrans (V (sdn mu x) mu) *m phi (sdn mu x)).

(** ScalarAction.cpp 55-79 and 97-121: potentialEnergy of the values of all fields at one site. *)
Definition square_fundamental s (x : L) : C := \sum_(i < f) 'Re (vdot (fund s (i, x)) (fund s (i, x))).
Definition square_adjoint s (x : L) : C := \sum_(i < a) vdot (adj s (i, x)) (adj s (i, x)).
Definition potential s (x : L) : C :=
  let sf := square_fundamental s x in
  let sa := square_adjoint s x in
  let quartic := \sum_(T <- gens)
        let t := \sum_(i < a) 'Re (vdot (adj s (i, x)) (T *m adj s (i, x))) in lambda_8 g / 24%:R * t * t in
  let mass := (mass_adjoint g / 2%:R - 8%:R) * sa + (mass_fundamental g / 2%:R - 8%:R) * sf in
  mass + quartic + lambda_fundamental g / 24%:R * sf * sf + lambda_adjoint g / 24%:R * sa * sa
  + lambda_mixed g / 24%:R * sa * sf.

(** ScalarAction.cpp 39-45, 81-87 and 47-53, 89-95: the local energies, given the kinetic coupling. *)
Definition energy_adjoint s (x : L) (K : 'cV[C]_m) (i : 'I_a) : C := - vdot K (adj s (i, x)) + potential s x.
Definition energy_fundamental s (x : L) (K : 'cV[C]_n) (i : 'I_f) : C := - 'Re (vdot K (fund s (i, x))) + potential s x.

(** ScalarAction.cpp 123-167: energy, the total action.  The sums over the processes are exact. *)
Definition energy s : C :=
  \sum_(i < a) \sum_(mu < 4) \sum_(x : L) \sum_(c < m) adj s (i, x) c 0 * (R x mu *m adj s (i, sup mu x)) c 0
  + \sum_(i < f) \sum_(mu < 4) \sum_(x : L) \sum_(c < n) 'Re ((fund s (i, x) c 0)^* * (U x mu *m fund s (i, sup mu x)) c 0)
  + \sum_(x : L) potential s x.

(** One component of one field at one site: component [c] of the field is increased by the proposal. *)
Definition add_at k (v : 'cV[C]_k) (c : 'I_k) (p : C) : 'cV[C]_k := \col_j if j == c then v j 0 + p else v j 0.
Definition add_adj s (i : 'I_a) (x : L) (c : 'I_m) (p : C) : scalars :=
  Scalars [ffun q => if q == (i, x) then add_at (adj s q) c p else adj s q] (fund s).
Definition add_fund s (i : 'I_f) (x : L) (c : 'I_n) (p : C) : scalars :=
  Scalars (adj s) [ffun q => if q == (i, x) then add_at (fund s q) c p else fund s q].

(** The random numbers: the normal deviates times epsilon, and the uniform deviates.  They are arbitrary functions of
    the site, field, trial and component, so every outcome of the generators is covered; in the code the uniform
    number is drawn only when the energy does not decrease. *)
Variable rexp : C -> C.   (* exp *)
Variables padj uadj : L -> 'I_a -> nat -> 'I_m -> C.
Variables pfund ufund : L -> 'I_f -> nat -> 'I_n -> C.
Variable hits : nat.      (* number_of_hits *)

(** scalar_updaters/MetropolisScalarUpdater.cpp 125-143 and 170-188: the decision. *)
Definition accept (delta u : C) : bool := (delta < 0) || (u < rexp (- delta)).
(** MetropolisScalarUpdater.cpp 113-143: one trial for one component of one adjoint field; the state carries the number
    of accepted proposals. *)
Definition trial_adj (x : L) (i : 'I_a) (K : 'cV[C]_m) (st : scalars * nat) (q : nat * 'I_m) : scalars * nat :=
  let: (s, k) := st in
  let p := padj x i q.1 q.2 in
  let s' := add_adj s i x q.2 p in
  if accept (energy_adjoint s' x K i - energy_adjoint s x K i) (uadj x i q.1 q.2) then (s', k.+1)
  else (add_adj s' i x q.2 (- p), k).
(** MetropolisScalarUpdater.cpp 158-188: the same for a fundamental field. *)
Definition trial_fund (x : L) (i : 'I_f) (K : 'cV[C]_n) (st : scalars * nat) (q : nat * 'I_n) : scalars * nat :=
  let: (s, k) := st in
  let p := pfund x i q.1 q.2 in
  let s' := add_fund s i x q.2 p in
  if accept (energy_fundamental s' x K i - energy_fundamental s x K i) (ufund x i q.1 q.2) then (s', k.+1)
  else (add_fund s' i x q.2 (- p), k).
(** MetropolisScalarUpdater.cpp 105-147 and 149-192: all trials for one field; the kinetic coupling is computed once. *)
Definition trials_adj (x : L) (st : scalars * nat) (i : 'I_a) : scalars * nat :=
  let K := kinetic R (fun y => adj st.1 (i, y)) x in
  foldl (trial_adj x i K) st [seq (t, c) | t <- iota 0 hits, c <- enum 'I_m].
Definition trials_fund (x : L) (st : scalars * nat) (i : 'I_f) : scalars * nat :=
  let K := kinetic U (fun y => fund st.1 (i, y)) x in
  foldl (trial_fund x i K) st [seq (t, c) | t <- iota 0 hits, c <- enum 'I_n].
(** MetropolisScalarUpdater.cpp 104-193: one site. *)
Definition update_site (st : scalars * nat) (x : L) : scalars * nat :=
  foldl (trials_fund x) (foldl (trials_adj x) st (enum 'I_a)) (enum 'I_f).
End Scalar.

(** MetropolisScalarUpdater.cpp 57-203: execute.  [order] is the order in which the loop (or the threads) visits the
    sites; the acceptance rate that is printed is the returned number divided by a constant. *)
Section Execute.
Variable C : numClosedFieldType.
Variables n m a f : nat.
Variable G : grid.
(** (globalIndexX + globalIndexY + globalIndexZ + globalIndexT) % 2. *)
Definition parity (x : G) : nat := ((\sum_(mu < 4) coord x mu) %% 2)%N.
Definition half_sweep (St : Type) (step : St -> G -> St) (order : seq G) (block : nat) (st : St) : St :=
  foldl step st [seq x <- order | parity x == block].
Definition metropolis U R gens g rexp padj uadj pfund ufund hits (cfg_a cfg_f : nat) (order : seq G)
    (s : scalars C n m a f G) : outcome (scalars C n m a f G * nat) :=
  if cfg_a != a then Exit 109%coqZ
  else if cfg_f != f then Exit 107%coqZ
  else
    let step := @update_site C n m a f G U R gens g rexp padj uadj pfund ufund hits in
    Ok (half_sweep step order 1 (half_sweep step order 0 (s, 0%N))).
End Execute.
