(** Molecular dynamics: the integrators of hmc_integrators and the HMC step, for any number of colours. *)
From mathcomp Require Import all_ssreflect all_algebra.
From Verif Require Import GaugeModel ExpModel.
Import GRing.Theory Num.Theory.
Set Implicit Arguments.
Unset Strict Implicit.
Unset Printing Implicit Defensive.
Local Open Scope ring_scope.

Section Md.
Variable C : numClosedFieldType.
Variable n : nat.
Notation GaugeGroup := 'M[C]_n.
Variable L : lattice.
Notation gauge := (gauge C n L).
(** The matrix updatenew of updateLinkConfiguration: exp(epsilon * momentum). *)
Variable lexp : C -> GaugeGroup -> GaugeGroup.

(** env.gaugeLinkConfiguration, momenta and the member forceLattice of the integrator. *)
Record state := State { links : gauge; momenta : gauge; force_lattice : gauge }.
(** A Force: updateForce computes the force field from the links (hmc_forces/Force.cpp). *)
Definition force := gauge -> gauge.
Definition update_force (f : force) (s : state) : state := State (links s) (momenta s) (f (links s)).
(** hmc_integrators/Integrate.cpp 72-80: updateMomenta. *)
Definition update_momenta (epsilon : C) (s : state) : state :=
  State (links s) (fun x mu => momenta s x mu - epsilon *: force_lattice s x mu) (force_lattice s).
(** hmc_integrators/Integrate.cpp 20-53: updateLinkConfiguration. *)
Definition update_links (epsilon : C) (s : state) : state :=
  State (fun x mu => lexp epsilon (momenta s x mu) *m links s x mu) (momenta s) (force_lattice s).
(** The vectors force and numberSteps, taken of the same length. *)
Definition levels := seq (force * nat).

(** hmc_integrators/LeapFrog.cpp 51-90 (vector of forces) and 9-40 (one force): the body, with the step length and what moves the
    links: updateLinkConfiguration or the nested integrator. *)
Definition leapfrog_body (f : force) (numberSteps : nat) (step : C) (nested : C -> state -> state) (s : state) : state :=
  let s := update_momenta (step / 2%:R) (update_force f s) in
  let s := iter numberSteps.-1 (fun s => update_momenta step (update_force f (nested step s))) s in
  update_momenta (step / 2%:R) (update_force f (nested step s)).
(** hmc_integrators/OmelyanLeapFrog.cpp 74-149 (vector of forces) and 11-65 (one force): the body; lambda is the constant
    0.19318332275037863 of lines 75 and 12. *)
Definition omelyan_body (lambda : C) (f : force) (numberSteps : nat) (step : C) (nested : C -> state -> state) (s : state) : state :=
  let s := update_momenta (lambda * step) (update_force f s) in
  let s := nested (step / 2%:R) s in
  let s := update_momenta ((1 - 2%:R * lambda) * step) (update_force f s) in
  let s := nested (step / 2%:R) s in
  let s := iter numberSteps.-1 (fun s =>
    let s := update_momenta (2%:R * lambda * step) (update_force f s) in
    let s := nested (step / 2%:R) s in
    let s := update_momenta ((1 - 2%:R * lambda) * step) (update_force f s) in
    nested (step / 2%:R) s) s in
  update_momenta (lambda * step) (update_force f s).
(** hmc_integrators/FourthOmelyanLeapFrog.cpp 88-183 (vector of forces) and 12-78 (one force): the body; the constants are
    theta = 0.083983152628, rho = 0.2539785108410595, mu = -0.03230286765269967, lambda = 0.6822365335719091. *)
Definition fourth_omelyan_body (theta rho mu lambda : C) (f : force) (numberSteps : nat) (step : C) (nested : C -> state -> state)
    (s : state) : state :=
  iter numberSteps (fun s =>
    let s := nested (theta * step) s in
    let s := update_momenta (rho * step) (update_force f s) in
    let s := nested (lambda * step) s in
    let s := update_momenta (mu * step) (update_force f s) in
    let s := nested ((1 - 2%:R * (lambda + theta)) * step / 2%:R) s in
    let s := update_momenta ((1 - 2%:R * (mu + rho)) * step) (update_force f s) in
    let s := nested ((1 - 2%:R * (lambda + theta)) * step / 2%:R) s in
    let s := update_momenta (mu * step) (update_force f s) in
    let s := nested (lambda * step) s in
    let s := update_momenta (rho * step) (update_force f s) in
    nested (theta * step) s) s.

(** hmc_integrators/LeapFrog.cpp 47-91, from forceIndex on; the empty list stands for the branch forceIndex + 1 == force.size(). *)
Fixpoint leapfrog_from (lv : levels) (t_length : C) (s : state) : state :=
  match lv with
  | [::] => update_links t_length s
  | (f, numberSteps) :: rest => leapfrog_body f numberSteps (t_length / numberSteps%:R) (leapfrog_from rest) s
  end.
(** hmc_integrators/OmelyanLeapFrog.cpp 68-150. *)
Fixpoint omelyan_from (lambda : C) (lv : levels) (t_length : C) (s : state) : state :=
  match lv with
  | [::] => update_links t_length s
  | (f, numberSteps) :: rest => omelyan_body lambda f numberSteps (t_length / numberSteps%:R) (omelyan_from lambda rest) s
  end.
(** hmc_integrators/FourthOmelyanLeapFrog.cpp 81-185. *)
Fixpoint fourth_omelyan_from (theta rho mu lambda : C) (lv : levels) (t_length : C) (s : state) : state :=
  match lv with
  | [::] => update_links t_length s
  | (f, numberSteps) :: rest =>
    fourth_omelyan_body theta rho mu lambda f numberSteps (t_length / numberSteps%:R) (fourth_omelyan_from theta rho mu lambda rest) s
  end.
(** hmc_integrators/FourthOrderLeapFrog.cpp 18-24; cbrt2 is pow(2., 1./3.). *)
Definition fourth_order_from (cbrt2 : C) (lv : levels) (t_length : C) (s : state) : state :=
  let b1 := 1 / (2%:R - cbrt2) in
  let b2 := - cbrt2 / (2%:R - cbrt2) in
  let s := leapfrog_from lv (b1 * t_length) s in
  let s := leapfrog_from lv (b2 * t_length) s in
  leapfrog_from lv (b1 * t_length) s.
(** hmc_integrators/SixthOrderLeapFrog.cpp 18-24; fifth2 is pow(2., 1./5.). *)
Definition sixth_order_from (cbrt2 fifth2 : C) (lv : levels) (t_length : C) (s : state) : state :=
  let b1 := 1 / (2%:R - fifth2) in
  let b2 := - fifth2 / (2%:R - fifth2) in
  let s := fourth_order_from cbrt2 lv (b1 * t_length) s in
  let s := fourth_order_from cbrt2 lv (b2 * t_length) s in
  fourth_order_from cbrt2 lv (b1 * t_length) s.

(** hmc_integrators/Integrate.cpp 55-70: the names of getInstance, with the constants of each class. *)
Inductive integrator :=
| SecondOrder
| FourthOrder (cbrt2 : C)
| SixthOrder (cbrt2 fifth2 : C)
| Omelyan (lambda : C)
| FourthOmelyan (theta rho mu lambda : C).
Definition integrate_from (i : integrator) : levels -> C -> state -> state :=
  match i with
  | SecondOrder => leapfrog_from
  | FourthOrder cbrt2 => fourth_order_from cbrt2
  | SixthOrder cbrt2 fifth2 => sixth_order_from cbrt2 fifth2
  | Omelyan lambda => omelyan_from lambda
  | FourthOmelyan theta rho mu lambda => fourth_omelyan_from theta rho mu lambda
  end.
(** Is the result of the C++ function a finite configuration? An empty vector is read out of range. A level with zero steps
    divides by zero and, except for fourth_omelyan whose loop body then never runs, uses the infinite step. *)
Definition defined (i : integrator) (lv : levels) : bool :=
  ~~ nilp lv && (if i is FourthOmelyan _ _ _ _ then true else all (fun l => 0 < l.2)%N lv).
Definition integrate (i : integrator) (lv : levels) (t_length : C) (s : state) : option state :=
  if defined i lv then Some (integrate_from i lv t_length s) else None.

(** The variants for one force. hmc_integrators/LeapFrog.cpp 9-41: the last argument is the step and not the length; a
    numberSteps of zero or less makes one step. *)
Definition leapfrog_single (f : force) (numberSteps : nat) (step : C) (s : state) : state :=
  leapfrog_body f numberSteps step update_links s.
(** hmc_integrators/OmelyanLeapFrog.cpp 9-66 and FourthOmelyanLeapFrog.cpp 9-79: the step is stored in an int; trunc is the
    conversion from double to int. *)
Definition omelyan_single (trunc : C -> C) (lambda : C) (f : force) (numberSteps : nat) (t_length : C) (s : state) : state :=
  omelyan_body lambda f numberSteps (trunc (t_length / numberSteps%:R)) update_links s.
Definition fourth_omelyan_single (trunc : C -> C) (theta rho mu lambda : C) (f : force) (numberSteps : nat) (t_length : C) (s : state) : state :=
  fourth_omelyan_body theta rho mu lambda f numberSteps (trunc (t_length / numberSteps%:R)) update_links s.
End Md.

Section Hmc.
Variable C : numClosedFieldType.
(** std::exp on real numbers. *)
Variable rexp : C -> C.
(** hmc_updaters/HMCUpdater.cpp 74-87: the decision on the output process; uniform is the value of randomUniform(). *)
Definition decide (uniform energyOld energyNew : C) : nat :=
  let delta := energyNew - energyOld in
  if delta < 0 then 1%N else if uniform < rexp (- delta) then 1%N else 0%N.
(** hmc_updaters/HMCUpdater.cpp 102-115: the same for a probability. *)
Definition decide_value (uniform value : C) : nat :=
  if 1 < value then 1%N else if uniform < value then 1%N else 0%N.
(** hmc_updaters/HMCUpdater.cpp 73-100: metropolis on p + 1 processes, each with its own energies and its own random number;
    the variable decision before the broadcast, the broadcast from process 0, and the returned value. *)
Definition local_decision (p : nat) (uniform energyOld energyNew : 'I_p.+1 -> C) (r : 'I_p.+1) : nat :=
  if r == ord0 then decide (uniform r) (energyOld r) (energyNew r) else 0%N.
Definition bcast (A : Type) (p : nat) (v : 'I_p.+1 -> A) : 'I_p.+1 -> A := fun _ => v ord0.
Definition metropolis (p : nat) (uniform energyOld energyNew : 'I_p.+1 -> C) (r : 'I_p.+1) : bool :=
  bcast (local_decision uniform energyOld energyNew) r != 0%N.
(** hmc_updaters/PureGaugeHMCUpdater.cpp 15-66 on p + 1 processes, from the momenta drawn by randomMomenta on. [env] is the
    environment of each process, [evolve] the integration of the equations of motion and [energy], [kinetic] the sums over all
    processes; their values may differ between processes. *)
Variable (Env Mom : Type).
Definition hmc_execute (p : nat) (evolve : 'I_p.+1 -> Env * Mom -> Env * Mom) (energy : 'I_p.+1 -> Env -> C) (kinetic : 'I_p.+1 -> Mom -> C)
    (momenta : 'I_p.+1 -> Mom) (uniform : 'I_p.+1 -> C) (env : 'I_p.+1 -> Env) : 'I_p.+1 -> Env :=
  let proposal := fun r => evolve r (env r, momenta r) in
  let energyOld := fun r => kinetic r (momenta r) + energy r (env r) in
  let energyNew := fun r => kinetic r (proposal r).2 + energy r (proposal r).1 in
  fun r => if metropolis uniform energyOld energyNew r then (proposal r).1 else env r.
End Hmc.
