(** The textbook clover operator 1 - kappa H + kappa csw (i/2) sum_{mu,nu} sigma_{mu nu} F_{mu nu}, with
    sigma_{mu nu} = (i/2) [gamma_mu, gamma_nu] and F one eighth of the anti-Hermitian part of the four plaquettes at a site. *)
From mathcomp Require Import all_ssreflect all_algebra.
From Verif Require Import GaugeModel GaugeSpec DiracSpec CloverModel.
Import GRing.Theory Num.Theory.
Set Implicit Arguments.
Unset Strict Implicit.
Unset Printing Implicit Defensive.
Local Open Scope ring_scope.

Section Spec.
Variable C : numClosedFieldType.
Variable n : nat.
Variable L : lattice.
Notation field := (L -> 'I_4 -> 'I_n -> C) (only parsing).
Implicit Types (U : L -> 'I_4 -> 'M[C]_n) (v w : field) (x : L).

Definition sigma (mu nu : 'I_4) : 'M[C]_4 := ('i / 2%:R) *: (gamma C mu *m gamma C nu - gamma C nu *m gamma C mu).
(** The four plaquettes of a plane that start and end at the site, all with the same orientation. *)
Definition four_leaves (mu nu : 'I_4) : seq (seq step) :=
  [:: [:: fwd mu; fwd nu; bwd mu; bwd nu]; [:: fwd nu; bwd mu; bwd nu; fwd mu];
      [:: bwd mu; bwd nu; fwd mu; fwd nu]; [:: bwd nu; fwd mu; fwd nu; bwd mu]].
Definition field_strength U x (mu nu : 'I_4) : 'M[C]_n :=
  let Q := \sum_(p <- four_leaves mu nu) transport U x p in 8%:R^-1 *: (Q - dagger Q).
(** The clover term, and the clover operator. *)
Definition clover_term U v : field := fun x a c =>
  ('i / 2%:R) * \sum_(mu < 4) \sum_(nu < 4) \sum_(b < 4) sigma mu nu a b * \sum_e field_strength U x mu nu c e * v x b e.
Definition clover_dirac (kappa csw : C) U v : field := fun x a c =>
  dirac kappa U v x a c + kappa * csw * clover_term U v x a c.
(** The last value given to each setting. *)
Definition last_lattice U (ss : seq (setting C n L)) := last U (pmap (fun s => if s is SetLattice U' then Some U' else None) ss).
Definition last_csw (c : C) (ss : seq (setting C n L)) := last c (pmap (fun s => if s is SetCSW c' then Some c' else None) ss).
Definition last_kappa (k : C) (ss : seq (setting C n L)) := last k (pmap (fun s => if s is SetKappa k' then Some k' else None) ss).
Definition last_gamma5 (g : bool) (ss : seq (setting C n L)) := last g (pmap (fun s => if s is SetGamma5 g' then Some g' else None) ss).
End Spec.
