(** The meson correlators of correlators/MesonCorrelator.cpp, over exact complex arithmetic, for any number of colours and
    any periodic lattice.  The inverter is a function [solve] of the source (PreconditionedBiCGStab; Propagator copies its
    argument for every operator but the overlap operators).  The sums over threads and processes
    (utils/MultiThreadSummator.h) are sums over the sites; the smearing of the links (31-48) is that of C36. *)
From Coq Require Import ZArith.
From mathcomp Require Import all_ssreflect all_algebra.
From Verif Require Import GaugeModel LoopModel GammaModel DiracModel StochModel.
Import GRing.Theory Num.Theory.
Set Implicit Arguments.
Unset Strict Implicit.
Unset Printing Implicit Defensive.
Local Open Scope ring_scope.

Section Meson.
Variable C : numClosedFieldType.
Variable n : nat.            (* diracVectorLength *)
Variable G : grid.
Notation field := (G -> 'I_4 -> 'I_n -> C) (only parsing).

(** MesonCorrelator.cpp 50-66: t_source_origin steps of the links against the time direction. *)
Definition wrap_once (U : G -> 'I_4 -> 'M[C]_n) : G -> 'I_4 -> 'M[C]_n := fun x mu => U (sup d3 x) mu.
Definition wrap (t : nat) (U : G -> 'I_4 -> 'M[C]_n) : G -> 'I_4 -> 'M[C]_n := iter t wrap_once U.

Variable solve : field -> field.
(** MesonCorrelator.cpp 92-99: propagator[c*4 + alpha]. *)
Definition propagator (alpha : 'I_4) (c : 'I_n) : field := solve (@point_source C n G alpha c).

(** Gamma::gamma5_gamma(3, mu, nu) and Gamma::gamma(3, mu, nu), Gamma.h 23-30. *)
Definition table_gamma5_gamma (mu nu : 'I_4) : C := of_gi C (at3 gamma5gammamu 3 mu nu).
Definition table_gamma (mu nu : 'I_4) : C := of_gi C (at3 gammamu 3 mu nu).

(** MesonCorrelator.cpp 104-119: pionOperator[t]. *)
Definition pion_operator (t : nat) : C :=
  \sum_(alpha < 4) \sum_c \sum_(x : G | coord x d3 == t) \sum_(mu < 4) \sum_d
    'Re ((propagator alpha c x mu d)^* * propagator alpha c x mu d).
(** MesonCorrelator.cpp 122-138: scalarOperator[t]. *)
Definition scalar_operator (t : nat) : C :=
  \sum_(alpha < 4) \sum_(beta < 4) \sum_c \sum_(x : G | coord x d3 == t) \sum_(mu < 4) \sum_(nu < 4) \sum_d
    'Re (table_gamma5_gamma mu nu * table_gamma5_gamma alpha beta * (propagator alpha c x mu d)^* * propagator beta c x nu d).
(** MesonCorrelator.cpp 141-160: PSOperator[t]. *)
Definition ps_operator (t : nat) : C :=
  \sum_(alpha < 4) \sum_(beta < 4) \sum_c \sum_(x : G | coord x d3 == t) \sum_(mu < 4) \sum_d
    'Re (0 - table_gamma alpha beta * (propagator alpha c x mu d)^* * propagator beta c x mu d
         + table_gamma alpha beta * (propagator mu c x alpha d)^* * propagator mu c x beta d).

(** MesonCorrelator.cpp 169-203: the numbers written, one for each time slice; the mass is no number where the pion
    correlator vanishes. *)
Variable kappa : C.
Notation glob_t := (ext G d3).
Definition factor : C := 4%:R * kappa * kappa.
Definition pion_exact : seq C := [seq factor * pion_operator t | t <- iota 0 glob_t].
Definition scalar_exact : seq C := [seq factor * scalar_operator t | t <- iota 0 glob_t].
Definition ps_exact : seq C := [seq factor * ps_operator t | t <- iota 0 glob_t].
Definition pcac_at (t : nat) : option C :=
  let mindex := if t == 0%N then (glob_t - 1)%N else (t - 1)%N in
  let pindex := if t == (glob_t - 1)%N then 0%N else (t + 1)%N in
  if 4%:R * pion_operator t == 0 then None else Some ((ps_operator mindex - ps_operator pindex) / (4%:R * pion_operator t)).
Definition pcac_mass : seq (option C) := [seq pcac_at t | t <- iota 0 glob_t].

(** MesonCorrelator.cpp 224-244: the disconnected contributions of one step; one tape for each of the four vectors. *)
Definition dotr (ts : 'I_4 -> tape n G) (x : G) (mu nu : 'I_4) : C :=
  \sum_c (noise C (ts mu) x nu c)^* * solve (noise C (ts mu)) x nu c.
Definition eta_operator (ts : 'I_4 -> tape n G) (t : nat) : C :=
  \sum_(x : G | coord x d3 == t) \sum_(mu < 4) \sum_(nu < 4) (if (nu < 2)%N then dotr ts x mu nu else - dotr ts x mu nu).
Definition scalar_disconnected_operator (ts : 'I_4 -> tape n G) (t : nat) : C :=
  \sum_(x : G | coord x d3 == t) \sum_(mu < 4) \sum_(nu < 4) dotr ts x mu nu.
(** MesonCorrelator.cpp 247-268: what is written; the loops start at t = 1. *)
Definition spatial_volume : C := (ext G d0 * ext G d1 * ext G d2)%:R.
Definition eta_disconnected (ts : 'I_4 -> tape n G) : seq C :=
  [seq 2%:R * kappa * eta_operator ts t / spatial_volume | t <- iota 1 (glob_t - 1)].
Definition scalar_disconnected (ts : 'I_4 -> tape n G) : seq C :=
  [seq 2%:R * kappa * scalar_disconnected_operator ts t / spatial_volume | t <- iota 1 (glob_t - 1)].
End Meson.
