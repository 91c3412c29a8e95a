(** Gauge actions, plaquettes, loops, smearing and flow for any number of colours, over exact complex
    arithmetic (any algebraically closed field with conjugation), on any periodic lattice.
    Sums over sites, directions and matrix indices are exact, so their order is irrelevant; the distribution of the
    sites over processes is the subject of the Layout and Halo files. *)
From mathcomp Require Import all_ssreflect all_algebra.
Import GRing.Theory Num.Theory.
Set Implicit Arguments.
Unset Strict Implicit.
Unset Printing Implicit Defensive.
Local Open Scope ring_scope.

(** Sites and neighbours (LT::sup, LT::sdn); the laws are those proved for the tables of MPILayout.h in
    LayoutFacts2.v (see GaugeLattice.v). *)
Record lattice := Lattice {
  lsite :> finType;
  sup : 'I_4 -> lsite -> lsite;
  sdn : 'I_4 -> lsite -> lsite;
  supK : forall mu, cancel (sup mu) (sdn mu);
  sdnK : forall mu, cancel (sdn mu) (sup mu);
  supC : forall mu nu x, sup mu (sup nu x) = sup nu (sup mu x) }.

Section Gauge.
Variable C : numClosedFieldType.
Variable n : nat.            (* numberColors *)
Notation GaugeGroup := 'M[C]_n.
Variable L : lattice.

(** htrans, MatrixTypedef.h. *)
Definition htrans m k (A : 'M[C]_(m, k)) : 'M[C]_(k, m) := (map_mx conjC A)^T.
(** real(trace(A)). *)
Definition retr (A : GaugeGroup) : C := 'Re (\tr A).
(** lattice[site][mu]. *)
Definition gauge := L -> 'I_4 -> GaugeGroup.
Implicit Types U : gauge.

(** actions/WilsonGaugeAction.cpp 9-20: staple. *)
Definition wilson_staple U (x : L) (mu : 'I_4) : GaugeGroup :=
  \sum_(nu < 4 | nu != mu)
    (U (sup mu x) nu *m htrans (U (sup nu x) mu) *m htrans (U x nu)
     + htrans (U (sup mu (sdn nu x)) nu) *m htrans (U (sdn nu x) mu) *m U (sdn nu x) nu).
(** actions/WilsonGaugeAction.cpp 33-49: energy. *)
Definition wilson_energy (beta : C) U : C :=
  \sum_(x : L) \sum_(mu < 4)
    - (beta / n%:R) * retr (U x mu *m \sum_(nu < 4 | (mu < nu)%N)
         (U (sup mu x) nu *m htrans (U (sup nu x) mu) *m htrans (U x nu))).
(** actions/WilsonGaugeAction.cpp 51-55 and ImprovedGaugeAction.cpp 60-64: deltaAction. *)
Definition delta_action (beta : C) U (trial staple : GaugeGroup) (x : L) (mu : 'I_4) : C :=
  - beta * (retr (trial *m staple) - retr (U x mu *m staple)) / n%:R.

(** actions/ImprovedGaugeAction.cpp 9-27: staple; the factors 5/3 and 1/(12 u0 u0). *)
Definition c_plaq : C := 5%:R / 3%:R.
Definition c_rect (u0 : C) : C := 1 / (12%:R * u0 * u0).
Definition improved_staple (u0 : C) U (x : L) (mu : 'I_4) : GaugeGroup :=
  \sum_(nu < 4 | nu != mu)
   (c_plaq *: (U (sup mu x) nu *m htrans (U (sup nu x) mu) *m htrans (U x nu))
    + c_plaq *: (htrans (U (sup mu (sdn nu x)) nu) *m htrans (U (sdn nu x) mu) *m U (sdn nu x) nu)
    - c_rect u0 *: (U (sup mu x) mu *m U (sup mu (sup mu x)) nu *m htrans (U (sup nu (sup mu x)) mu) *m htrans (U (sup nu x) mu) *m htrans (U x nu))
    - c_rect u0 *: (U (sup mu x) nu *m htrans (U (sup nu x) mu) *m htrans (U (sup nu (sdn mu x)) mu) *m htrans (U (sdn mu x) nu) *m U (sdn mu x) mu)
    - c_rect u0 *: (U (sup mu x) mu *m htrans (U (sdn nu (sup mu (sup mu x))) nu) *m htrans (U (sup mu (sdn nu x)) mu) *m htrans (U (sdn nu x) mu) *m U (sdn nu x) nu)
    - c_rect u0 *: (htrans (U (sup mu (sdn nu x)) nu) *m htrans (U (sdn nu x) mu) *m htrans (U (sdn nu (sdn mu x)) mu) *m U (sdn nu (sdn mu x)) nu *m U (sdn mu x) mu)
    - c_rect u0 *: (U (sup mu x) nu *m U (sup nu (sup mu x)) nu *m htrans (U (sup nu (sup nu x)) mu) *m htrans (U (sup nu x) nu) *m htrans (U x nu))
    - c_rect u0 *: (htrans (U (sup mu (sdn nu x)) nu) *m htrans (U (sup mu (sdn nu (sdn nu x))) nu) *m htrans (U (sdn nu (sdn nu x)) mu) *m U (sdn nu (sdn nu x)) nu *m U (sdn nu x) nu)).
(** actions/ImprovedGaugeAction.cpp 41-58: energy. *)
Definition improved_energy (beta u0 : C) U : C :=
  \sum_(x : L) \sum_(mu < 4)
    - (beta / n%:R) * retr (U x mu *m \sum_(nu < 4 | (mu < nu)%N)
       (c_plaq *: (U (sup mu x) nu *m htrans (U (sup nu x) mu) *m htrans (U x nu))
        - c_rect u0 *: (U (sup mu x) mu *m U (sup mu (sup mu x)) nu *m htrans (U (sup nu (sup mu x)) mu) *m htrans (U (sup nu x) mu) *m htrans (U x nu))
        - c_rect u0 *: (U (sup mu x) nu *m U (sup nu (sup mu x)) nu *m htrans (U (sup nu (sup nu x)) mu) *m htrans (U (sup nu x) nu) *m htrans (U x nu)))).

(** actions/WilsonGaugeAction.cpp 22-31 and ImprovedGaugeAction.cpp 30-39: force, given the staple. *)
Definition gauge_force (beta : C) (link staple : GaugeGroup) : GaugeGroup :=
  let plaquette := link *m staple in
  let force := - ((4%:R^-1 * beta / n%:R) *: (htrans plaquette - plaquette)) in
  force - (\tr force / n%:R)%:M.

(** wilson_loops/Plaquette.cpp 11-47: the three averages, before division by 6 N V, 3 N V and 3 N V. *)
Definition plaquette_term U (x : L) (mu nu : 'I_4) : C :=
  retr (U x mu *m U (sup mu x) nu *m htrans (U (sup nu x) mu) *m htrans (U x nu)).
Definition plaquette_average U : C :=
  (\sum_(x : L) \sum_(mu < 4) \sum_(nu < 4 | (mu < nu)%N) plaquette_term U x mu nu) / (6%:R * n%:R * #|L|%:R).
Definition plaquette_t U : C :=
  (\sum_(x : L) \sum_(mu < 4) \sum_(nu < 4 | (mu < nu)%N && ((mu == 3%N :> nat) || (nu == 3%N :> nat))) plaquette_term U x mu nu) / (3%:R * n%:R * #|L|%:R).
Definition plaquette_s U : C :=
  (\sum_(x : L) \sum_(mu < 4) \sum_(nu < 4 | (mu < nu)%N && ~~ ((mu == 3%N :> nat) || (nu == 3%N :> nat))) plaquette_term U x mu nu) / (3%:R * n%:R * #|L|%:R).

(** utils/RandomGaugeTransformation.cpp 66-72, gauge_fixing/GaugeFixing.cpp 90-99. *)
Definition gauge_transform (omega : L -> GaugeGroup) U : gauge :=
  fun x mu => omega x *m U x mu *m htrans (omega (sup mu x)).
(** hmc_updaters/HMCUpdater.cpp 130-140: momentaEnergy. *)
Definition momenta_energy (P : gauge) : C := \sum_(x : L) \sum_(mu < 4) - retr (P x mu *m P x mu).
(** Replacing one link. *)
Definition set_link U (x : L) (mu : 'I_4) (V : GaugeGroup) : gauge :=
  fun y nu => if (y == x) && (nu == mu) then V else U y nu.

(** hmc_updaters/HMCUpdater.cpp 33-71: randomMomenta, one matrix.  [re i j] and [im i j] (for i < j) and [dg i] (for
    i > 0) are the random numbers drawn; the matrix is filled by the three successive loops. *)
Definition mset (A : GaugeGroup) (i j : 'I_n) (v : C) : GaugeGroup :=
  \matrix_(a, b) if (a == i) && (b == j) then v else A a b.
Definition off_diagonal (re im : 'I_n -> 'I_n -> C) (A : GaugeGroup) : GaugeGroup :=
  foldl (fun A (i : 'I_n) => foldl (fun A (j : 'I_n) =>
           if (i < j)%N then mset (mset A i j (re i j + 'i * im i j)) j i (- re i j + 'i * im i j) else A)
         A (enum 'I_n)) A (enum 'I_n).
Definition clear_diagonal (A : GaugeGroup) : GaugeGroup := foldl (fun A (i : 'I_n) => mset A i i 0) A (enum 'I_n).
Definition add_diagonal (dg : 'I_n -> C) (A : GaugeGroup) : GaugeGroup :=
  foldl (fun A (i : 'I_n) =>
    if (0 < i)%N then
      let A := foldl (fun A (j : 'I_n) => if (j < i)%N then mset A j j (A j j + 'i * (dg i / sqrtC ((i * i.+1)%:R / 2%:R))) else A)
                     A (enum 'I_n) in
      mset A i i (A i i + 'i * (- dg i * i%:R * sqrtC (2%:R / (i * i.+1)%:R)))
    else A) A (enum 'I_n).
Definition random_momentum (re im : 'I_n -> 'I_n -> C) (dg : 'I_n -> C) (A : GaugeGroup) : GaugeGroup :=
  add_diagonal dg (clear_diagonal (off_diagonal re im A)).
End Gauge.
