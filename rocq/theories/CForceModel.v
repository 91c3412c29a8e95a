(** The force of the improved Wilson operator (hmc_forces/ImprovedFermionForce.cpp and .h) and the rational pseudofermion
    action using it (actions/NFlavorFermionAction.cpp), over exact complex arithmetic, for any number of colours and any
    periodic lattice.  As in FForceModel.v the solutions of the Dirac equations are inputs, fields are their values at
    every site, and smearing is off. *)
From Coq Require Import ZArith.
From mathcomp Require Import all_ssreflect all_algebra.
From Verif Require Import GaugeModel GammaModel DiracModel DiracSpec AdjModel FForceModel CloverModel.
Import GRing.Theory Num.Theory.
Set Implicit Arguments.
Unset Strict Implicit.
Unset Printing Implicit Defensive.
Local Open Scope ring_scope.

Section CForce.
Variable C : numClosedFieldType.
Variable n : nat.            (* diracVectorLength *)
Variable L : lattice.
Notation colour := ('I_n -> C) (only parsing).
Notation field := (L -> 'I_4 -> 'I_n -> C) (only parsing).
Notation links := (L -> 'I_4 -> 'M[C]_n) (only parsing).
Notation memory := (L -> 'I_4 -> 'I_4 -> 'M[C]_n) (only parsing).
Implicit Types (V F : links) (X Y : field) (x : L) (mu nu : 'I_4).

(** ImprovedFermionForce.h 71-72: the arrays latticeForcesLeft and latticeForcesRight, by their index.  The entries never
    written (the left one of term 4, the right one of term 0, nu == mu) are never read; here they are zero. *)
Record terms := Terms { tm_left : nat -> memory; tm_right : nat -> memory }.
(** ImprovedFermionForce.h 57-73; [None] is the state before setLattice, when the pointers are null. *)
Record cforce := CForceObject { cf_kappa : C; cf_csw : C; cf_terms : option terms }.
(** ImprovedFermionForce.cpp 6 and 8: the constructors; the second does not copy the arrays. *)
Definition cf_make (kappa csw : C) : cforce := CForceObject kappa csw None.
Definition cf_copy (f : cforce) : cforce := CForceObject (cf_kappa f) (cf_csw f) None.
(** ImprovedFermionForce.cpp 237-264: the matrices on the left and on the right. *)
Definition left_matrix V (i : nat) x mu nu : 'M[C]_n :=
  match i with
  | 0 => V (sup mu x) nu *m htrans (V (sup nu x) mu) *m htrans (V x nu)
  | 1 => htrans (V x mu)
  | 2 => V (sup mu x) nu *m htrans (V (sup nu x) mu)
  | 3 => htrans (V x mu) *m htrans (V (sdn nu x) nu)
  | 5 => htrans (V x mu) *m htrans (V (sdn nu x) nu) *m V (sdn nu x) mu *m V (sdn nu (sup mu x)) nu
  | 6 => V (sup mu x) nu
  | 7 => htrans (V x mu) *m htrans (V (sdn nu x) nu) *m V (sdn nu x) mu
  | _ => 0%R
  end%N.
Definition right_matrix V (i : nat) x mu nu : 'M[C]_n :=
  match i with
  | 1 => V x mu *m htrans (V (sdn nu (sup mu x)) nu) *m htrans (V (sdn nu x) mu) *m V (sdn nu x) nu
  | 2 => V x nu
  | 3 => V x mu *m htrans (V (sdn nu (sup mu x)) nu) *m htrans (V (sdn nu x) mu)
  | 4 => V x nu *m V (sup nu x) mu *m htrans (V (sup mu x) nu)
  | 5 => V x mu
  | 6 => V x nu *m V (sup nu x) mu
  | 7 => V x mu *m htrans (V (sdn nu (sup mu x)) nu)
  | _ => 0%R
  end%N.
(** ImprovedFermionForce.cpp 222-271: setLattice. *)
Definition cf_set_lattice V (f : cforce) : cforce :=
  CForceObject (cf_kappa f) (cf_csw f) (Some (Terms (left_matrix V) (right_matrix V))).

(** ImprovedFermionForce.cpp 24-36 (and 63-75, 92-104, 121-133, 162-174, 191-203): projSpinor[nu][alpha], with ikc = I kappa
    csw of line 18; gc is the complex number of a table entry. *)
Definition proj_spinor (ikc : C) mu nu (w : 'I_4 -> colour) (alpha : 'I_4) : colour := fun c =>
  \sum_(beta < 4 | gc C (at4 gamma5_sigma mu nu alpha beta) != 0) ikc * gc C (at4 gamma5_sigma mu nu alpha beta) * w beta c.
(** The matrices multiplying a spinor in the lines of one term; the first term has none on the right, the fifth none on
    the left. *)
Definition on_left (m : terms) (i : nat) x mu nu (u : colour) : colour :=
  if i == 4%N then u else mulv (tm_left m i x mu nu) u.
Definition on_right (m : terms) (i : nat) x mu nu (u : colour) : colour :=
  if i == 0%N then u else mulv (tm_right m i x mu nu) u.
(** The loops of one term over nu and alpha, with the site where the spinors are taken: 39-48, 51-61, 78-89, 107-118,
    136-146, 149-158, 177-187 and 206-217 without the sign. *)
Definition clover_term_loop (ikc : C) (m : terms) X Y x mu (i : nat) (s : 'I_4 -> L) : 'M[C]_n :=
  \sum_(nu < 4 | nu != mu) \sum_(alpha < 4)
    (tensor (on_right m i x mu nu (X (s nu) alpha)) (on_left m i x mu nu (proj_spinor ikc mu nu (Y (s nu)) alpha))
     + tensor (on_right m i x mu nu (Y (s nu) alpha)) (on_left m i x mu nu (proj_spinor ikc mu nu (X (s nu)) alpha))).
(** ImprovedFermionForce.cpp 12-220: derivative at one link, reading the arrays [m]. *)
Definition clover_derivative (kappa csw : C) (m : terms) V X Y x mu : 'M[C]_n :=
  let loop := clover_term_loop ('i * kappa * csw) m X Y x mu in
  let force := 0 + loop 0%N (fun _ => x) in
  let force := force - loop 1%N (fun _ => x) in
  let force := force + loop 2%N (fun nu => sup nu x) in
  let force := force - loop 3%N (fun nu => sdn nu x) in
  let force := force + loop 4%N (fun _ => sup mu x) in
  let force := force - loop 5%N (fun _ => sup mu x) in
  let force := force + loop 6%N (fun nu => sup nu (sup mu x)) in
  let force := force - loop 7%N (fun nu => sdn nu (sup mu x)) in
  4%:R^-1 *: force + wilson_derivative kappa V X Y x mu.
(** The same method of an object; [None] is the access through a null pointer. *)
Definition cf_derivative (f : cforce) V X Y x mu : option 'M[C]_n :=
  omap (fun m => clover_derivative (cf_kappa f) (cf_csw f) m V X Y x mu) (cf_terms f).
(** hmc_forces/FermionForce.cpp 11-20: derivative on the whole lattice, subtracted from fermionForce. *)
Definition cf_add_derivative (f : cforce) V X Y (weight : C) (F : links) : option links :=
  omap (fun m x mu => F x mu - weight *: clover_derivative (cf_kappa f) (cf_csw f) m V X Y x mu) (cf_terms f).
Notation part := (field * seq (C * field))%type (only parsing).
(** actions/NFlavorFermionAction.cpp 76-101 and 47-74: setLattice on the operator and on the force, the products
    diracOperator->multiply with gamma5 ([adj] is the macro ADJOINT, the previous content of the output is that of the input)
    and derivative. *)
Definition improved_run_derivative (adj : bool) (f : cforce) (o : improved C n L) V (run : seq part) : option links :=
  let f := cf_set_lattice V f in
  let o := set_lattice V o in
  foldl (fun (F : option links) (p : part) =>
    foldl (fun (F : option links) (t : C * field) => obind (cf_add_derivative f V t.2 (improved_multiply adj o t.2 t.2) t.1) F) F p.2)
    (Some (fun _ _ => 0)) run.
End CForce.

Section Force.
Variable C : numClosedFieldType.
Variables N n : nat.
Variable L : lattice.
Variable r : representation C N n.
(** ImprovedDiracWilsonOperator.cpp 525-527: getForce; actions/NFlavorFermionAction.cpp 76-158 (smearing_levels == 0) and
    43-45: updateForce, with the force object created by the operator. *)
Definition get_force (o : improved C n L) : cforce C n L := cf_make n L (im_kappa o) (im_csw o).
Definition improved_force (adj : bool) (f : cforce C n L) (o : improved C n L) flip (U : gauge C N L) run : option (gauge C N L) :=
  omap (fun D x mu => fermion_force r (U x mu) (flip_links flip D x mu))
    (improved_run_derivative adj f o (fermion_links r flip U) run).
End Force.
