(** Wilson loops, Polyakov loops and Polyakov loop correlators for any number of colours. *)
From mathcomp Require Import all_ssreflect all_algebra.
From Verif Require Import GaugeModel.
Import GRing.Theory Num.Theory.
Set Implicit Arguments.
Unset Strict Implicit.
Unset Printing Implicit Defensive.
Local Open Scope ring_scope.

(** The extents (Layout::glob) and the coordinates (Layout::globalIndex) of a lattice; the laws are those of the
    coordinates of MPILayout.h (C03). *)
Record grid := Grid {
  glattice :> lattice;
  ext : 'I_4 -> nat;
  coord : glattice -> 'I_4 -> nat;
  coord_lt : forall x mu, (coord x mu < ext mu)%N;
  coord_up : forall x mu, coord (sup mu x) mu = ((coord x mu).+1 %% ext mu)%N;
  coord_other : forall x mu nu, nu != mu -> coord (sup mu x) nu = coord x nu;
  coord_inj : forall x y, (forall mu, coord x mu = coord y mu) -> x = y;
  card_grid : #|glattice| = (ext (inord 0) * ext (inord 1) * ext (inord 2) * ext (inord 3))%N }.

Section Loops.
Variable C : numClosedFieldType.
Variable n : nat.
Variable L : lattice.
Notation GaugeGroup := 'M[C]_n.
Notation field := (L -> GaugeGroup).

(** wilson_loops/WilsonLoop.cpp 74-98: lines of growing length along [dir].  The state is the pair (line of length t,
    lattice shifted t times); one iteration multiplies and shifts. *)
Definition line_step (dir : 'I_4) (s : field * field) : field * field :=
  (fun x => s.1 x *m s.2 (sup dir x), fun x => s.2 (sup dir x)).
Definition line (U : gauge C n L) (dir : 'I_4) (t : nat) : field :=
  (iter t (line_step dir) ((fun x => U x dir), (fun x => U x dir))).1.
(** WilsonLoop.cpp 100-118: the line shifted k times along [along]. *)
Definition shifted (along : 'I_4) (k : nat) (f : field) : field := iter k (fun g x => g (sup along x)) f.
(** WilsonLoop.cpp 121-131: the value written for the indices (R, T), labelled (R + 1, T + 1); [tdir] is the option
    WilsonLoop::t_dir and the spatial direction is always 0. *)
Definition wilson_loop_value (U : gauge C n L) (tdir : 'I_4) (r t : nat) : C :=
  (\sum_(x : L) retr (line U ord0 r x *m shifted ord0 r.+1 (line U tdir t) x
                      *m htrans (shifted tdir t.+1 (line U ord0 r) x) *m htrans (line U tdir t x)))
  / (n%:R * #|L|%:R).
(** WilsonLoop.cpp 39-147: the whole table in the order of output; with max_r or max_t zero the arrays have no element
    0 and lines 71-74 write out of bounds ([None]). *)
Definition wilson_loop_table (U : gauge C n L) (tdir : 'I_4) (rmax tmax : nat) : option (seq (nat * nat * C)) :=
  if (rmax == 0)%N || (tmax == 0)%N then None else
  Some [seq (r.+1, t.+1, wilson_loop_value U tdir r t) | r <- iota 0 rmax, t <- iota 0 tmax].
End Loops.

Section Polyakov.
Variable C : numClosedFieldType.
Variable n : nat.
Variable L : grid.
Notation GaugeGroup := 'M[C]_n.

(** polyakov_loops/PolyakovLoop.cpp 24-56: state (polyakov[.][nu], tmp). *)
Definition polyakov_step (nu : 'I_4) (s : (L -> GaugeGroup) * gauge C n L) : (L -> GaugeGroup) * gauge C n L :=
  (fun x => if coord x nu == 0%N then s.1 x *m s.2 x nu else s.1 x, fun x => s.2 (sup nu x)).
Definition polyakov_field (U : gauge C n L) (nu : 'I_4) : L -> GaugeGroup :=
  (iter (ext L nu) (polyakov_step nu) (fun=> 1%:M, U)).1.
(** Layout::glob_spatial_volume. *)
Definition spatial_volume : nat := (ext L (inord 0) * ext L (inord 1) * ext L (inord 2))%N.
(** PolyakovLoop.cpp 58-79: the complex number whose real and imaginary part are written for direction nu. *)
Definition polyakov_loop (U : gauge C n L) (nu : 'I_4) : C :=
  (\sum_(x : L | coord x nu == 0%N) \tr (polyakov_field U nu x)) / (n * spatial_volume)%:R.
(** PolyakovLoopCorrelator.cpp 69-107, without smearing: the l-th number written. *)
Definition polyakov_correlator (U : gauge C n L) (l : nat) : C :=
  let P := polyakov_field U (inord 3) in
  let P' := shifted (inord 0) l.+1 P in
  (\sum_(x : L | coord x (inord 3) == 0%N) (\tr (P x))^* * \tr (P' x)) / (n * spatial_volume)%:R.
End Polyakov.
