(** The improved Wilson operator with the clover term (dirac_operators/ImprovedDiracWilsonOperator.cpp), its block version
    (BlockImprovedDiracWilsonOperator.cpp) and its square (SquareImprovedDiracWilsonOperator.cpp).  The halo updates and the
    conversions between layouts are those of C01 to C10 and are not repeated.  As in DiracModel.v a field is its value at every
    site, and the output is different from the inputs.  The hopping lines are those of the operators in DiracModel.v
    (the files have the same text there).  The unbuilt file BasicImprovedDiracWilsonOperator.cpp is not modelled. *)
From Coq Require Import ZArith.
From mathcomp Require Import all_ssreflect all_algebra.
From Verif Require Import GaugeModel LoopModel GammaModel DiracModel.
Import GRing.Theory Num.Theory.
Set Implicit Arguments.
Unset Strict Implicit.
Unset Printing Implicit Defensive.
Local Open Scope ring_scope.

Section Clover.
Variable C : numClosedFieldType.
Variable n : nat.            (* diracVectorLength *)
Variable L : lattice.
Notation colour := ('I_n -> C) (only parsing).
Notation field := (L -> 'I_4 -> 'I_n -> C) (only parsing).
Notation links := (L -> 'I_4 -> 'M[C]_n) (only parsing).
Notation strength := (L -> 'I_6 -> 'M[C]_n) (only parsing).      (* F[site][i] *)
Implicit Types (U : links) (F : strength) (v w : field) (x : L).

(** ImprovedDiracWilsonOperator.cpp 10-12: multiply_by_I. *)
Definition multiply_by_I (a : C) : C := mkc (- 'Im a) ('Re a).

(** ImprovedDiracWilsonOperator.cpp 508-513 and BlockImprovedDiracWilsonOperator.cpp 344-349: the six lines differ only in
    the two directions. *)
Definition leaves U x (mu nu : 'I_4) : 'M[C]_n :=
  htrans (U (sdn mu x) mu) *m htrans (U (sdn nu (sdn mu x)) nu) *m U (sdn nu (sdn mu x)) mu *m U (sdn nu x) nu
  + htrans (U (sdn nu x) nu) *m U (sdn nu x) mu *m U (sup mu (sdn nu x)) nu *m htrans (U x mu)
  + U x mu *m U (sup mu x) nu *m htrans (U (sup nu x) mu) *m htrans (U x nu)
  + U x nu *m htrans (U (sup nu (sdn mu x)) mu) *m htrans (U (sdn mu x) nu) *m U (sdn mu x) mu.
(** The directions of entry i of the array. *)
Definition plane (i : 'I_6) : 'I_4 * 'I_4 :=
  match nat_of_ord i with
  | 0 => (d0, d1) | 1 => (d0, d2) | 2 => (d0, d3) | 3 => (d1, d2) | 4 => (d1, d3) | _ => (d2, d3)
  end%N.
(** ImprovedDiracWilsonOperator.cpp 502-523: updateFieldStrength. *)
Definition update_field_strength U : strength := fun x i =>
  let tmpF := leaves U x (plane i).1 (plane i).2 in (1 / 8%:R) *: (tmpF - htrans tmpF).

(** The six entries of the array. *)
Definition i0 : 'I_6 := @Ordinal 6 0 isT.
Definition i1 : 'I_6 := @Ordinal 6 1 isT.
Definition i2 : 'I_6 := @Ordinal 6 2 isT.
Definition i3 : 'I_6 := @Ordinal 6 3 isT.
Definition i4 : 'I_6 := @Ordinal 6 4 isT.
Definition i5 : 'I_6 := @Ordinal 6 5 isT.
(** ImprovedDiracWilsonOperator.cpp 200-213 (434-447 of multiplyAdd) and 225-236 (459-470): the array clover for complex
    links.  For the adjoint representation (215-224) the off-diagonal factor is written std::complex(re, im) with the two
    real matrices in place of re and im, which is [clover_adjoint]. *)
Definition clover F v x (a : 'I_4) : colour := fun i =>
  match nat_of_ord a with
  | 0 => (\sum_j multiply_by_I ((- F x i0 i j + F x i5 i j) * v x d0 j)
          + \sum_j (F x i1 i j + F x i4 i j + multiply_by_I (F x i2 i j - F x i3 i j)) * v x d1 j)%R
  | 1 => (\sum_j multiply_by_I ((F x i0 i j - F x i5 i j) * v x d1 j)
          + \sum_j (- F x i1 i j - F x i4 i j + multiply_by_I (F x i2 i j - F x i3 i j)) * v x d0 j)%R
  | 2 => (\sum_j multiply_by_I ((F x i0 i j + F x i5 i j) * v x d2 j)
          + \sum_j (- F x i1 i j + F x i4 i j + multiply_by_I (F x i2 i j + F x i3 i j)) * v x d3 j)%R
  | _ => (\sum_j multiply_by_I ((- F x i0 i j - F x i5 i j) * v x d3 j)
          + \sum_j (F x i1 i j - F x i4 i j + multiply_by_I (F x i2 i j + F x i3 i j)) * v x d2 j)%R
  end%N.
Definition clover_adjoint F v x (a : 'I_4) : colour := fun i =>
  match nat_of_ord a with
  | 0 => (\sum_j multiply_by_I ((- F x i0 i j + F x i5 i j) * v x d0 j)
          + \sum_j mkc (F x i1 i j + F x i4 i j) (F x i2 i j - F x i3 i j) * v x d1 j)%R
  | 1 => (\sum_j multiply_by_I ((F x i0 i j - F x i5 i j) * v x d1 j)
          + \sum_j mkc (- F x i1 i j - F x i4 i j) (F x i2 i j - F x i3 i j) * v x d0 j)%R
  | 2 => (\sum_j multiply_by_I ((F x i0 i j + F x i5 i j) * v x d2 j)
          + \sum_j mkc (- F x i1 i j + F x i4 i j) (F x i2 i j + F x i3 i j) * v x d3 j)%R
  | _ => (\sum_j multiply_by_I ((- F x i0 i j - F x i5 i j) * v x d3 j)
          + \sum_j mkc (F x i1 i j - F x i4 i j) (F x i2 i j + F x i3 i j) * v x d2 j)%R
  end%N.

(** ImprovedDiracWilsonOperator.h 36-45 and DiracOperator.h: the data of an operator. *)
Record improved := Improved { im_lattice : links; im_F : strength; im_kappa : C; im_csw : C; im_gamma5 : bool }.
(** ImprovedDiracWilsonOperator.cpp 16-18: the constructor with a lattice. *)
Definition make_improved U (kappa csw : C) (gamma5 : bool) : improved :=
  Improved U (update_field_strength U) kappa csw gamma5.
(** ImprovedDiracWilsonOperator.cpp 489-492: setLattice; 498-500: setCSW; DiracOperator.h: setKappa, setGamma5. *)
Definition set_lattice U (o : improved) : improved :=
  Improved U (update_field_strength U) (im_kappa o) (im_csw o) (im_gamma5 o).
Definition set_csw (csw : C) (o : improved) : improved :=
  Improved (im_lattice o) (im_F o) (im_kappa o) csw (im_gamma5 o).
Definition set_kappa (kappa : C) (o : improved) : improved :=
  Improved (im_lattice o) (im_F o) kappa (im_csw o) (im_gamma5 o).
Definition set_gamma5 (gamma5 : bool) (o : improved) : improved :=
  Improved (im_lattice o) (im_F o) (im_kappa o) (im_csw o) gamma5.
Inductive setting := SetLattice of links | SetCSW of C | SetKappa of C | SetGamma5 of bool.
Definition apply_setting (o : improved) (s : setting) : improved :=
  match s with
  | SetLattice U => set_lattice U o | SetCSW c => set_csw c o | SetKappa k => set_kappa k o | SetGamma5 g => set_gamma5 g o
  end.

(** ImprovedDiracWilsonOperator.cpp 22-253: multiply; [adj] is the macro ADJOINT, [old] the previous content of the output. *)
Definition the_clover (adj : bool) := if adj then clover_adjoint else clover.
Definition improved_multiply (adj : bool) (o : improved) (old v : field) : field := fun x =>
  let out := dw_rest (im_kappa o) (im_lattice o) v x
    (dw_step1 (im_kappa o) (im_lattice o) v x (dw_step0 (im_kappa o) (im_lattice o) v x (old x))) in
  let out := fun a c => out a c + (im_kappa o * im_csw o) * the_clover adj (im_F o) v x a c in
  if im_gamma5 o then out
  else put (put out d2 (fun c => - out d2 c)) d3 (fun c => - out d3 c).
(** ImprovedDiracWilsonOperator.cpp 255-487: multiplyAdd. *)
Definition improved_multiply_add (adj : bool) (o : improved) (old v w : field) (alpha : C) : field := fun x =>
  let out := dw_rest (im_kappa o) (im_lattice o) v x
    (dw_step1_add (im_kappa o) (im_lattice o) v w alpha x (dw_step0_add (im_kappa o) (im_lattice o) v w alpha x (old x))) in
  let out := fun a c => out a c + (im_kappa o * im_csw o) * the_clover adj (im_F o) v x a c in
  if im_gamma5 o then out
  else put (put out d2 (fun c => - out d2 c + 2%:R * alpha * w x d2 c)) d3 (fun c => - out d3 c + 2%:R * alpha * w x d3 c).

(** BlockImprovedDiracWilsonOperator.cpp 22-185 and 187-323: the lines of the block operator, then the clover term on
    every site, with the sign of gamma5 in the lower components when the flag is off. *)
Definition block_improved_clover (adj : bool) (kappa csw : C) (gamma5 : bool) F v x (a : 'I_4) : colour := fun c =>
  if gamma5 then (kappa * csw) * the_clover adj F v x a c
  else if (a < 2)%N then (kappa * csw) * the_clover adj F v x a c else - ((kappa * csw) * the_clover adj F v x a c).
Definition block_improved_multiply (adj : bool) (blk : L -> bool) (kappa csw twist : C) (gamma5 : bool) U F v : field := fun x a c =>
  block_multiply blk kappa twist gamma5 U v x a c + block_improved_clover adj kappa csw gamma5 F v x a c.
Definition block_improved_multiply_add (adj : bool) (blk : L -> bool) (kappa csw twist : C) (gamma5 : bool) U F v w (alpha : C) : field := fun x a c =>
  block_multiply_add blk kappa twist gamma5 U v w alpha x a c + block_improved_clover adj kappa csw gamma5 F v x a c.

(** SquareImprovedDiracWilsonOperator.cpp 12-16 and 18-22; the inner operator takes over the flag. *)
Definition square_improved_multiply (adj : bool) (gamma5 : bool) (o : improved) (tmp old v : field) : field :=
  improved_multiply adj (set_gamma5 gamma5 o) old (improved_multiply adj (set_gamma5 gamma5 o) tmp v).
Definition square_improved_multiply_add (adj : bool) (gamma5 : bool) (o : improved) (tmp old v w : field) (alpha : C) : field :=
  improved_multiply_add adj (set_gamma5 gamma5 o) old (improved_multiply adj (set_gamma5 gamma5 o) tmp v) w alpha.
End Clover.
