(** The even-odd preconditioned clover operator (dirac_operators/EvenOddImprovedDiracWilsonOperator.cpp), its square
    (SquareEvenOddImprovedDiracWilsonOperator.cpp) and the solver that uses them (inverters/PreconditionedBiCGStab.cpp).
    The inverse of a matrix (Eigen's inverse()) and the inner biconjugate gradient are parameters.  Reading the fixed size
    matrix outside its bounds and reading through the null pointer are the outcome [None]. *)
From Coq Require Import ZArith.
From mathcomp Require Import all_ssreflect all_algebra.
From Verif Require Import GaugeModel LoopModel GammaModel DiracModel CloverModel ScalarModel.
Import GRing.Theory Num.Theory.
Set Implicit Arguments.
Unset Strict Implicit.
Unset Printing Implicit Defensive.
Local Open Scope ring_scope.

Section EvenOdd.
Variable C : numClosedFieldType.
Variable n : nat.            (* diracVectorLength *)
Variable G : grid.
Notation colour := ('I_n -> C) (only parsing).
Notation field := (G -> 'I_4 -> 'I_n -> C) (only parsing).
Notation strength := (G -> 'I_6 -> 'M[C]_n) (only parsing).
Notation clover_matrix := 'M[C]_(4 * n) (only parsing).        (* clover_matrix_t *)
Variable inv : clover_matrix -> clover_matrix.                  (* inverse() *)
Variable adj : bool.                                            (* ADJOINT *)
Implicit Types (F : strength) (v w : field) (x : G) (o : improved C n G).

(** Reading and adding to an entry of the matrix; outside the bounds nothing happens here, [index_ok] tells whether that
    is ever the case. *)
Definition entry (A : clover_matrix) (i j : nat) : C :=
  match insub i, insub j with Some r, Some s => A r s | _, _ => 0 end.
Definition add_entry (A : clover_matrix) (u : nat * nat * C) : clover_matrix :=
  \matrix_(r, s) (if ((r : nat) == u.1.1) && ((s : nat) == u.1.2) then A r s + u.2 else A r s).
(** EvenOddImprovedDiracWilsonOperator.cpp 75 and 295-314: the indices used are 3*alpha+c for all spins and colours. *)
Definition slot (alpha c : nat) : nat := (3 * alpha + c)%N.
Definition index_ok : bool := [forall alpha : 'I_4, forall c : 'I_n, (slot alpha c < 4 * n)%N].

(** EvenOddImprovedDiracWilsonOperator.cpp 295-314: the additions in the body of the loops over i and j; (row spin, column
    spin, value). *)
Definition additions (kappa csw : C) F x (i j : 'I_n) : seq (nat * nat * C) :=
  let k := kappa * csw in
  [:: (0%N, 0%N, k * 'i * (- F x i0 i j + F x i5 i j));
      (1%N, 1%N, k * 'i * (F x i0 i j - F x i5 i j));
      (2%N, 2%N, - (k * 'i * (F x i0 i j + F x i5 i j)));
      (3%N, 3%N, - (k * 'i * (- F x i0 i j - F x i5 i j)))]
  ++ if adj then
  [:: (0%N, 1%N, k * mkc (F x i1 i j + F x i4 i j) (F x i2 i j - F x i3 i j));
      (1%N, 0%N, k * mkc (- F x i1 i j - F x i4 i j) (F x i2 i j - F x i3 i j));
      (2%N, 3%N, - (k * mkc (- F x i1 i j + F x i4 i j) (F x i2 i j + F x i3 i j)));
      (3%N, 2%N, - (k * mkc (F x i1 i j - F x i4 i j) (F x i2 i j + F x i3 i j)))]
  else
  [:: (0%N, 1%N, k * (F x i1 i j + F x i4 i j + multiply_by_I (F x i2 i j - F x i3 i j)));
      (1%N, 0%N, k * (- F x i1 i j - F x i4 i j + multiply_by_I (F x i2 i j - F x i3 i j)));
      (2%N, 3%N, - (k * (- F x i1 i j + F x i4 i j + multiply_by_I (F x i2 i j + F x i3 i j))));
      (3%N, 2%N, - (k * (F x i1 i j - F x i4 i j + multiply_by_I (F x i2 i j + F x i3 i j))))].
(** The same with the places in the matrix, for all i and j in the order of the loops. *)
Definition placed (kappa csw : C) F x : seq (nat * nat * C) :=
  flatten [seq flatten [seq [seq (slot u.1.1 i, slot u.1.2 j, u.2) | u <- additions kappa csw F x i j]
                       | j : 'I_n <- enum 'I_n] | i : 'I_n <- enum 'I_n].
(** EvenOddImprovedDiracWilsonOperator.cpp 285-320: calculateInverseEvenEven, the matrix before and after the inversion. *)
Definition clover_matrix_of (kappa csw : C) F x : clover_matrix :=
  foldl add_entry 1%:M (placed kappa csw F x).
Definition calculate_inverse (o : improved C n G) : G -> clover_matrix := fun x =>
  inv (clover_matrix_of (im_kappa o) (im_csw o) (im_F o) x).

(** EvenOddImprovedDiracWilsonOperator.h: the base class and the pointer cloverMatrixInverse. *)
Record eo := Eo { eo_op : improved C n G; eo_inv : option (G -> clover_matrix) }.
(** EvenOddImprovedDiracWilsonOperator.cpp 16: the default constructor; 18-20: the constructor with a lattice. *)
Definition eo_default o : eo := Eo o None.
Definition make_eo U (kappa csw : C) (gamma5 : bool) : option eo :=
  let o := make_improved U kappa csw gamma5 in
  if index_ok then Some (Eo o (Some (calculate_inverse o))) else None.
(** EvenOddImprovedDiracWilsonOperator.cpp 54-58: setLattice; the other settings are inherited. *)
Definition eo_setting (s : eo) (t : setting C n G) : option eo :=
  match t with
  | SetLattice U => let o := set_lattice U (eo_op s) in
      if index_ok then Some (Eo o (Some (calculate_inverse o))) else None
  | _ => Some (Eo (apply_setting (eo_op s) t) (eo_inv s))
  end.

(** EvenOddImprovedDiracWilsonOperator.cpp 61-88: multiplyEvenEvenInverse with the array given. *)
Definition even_even_inverse (W : G -> clover_matrix) v : field := fun x a c =>
  if parity x == 0%N then \sum_(b < 4) \sum_(e < n) entry (W x) (slot a c) (slot b e) * v x b e else v x a c.
(** EvenOddImprovedDiracWilsonOperator.cpp 263-268: the output lines of multiplyEvenOdd; the projections and tmp_plus,
    tmp_minus (215-259) have the text of BasicDiracWilsonOperator.cpp. *)
Definition hop_output (kappa : C) (tp tm : 'I_4 -> nat -> colour) (a : 'I_4) : colour := fun c =>
  match nat_of_ord a with
  | 0 => (mkc (- kappa * ('Re (tp d0 0%N c) + 'Re (tp d1 0%N c) + 'Re (tp d2 0%N c) + 'Re (tp d3 0%N c))) (- kappa * ('Im (tp d0 0%N c) + 'Im (tp d1 0%N c) + 'Im (tp d2 0%N c) + 'Im (tp d3 0%N c))))%R
  | 1 => (mkc (- kappa * ('Re (tp d0 1%N c) + 'Re (tp d1 1%N c) + 'Re (tp d2 1%N c) + 'Re (tp d3 1%N c))) (- kappa * ('Im (tp d0 1%N c) + 'Im (tp d1 1%N c) + 'Im (tp d2 1%N c) + 'Im (tp d3 1%N c))))%R
  | 2 => (mkc (kappa * ('Re (tm d1 1%N c) + 'Re (tm d3 0%N c) - 'Im (tm d0 1%N c) - 'Im (tm d2 0%N c))) (kappa * ('Re (tm d0 1%N c) + 'Re (tm d2 0%N c) + 'Im (tm d1 1%N c) + 'Im (tm d3 0%N c))))%R
  | _ => (mkc (kappa * ('Im (tm d2 1%N c) - 'Im (tm d0 0%N c) - 'Re (tm d1 0%N c) + 'Re (tm d3 1%N c))) (kappa * ('Re (tm d0 0%N c) - 'Re (tm d2 1%N c) - 'Im (tm d1 0%N c) + 'Im (tm d3 1%N c))))%R
  end%N.
Definition even_odd_site o (part : nat) (v : field) x : 'I_4 -> colour :=
  if parity x == part then hop_output (im_kappa o) (basic_plus (im_lattice o) v x) (basic_minus (im_lattice o) v x) else v x.
(** EvenOddImprovedDiracWilsonOperator.cpp 203-281: multiplyEvenOdd with different vectors, and in place, where the sites
    are visited in the order [order]. *)
Definition multiply_even_odd o (part : nat) v : field := fun x => even_odd_site o part v x.
Definition multiply_even_odd_in_place o (part : nat) (order : seq G) v : field :=
  foldl (fun w x => fun y => if y == x then even_odd_site o part w x else w y) v order.
(** EvenOddImprovedDiracWilsonOperator.cpp 147-200: multiplyOddOddMinusIdentity. *)
Definition odd_odd_minus_identity o (part : nat) (out v : field) : field := fun x a c =>
  if parity x == part then
    if (a < 2)%N then v x a c + (im_kappa o * im_csw o) * the_clover adj (im_F o) v x a c - out x a c
    else v x a c - (im_kappa o * im_csw o) * the_clover adj (im_F o) v x a c - out x a c
  else out x a c.
(** EvenOddImprovedDiracWilsonOperator.cpp 26-46: multiply. *)
Definition eo_core o (W : G -> clover_matrix) (order : seq G) v : field :=
  let out := multiply_even_odd o 0 v in
  let out := even_even_inverse W out in
  let out := multiply_even_odd_in_place o 1 order out in
  let out := odd_odd_minus_identity o 1 out v in
  fun x a c => if parity x == 0%N then v x a c
    else if im_gamma5 o && (2 <= a)%N then - out x a c else out x a c.
Definition eo_multiply (s : eo) (order : seq G) v : option field :=
  if eo_inv s is Some W then if index_ok then Some (eo_core (eo_op s) W order v) else None else None.
(** SquareEvenOddImprovedDiracWilsonOperator.cpp 13-17 and 19-27. *)
Definition square_eo_core (gamma5 : bool) o (W : G -> clover_matrix) (order : seq G) v : field :=
  eo_core (set_gamma5 gamma5 o) W order (eo_core (set_gamma5 gamma5 o) W order v).
Definition square_eo_core_add (gamma5 : bool) o (W : G -> clover_matrix) (order : seq G) v w (alpha : C) : field := fun x a c =>
  square_eo_core gamma5 o W order v x a c + alpha * w x a c.

(** PreconditionedBiCGStab.cpp 42-98: the preconditioned branch of solve for the operator [d].  The two operators are
    built from kappa, csw and lattice of [d] with the default flag gamma5; [bicg] is BiConjugateGradient::solve without a
    preconditioner, returning the result and the solution. *)
Variable bicg : (field -> field) -> field -> bool * field.
Definition eo_of (d : improved C n G) : option eo :=
  let o := Improved (im_lattice d) (im_F d) (im_kappa d) (im_csw d) true in eo_setting (eo_default o) (SetLattice (im_lattice d)).
Definition odd_source_of o W order (source : field) : field :=
  let t := multiply_even_odd_in_place o 1 order (even_even_inverse W source) in
  fun x a c =>
    let z := if parity x == 1%N then source x a c - t x a c else source x a c in
    if (2 <= a)%N then - z else z.
Definition preconditioned_solve (d : improved C n G) (order : seq G) (source : field) : option (bool * field) :=
  if eo_of d is Some s then
    if eo_inv s is Some W then
      let o := eo_op s in
      let odd_source := odd_source_of o W order source in
      let odd_source_eo := eo_core o W order odd_source in
      let: (res, odd_inverse) := bicg (square_eo_core true o W order) odd_source_eo in
      let t := multiply_even_odd o 0 odd_inverse in
      let even_inverse : field := fun x a c => if parity x == 0%N then source x a c - t x a c else odd_inverse x a c in
      Some (res, even_even_inverse W even_inverse)
    else None
  else None.
End EvenOdd.

(** PreconditionedBiCGStab.cpp 33-40: precision and number of steps of the solver, and those of the inner solver, which is
    made in the first call of solve. *)
Record pbicg := Pbicg { pb_precision : Z; pb_steps : nat; pb_inner : option (Z * nat) }.
Inductive pb_call := PbPrecision of Z | PbSteps of nat | PbSolve.
Definition pb_step (s : pbicg) (c : pb_call) : pbicg :=
  match c with
  | PbPrecision p => Pbicg p (pb_steps s) (pb_inner s)
  | PbSteps m => Pbicg (pb_precision s) m (pb_inner s)
  | PbSolve => Pbicg (pb_precision s) (pb_steps s) (Some (odflt (pb_precision s, pb_steps s) (pb_inner s)))
  end.
