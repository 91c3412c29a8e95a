(** The overlap Dirac operator: dirac_operators/OverlapOperator.cpp, SquareOverlapOperator.cpp, ExactOverlapOperator.cpp and
    Propagator.cpp, the overlap part of fermion_measurements/ChiralCondensate.cpp, the rotations of
    fermion_measurements/OverlapChiralRotation.cpp and hmc_forces/OverlapFermionForce.cpp, over exact complex arithmetic, for
    any number of colours and any periodic lattice.  The Wilson operator is that of DiracModel.v, the polynomial that of
    SolverModel.v.  [old] is whatever the vectors of the object held before.  The eigenvectors found by the eigenvalue solver are
    inputs.  Halo exchanges are those of C08. *)
From Coq Require Import List.
From Verif Require Import Base SolverModel.
From mathcomp Require Import all_ssreflect all_algebra.
From Verif Require Import GaugeModel GammaModel DiracModel FForceModel.
Import GRing.Theory Num.Theory.
Set Implicit Arguments.
Unset Strict Implicit.
Unset Printing Implicit Defensive.
Local Open Scope ring_scope.

(** The arithmetic of SolverModel.v on Dirac fields. *)
Definition fields (C : numClosedFieldType) n (L : lattice) : arith := {|
  num := C; vec := L -> 'I_4 -> 'I_n -> C; nzero := 0; none_ := 1;
  nadd := +%R; nsub := fun a b => a - b; nmul := *%R; nopp := fun a => - a;
  ndiv := fun a b => if b == 0 then None else Some (a / b);
  nre := fun z => 'Re z; nabs := fun z => `|z|; nlt := fun a b => a < b; niszero := fun z => z == 0;
  vzero := fun _ _ _ => 0; vadd := fun v w x a c => v x a c + w x a c; vsub := fun v w x a c => v x a c - w x a c;
  vopp := fun v x a c => - v x a c; vscale := fun z v x a c => z * v x a c;
  vdot := @dot C n L; vnorm := @squared_norm C n L |}.

Section Overlap.
Variable C : numClosedFieldType.
Variable n : nat.            (* diracVectorLength *)
Variable L : lattice.
Notation field := (L -> 'I_4 -> 'I_n -> C) (only parsing).
Notation links := (L -> 'I_4 -> 'M[C]_n) (only parsing).
Notation outcome := (Base.outcome field) (only parsing).
Implicit Types (U : links) (v w s : field).

(** OverlapOperator.cpp 20-25 and 29-34 (and 48-53, 57-62 without the term of alpha), ExactOverlapOperator.cpp 46-51, 55-60,
    94-99 and 103-108: the lines that write the output; [s] is what the sign function gave. *)
Definition overlap_output (mass : C) (gamma5 : bool) v s : field := fun x a c =>
  if (a < 2)%N then (2%:R^-1 + mass / 2%:R) * v x a c + (2%:R^-1 - mass / 2%:R) * s x a c
  else if gamma5 then - (2%:R^-1 + mass / 2%:R) * v x a c + (2%:R^-1 - mass / 2%:R) * s x a c
  else (2%:R^-1 + mass / 2%:R) * v x a c - (2%:R^-1 - mass / 2%:R) * s x a c.

Variables (kappa : C) (roots : list C) (scaling : C) (old : field).
(** diracWilsonOperator and squareDiracWilsonOperator with gamma5 (SquareDiracWilsonOperator.cpp is square_multiply_add). *)
Definition wilson5 U : field -> field := wilson_multiply kappa true U old.
Definition square5_add U : field -> field -> C -> field := square_multiply_add (wilson5 U) (wilson_multiply_add kappa true U old).
(** OverlapOperator.cpp 15 and 43: squareRootApproximation.evaluate on the squared operator; with no roots its first line
    reads roots.front(). *)
Definition square_root U v : outcome := poly_evaluate (fields C n L) roots scaling (square5_add U) old v.
(** OverlapOperator.cpp 13-16 and 41-44. *)
Definition sign_function U v : outcome := Base.obind (square_root U v) (fun t => Ok (wilson5 U t)).
(** OverlapOperator.cpp 12-38: multiply. *)
Definition overlap_multiply (mass : C) (gamma5 : bool) U v : outcome :=
  Base.obind (sign_function U v) (fun s => Ok (overlap_output mass gamma5 v s)).
(** OverlapOperator.cpp 40-66: multiplyAdd; lines 58-61 all add the first spin component of vector2. *)
Definition overlap_multiply_add (mass : C) (gamma5 : bool) U v w (alpha : C) : outcome :=
  Base.obind (sign_function U v) (fun s => Ok (fun x a c =>
    overlap_output mass gamma5 v s x a c + alpha * w x (if gamma5 then a else d0) c)).
(** SquareOverlapOperator.cpp 12-16 and 18-22: multiply and multiplyAdd. *)
Definition square_overlap (mass : C) (gamma5 : bool) U v : outcome :=
  Base.obind (overlap_multiply mass gamma5 U v) (overlap_multiply mass gamma5 U).
Definition square_overlap_add (mass : C) (gamma5 : bool) U v w (alpha : C) : outcome :=
  Base.obind (overlap_multiply mass gamma5 U v) (fun t => overlap_multiply_add mass gamma5 U t w alpha).

(** ** ExactOverlapOperator.cpp: computed_eigenvalues and computed_eigenvectors are one list of pairs. *)
Notation eigens := (seq (C * field)) (only parsing).
(** ExactOverlapOperator.cpp 23-39 and 71-87: output and tmp1 after the loop over the eigenvectors. *)
Definition project (es : eigens) v : field * field :=
  foldl (fun (r : field * field) (p : C * field) =>
    let proj := dot p.2 v in
    let sign_proj := if p.1 < 0 then - proj else proj in
    ((fun x a c => r.1 x a c + sign_proj * p.2 x a c), (fun x a c => r.2 x a c - proj * p.2 x a c)))
    ((fun _ _ _ => 0), v) es.
(** ExactOverlapOperator.cpp 23-42 and the sums tmp1 + output of 47-59. *)
Definition exact_sign (es : eigens) U v : outcome :=
  let (out, rest) := project es v in
  Base.obind (sign_function U rest) (fun t => Ok (fun x a c => t x a c + out x a c)).
(** ExactOverlapOperator.cpp 23-64 and 71-112: multiply and multiplyAdd once the eigenvectors are there. *)
Definition exact_multiply (es : eigens) (mass : C) (gamma5 : bool) U v : outcome :=
  Base.obind (exact_sign es U v) (fun s => Ok (overlap_output mass gamma5 v s)).
Definition exact_multiply_add (es : eigens) (mass : C) (gamma5 : bool) U v w (alpha : C) : outcome :=
  Base.obind (exact_sign es U v) (fun s => Ok (fun x a c => overlap_output mass gamma5 v s x a c + alpha * w x a c)).
(** ExactOverlapOperator.cpp 120-126: the eigenvalues given to what the solver found, squared eigenvalues and vectors. *)
Definition signed_eigenvalues U (found : eigens) : eigens :=
  [seq ((if 'Re (dot p.2 (wilson5 U p.2)) < 0 then - sqrtC ('Re p.1) else sqrtC ('Re p.1)), p.2) | p <- found].
(** ExactOverlapOperator.cpp 148-175: checkEigenvalues with the tolerance of the solver. *)
Definition eigen_precision U (p : C * field) : C :=
  \sum_x \sum_(a < 4) \sum_c `|wilson5 U p.2 x a c - p.1 * p.2 x a c|.
Definition check_eigenvalues (tolerance : C) U (es : eigens) : bool :=
  ~~ nilp es && all (fun p => ~~ (tolerance < eigen_precision U p)) es.
(** ExactOverlapOperator.cpp 19, 67 and 114-146: computeEigenvalues, when it is wanted; [solver] is the tolerance behind the
    pointer diracEigenSolver, None for the null pointer that the constructor of line 10 leaves; [found] what the solver finds. *)
Definition compute_eigenvalues (solver : option C) (recompute : bool) U (es found : eigens) : Base.outcome eigens :=
  if recompute then
    match solver with
    | None => UB
    | Some tolerance => Ok (if check_eigenvalues tolerance U es then es else signed_eigenvalues U found)
    end
  else Ok es.

(** OverlapOperator.h 16 and ExactOverlapOperator.h 21: the virtual multiply of an OverlapOperator, None, or of an
    ExactOverlapOperator with its eigenvectors. *)
Definition virtual_multiply (cls : option eigens) (mass : C) (gamma5 : bool) U v : outcome :=
  if cls is Some es then exact_multiply es mass gamma5 U v else overlap_multiply mass gamma5 U v.

(** ** Measurements.  [mul mass] is multiply with that mass. *)
(** Propagator.cpp 33-57 (and 7-30) for the two overlap operators: constructPropagator. *)
Definition construct_propagator (mul : C -> field -> outcome) v : outcome :=
  Base.obind (mul 0 v) (fun t => Ok (fun x a c => v x a c - t x a c)).
(** ChiralCondensate.cpp 88-89 and 105-114, the solver replaced by any [solve]: tmp and the vector of the connected part. *)
Definition condensate_vector (solve : field -> field) (mul : C -> field -> outcome) v : outcome :=
  construct_propagator mul (solve v).
Definition connected_vector (solve : field -> field) (mul : C -> field -> outcome) v : outcome :=
  Base.obind (condensate_vector solve mul v) (fun t => Ok (fun x a c => solve t x a c - t x a c)).
(** OverlapChiralRotation.cpp 24-37: one step of chiral_rotation_psi; [h] is theta/steps, [mul] dirac->multiply. *)
Definition psi_step (mul : field -> field) (h : C) v : field := fun x a c =>
  if (a < 2)%N then v x a c + (h * v x a c - h * mul v x a c) else v x a c + (- h * v x a c + h * mul v x a c).
(** OverlapChiralRotation.cpp 44-55 with AlgebraUtils::gamma5, which changes the sign of the last two components. *)
Definition gamma5_in_place v : field := fun x a c => if (a < 2)%N then v x a c else - v x a c.
Definition psibar_step (mul : field -> field) (h : C) v : field := fun x a c =>
  v x a c + (h * gamma5_in_place v x a c - h * mul (gamma5_in_place v) x a c).
(** OverlapChiralRotation.cpp 20-38 and 40-56. *)
Definition chiral_rotation_psi (mul : field -> field) (steps : nat) (theta : C) v : field :=
  iter steps (psi_step mul (theta / steps%:R)) v.
Definition chiral_rotation_psibar (mul : field -> field) (steps : nat) (theta : C) v : field :=
  iter steps (psibar_step mul (theta / steps%:R)) v.

(** ** OverlapFermionForce.cpp. *)
(** OverlapFermionForce.cpp 33-42 and 45-54: the vectors [v], then one more for every root of the list. *)
Definition root_vectors U (s : C) (zs : seq C) v : seq field :=
  v :: scanl (fun t z => fun x a c => s * square5_add U t t (- z) x a c) v zs.
(** OverlapFermionForce.cpp 26-82: derivative. *)
Definition overlap_derivative (mass : C) U (F : links) (X Y : field) (weight : C) : links :=
  let s := 'Re scaling in
  let factor := weight * (2%:R^-1 - mass / 2%:R) in
  let right := root_vectors U s roots Y in
  let left := root_vectors U s (map conjC (rev roots)) (wilson5 U X) in
  let z : field := fun _ _ _ => 0 in
  let F := foldl (fun (F : links) i =>
      let l := nth z left (size roots - i - 1)%N in let r := nth z right i in
      let F : links := fun x mu => F x mu - (s * factor) *: wilson_derivative kappa U (wilson5 U l) r x mu in
      fun x mu => F x mu - (s * factor) *: wilson_derivative kappa U l (wilson5 U r) x mu) F (iota 0 (size roots)) in
  fun x mu => F x mu - factor *: wilson_derivative kappa U X (last z right) x mu.
End Overlap.
