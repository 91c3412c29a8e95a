(** The Wilson-Dirac operator: the two unrolled implementations (dirac_operators/DiracWilsonOperator.cpp and
    BasicDiracWilsonOperator.cpp), the squared, twisted and block operators, the gamma operators and the scalar
    products of algebra_utils/AlgebraUtils.h, over exact complex arithmetic, for any number of colours and any periodic
    lattice.  The formulas between colour components are transcribed line by line from the C++ code, real and imaginary
    parts included.  A field is its value at every site: the distribution over processes and the halo exchange at the end
    of each multiplication are the subject of the Layout and Halo files.  The output vector is taken to be different from
    the inputs, as in the callers. *)
From Coq Require Import ZArith.
From mathcomp Require Import all_ssreflect all_algebra.
From Verif Require Import GaugeModel LoopModel GammaModel.
Import GRing.Theory Num.Theory.
Set Implicit Arguments.
Unset Strict Implicit.
Unset Printing Implicit Defensive.
Local Open Scope ring_scope.

(** The four directions and the four spinor indices. *)
Definition d0 : 'I_4 := @Ordinal 4 0 isT.
Definition d1 : 'I_4 := @Ordinal 4 1 isT.
Definition d2 : 'I_4 := @Ordinal 4 2 isT.
Definition d3 : 'I_4 := @Ordinal 4 3 isT.

Section Dirac.
Variable C : numClosedFieldType.
Variable n : nat.            (* diracVectorLength *)
Variable L : lattice.
Notation colour := ('I_n -> C) (only parsing).      (* GaugeVector *)
Notation field := (L -> 'I_4 -> 'I_n -> C) (only parsing).      (* dirac_vector_t: v[site][mu][c] *)
Notation links := (L -> 'I_4 -> 'M[C]_n) (only parsing).      (* fermion lattice *)
Implicit Types (U : links) (v w : field) (x : L).

(** std::complex<real_t>(re, im). *)
Definition mkc (re im : C) : C := re + 'i * im.
(** Matrix times GaugeVector, MatrixToolkit.h. *)
Definition mulv (A : 'M[C]_n) (w : colour) : colour := fun a => \sum_b A a b * w b.

(** BasicDiracWilsonOperator.cpp 31-38 (and 115-122 of multiplyAdd): the half spinors at x+mu; indices as in
    projection_spinor[mu][nu][c]. *)
Definition proj_up v x (mu : 'I_4) (nu : nat) : colour := fun c =>
  match nat_of_ord mu, nu with
  | 0, 0 => (mkc ('Re (v (sup d0 x) d0 c) - 'Im (v (sup d0 x) d3 c)) ('Im (v (sup d0 x) d0 c) + 'Re (v (sup d0 x) d3 c)))%R
  | 0, _ => (mkc ('Re (v (sup d0 x) d1 c) - 'Im (v (sup d0 x) d2 c)) ('Im (v (sup d0 x) d1 c) + 'Re (v (sup d0 x) d2 c)))%R
  | 1, 0 => (mkc ('Re (v (sup d1 x) d0 c) + 'Re (v (sup d1 x) d3 c)) ('Im (v (sup d1 x) d0 c) + 'Im (v (sup d1 x) d3 c)))%R
  | 1, _ => (mkc ('Re (v (sup d1 x) d1 c) - 'Re (v (sup d1 x) d2 c)) ('Im (v (sup d1 x) d1 c) - 'Im (v (sup d1 x) d2 c)))%R
  | 2, 0 => (mkc ('Re (v (sup d2 x) d0 c) - 'Im (v (sup d2 x) d2 c)) ('Im (v (sup d2 x) d0 c) + 'Re (v (sup d2 x) d2 c)))%R
  | 2, _ => (mkc ('Re (v (sup d2 x) d1 c) + 'Im (v (sup d2 x) d3 c)) ('Im (v (sup d2 x) d1 c) - 'Re (v (sup d2 x) d3 c)))%R
  | _, 0 => (mkc ('Re (v (sup d3 x) d0 c) - 'Re (v (sup d3 x) d2 c)) ('Im (v (sup d3 x) d0 c) - 'Im (v (sup d3 x) d2 c)))%R
  | _, _ => (mkc ('Re (v (sup d3 x) d1 c) - 'Re (v (sup d3 x) d3 c)) ('Im (v (sup d3 x) d1 c) - 'Im (v (sup d3 x) d3 c)))%R
  end%N.
(** BasicDiracWilsonOperator.cpp 54-61 (and 138-145): the half spinors at x-mu. *)
Definition proj_dn v x (mu : 'I_4) (nu : nat) : colour := fun c =>
  match nat_of_ord mu, nu with
  | 0, 0 => (mkc ('Re (v (sdn d0 x) d0 c) + 'Im (v (sdn d0 x) d3 c)) ('Im (v (sdn d0 x) d0 c) - 'Re (v (sdn d0 x) d3 c)))%R
  | 0, _ => (mkc ('Re (v (sdn d0 x) d1 c) + 'Im (v (sdn d0 x) d2 c)) ('Im (v (sdn d0 x) d1 c) - 'Re (v (sdn d0 x) d2 c)))%R
  | 1, 0 => (mkc ('Re (v (sdn d1 x) d0 c) - 'Re (v (sdn d1 x) d3 c)) ('Im (v (sdn d1 x) d0 c) - 'Im (v (sdn d1 x) d3 c)))%R
  | 1, _ => (mkc ('Re (v (sdn d1 x) d1 c) + 'Re (v (sdn d1 x) d2 c)) ('Im (v (sdn d1 x) d1 c) + 'Im (v (sdn d1 x) d2 c)))%R
  | 2, 0 => (mkc ('Re (v (sdn d2 x) d0 c) + 'Im (v (sdn d2 x) d2 c)) ('Im (v (sdn d2 x) d0 c) - 'Re (v (sdn d2 x) d2 c)))%R
  | 2, _ => (mkc ('Re (v (sdn d2 x) d1 c) - 'Im (v (sdn d2 x) d3 c)) ('Im (v (sdn d2 x) d1 c) + 'Re (v (sdn d2 x) d3 c)))%R
  | _, 0 => (mkc ('Re (v (sdn d3 x) d0 c) + 'Re (v (sdn d3 x) d2 c)) ('Im (v (sdn d3 x) d0 c) + 'Im (v (sdn d3 x) d2 c)))%R
  | _, _ => (mkc ('Re (v (sdn d3 x) d1 c) + 'Re (v (sdn d3 x) d3 c)) ('Im (v (sdn d3 x) d1 c) + 'Im (v (sdn d3 x) d3 c)))%R
  end%N.
(** BasicDiracWilsonOperator.cpp 42-46 and 65-71: tmp_plus and tmp_minus. *)
Definition basic_plus U v x (mu : 'I_4) (nu : nat) : colour := fun c =>
  mulv (U x mu) (proj_up v x mu nu) c + mulv (htrans (U (sdn mu x) mu)) (proj_dn v x mu nu) c.
Definition basic_minus U v x (mu : 'I_4) (nu : nat) : colour := fun c =>
  mulv (U x mu) (proj_up v x mu nu) c - mulv (htrans (U (sdn mu x) mu)) (proj_dn v x mu nu) c.
(** BasicDiracWilsonOperator.cpp 74-91: the output at one site, with and without gamma5. *)
Definition basic_output (kappa : C) (gamma5 : bool) (tp tm : 'I_4 -> nat -> colour) v x (a : 'I_4) : colour := fun c =>
  if gamma5 then
    match nat_of_ord a with
    | 0 => (mkc ('Re (v x d0 c) - kappa * ('Re (tp d0 0%N c) + 'Re (tp d1 0%N c) + 'Re (tp d2 0%N c) + 'Re (tp d3 0%N c))) ('Im (v x d0 c) - kappa * ('Im (tp d0 0%N c) + 'Im (tp d1 0%N c) + 'Im (tp d2 0%N c) + 'Im (tp d3 0%N c))))%R
    | 1 => (mkc ('Re (v x d1 c) - kappa * ('Re (tp d0 1%N c) + 'Re (tp d1 1%N c) + 'Re (tp d2 1%N c) + 'Re (tp d3 1%N c))) ('Im (v x d1 c) - kappa * ('Im (tp d0 1%N c) + 'Im (tp d1 1%N c) + 'Im (tp d2 1%N c) + 'Im (tp d3 1%N c))))%R
    | 2 => (mkc (- ('Re (v x d2 c) + kappa * ('Re (tm d1 1%N c) + 'Re (tm d3 0%N c) - 'Im (tm d0 1%N c) - 'Im (tm d2 0%N c)))) (- ('Im (v x d2 c) + kappa * ('Re (tm d0 1%N c) + 'Re (tm d2 0%N c) + 'Im (tm d1 1%N c) + 'Im (tm d3 0%N c)))))%R
    | _ => (mkc (- ('Re (v x d3 c) + kappa * ('Im (tm d2 1%N c) - 'Im (tm d0 0%N c) - 'Re (tm d1 0%N c) + 'Re (tm d3 1%N c)))) (- ('Im (v x d3 c) + kappa * ('Re (tm d0 0%N c) - 'Re (tm d2 1%N c) - 'Im (tm d1 0%N c) + 'Im (tm d3 1%N c)))))%R
    end%N
  else
    match nat_of_ord a with
    | 0 => (mkc ('Re (v x d0 c) - kappa * ('Re (tp d0 0%N c) + 'Re (tp d1 0%N c) + 'Re (tp d2 0%N c) + 'Re (tp d3 0%N c))) ('Im (v x d0 c) - kappa * ('Im (tp d0 0%N c) + 'Im (tp d1 0%N c) + 'Im (tp d2 0%N c) + 'Im (tp d3 0%N c))))%R
    | 1 => (mkc ('Re (v x d1 c) - kappa * ('Re (tp d0 1%N c) + 'Re (tp d1 1%N c) + 'Re (tp d2 1%N c) + 'Re (tp d3 1%N c))) ('Im (v x d1 c) - kappa * ('Im (tp d0 1%N c) + 'Im (tp d1 1%N c) + 'Im (tp d2 1%N c) + 'Im (tp d3 1%N c))))%R
    | 2 => (mkc ('Re (v x d2 c) + kappa * ('Re (tm d1 1%N c) + 'Re (tm d3 0%N c) - 'Im (tm d0 1%N c) - 'Im (tm d2 0%N c))) ('Im (v x d2 c) + kappa * ('Re (tm d0 1%N c) + 'Re (tm d2 0%N c) + 'Im (tm d1 1%N c) + 'Im (tm d3 0%N c))))%R
    | _ => (mkc ('Re (v x d3 c) + kappa * ('Im (tm d2 1%N c) - 'Im (tm d0 0%N c) - 'Re (tm d1 0%N c) + 'Re (tm d3 1%N c))) ('Im (v x d3 c) + kappa * ('Re (tm d0 0%N c) - 'Re (tm d2 1%N c) - 'Im (tm d1 0%N c) + 'Im (tm d3 1%N c))))%R
    end%N.
(** BasicDiracWilsonOperator.cpp 12-94: multiply. *)
Definition basic_multiply (kappa : C) (gamma5 : bool) U v : field := fun x =>
  basic_output kappa gamma5 (basic_plus U v x) (basic_minus U v x) v x.
(** BasicDiracWilsonOperator.cpp 158-175: the output lines of multiplyAdd. *)
Definition basic_output_add (kappa : C) (gamma5 : bool) (tp tm : 'I_4 -> nat -> colour) v w (alpha : C) x (a : 'I_4) : colour := fun c =>
  if gamma5 then
    match nat_of_ord a with
    | 0 => (alpha * (w x d0 c) + mkc ('Re (v x d0 c) - kappa * ('Re (tp d0 0%N c) + 'Re (tp d1 0%N c) + 'Re (tp d2 0%N c) + 'Re (tp d3 0%N c))) ('Im (v x d0 c) - kappa * ('Im (tp d0 0%N c) + 'Im (tp d1 0%N c) + 'Im (tp d2 0%N c) + 'Im (tp d3 0%N c))))%R
    | 1 => (alpha * (w x d1 c) + mkc ('Re (v x d1 c) - kappa * ('Re (tp d0 1%N c) + 'Re (tp d1 1%N c) + 'Re (tp d2 1%N c) + 'Re (tp d3 1%N c))) ('Im (v x d1 c) - kappa * ('Im (tp d0 1%N c) + 'Im (tp d1 1%N c) + 'Im (tp d2 1%N c) + 'Im (tp d3 1%N c))))%R
    | 2 => (alpha * (w x d2 c) + mkc (- ('Re (v x d2 c) + kappa * ('Re (tm d1 1%N c) + 'Re (tm d3 0%N c) - 'Im (tm d0 1%N c) - 'Im (tm d2 0%N c)))) (- ('Im (v x d2 c) + kappa * ('Re (tm d0 1%N c) + 'Re (tm d2 0%N c) + 'Im (tm d1 1%N c) + 'Im (tm d3 0%N c)))))%R
    | _ => (alpha * (w x d3 c) + mkc (- ('Re (v x d3 c) + kappa * ('Im (tm d2 1%N c) - 'Im (tm d0 0%N c) - 'Re (tm d1 0%N c) + 'Re (tm d3 1%N c)))) (- ('Im (v x d3 c) + kappa * ('Re (tm d0 0%N c) - 'Re (tm d2 1%N c) - 'Im (tm d1 0%N c) + 'Im (tm d3 1%N c)))))%R
    end%N
  else
    match nat_of_ord a with
    | 0 => (alpha * (w x d0 c) + mkc ('Re (v x d0 c) - kappa * ('Re (tp d0 0%N c) + 'Re (tp d1 0%N c) + 'Re (tp d2 0%N c) + 'Re (tp d3 0%N c))) ('Im (v x d0 c) - kappa * ('Im (tp d0 0%N c) + 'Im (tp d1 0%N c) + 'Im (tp d2 0%N c) + 'Im (tp d3 0%N c))))%R
    | 1 => (alpha * (w x d1 c) + mkc ('Re (v x d1 c) - kappa * ('Re (tp d0 1%N c) + 'Re (tp d1 1%N c) + 'Re (tp d2 1%N c) + 'Re (tp d3 1%N c))) ('Im (v x d1 c) - kappa * ('Im (tp d0 1%N c) + 'Im (tp d1 1%N c) + 'Im (tp d2 1%N c) + 'Im (tp d3 1%N c))))%R
    | 2 => (alpha * (w x d2 c) + mkc ('Re (v x d2 c) + kappa * ('Re (tm d1 1%N c) + 'Re (tm d3 0%N c) - 'Im (tm d0 1%N c) - 'Im (tm d2 0%N c))) ('Im (v x d2 c) + kappa * ('Re (tm d0 1%N c) + 'Re (tm d2 0%N c) + 'Im (tm d1 1%N c) + 'Im (tm d3 0%N c))))%R
    | _ => (alpha * (w x d3 c) + mkc ('Re (v x d3 c) + kappa * ('Im (tm d2 1%N c) - 'Im (tm d0 0%N c) - 'Re (tm d1 0%N c) + 'Re (tm d3 1%N c))) ('Im (v x d3 c) + kappa * ('Re (tm d0 0%N c) - 'Re (tm d2 1%N c) - 'Im (tm d1 0%N c) + 'Im (tm d3 1%N c))))%R
    end%N.
(** BasicDiracWilsonOperator.cpp 96-178: multiplyAdd. *)
Definition basic_multiply_add (kappa : C) (gamma5 : bool) U v w (alpha : C) : field := fun x =>
  basic_output_add kappa gamma5 (basic_plus U v x) (basic_minus U v x) v w alpha x.

(** DiracWilsonOperator.cpp 36-43: the two colour products of one half spinor, tmp (from x-mu) and tmm (from x+mu);
    the same lines follow every projection. *)
Definition from_down U x (mu : 'I_4) (minus : colour) : colour := fun a => \sum_c minus c * (U (sdn mu x) mu c a)^*.
Definition from_up U x (mu : 'I_4) (plus : colour) : colour := fun a => \sum_c plus c * U x mu a c.
(** output[site] while it is being computed. *)
Notation spinor := ('I_4 -> 'I_n -> C) (only parsing).
Definition put (out : spinor) (a : 'I_4) (f : colour) : spinor := fun b => if b == a then f else out b.

(** DiracWilsonOperator.cpp 30-45. *)
Definition dw_step0 (kappa : C) U v x (out : spinor) : spinor :=
  let dn := sdn d0 x in let up := sup d0 x in
  let tmp := from_down U x d0 (fun c => mkc ('Re (v dn d0 c) + 'Im (v dn d3 c)) ('Im (v dn d0 c) - 'Re (v dn d3 c))) in
  let tmm := from_up U x d0 (fun c => mkc ('Re (v up d0 c) - 'Im (v up d3 c)) ('Im (v up d0 c) + 'Re (v up d3 c))) in
  put (put out d0 (fun c => (v x d0 c) - kappa * (tmp c + tmm c)))
    d3 (fun c => - (v x d3 c) + kappa * mkc ('Im (tmm c) - 'Im (tmp c)) ('Re (tmp c) - 'Re (tmm c))).
(** DiracWilsonOperator.cpp 219-234. *)
Definition dw_step0_add (kappa : C) U v w (alpha : C) x (out : spinor) : spinor :=
  let dn := sdn d0 x in let up := sup d0 x in
  let tmp := from_down U x d0 (fun c => mkc ('Re (v dn d0 c) + 'Im (v dn d3 c)) ('Im (v dn d0 c) - 'Re (v dn d3 c))) in
  let tmm := from_up U x d0 (fun c => mkc ('Re (v up d0 c) - 'Im (v up d3 c)) ('Im (v up d0 c) + 'Re (v up d3 c))) in
  put (put out d0 (fun c => alpha * (w x d0 c) + (v x d0 c) - kappa * (tmp c + tmm c)))
    d3 (fun c => alpha * (w x d3 c) - (v x d3 c) + kappa * mkc ('Im (tmm c) - 'Im (tmp c)) ('Re (tmp c) - 'Re (tmm c))).
(** DiracWilsonOperator.cpp 48-64. *)
Definition dw_step1 (kappa : C) U v x (out : spinor) : spinor :=
  let dn := sdn d0 x in let up := sup d0 x in
  let tmp := from_down U x d0 (fun c => mkc ('Re (v dn d1 c) + 'Im (v dn d2 c)) ('Im (v dn d1 c) - 'Re (v dn d2 c))) in
  let tmm := from_up U x d0 (fun c => mkc ('Re (v up d1 c) - 'Im (v up d2 c)) ('Im (v up d1 c) + 'Re (v up d2 c))) in
  put (put out d1 (fun c => (v x d1 c) - kappa * (tmp c + tmm c)))
    d2 (fun c => - (v x d2 c) + kappa * mkc ('Im (tmm c) - 'Im (tmp c)) ('Re (tmp c) - 'Re (tmm c))).
(** DiracWilsonOperator.cpp 237-253. *)
Definition dw_step1_add (kappa : C) U v w (alpha : C) x (out : spinor) : spinor :=
  let dn := sdn d0 x in let up := sup d0 x in
  let tmp := from_down U x d0 (fun c => mkc ('Re (v dn d1 c) + 'Im (v dn d2 c)) ('Im (v dn d1 c) - 'Re (v dn d2 c))) in
  let tmm := from_up U x d0 (fun c => mkc ('Re (v up d1 c) - 'Im (v up d2 c)) ('Im (v up d1 c) + 'Re (v up d2 c))) in
  put (put out d1 (fun c => alpha * (w x d1 c) + (v x d1 c) - kappa * (tmp c + tmm c)))
    d2 (fun c => alpha * (w x d2 c) - (v x d2 c) + kappa * mkc ('Im (tmm c) - 'Im (tmp c)) ('Re (tmp c) - 'Re (tmm c))).
(** DiracWilsonOperator.cpp 71-87 (and 260-276 of multiplyAdd). *)
Definition dw_step2 (kappa : C) U v x (out : spinor) : spinor :=
  let dn := sdn d1 x in let up := sup d1 x in
  let tmp := from_down U x d1 (fun c => (v dn d0 c) - ((v dn d3 c))) in
  let tmm := from_up U x d1 (fun c => (v up d0 c) + ((v up d3 c))) in
  put (put out d0 (fun c => out d0 c - kappa * (tmp c + tmm c)))
    d3 (fun c => out d3 c + kappa * (tmm c - tmp c)).
(** DiracWilsonOperator.cpp 90-106 (and 279-295 of multiplyAdd). *)
Definition dw_step3 (kappa : C) U v x (out : spinor) : spinor :=
  let dn := sdn d1 x in let up := sup d1 x in
  let tmp := from_down U x d1 (fun c => (v dn d1 c) + ((v dn d2 c))) in
  let tmm := from_up U x d1 (fun c => (v up d1 c) - ((v up d2 c))) in
  put (put out d1 (fun c => out d1 c - kappa * (tmp c + tmm c)))
    d2 (fun c => out d2 c + kappa * (tmp c - tmm c)).
(** DiracWilsonOperator.cpp 113-129 (and 302-318 of multiplyAdd). *)
Definition dw_step4 (kappa : C) U v x (out : spinor) : spinor :=
  let dn := sdn d2 x in let up := sup d2 x in
  let tmp := from_down U x d2 (fun c => mkc ('Re (v dn d0 c) + 'Im (v dn d2 c)) ('Im (v dn d0 c) - 'Re (v dn d2 c))) in
  let tmm := from_up U x d2 (fun c => mkc ('Re (v up d0 c) - 'Im (v up d2 c)) ('Im (v up d0 c) + 'Re (v up d2 c))) in
  put (put out d0 (fun c => out d0 c - kappa * (tmp c + tmm c)))
    d2 (fun c => out d2 c + kappa * mkc ('Im (tmm c) - 'Im (tmp c)) ('Re (tmp c) - 'Re (tmm c))).
(** DiracWilsonOperator.cpp 132-148 (and 321-337 of multiplyAdd). *)
Definition dw_step5 (kappa : C) U v x (out : spinor) : spinor :=
  let dn := sdn d2 x in let up := sup d2 x in
  let tmp := from_down U x d2 (fun c => mkc ('Re (v dn d1 c) - 'Im (v dn d3 c)) ('Im (v dn d1 c) + 'Re (v dn d3 c))) in
  let tmm := from_up U x d2 (fun c => mkc ('Re (v up d1 c) + 'Im (v up d3 c)) ('Im (v up d1 c) - 'Re (v up d3 c))) in
  put (put out d1 (fun c => out d1 c - kappa * (tmp c + tmm c)))
    d3 (fun c => out d3 c + kappa * mkc ('Im (tmp c) - 'Im (tmm c)) ('Re (tmm c) - 'Re (tmp c))).
(** DiracWilsonOperator.cpp 155-171 (and 344-360 of multiplyAdd). *)
Definition dw_step6 (kappa : C) U v x (out : spinor) : spinor :=
  let dn := sdn d3 x in let up := sup d3 x in
  let tmp := from_down U x d3 (fun c => (v dn d0 c) + ((v dn d2 c))) in
  let tmm := from_up U x d3 (fun c => (v up d0 c) - ((v up d2 c))) in
  put (put out d0 (fun c => out d0 c - kappa * (tmp c + tmm c)))
    d2 (fun c => out d2 c + kappa * (tmp c - tmm c)).
(** DiracWilsonOperator.cpp 174-190 (and 363-379 of multiplyAdd). *)
Definition dw_step7 (kappa : C) U v x (out : spinor) : spinor :=
  let dn := sdn d3 x in let up := sup d3 x in
  let tmp := from_down U x d3 (fun c => (v dn d1 c) + ((v dn d3 c))) in
  let tmm := from_up U x d3 (fun c => (v up d1 c) - ((v up d3 c))) in
  put (put out d1 (fun c => out d1 c - kappa * (tmp c + tmm c)))
    d3 (fun c => out d3 c + kappa * (tmp c - tmm c)).
(** The six last steps, in the order of the code. *)
Definition dw_rest (kappa : C) U v x (out : spinor) : spinor :=
  dw_step7 kappa U v x (dw_step6 kappa U v x (dw_step5 kappa U v x (dw_step4 kappa U v x
    (dw_step3 kappa U v x (dw_step2 kappa U v x out))))).
(** DiracWilsonOperator.cpp 16-202: multiply; [old] is the previous content of the output vector. *)
Definition wilson_multiply (kappa : C) (gamma5 : bool) U (old : field) v : field := fun x =>
  let out := dw_rest kappa U v x (dw_step1 kappa U v x (dw_step0 kappa U v x (old x))) in
  if gamma5 then out
  else put (put out d2 (fun c => - out d2 c)) d3 (fun c => - out d3 c).
(** DiracWilsonOperator.cpp 204-391: multiplyAdd. *)
Definition wilson_multiply_add (kappa : C) (gamma5 : bool) U (old : field) v w (alpha : C) : field := fun x =>
  let out := dw_rest kappa U v x (dw_step1_add kappa U v w alpha x (dw_step0_add kappa U v w alpha x (old x))) in
  if gamma5 then out
  else put (put out d2 (fun c => - out d2 c + 2%:R * alpha * w x d2 c)) d3 (fun c => - out d3 c + 2%:R * alpha * w x d3 c).

(** SquareDiracWilsonOperator.cpp 12-22 and BasicSquareDiracWilsonOperator.cpp 13-23, for an operator given by its
    multiply and multiplyAdd. *)
Definition square_multiply (mul : field -> field) v : field := mul (mul v).
Definition square_multiply_add (mul : field -> field) (mad : field -> field -> C -> field) v w (alpha : C) : field :=
  mad (mul v) w alpha.

(** TwistedDiracOperator.cpp 11-28 and 30-47; the twist is skipped below the threshold 1e-17. *)
Definition twist_active (twist : C) : bool := (10%:R ^+ 17)^-1 < `|twist|.
Definition add_twist (twist : C) v (out : field) : field := fun x a c =>
  if twist_active twist then (if (a < 2)%N then out x a c + mkc 0 twist * v x a c else out x a c - mkc 0 twist * v x a c)
  else out x a c.
Definition twisted_multiply (mul : field -> field) (twist : C) v : field := add_twist twist v (mul v).
Definition twisted_multiply_add (mad : field -> field -> C -> field) (twist : C) v w (alpha : C) : field :=
  add_twist twist v (mad v w alpha).
(** SquareTwistedDiracOperator.cpp 11-22 and 24-27. *)
Definition square_twisted_multiply (mul : field -> field) (twist : C) v : field := fun x a c => mul v x a c + twist * v x a c.
Definition square_twisted_multiply_add (mad : field -> field -> C -> field) (twist : C) v w (alpha : C) : field :=
  mad v w (alpha + twist).

(** BlockDiracWilsonOperator.cpp 45-50 and 69-81: the neighbours outside the block are left out; [blk] is index_lattice.
    The projections at 34-41 and 58-65 are those of the basic operator. *)
Definition block_plus (blk : L -> bool) U v x (mu : 'I_4) (nu : nat) : colour := fun c =>
  let plus := if blk (sup mu x) then mulv (U x mu) (proj_up v x mu nu) c else 0 in
  if blk (sdn mu x) then plus + mulv (htrans (U (sdn mu x) mu)) (proj_dn v x mu nu) c else plus.
Definition block_minus (blk : L -> bool) U v x (mu : 'I_4) (nu : nat) : colour := fun c =>
  let plus := if blk (sup mu x) then mulv (U x mu) (proj_up v x mu nu) c else 0 in
  if blk (sdn mu x) then plus - mulv (htrans (U (sdn mu x) mu)) (proj_dn v x mu nu) c else plus.
(** BlockDiracWilsonOperator.cpp 83-100: sites of the block. *)
Definition block_output (kappa twist : C) (gamma5 : bool) (tp tm : 'I_4 -> nat -> colour) v x (a : 'I_4) : colour := fun c =>
  if gamma5 then
    match nat_of_ord a with
    | 0 => (mkc 0 twist * (v x d0 c) + mkc ('Re (v x d0 c) - kappa * ('Re (tp d0 0%N c) + 'Re (tp d1 0%N c) + 'Re (tp d2 0%N c) + 'Re (tp d3 0%N c))) ('Im (v x d0 c) - kappa * ('Im (tp d0 0%N c) + 'Im (tp d1 0%N c) + 'Im (tp d2 0%N c) + 'Im (tp d3 0%N c))))%R
    | 1 => (mkc 0 twist * (v x d1 c) + mkc ('Re (v x d1 c) - kappa * ('Re (tp d0 1%N c) + 'Re (tp d1 1%N c) + 'Re (tp d2 1%N c) + 'Re (tp d3 1%N c))) ('Im (v x d1 c) - kappa * ('Im (tp d0 1%N c) + 'Im (tp d1 1%N c) + 'Im (tp d2 1%N c) + 'Im (tp d3 1%N c))))%R
    | 2 => (mkc 0 twist * (v x d2 c) + mkc (- ('Re (v x d2 c) + kappa * ('Re (tm d1 1%N c) + 'Re (tm d3 0%N c) - 'Im (tm d0 1%N c) - 'Im (tm d2 0%N c)))) (- ('Im (v x d2 c) + kappa * ('Re (tm d0 1%N c) + 'Re (tm d2 0%N c) + 'Im (tm d1 1%N c) + 'Im (tm d3 0%N c)))))%R
    | _ => (mkc 0 twist * (v x d3 c) + mkc (- ('Re (v x d3 c) + kappa * ('Im (tm d2 1%N c) - 'Im (tm d0 0%N c) - 'Re (tm d1 0%N c) + 'Re (tm d3 1%N c)))) (- ('Im (v x d3 c) + kappa * ('Re (tm d0 0%N c) - 'Re (tm d2 1%N c) - 'Im (tm d1 0%N c) + 'Im (tm d3 1%N c)))))%R
    end%N
  else
    match nat_of_ord a with
    | 0 => (mkc 0 twist * (v x d0 c) + mkc ('Re (v x d0 c) - kappa * ('Re (tp d0 0%N c) + 'Re (tp d1 0%N c) + 'Re (tp d2 0%N c) + 'Re (tp d3 0%N c))) ('Im (v x d0 c) - kappa * ('Im (tp d0 0%N c) + 'Im (tp d1 0%N c) + 'Im (tp d2 0%N c) + 'Im (tp d3 0%N c))))%R
    | 1 => (mkc 0 twist * (v x d1 c) + mkc ('Re (v x d1 c) - kappa * ('Re (tp d0 1%N c) + 'Re (tp d1 1%N c) + 'Re (tp d2 1%N c) + 'Re (tp d3 1%N c))) ('Im (v x d1 c) - kappa * ('Im (tp d0 1%N c) + 'Im (tp d1 1%N c) + 'Im (tp d2 1%N c) + 'Im (tp d3 1%N c))))%R
    | 2 => (mkc 0 (- twist) * (v x d2 c) + mkc ('Re (v x d2 c) + kappa * ('Re (tm d1 1%N c) + 'Re (tm d3 0%N c) - 'Im (tm d0 1%N c) - 'Im (tm d2 0%N c))) ('Im (v x d2 c) + kappa * ('Re (tm d0 1%N c) + 'Re (tm d2 0%N c) + 'Im (tm d1 1%N c) + 'Im (tm d3 0%N c))))%R
    | _ => (mkc 0 (- twist) * (v x d3 c) + mkc ('Re (v x d3 c) + kappa * ('Im (tm d2 1%N c) - 'Im (tm d0 0%N c) - 'Re (tm d1 0%N c) + 'Re (tm d3 1%N c))) ('Im (v x d3 c) + kappa * ('Re (tm d0 0%N c) - 'Re (tm d2 1%N c) - 'Im (tm d1 0%N c) + 'Im (tm d3 1%N c))))%R
    end%N.
(** BlockDiracWilsonOperator.cpp 102-119: the other sites. *)
Definition block_outside (twist : C) (gamma5 : bool) v x (a : 'I_4) : colour := fun c =>
  if gamma5 then
    match nat_of_ord a with
    | 0 => (mkc 1 twist * (v x d0 c))%R
    | 1 => (mkc 1 twist * (v x d1 c))%R
    | 2 => (mkc (- 1) twist * (v x d2 c))%R
    | _ => (mkc (- 1) twist * (v x d3 c))%R
    end%N
  else
    match nat_of_ord a with
    | 0 => (mkc 1 twist * (v x d0 c))%R
    | 1 => (mkc 1 twist * (v x d1 c))%R
    | 2 => (mkc 1 (- twist) * (v x d2 c))%R
    | _ => (mkc 1 (- twist) * (v x d3 c))%R
    end%N.
(** BlockDiracWilsonOperator.cpp 14-121: multiply. *)
Definition block_multiply (blk : L -> bool) (kappa twist : C) (gamma5 : bool) U v : field := fun x =>
  if blk x then block_output kappa twist gamma5 (block_plus blk U v x) (block_minus blk U v x) v x
  else block_outside twist gamma5 v x.
(** BlockDiracWilsonOperator.cpp 134-163: hopping, without the mask. *)
Definition block_hop_up (t : 'I_4 -> 'I_4 -> colour) (a : 'I_4) : colour := fun c =>
  match nat_of_ord a with
  | 0 => (((t d0 d0 c) + 'i * (t d0 d3 c) + (t d1 d0 c) + (t d1 d3 c) + (t d2 d0 c) + 'i * (t d2 d2 c) + (t d3 d0 c) - (t d3 d2 c)))%R
  | 1 => (((t d0 d1 c) + 'i * (t d0 d2 c) + (t d1 d1 c) - (t d1 d2 c) + (t d2 d1 c) - 'i * (t d2 d3 c) + (t d3 d1 c) - (t d3 d3 c)))%R
  | 2 => (('i * (t d0 d1 c) - (t d0 d2 c) + (t d1 d1 c) - (t d1 d2 c) + 'i * (t d2 d0 c) - (t d2 d2 c) + (t d3 d0 c) - (t d3 d2 c)))%R
  | _ => (('i * (t d0 d0 c) - (t d0 d3 c) - (t d1 d0 c) - (t d1 d3 c) - 'i * (t d2 d1 c) - (t d2 d3 c) + (t d3 d1 c) - (t d3 d3 c)))%R
  end%N.
Definition block_hop_dn (t : 'I_4 -> 'I_4 -> colour) (a : 'I_4) : colour := fun c =>
  match nat_of_ord a with
  | 0 => (((t d0 d0 c) - 'i * (t d0 d3 c) + (t d1 d0 c) - (t d1 d3 c) + (t d2 d0 c) - 'i * (t d2 d2 c) + (t d3 d0 c) + (t d3 d2 c)))%R
  | 1 => (((t d0 d1 c) - 'i * (t d0 d2 c) + (t d1 d1 c) + (t d1 d2 c) + (t d2 d1 c) + 'i * (t d2 d3 c) + (t d3 d1 c) + (t d3 d3 c)))%R
  | 2 => ((- 'i * (t d0 d1 c) - (t d0 d2 c) - (t d1 d1 c) - (t d1 d2 c) - 'i * (t d2 d0 c) - (t d2 d2 c) - (t d3 d0 c) - (t d3 d2 c)))%R
  | _ => ((- 'i * (t d0 d0 c) - (t d0 d3 c) + (t d1 d0 c) - (t d1 d3 c) + 'i * (t d2 d1 c) - (t d2 d3 c) - (t d3 d1 c) - (t d3 d3 c)))%R
  end%N.
Definition block_hopping U v x (a : 'I_4) : colour := fun c =>
  block_hop_up (fun mu nu => mulv (U x mu) (v (sup mu x) nu)) a c
  + block_hop_dn (fun mu nu => mulv (htrans (U (sdn mu x) mu)) (v (sdn mu x) nu)) a c.
(** BlockDiracWilsonOperator.cpp 165-182. *)
Definition block_output_add (kappa twist : C) (gamma5 : bool) (h : 'I_4 -> colour) v w (alpha : C) x (a : 'I_4) : colour := fun c =>
  if gamma5 then
    match nat_of_ord a with
    | 0 => (alpha * (w x d0 c) + mkc 1 twist * (v x d0 c) - kappa * (h d0 c))%R
    | 1 => (alpha * (w x d1 c) + mkc 1 twist * (v x d1 c) - kappa * (h d1 c))%R
    | 2 => (alpha * (w x d2 c) - (mkc 1 (- twist) * (v x d2 c) + kappa * (h d2 c)))%R
    | _ => (alpha * (w x d3 c) - (mkc 1 (- twist) * (v x d3 c) + kappa * (h d3 c)))%R
    end%N
  else
    match nat_of_ord a with
    | 0 => (alpha * (w x d0 c) + mkc 1 twist * (v x d0 c) - kappa * (h d0 c))%R
    | 1 => (alpha * (w x d1 c) + mkc 1 twist * (v x d1 c) - kappa * (h d1 c))%R
    | 2 => (alpha * (w x d2 c) + mkc 1 (- twist) * (v x d2 c) + kappa * (h d2 c))%R
    | _ => (alpha * (w x d3 c) + mkc 1 (- twist) * (v x d3 c) + kappa * (h d3 c))%R
    end%N.
(** BlockDiracWilsonOperator.cpp 184-201. *)
Definition block_outside_add (twist : C) (gamma5 : bool) v w (alpha : C) x (a : 'I_4) : colour := fun c =>
  if gamma5 then
    match nat_of_ord a with
    | 0 => (alpha * (w x d0 c) + mkc 1 twist * (v x d0 c))%R
    | 1 => (alpha * (w x d1 c) + mkc 1 twist * (v x d1 c))%R
    | 2 => (alpha * (w x d2 c) + mkc (- 1) twist * (v x d2 c))%R
    | _ => (alpha * (w x d3 c) + mkc (- 1) twist * (v x d3 c))%R
    end%N
  else
    match nat_of_ord a with
    | 0 => (alpha * (w x d0 c) + mkc 1 twist * (v x d0 c))%R
    | 1 => (alpha * (w x d1 c) + mkc 1 twist * (v x d1 c))%R
    | 2 => (alpha * (w x d2 c) + mkc 1 (- twist) * (v x d2 c))%R
    | _ => (alpha * (w x d3 c) + mkc 1 (- twist) * (v x d3 c))%R
    end%N.
(** BlockDiracWilsonOperator.cpp 123-205: multiplyAdd. *)
Definition block_multiply_add (blk : L -> bool) (kappa twist : C) (gamma5 : bool) U v w (alpha : C) : field := fun x =>
  if blk x then block_output_add kappa twist gamma5 (block_hopping U v x) v w alpha x
  else block_outside_add twist gamma5 v w alpha x.
(** BlockDiracOperator.cpp 50-59: project. *)
Definition block_project (blk : L -> bool) v : field := fun x a c => if blk x then v x a c else 0.

(** utils/MatrixToolkit.h: vector_dot, conjugating the first argument. *)
Definition vector_dot (p q : colour) : C := \sum_c (p c)^* * q c.
(** algebra_utils/AlgebraUtils.h 182-196: dot, real and imaginary parts summed separately; 16-26: squaredNorm;
    219-240: gamma5dot. *)
Definition dot v w : C :=
  mkc (\sum_x \sum_(a < 4) 'Re (vector_dot (v x a) (w x a))) (\sum_x \sum_(a < 4) 'Im (vector_dot (v x a) (w x a))).
Definition squared_norm v : C := \sum_x \sum_(a < 4) 'Re (vector_dot (v x a) (v x a)).
Definition gamma5dot v w : C :=
  mkc (\sum_x (\sum_(a < 4 | (a < 2)%N) 'Re (vector_dot (v x a) (w x a)) - \sum_(a < 4 | (2 <= a)%N) 'Re (vector_dot (v x a) (w x a))))
      (\sum_x (\sum_(a < 4 | (a < 2)%N) 'Im (vector_dot (v x a) (w x a)) - \sum_(a < 4 | (2 <= a)%N) 'Im (vector_dot (v x a) (w x a)))).

(** The complex value of a table entry (Gamma.h). *)
Definition of_Z (z : Z) : C := match z with Z0 => 0 | Zpos p => (Pos.to_nat p)%:R | Zneg p => - (Pos.to_nat p)%:R end.
Definition of_gi (g : gi) : C := of_Z g.1 + 'i * of_Z g.2.
(** GammaOperators.cpp 5-15: multiply by matrix k of the Chroma basis (entries of the first colour block). *)
Definition gamma_multiply (k : nat) v : field := fun x a c =>
  \sum_(b < 4) of_gi (gamma_chroma n k a b) * v x b c.
(** HoppingOperator.cpp 7-16: apply. *)
Definition hopping_apply (mul : field -> field) v : field := fun x a c => mul v x a c - v x a c.
End Dirac.

(** BlockDiracOperator.cpp 78-91: initialize_index_lattice, the chequerboard of blocks; [odd] is false for Black. *)
Definition block_mask (G : grid) (size : 'I_4 -> nat) (odd : bool) (x : G) : bool :=
  ((coord x d0 %/ size d0 + coord x d1 %/ size d1 + coord x d2 %/ size d2 + coord x d3 %/ size d3) %% 2 == odd :> nat)%N.
