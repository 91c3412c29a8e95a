(** The arithmetics in which the solvers of SolverModel.v are run, and the words of their properties. *)
From Coq Require Import List.
From Coq Require Import QArith Qcanon.
From Verif Require Import Base.
From mathcomp Require Import all_ssreflect all_algebra.
From Verif Require Import SolverModel.
Import GRing.Theory Num.Theory.
Set Implicit Arguments.
Unset Strict Implicit.
Unset Printing Implicit Defensive.
Local Open Scope ring_scope.

Section Exact.
Variable C : numClosedFieldType.
Variable m : nat.            (* the number of components of a vector: sites times spins times colours *)
Notation V := 'cV[C]_m.
(** <u, v>, linear in v. *)
Definition scalar_product (u v : V) : C := \sum_i (u i 0)^* * v i 0.
(** Exact complex numbers. *)
Definition exact : arith := {|
  num := C; vec := V; nzero := 0; none_ := 1;
  nadd := +%R; nsub := fun a b => a - b; nmul := *%R; nopp := fun a => - a;
  ndiv := fun a b => if b == 0 then None else Some (a / b);
  nre := fun z => 'Re z; nabs := fun z => `|z|; nlt := fun a b => a < b; niszero := fun z => z == 0;
  vzero := 0; vadd := +%R; vsub := fun a b => a - b; vopp := fun a => - a; vscale := *:%R;
  vdot := scalar_product; vnorm := fun u => scalar_product u u |}.

(** Linear operators; |b - A x|^2; Hermitian positive definite operators; the law of multiplyAdd. *)
Definition linear_op (A : V -> V) : Prop := forall a u v, A (a *: u + v) = a *: A u + A v.
Definition residual_norm (A : V -> V) (b x : V) : C := \sum_i `|b i 0 - A x i 0| ^+ 2.
Definition hermitian_op (A : V -> V) : Prop := forall u v, scalar_product u (A v) = scalar_product (A u) v.
Definition positive_op (A : V -> V) : Prop := forall v, v != 0 -> 0 < scalar_product v (A v).
Definition adds (A : V -> V) (mad : V -> V -> C -> V) : Prop := forall v w a, mad v w a = A v + a *: w.
(** The operator A + sigma. *)
Definition shifted (A : V -> V) (sigma : C) : V -> V := fun v => A v + sigma *: v.

(** A polynomial of an operator applied to a vector. *)
Definition poly_apply (q : {poly C}) (A : V -> V) (v : V) : V := \sum_(i < size q) q`_i *: iter i A v.
(** The polynomial with given roots and leading coefficient. *)
Definition root_poly (k : C) (roots : list C) : {poly C} := k%:P * \prod_(z <- roots) ('X - z%:P).
(** The Chebyshev polynomials: 1, X, 2 X T_k - T_(k-1).  On y = (z + 1/z)/2 their value is (z^k + z^-k)/2
    (C45_chebyshev_value). *)
Fixpoint chebyshev2 (k : nat) : {poly C} * {poly C} :=
  match k with
  | O => (1, 'X)
  | S k' => let (p, q) := chebyshev2 k' in (q, 2%:R *: ('X * q) - p)
  end.
Definition chebyshev (k : nat) : {poly C} := (chebyshev2 k).1.
End Exact.

(** Pairs of rational numbers, for running the code on literals. *)
Definition q2 : arith := {|
  num := Qc; vec := Qc * Qc; nzero := 0%Qc; none_ := 1%Qc;
  nadd := Qcplus; nsub := Qcminus; nmul := Qcmult; nopp := Qcopp;
  ndiv := fun a b => if Qc_eq_bool b 0%Qc then None else Some (Qcdiv a b);
  nre := fun z => z; nabs := fun z => match Qccompare z 0%Qc with Lt => Qcopp z | _ => z end;
  nlt := fun a b => match Qccompare a b with Lt => true | _ => false end; niszero := fun z => Qc_eq_bool z 0%Qc;
  vzero := (0%Qc, 0%Qc);
  vadd := fun u v => (Qcplus u.1 v.1, Qcplus u.2 v.2); vsub := fun u v => (Qcminus u.1 v.1, Qcminus u.2 v.2);
  vopp := fun u => (Qcopp u.1, Qcopp u.2); vscale := fun a u => (Qcmult a u.1, Qcmult a u.2);
  vdot := fun u v => Qcplus (Qcmult u.1 v.1) (Qcmult u.2 v.2);
  vnorm := fun u => Qcplus (Qcmult u.1 u.1) (Qcmult u.2 u.2) |}.
Definition qmat (a b c d : Qc) (u : Qc * Qc) : Qc * Qc :=
  (Qcplus (Qcmult a u.1) (Qcmult b u.2), Qcplus (Qcmult c u.1) (Qcmult d u.2)).
(** Vectors of rational numbers of any length. *)
Fixpoint zip_with (f : Qc -> Qc -> Qc) (u v : list Qc) : list Qc :=
  match u, v with x :: u', y :: v' => f x y :: zip_with f u' v' | _, _ => nil end.
Definition qdot (u v : list Qc) : Qc := List.fold_right Qcplus 0%Qc (zip_with Qcmult u v).
Definition ql (len : nat) : arith := {|
  num := Qc; vec := list Qc; nzero := 0%Qc; none_ := 1%Qc;
  nadd := Qcplus; nsub := Qcminus; nmul := Qcmult; nopp := Qcopp;
  ndiv := ndiv q2; nre := fun z => z; nabs := nabs q2; nlt := nlt q2; niszero := niszero q2;
  vzero := List.repeat 0%Qc len; vadd := zip_with Qcplus; vsub := zip_with Qcminus; vopp := List.map Qcopp;
  vscale := fun a => List.map (Qcmult a); vdot := qdot; vnorm := fun u => qdot u u |}.
