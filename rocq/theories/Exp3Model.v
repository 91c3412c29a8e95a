(** ExponentialMap::exp for three colours (utils/ExpMap.h 99-138): the matrix. *)
From Coq Require Import Reals.
From Verif Require Import ComplexR Exp3RModel.
From mathcomp Require Import all_ssreflect all_algebra.
From mathcomp Require Import complex.
From Verif Require Import RealField.
Set Implicit Arguments.
Unset Strict Implicit.
Unset Printing Implicit Defensive.
Local Open Scope ring_scope.

(** The same complex number in the type of the matrices. *)
Definition toCR (z : ComplexR.C) : CR := (re z +i* im z)%C.
(** real(.) of a complex number. *)
Definition real_part (z : CR) : R := complex.Re (z : R[i]).
(** ExpMap.h 99-138: exp; [None]: every entry is NaN. The determinant is the library's. *)
Definition exp3 (A : 'M[CR]_3) : option 'M[CR]_3 :=
  let c0 := real_part (\det (toCR (Copp Ci) *: A)) in
  let c1 := Rmult (Ropp (Rdiv 1 2)) (real_part (\tr (A *m A))) in
  match exp3_coefficients c0 c1 with
  | None => None
  | Some (f0, f1, f2) =>
    Some (- toCR f2 *: (A *m A) + (toCR f1 * toCR (Copp Ci)) *: A + toCR f0 *: 1%:M)
  end.
