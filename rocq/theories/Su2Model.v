(** Two colours over the real numbers: the exponentials of the momenta and the sampler of the heat bath.
    Numbers are exact; uniform random numbers are arguments. *)
From Coq Require Import Reals List.
From Verif Require Import ComplexR.
Import ListNotations.
Open Scope R_scope.

(** utils/MatrixToolkit.h: Matrix<std::complex<T>, 2>; the four entries at(0,0), at(0,1), at(1,0), at(1,1). *)
Record mat2 := M2 { m00 : C; m01 : C; m10 : C; m11 : C }.

(** utils/MatrixToolkit.h 559-580: matrix_exp. *)
Definition threshold : R := 1 / 10000000.
Definition matrix_exp (m : mat2) : mat2 :=
  let n1 := im (m00 m) in
  let n2 := im (m01 m) in
  let n3 := re (m01 m) in
  let norm := sqrt (n1 * n1 + n2 * n2 + n3 * n3) in
  if Rlt_dec norm threshold then
    M2 (mkC (1 - norm * norm / 2) (n1 * (1 - norm * norm / 6)))
       (mkC (n3 * (1 - norm * norm / 6)) (n2 * (1 - norm * norm / 6)))
       (mkC (- n3 * (1 - norm * norm / 6)) (n2 * (1 - norm * norm / 6)))
       (mkC (1 - norm * norm / 2) (- n1 * (1 - norm * norm / 6)))
  else
    M2 (mkC (cos norm) (n1 * sin norm / norm))
       (mkC (n3 * sin norm / norm) (n2 * sin norm / norm))
       (mkC (- n3 * sin norm / norm) (n2 * sin norm / norm))
       (mkC (cos norm) (- n1 * sin norm / norm)).

(** utils/ExpMap.h 141-154: exp for two colours; None: division by zero. *)
Definition exp_map (m : mat2) : option mat2 :=
  let a := im (m00 m) in
  let b := re (m01 m) in
  let c := im (m01 m) in
  let rho := sqrt (a * a + b * b + c * c) in
  let phi := mkC (cos rho) (sin rho) in
  if Req_EM_T rho 0 then None else
  let r00 := Cscale (/ (2 * rho)) (Cscale (- (a - rho)) (Cconj phi) + Cscale (a + rho) phi)%C in
  let r01 := Cscale (/ (2 * rho)) (mkC (- c) b * Cconj phi + mkC c (- b) * phi)%C in
  Some (M2 r00 r01 (- Cconj r01)%C (Cconj r00)).

(** The value of a real expression in the code when it may be infinite or not a number. *)
Inductive real := Fin (x : R) | MinusInfinity | NaN.
(** pure_gauge/PureGaugeUpdater.cpp 133-136: s from three uniform numbers in [0, 1); log 0 is minus infinity and 0 times
    minus infinity is not a number.  [b] is a finite positive number. *)
Definition candidate (b u1 u2 u3 : R) : real :=
  let x3 := cos (2 * PI * u3) ^ 2 in
  if Req_EM_T u2 0 then (if Req_EM_T x3 0 then NaN else MinusInfinity) else
  if Req_EM_T u1 0 then MinusInfinity else
  Fin (1 + b * (ln u1 + ln u2 * x3)).
(** pure_gauge/PureGaugeUpdater.cpp 117-143: generate_radius; each attempt uses four uniform numbers; None: the numbers
    given are used up and the loop still runs.  Comparisons with a NaN are false, so a NaN is returned. *)
Fixpoint generate_radius (b : R) (draws : list (R * R * R * R)) : option real :=
  match draws with
  | [] => None
  | (u1, u2, u3, r) :: rest =>
    match candidate b u1 u2 u3 with
    | Fin s => if Rlt_dec (1 + s - 2 * r * r) 0 then generate_radius b rest else Some (Fin s)
    | MinusInfinity => generate_radius b rest
    | NaN => Some NaN
    end
  end.
(** pure_gauge/PureGaugeUpdater.cpp 146-164: generate_vector. *)
Definition generate_vector (radius v1 v2 : R) : R * R * R :=
  let phi := 2 * PI * v1 in
  let theta := acos (2 * v2 - 1) in
  (radius * sin theta * cos phi, radius * sin theta * sin phi, radius * cos theta).
(** pure_gauge/PureGaugeUpdater.cpp 177-183 and 211-216: the four numbers of an update; None: no result; Some None: NaN
    (sqrt of a negative number is NaN). *)
Definition heatbath_draw (b : R) (draws : list (R * R * R * R)) (v1 v2 : R) : option (option (R * R * R * R)) :=
  match generate_radius b draws with
  | None => None
  | Some (Fin u0) =>
    if Rlt_dec (1 - u0 * u0) 0 then Some None else
    let '(u1, u2, u3) := generate_vector (sqrt (1 - u0 * u0)) v1 v2 in Some (Some (u0, u1, u2, u3))
  | Some _ => Some None
  end.
