(** ExponentialMap::exp for three colours (utils/ExpMap.h 99-138): the coefficients, over the real numbers without rounding. *)
From Coq Require Import Reals.
From Verif Require Import ComplexR.
Open Scope R_scope.

(** ExpMap.h 118-119: ksi, the series for small w. *)
Definition ksi (w : R) : R :=
  if Rlt_dec (Rabs w) (5 / 100) then 1 - (1 / 6) * w * w * (1 - (1 / 20) * w * w * (1 - (1 / 42) * w * w))
  else sin w / w.
(** ExpMap.h 115-116: dumexp2 and dumexp1. *)
Definition dumexp2 (u : R) : C := mkC (cos (2 * u)) (sin (2 * u)).
Definition dumexp1 (u : R) : C := mkC (cos u) (- sin u).
(** ExpMap.h 121-123. *)
Definition h0 (u w : R) : C :=
  (RtoC (u * u - w * w) * dumexp2 u
   + dumexp1 u * (RtoC (8 * u * u * cos w) + RtoC (2 * u) * Ci * RtoC (3 * u * u + w * w) * RtoC (ksi w)))%C.
Definition h1 (u w : R) : C :=
  (RtoC (2 * u) * dumexp2 u
   - dumexp1 u * (RtoC (2 * u * cos w) + - Ci * RtoC (3 * u * u - w * w) * RtoC (ksi w)))%C.
Definition h2 (u w : R) : C :=
  (dumexp2 u - dumexp1 u * (RtoC (cos w) + RtoC (3 * u) * Ci * RtoC (ksi w)))%C.
(** ExpMap.h 104-114: theta, u and w from c0 (not negative) and c1. [None]: a division by zero, the square root of a negative
    number or acos outside its domain, where the code computes with NaN. *)
Definition angles (c0 c1 : R) : option (R * R) :=
  if Rlt_dec c1 0 then None else
  let c0max := (2 * c1 / 3) * sqrt (c1 / 3) in
  if Req_EM_T c0max 0 then None else
  let q := c0 / c0max in
  if Rlt_dec 1 q then None else
  let theta := acos q in
  Some (sqrt (c1 / 3) * cos (theta / 3), sqrt c1 * sin (theta / 3)).
(** ExpMap.h 103-133: f0, f1, f2 from c0 and c1. *)
Definition exp3_coefficients (c0 c1 : R) : option (C * C * C) :=
  let inv_c0 := if Rlt_dec c0 0 then true else false in
  let c0' := if inv_c0 then - c0 else c0 in
  match angles c0' c1 with
  | None => None
  | Some (u, w) =>
    let d := 9 * u * u - w * w in
    if Req_EM_T d 0 then None else
    let f0 := Cscale (/ d) (h0 u w) in let f1 := Cscale (/ d) (h1 u w) in let f2 := Cscale (/ d) (h2 u w) in
    Some (if inv_c0 then (Cconj f0, (- Cconj f1)%C, Cconj f2) else (f0, f1, f2))
  end.

