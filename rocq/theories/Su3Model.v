(** Muenster format for three colours: the entries. Model of io/OutputSweep.cpp 330-340, 354-366 and
    starters/ReadStartGaugeConfiguration.cpp 332-371, 375-414, over exact complex numbers.
    Simplification: doubles are real numbers; only the conversion to float words is kept, as an oracle. *)
From Coq Require Import Reals ZArith List.
From Verif Require Import Base FormatModel ComplexR.
Import ListNotations.
Open Scope R_scope.

(** A column of a 3x3 matrix; a matrix by columns. *)
Record vec3 := V3 { v0 : C; v1 : C; v2 : C }.
Record mat3 := M3 { col0 : vec3; col1 : vec3; col2 : vec3 }.

(** absq(mt(0,j)) + absq(mt(1,j)) + absq(mt(2,j)) (ReadStartGaugeConfiguration.cpp 21, 346). *)
Definition vnorm2 (a : vec3) : R := Cnorm2 (v0 a) + Cnorm2 (v1 a) + Cnorm2 (v2 a).
Definition vmap (f : C -> C) (a : vec3) : vec3 := V3 (f (v0 a)) (f (v1 a)) (f (v2 a)).
(** 346-349, 360-363: multiply the column by 1/sqrt(norm). [None]: division by zero, the column becomes NaN. *)
Definition normalise (a : vec3) : option vec3 :=
  if Req_EM_T (vnorm2 a) 0 then None
  else Some (vmap (fun c => (c * RtoC (1 / sqrt (vnorm2 a)))%C) a).
(** 353-356: subtract from [b] its component along [a]. *)
Definition subtract_projection (a b : vec3) : vec3 :=
  let temp := (v0 b * Cconj (v0 a) + v1 b * Cconj (v1 a) + v2 b * Cconj (v2 a))%C in
  V3 (v0 b - temp * v0 a) (v1 b - temp * v1 a) (v2 b - temp * v2 a).
(** 366-368: third column. *)
Definition third_column (a b : vec3) : vec3 :=
  V3 (Cconj (v1 a) * Cconj (v2 b) - Cconj (v2 a) * Cconj (v1 b))
     (Cconj (v2 a) * Cconj (v0 b) - Cconj (v0 a) * Cconj (v2 b))
     (Cconj (v0 a) * Cconj (v1 b) - Cconj (v1 a) * Cconj (v0 b)).
(** 345-368: the whole reconstruction from the two columns that were read. *)
Definition reconstruct (a b : vec3) : option mat3 :=
  match normalise a with
  | None => None
  | Some a1 =>
    match normalise (subtract_projection a1 b) with
    | None => None
    | Some b1 => Some (M3 a1 b1 (third_column a1 b1))
    end
  end.

Section Words.
Variable to_float : R -> Z.
Variable of_float : Z -> R.
(** OutputSweep.cpp 332-339: row by row, first two columns, real part and minus the imaginary part. *)
Definition entry3 (c : C) : list Z := [to_float (re c); to_float (- im c)].
Definition link3_words (m : mat3) : list Z :=
  entry3 (v0 (col0 m)) ++ entry3 (v0 (col1 m)) ++ entry3 (v1 (col0 m)) ++ entry3 (v1 (col1 m)) ++
  entry3 (v2 (col0 m)) ++ entry3 (v2 (col1 m)).
Definition site3_words (u : nat -> mat3) : list Z := flat_map (fun mu => link3_words (u mu)) (seq 0 4).
(** ReadStartGaugeConfiguration.cpp 335-343: the k-th pair of words of a link. *)
Definition centry (ws : list Z) (k : nat) : C :=
  mkC (of_float (nth (2 * k) ws 0%Z)) (- of_float (nth (2 * k + 1) ws 0%Z)).
(** 334-370: link mu of a site from its 48 words. *)
Definition site3_of_words (ws : list Z) (mu : nat) : option mat3 :=
  let k := (6 * mu)%nat in
  reconstruct (V3 (centry ws k) (centry ws (k + 2)) (centry ws (k + 4)))
              (V3 (centry ws (k + 1)) (centry ws (k + 3)) (centry ws (k + 5))).
End Words.
