(** inverters/GMRESR.cpp over exact complex arithmetic.  A vector is the column of all components of the Dirac vector; the
    halo and the distribution over processes are the subject of the Halo files.  A division by zero makes the vector not a
    number for the rest of the run: the comparisons fail and the code returns false after maxSteps; the model stops there
    with [NotANumber].  Accesses outside the arrays c and u and the remainder by zero are [Undefined]. *)
From mathcomp Require Import all_ssreflect all_algebra.
Import GRing.Theory Num.Theory.
Set Implicit Arguments.
Unset Strict Implicit.
Unset Printing Implicit Defensive.
Local Open Scope ring_scope.

(** The members which decide about the memory: the length of the arrays c and u, and conjugateSpaceDimension. *)
Record gm_object := GmObject { allocated : nat; dimension : nat }.
(** GMRESR.cpp 6-9, 11-14 and 117-119. *)
Definition gm_new : gm_object := GmObject 13 13.
Definition gm_copy (o : gm_object) : gm_object := GmObject (dimension o) (dimension o).
Definition gm_set_dimension (d : nat) (o : gm_object) : gm_object := GmObject (allocated o) d.

Section Gmresr.
Variable C : numClosedFieldType.
Variable m : nat.
Notation vector := 'cV[C]_m.
(** AlgebraUtils::dot and squaredNorm (C30 and the Dirac files). *)
Definition gdot (v w : vector) : C := \sum_i (v i ord0)^* * w i ord0.
Definition gnorm (v : vector) : C := gdot v v.

Inductive gm_result :=
  | GConverged (x : vector) (lastSteps : nat) | GFailed (x : vector) | GNotANumber | GUndefined.
Record gm_state := GmState { gsol : vector; gres : vector; gc : seq vector; gu : seq vector }.
Inductive gm_outcome := GOk (s : gm_state) | GNaN | GUB.

(** GMRESR.cpp 70-79: the loop over i, on the vectors c[j] and u[j]. *)
Definition gm_orthogonalize (cs us : seq vector) (j : nat) (cu : vector * vector) : vector * vector :=
  foldl (fun cu i => let alpha := gdot (nth 0 cs i) cu.1 in
                     (cu.1 - alpha *: nth 0 cs i, cu.2 - alpha *: nth 0 us i)) cu (iota 0 j).
(** GMRESR.cpp 65-66. *)
Definition gm_direction (preconditioner : option (vector -> vector)) (r : vector) : vector :=
  match preconditioner with Some P => P r | None => r end.
(** GMRESR.cpp 65-97: the body of the loop for step k, before the test of the error. *)
Definition gm_step (o : gm_object) (A : vector -> vector) (preconditioner : option (vector -> vector)) (k : nat)
    (s : gm_state) : gm_outcome :=
  if dimension o == 0%N then GUB else
  let j := (k %% dimension o)%N in
  if (allocated o <= j)%N then GUB else
  let u0 := gm_direction preconditioner (gres s) in
  let cu := gm_orthogonalize (gc s) (gu s) j (A u0, u0) in
  let norm := sqrtC (gnorm cu.1) in
  if norm == 0 then GNaN else
  let c := norm^-1 *: cu.1 in
  let u := norm^-1 *: cu.2 in
  let alpha := gdot c (gres s) in
  GOk (GmState (gsol s + alpha *: u) (gres s - alpha *: c) (set_nth 0 (gc s) j c) (set_nth 0 (gu s) j u)).
(** GMRESR.cpp 64-114: [n] is the number of steps left. *)
Fixpoint gm_loop (o : gm_object) (A : vector -> vector) preconditioner (precision : C) (n k : nat) (s : gm_state) : gm_result :=
  match n with
  | O => GFailed (gsol s)
  | S n' =>
    match gm_step o A preconditioner k s with
    | GUB => GUndefined
    | GNaN => GNotANumber
    | GOk s' => if gnorm (gres s') < precision then GConverged (gsol s') k else gm_loop o A preconditioner precision n' k.+1 s'
    end
  end.
(** GMRESR.cpp 41-51: the first guess; [random] is the random vector of line 47. *)
Definition gm_start (precision : C) (source random : vector) (guess : option vector) : vector :=
  match guess with Some g => g | None => if precision < gnorm source then source else random end.
(** GMRESR.cpp 39-115: solve; [cs] and [us] are what the arrays hold from before. *)
Definition gm_solve (o : gm_object) (cs us : seq vector) (maxSteps : nat) (precision : C) (A : vector -> vector)
    (preconditioner : option (vector -> vector)) (source random : vector) (guess : option vector) : gm_result :=
  let solution := gm_start precision source random guess in
  gm_loop o A preconditioner precision maxSteps 0 (GmState solution (source - A solution) cs us).
End Gmresr.
