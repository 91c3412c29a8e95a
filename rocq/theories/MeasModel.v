(** Two measurements written by a run on several processes: the glueball operators (correlators/Glueball.cpp) and the
    mean scalar fields (scalar_measurements/MeanScalarField.cpp), for any number of processes, sites of a process, threads,
    colours and flavours.  Arithmetic is exact: rounding, the order of the sums and the wrapping of the integer
    products by which the sums are divided are not modelled. *)
From mathcomp Require Import all_ssreflect all_algebra.
From Verif Require Import GaugeModel.
Import GRing.Theory Num.Theory.
Set Implicit Arguments.
Unset Strict Implicit.
Unset Printing Implicit Defensive.
Local Open Scope ring_scope.

(** The directions written as literals in Glueball.cpp 41-43. *)
Definition d0 : 'I_4 := @Ordinal 4 0 isT.
Definition d1 : 'I_4 := @Ordinal 4 1 isT.
Definition d2 : 'I_4 := @Ordinal 4 2 isT.

Section Meas.
Variable C : numClosedFieldType.
Variables P S T : finType.        (* processes, sites of one process, threads of one process *)
Variable out : P.                 (* the process for which isOutputProcess() holds *)
Variable thr : P -> S -> T.       (* the thread that runs an iteration of an omp parallel for over the sites *)

(** utils/MultiThreadSummator.h 33-39 and 52-73: add by the thread that runs the site, then computeResult: the sum over
    the threads, and reduceAllSum over the processes.  [sel] are the sites whose value is added to this summator. *)
Definition summator_data (sel : P -> S -> bool) (f : P -> S -> C) (p : P) (t : T) : C :=
  \sum_(s | sel p s && (thr p s == t)) f p s.
Definition compute_result sel f : C := \sum_p \sum_t summator_data sel f p t.

Section Glueball.
Variable n nt : nat.              (* numberColors, Layout::glob_t *)
Variable L : lattice.
Variable at_ : P * S -> L.        (* the site of the lattice that a local site of a process is *)
Variable time : L -> 'I_nt.       (* Layout::globalIndexT *)
Variable sv : nat.                (* Layout::glob_spatial_volume *)
Implicit Type U : gauge C n L.

(** Glueball.cpp 41-43; [U] is the configuration after the smearing of 18-28, which is not modelled here. *)
Definition phi_x U (x : L) : C := retr (U x d1 *m U (sup d1 x) d0 *m htrans (U (sup d0 x) d1) *m htrans (U x d0)).
Definition phi_y U (x : L) : C := retr (U x d2 *m U (sup d2 x) d0 *m htrans (U (sup d0 x) d2) *m htrans (U x d0)).
Definition phi_z U (x : L) : C := retr (U x d2 *m U (sup d2 x) d1 *m htrans (U (sup d1 x) d2) *m htrans (U x d1)).
(** Glueball.cpp 39-53: the summators of time slice [t]. *)
Definition in_slice (t : 'I_nt) (p : P) (s : S) : bool := time (at_ (p, s)) == t.
Definition two_glueball U (t : 'I_nt) : C :=
  compute_result (in_slice t) (fun p s => phi_x U (at_ (p, s)) - phi_y U (at_ (p, s))).
Definition zero_glueball U (t : 'I_nt) : C :=
  compute_result (in_slice t) (fun p s => phi_x U (at_ (p, s)) + phi_y U (at_ (p, s)) + phi_z U (at_ (p, s))).
(** Glueball.cpp 55-73: what process [p] writes under glueball_zero and glueball_two. *)
Definition glueball_written (measurement : bool) U (p : P) : option (seq C * seq C) :=
  if measurement && (p == out)
  then Some ([seq zero_glueball U t / sv%:R | t <- enum 'I_nt], [seq two_glueball U t / sv%:R | t <- enum 'I_nt])
  else None.
End Glueball.

Section Scalar.
Variables nf n : nat.             (* the number of flavours, numberColors *)
Variable vol : nat.               (* Layout::globalVolume *)
(** environment.adjoint_scalar_fields and fundamental_scalar_fields: [f][site][c] on process p. *)
Definition scalars (d : nat) := 'I_nf -> P -> S -> 'I_d -> C.

(** MeanScalarField.cpp 17-28 and 54-65: one of the sums of process [p]; [g] is what is added for a component. *)
Definition local_sum d (g : C -> C) (phi : scalars d) (p : P) : C := \sum_(f < nf) \sum_s \sum_(c < d) g (phi f p s c).
(** Lattice sweeps' reduceAllSum. *)
Definition reduce_all (v : P -> C) (p : P) : C := \sum_q v q.

(** MeanScalarField.cpp 12-47: what process [p] writes under adjoint_scalar_field.  The fields are real. *)
Definition adjoint_written (measurement : bool) (phi : scalars (n * n - 1)) (p : P) : option (seq C) :=
  if (0 < nf)%N then
    let mean_field_squared := reduce_all (local_sum (fun z => z * z) phi) p in
    let mean_field_re := reduce_all (local_sum id phi) p in
    let mean_field_abs_re := reduce_all (local_sum (fun z => `|z|) phi) p in
    let den := (nf * (n * n - 1) * vol)%N%:R in
    if measurement && (p == out) then Some [:: mean_field_re / den; mean_field_squared / den; mean_field_abs_re / den]
    else None
  else None.
(** MeanScalarField.cpp 49-80: what process [p] writes under fundamental_scalar_field; the sums are not reduced. *)
Definition fundamental_written (measurement : bool) (phi : scalars n) (p : P) : option (seq C) :=
  if (0 < nf)%N then
    let mean_field_squared := local_sum (fun z => 'Re (z^* * z)) phi p in
    let mean_field_re := local_sum (fun z => 'Re z) phi p in
    let mean_field_abs_re := local_sum (fun z => `|z|) phi p in
    let den := (nf * n * vol)%N%:R in
    if measurement && (p == out) then Some [:: mean_field_re / den; mean_field_squared / den; mean_field_abs_re / den]
    else None
  else None.
End Scalar.
End Meas.
