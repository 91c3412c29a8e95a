(** The force of the scalar fields on the links (actions/ScalarAction.cpp) and the sum of several scalar actions
    (actions/MultiScalarAction.cpp), for any number of colours and of fields, over exact complex arithmetic.  The adjoint
    fields are real in the code; here they are complex numbers that the theorems assume to be real.  Fields are their
    values at every site: halo updates are the subject of the Halo files. *)
From mathcomp Require Import all_ssreflect all_algebra.
From Verif Require Import GaugeModel AdjModel ScalarModel.
Import GRing.Theory Num.Theory.
Set Implicit Arguments.
Unset Strict Implicit.
Unset Printing Implicit Defensive.
Local Open Scope ring_scope.

Section SForce.
Variable C : numClosedFieldType.
Variable N : nat.               (* numberColors *)
Variables a f : nat.            (* environment.adjoint_scalar_fields.size(), fundamental_scalar_fields.size() *)
Variable L : lattice.
Notation d := (N * N - 1)%N.
Notation state := (scalars C N d a f L).
Implicit Types (U : gauge C N L) (s : state) (x : L) (mu : 'I_4).

(** utils/LieGenerators.h: adjointLieGenerator.get(0), ..., adjointLieGenerator.get(numberGenerators() - 1). *)
Definition adjoint_generators : seq 'M[C]_d := [seq adjoint_generator C N i | i <- iota 0 d].
(** ScalarAction.cpp 121-166: energy; the adjoint links are the converted gauge links (Environment.cpp 56). *)
Definition scalar_energy (g : couplings C) U s : C := energy U (convert U) adjoint_generators g s.

(** ScalarAction.cpp 226: the term of one adjoint field and one generator in updateForce. *)
Definition adjoint_term U (phi : L -> 'cV[C]_d) x mu (i : 'I_d) : 'M[C]_N :=
  ('i * 'Im (vdot (phi (sup mu x)) (htrans (convert U x mu) *m adjoint_generator C N i *m phi x))) *: (generators C N)`_i.
(** ScalarAction.cpp 271-272: the same in force. *)
Definition adjoint_term' U (phi : L -> 'cV[C]_d) x mu (i : 'I_d) : 'M[C]_N :=
  (2%:R^-1 * vdot (phi (sup mu x)) (htrans (convert U x mu) *m adjoint_generator C N i *m phi x)) *: (generators C N)`_i
  - (2%:R^-1 * vdot (phi x) (adjoint_generator C N i *m convert U x mu *m phi (sup mu x))) *: (generators C N)`_i.
(** ScalarAction.cpp 247-248 and 284-285: the terms of one fundamental field and one generator. *)
Definition fundamental_term U (phi : L -> 'cV[C]_N) x mu (i : 'I_d) : 'M[C]_N :=
  (2%:R^-1 * vdot (phi (sup mu x)) (htrans (U x mu) *m (generators C N)`_i *m phi x)) *: (generators C N)`_i
  - (2%:R^-1 * vdot (phi x) ((generators C N)`_i *m U x mu *m phi (sup mu x))) *: (generators C N)`_i.
(** ScalarAction.cpp 208-259: updateForce; the old values of the force are overwritten (213-218). *)
Definition update_force U s : gauge C N L := fun x mu =>
  \sum_(k < a) \sum_(i < d) adjoint_term U (fun y => adj s (k, y)) x mu i
  + \sum_(k < f) \sum_(i < d) fundamental_term U (fun y => fund s (k, y)) x mu i.
(** ScalarAction.cpp 261-294: force. *)
Definition site_force U s x mu : 'M[C]_N :=
  \sum_(k < a) \sum_(i < d) adjoint_term' U (fun y => adj s (k, y)) x mu i
  + \sum_(k < f) \sum_(i < d) fundamental_term U (fun y => fund s (k, y)) x mu i.

(** MultiScalarAction.cpp 13-21, 23-31 and 33-53; all the actions see the same environment.  An action is its
    couplings. *)
Definition multi_energy (actions : seq (couplings C)) U s : C := foldl (fun e g => e + scalar_energy g U s) 0 actions.
Definition multi_site_force (actions : seq (couplings C)) U s x mu : 'M[C]_N :=
  foldl (fun F _ => F + site_force U s x mu) 0 actions.
Definition multi_update_force (actions : seq (couplings C)) U s (old : gauge C N L) : gauge C N L :=
  match actions with
  | [::] => old
  | [:: _] => update_force U s
  | _ :: rest => foldl (fun (F : gauge C N L) _ => fun x mu => F x mu + update_force U s x mu) (update_force U s) rest
  end.
End SForce.
