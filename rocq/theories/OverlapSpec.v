(** What an overlap operator is: (1 + m)/2 + (1 - m)/2 gamma5 S with S near the sign of the Hermitian Wilson operator. *)
From Coq Require Import List.
From Verif Require Import Base.
From mathcomp Require Import all_ssreflect all_algebra.
From Verif Require Import GaugeModel GaugeSpec DiracSpec FForceSpec.
Import GRing.Theory Num.Theory.
Set Implicit Arguments.
Unset Strict Implicit.
Unset Printing Implicit Defensive.
Local Open Scope ring_scope.

Section Spec.
Variable C : numClosedFieldType.
Variable n : nat.
Variable L : lattice.
Notation field := (L -> 'I_4 -> 'I_n -> C) (only parsing).
Notation links := (L -> 'I_4 -> 'M[C]_n) (only parsing).
Implicit Types (U : links) (v w : field) (A S D : field -> field).

(** The value of a call, if it has one, is w. *)
Definition returns (r : Base.outcome field) w : Prop := exists t, r = Ok t /\ feq t w.
(** q(A) v for a polynomial q. *)
Definition poly_of (q : {poly C}) A v : field := fun x a c => \sum_(i < size q) q`_i * iter i A v x a c.
(** The polynomial that Polynomial holds: the leading coefficient is |Re scaling|^n with the sign of Re scaling. *)
Definition held_poly (roots : list C) (scaling : C) : {poly C} :=
  ((if 'Re scaling < 0 then -1 else 1) * `|'Re scaling| ^+ size roots) *: \prod_(z <- roots) ('X - z%:P).
(** H q(H^2), near the sign of H = gamma5 (1 - kappa hopping) when q(x) is near 1/sqrt x. *)
Definition sign_approx (k : C) U (q : {poly C}) v : field :=
  hermitian_dirac k U (poly_of q (fun w => hermitian_dirac k U (hermitian_dirac k U w)) v).
(** The overlap operator of mass m built on S, with gamma5 on the left when the flag is set. *)
Definition overlap S (m : C) (gamma5 : bool) v : field :=
  maybe5 gamma5 (fun x a c => (1 + m) / 2%:R * v x a c + (1 - m) / 2%:R * g5 (S v) x a c).
(** Eigenvectors. *)
Definition eigenvector A (lam : C) w : Prop := ~ feq w (fun _ _ _ => 0) /\ feq (A w) (fun x a c => lam * w x a c).
(** The defect of the Ginsparg-Wilson relation gamma5 D + D gamma5 = 2 D gamma5 D on v, from the three vectors D v, D gamma5 v
    and D gamma5 D v. *)
Definition ginsparg_wilson_defect (Dv Dgv DgDv : field) : field := fun x a c => g5 Dv x a c + Dgv x a c - 2%:R * DgDv x a c.
(** The eigenvectors of a list are orthonormal eigenvectors of A; the part of v along them; a vector orthogonal to them. *)
Definition orthonormal (es : seq (C * field)) : Prop :=
  forall i j, (i < size es)%N -> (j < size es)%N ->
    inner (nth (0, fun _ _ _ => 0) es i).2 (nth (0, fun _ _ _ => 0) es j).2 = (i == j)%:R.
Definition eigenpairs A (es : seq (C * field)) : Prop :=
  forall p, List.In p es -> [/\ p.1 \is Num.real, p.1 != 0 & feq (A p.2) (fun x a c => p.1 * p.2 x a c)].
Definition along (es : seq (C * field)) v : field := fun x a c => \sum_(p <- es) inner p.2 v * p.2 x a c.
Definition orthogonal (es : seq (C * field)) v : Prop := forall p, List.In p es -> inner p.2 v = 0.
(** The sign on the eigenvectors, S on the rest. *)
Definition deflated (es : seq (C * field)) S v : field := fun x a c =>
  \sum_(p <- es) (if p.1 < 0 then -1 else 1) * inner p.2 v * p.2 x a c + S (fun x a c => v x a c - along es v x a c) x a c.
(** The sign function of an OverlapOperator, None, and of an ExactOverlapOperator with a list of eigenvectors. *)
Definition class_sign (cls : option (seq (C * field))) S : field -> field := if cls is Some es then deflated es S else S.
(** X v = gamma5 (1 - D) v, the direction of the chiral rotation of psi. *)
Definition chiral D v : field := g5 (fun x a c => v x a c - D v x a c).
End Spec.
