(** What gauge fixing should do: gauge copies, and what the eigensolver and the exponential must satisfy. *)
From mathcomp Require Import all_ssreflect all_algebra.
From Verif Require Import GaugeModel GaugeSpec ExpSpec FixModel.
Import GRing.Theory Num.Theory.
Set Implicit Arguments.
Unset Strict Implicit.
Unset Printing Implicit Defensive.
Local Open Scope ring_scope.

Section Spec.
Variable C : numClosedFieldType.
Variable n : nat.
Notation GaugeGroup := 'M[C]_n.
Variable L : lattice.

(** The Landau gauge functional: the sum of the real parts of the traces of all links. *)
Definition landau (U : L -> 'I_4 -> GaugeGroup) : C := 'Re (\sum_(x : L) \sum_(mu < 4) \tr (U x mu)).
(** [V] is [U] seen from frames rotated by matrices of a set. *)
Definition copy_of (G : GaugeGroup -> Prop) (U V : L -> 'I_4 -> GaugeGroup) : Prop :=
  exists g : L -> GaugeGroup, (forall x, G (g x)) /\ forall x mu, V x mu = g x *m U x mu *m dagger (g (sup mu x)).

(** The solver diagonalises Hermitian matrices with orthonormal eigenvectors. *)
Definition hermitian (A : GaugeGroup) : Prop := dagger A = A.
Definition good_hermitian_eig (eig : GaugeGroup -> GaugeGroup * 'rV[C]_n) : Prop :=
  forall A, hermitian A -> decomposes A (eig A).1 (eig A).2.
(** The exponential maps traceless anti-Hermitian matrices to the group. *)
Definition good_exp (gexp : GaugeGroup -> GaugeGroup) : Prop :=
  forall A, anti_hermitian A -> traceless A -> special_unitary (gexp A).

(** Real random numbers. *)
Definition real_normals (w : normals C n) : Prop :=
  [/\ forall i j, n_re w i j \is Num.real, forall i j, n_im w i j \is Num.real & forall i, n_dg w i \is Num.real].
Definition real_draws (d : draws C n L) : Prop :=
  forall x, real_normals (w1 d x) /\ real_normals (w2 d x) /\ real_normals (w3 d x).
(** Real step sizes. *)
Definition real_params (p : params C) : Prop := [/\ eps1 p \is Num.real, eps2 p \is Num.real & eps3 p \is Num.real].
(** The sites of one colour of the chequerboard only have neighbours of the other colour: every extent is even. *)
Definition bipartite (odd_site : L -> bool) : Prop := forall mu x, odd_site (sup mu x) = ~~ odd_site x.
End Spec.
