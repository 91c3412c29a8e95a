(** What the gauge condition, the gluon propagator and the ghost operator of the Landau gauge should be. *)
From mathcomp Require Import all_ssreflect all_algebra.
From Verif Require Import GaugeModel GaugeSpec LoopModel FixSpec.
Import GRing.Theory Num.Theory.
Set Implicit Arguments.
Unset Strict Implicit.
Unset Printing Implicit Defensive.
Local Open Scope ring_scope.

Section Spec.
Variable C : numClosedFieldType.
Variable n : nat.
Notation GaugeGroup := 'M[C]_n.
Variable L : lattice.

(** The links seen from frames turned by [g]. *)
Definition turned (g : L -> GaugeGroup) (U : L -> 'I_4 -> GaugeGroup) : L -> 'I_4 -> GaugeGroup :=
  fun x mu => g x *m U x mu *m dagger (g (sup mu x)).
(** Hermitian traceless matrices. *)
Definition in_algebra (A : GaugeGroup) : Prop := dagger A = A /\ \tr A = 0.
(** Turning by exp(i e w) up to first and up to second order in e. *)
Definition order1 (e : C) (w : L -> GaugeGroup) : L -> GaugeGroup := fun x => 1%:M + (e * 'i) *: w x.
Definition order2 (e : C) (w : L -> GaugeGroup) : L -> GaugeGroup :=
  fun x => 1%:M + (e * 'i) *: w x - (e ^+ 2 / 2%:R) *: (w x *m w x).
(** The vector potential of a link: the traceless part of (U - U^+) / 2i. *)
Definition potential (A : GaugeGroup) : GaugeGroup :=
  let B := (2%:R * 'i)^-1 *: (A - dagger A) in B - (\tr B / n%:R)%:M.
(** No frames of SU(n) make the functional larger. *)
Definition maximal (U : L -> 'I_4 -> GaugeGroup) : Prop :=
  forall V, copy_of (@special_unitary C n) U V -> landau V <= landau U.
End Spec.

Section Waves.
Variable C : numClosedFieldType.
Variable N : nat.
Variable G : grid.
(** [half] are numbers exp(i pi / extent). *)
Definition half_turns (half : 'I_4 -> C) : Prop := forall mu, half mu ^+ ext G mu = -1.
(** exp(i k x) for the momentum 2 pi n / extent. *)
Definition plane_wave (half : 'I_4 -> C) (n : 'I_4 -> nat) (x : G) : C := \prod_(nu < 4) (half nu ^+ 2) ^+ (n nu * coord x nu).
(** The lattice momentum 2 sin(k / 2). *)
Definition lattice_momentum (half : 'I_4 -> C) (n : 'I_4 -> nat) (mu : 'I_4) : C :=
  (half mu ^+ n mu - (half mu ^+ n mu)^* ) / 'i.
(** The Fourier transform of the vector potential, taken at the middle of the links. *)
Definition fourier (half : 'I_4 -> C) (n : 'I_4 -> nat) (U : G -> 'I_4 -> 'M[C]_N) (mu : 'I_4) : 'M[C]_N :=
  \sum_(x : G) (plane_wave half n x * half mu ^+ n mu) *: potential (U x mu).
End Waves.

Section Algebra.
Variable C : numClosedFieldType.
Variable N : nat.
Variable L : lattice.
(** The matrix with components [v] in the basis [T]. *)
Definition matrix_of (T : seq 'M[C]_N) (v : L -> 'I_(N * N - 1) -> C) : L -> 'M[C]_N := fun x => \sum_a v x a *: T`_a.
(** The scalar product of fields with an index. *)
Definition overlap k (v w : L -> 'I_k -> C) : C := \sum_(x : L) \sum_(a < k) (v x a)^* * w x a.
(** Minus the lattice Laplacian. *)
Definition minus_laplacian k (v : L -> 'I_k -> C) : L -> 'I_k -> C :=
  fun x a => \sum_(mu < 4) (2%:R * v x a - v (sup mu x) a - v (sdn mu x) a).
End Algebra.
