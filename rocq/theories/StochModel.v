(** The stochastic estimators: the noise vectors, the point sources and the smearing of sources of
    fermion_measurements/StochasticEstimator.{h,cpp}, and the quantities measured with them in
    fermion_measurements/ChiralCondensate.cpp and fermion_measurements/SingletOperators.cpp, over exact complex
    arithmetic.

    The random numbers: every call of randomInteger() returns 0 or 1 (RandomSeed.cpp 41-44).  A [tape] gives the number
    drawn for each site, spinor index and colour (true is 1); the order of the calls and the thread that makes them only
    permute the draws.  The inversions are a function [solve]; what is assumed of it is said in the theorems (the
    BiCGStab and GMRESR solvers are C20, C21 and C77).  The smearing of the gauge field (ChiralCondensate.cpp 20-40) and
    the overlap branches (ChiralCondensate.cpp 110-117, Propagator.cpp 8-26) are not modelled. *)
From Coq Require Import ZArith.
From mathcomp Require Import all_ssreflect all_algebra.
From Verif Require Import GaugeModel LoopModel GammaModel DiracModel.
Import GRing.Theory Num.Theory.
Set Implicit Arguments.
Unset Strict Implicit.
Unset Printing Implicit Defensive.
Local Open Scope ring_scope.

Section Noise.
Variable C : numClosedFieldType.
Variable n : nat.
Variable L : lattice.
Notation field := (L -> 'I_4 -> 'I_n -> C) (only parsing).
Definition tape := {ffun L * 'I_4 * 'I_n -> bool}.
Implicit Types (t : tape) (v w : field) (U : L -> 'I_4 -> 'M[C]_n).

(** StochasticEstimator.h 22: randomInteger() == 0 ? -1 : 1. *)
Definition draw t (x : L) (a : 'I_4) (c : 'I_n) : C := if t (x, a, c) then 1 else -1.
(** StochasticEstimator.h 16-32: generateRandomNoise(vector). *)
Definition noise t : field := fun x a c => draw t x a c.

(** StochasticEstimator.cpp 127-147: smearSource.  One level adds to every spinor the neighbours in all the directions
    but one, taken from the copy made before the level, and multiplies by K.  The direction left out is an int compared
    with an unsigned int: a negative one is never met. *)
Definition smear_level U (alpha : C) (dir : Z) (K : C) v : field := fun x a c =>
  K * (v x a c + \sum_(nu < 4 | ~~ Z.eqb (Z.of_nat nu) dir)
    (alpha * mulv (U x nu) (v (sup nu x) a) c + alpha * mulv (htrans (U (sdn nu x) nu)) (v (sdn nu x) a) c)).
Definition smear_source U (levels : nat) (alpha : C) (dir : Z) (K : C) v : field :=
  iter levels (smear_level U alpha dir K) v.

(** StochasticEstimator.h 48-55: mean; the division by zero for an empty vector gives no number. *)
Definition mean (s : seq C) : option C :=
  if s is [::] then None else Some ((\sum_(z <- s) z) / (size s)%:R).
(** StochasticEstimator.h 57-65: standardDeviation, for real values. *)
Definition standard_deviation (s : seq C) : option C :=
  if s is [:: _, _ & _] then
    let mn := (\sum_(z <- s) z) / (size s)%:R in Some (sqrtC ((\sum_(z <- s) (z - mn) * (z - mn)) / (size s - 1)%:R))
  else None.

(** ChiralCondensate.cpp 88-118: the numbers of one noise vector.  constructPropagator copies its argument for every
    operator but the overlap operators (Propagator.cpp 27-29).  [volume] is globalVolume. *)
Variable solve : field -> field.
Definition volume : C := #|L|%:R.
Record measured := Measured { m_condensate : C; m_pseudo : C; m_pion : C; m_connected : C }.
Definition measure t : measured :=
  let randomNoise := noise t in
  let tmp := solve randomNoise in
  let tmp_square := solve tmp in
  Measured (dot randomNoise tmp / volume) (gamma5dot randomNoise tmp / volume) (dot tmp tmp / volume)
    (dot randomNoise tmp_square / volume).
(** The outcome of a write of one mean: real and imaginary part, ChiralCondensate.cpp 151-164. *)
Definition written (f : measured -> C) (ts : seq tape) : option C * option C :=
  (mean [seq 'Re (f (measure t)) | t <- ts], mean [seq 'Im (f (measure t)) | t <- ts]).

(** SingletOperators.cpp 61-73 and 116-120: the number of one noise vector, for matrix [k] of the Chroma basis after [h]
    applications of the hopping operator to the solution; [mul] is multiply of the operator. *)
Variable mul : field -> field.
Variable kappa : C.
Definition disconnected (h k : nat) t : C :=
  dot (noise t) (gamma_multiply k (iter h (hopping_apply mul) (solve (noise t)))) * (2%:R * kappa).
(** SingletOperators.cpp 147-170: the terms of the hopping expansion. *)
Definition hopping_term (h k : nat) t : C :=
  2%:R * kappa * dot (noise t) (gamma_multiply k (iter h (hopping_apply mul) (noise t))).
End Noise.

Section Sources.
Variable C : numClosedFieldType.
Variable n : nat.
Variable G : grid.
Notation field := (G -> 'I_4 -> 'I_n -> C) (only parsing).
Implicit Types t : tape n G.
Definition globalIndexT (x : G) : Z := Z.of_nat (coord x d3).
(** StochasticEstimator.cpp 43-69: generateRandomNoise(vector*, t0): four vectors, vector [nu] has noise in the spinor
    index nu on one time slice. *)
Definition noise_diluted (t0 : Z) t (nu : 'I_4) : field := fun x mu c =>
  if (nu == mu) && Z.eqb (globalIndexT x) t0 then draw C t x mu c else 0.
(** StochasticEstimator.cpp 71-97: generateRandomNoise(vector, t0, t1). *)
Definition noise_slab (t0 t1 : Z) t : field := fun x mu c =>
  if Z.leb t0 (globalIndexT x) && Z.ltb (globalIndexT x) t1 then draw C t x mu c else 0.
(** StochasticEstimator.cpp 99-112: generateSource. *)
Definition point_source (alpha : 'I_4) (c : 'I_n) : field := fun x mu e =>
  if (coord x d0 == 0%N) && (coord x d1 == 0%N) && (coord x d2 == 0%N) && (coord x d3 == 0%N)
     && (mu == alpha) && (e == c) then 1 else 0.
End Sources.
