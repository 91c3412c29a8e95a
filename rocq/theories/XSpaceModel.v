(** The correlators in coordinate space of fermion_measurements/XSpaceCorrelators.cpp and the translation of fields of
    utils/Translate.h, over exact complex arithmetic, for any number of colours and any periodic lattice.  The sums over
    threads and processes are sums over the sites; the halo exchanges of translate are not modelled (C04). *)
From Coq Require Import ZArith.
From mathcomp Require Import all_ssreflect all_algebra.
From Verif Require Import GaugeModel LoopModel GammaModel DiracModel StochModel.
Import GRing.Theory Num.Theory.
Set Implicit Arguments.
Unset Strict Implicit.
Unset Printing Implicit Defensive.
Local Open Scope ring_scope.

(** XSpaceCorrelators.cpp 29-79: the displacements, in the order in which they are pushed. *)
Definition displacement : Type := (nat * nat * nat * nat)%type.
Definition coordinates : seq displacement :=
  (0, 0, 0, 0)%N :: flatten [seq [:: (d, 0, 0, 0); (0, d, 0, 0); (0, 0, 0, d); (d, d, 0, 0); (d, d, d, 0); (d, d, d, d)]%N | d <- iota 1 3].
Definition component (k : displacement) (mu : nat) : nat :=
  match mu with 0 => k.1.1.1 | 1 => k.1.1.2 | 2 => k.1.2 | _ => k.2 end%N.

Section XSpace.
Variable C : numClosedFieldType.
Variable n : nat.            (* diracVectorLength *)
Variable G : grid.
Notation field := (G -> 'I_4 -> 'I_n -> C) (only parsing).

(** Translate.h 6-55: one step of a loop copies the neighbour of the copy [swap] into [translated], then [swap] is
    [translated].  A loop up to a negative bound is not entered; [old] is what the output held before the call. *)
Definition step (mu : 'I_4) (st : field * field) : field * field :=
  let translated : field := fun x => st.2 (sup mu x) in (translated, translated).
Definition steps (mu : 'I_4) (d : Z) (st : field * field) : field * field := iter (Z.to_nat d) (step mu) st.
Definition translate (old v : field) (dx dy dz dt : Z) : field :=
  if Z.eqb dx 0 && Z.eqb dy 0 && Z.eqb dz 0 && Z.eqb dt 0 then v
  else (steps d3 dt (steps d2 dz (steps d1 dy (steps d0 dx (old, v))))).1.
Definition translate_by (old v : field) (k : displacement) : field :=
  translate old v (Z.of_nat (component k 0)) (Z.of_nat (component k 1)) (Z.of_nat (component k 2)) (Z.of_nat (component k 3)).

(** AlgebraUtils.h 268-275: gamma5. *)
Definition gamma5 (v : field) : field := fun x mu c => if (mu < 2)%N then v x mu c else - v x mu c.
(** XSpaceCorrelators.cpp 94-98 and 335-338: multiply by gamma5 and by the operator, solve for its square.
    [mul] is multiply of the operator, [solve_square] the solver called with its square. *)
Definition invert (mul solve_square : field -> field) (v : field) : field := solve_square (mul (gamma5 v)).

(** The entries with indices below four of gammaChromaMatrices(k); and gammaChromaMatrices(8)*htrans(gr)*
    gammaChromaMatrices(8), XSpaceCorrelators.cpp 175-176: the matrices are blocks of four by four on the diagonal, so that
    only the first block enters. *)
Definition chroma (k : nat) : 'M[C]_4 := \matrix_(a, b) of_gi C (gamma_chroma n k a b).
Definition chroma_bar (k : nat) : 'M[C]_4 := chroma 8 *m htrans (chroma k) *m chroma 8.

Variable solve : field -> field.
Variable old : field.
(** XSpaceCorrelators.cpp 149-207: result_connected[gamma][step] for the displacement [k]. *)
Definition connected (gamma : nat) (k : displacement) (t : tape n G) : C :=
  let randomNoise := noise C t in
  let inverseRandomNoise := solve randomNoise in
  let randomNoiseTranslated := translate_by old randomNoise k in
  let inverseRandomNoiseTranslated := translate_by old inverseRandomNoise k in
  let gr := chroma gamma in
  let grh := chroma_bar gamma in
  \sum_x \sum_(mu < 4) \sum_(nu < 4 | gr mu nu != 0) \sum_(alpha < 4) \sum_(beta < 4 | grh alpha beta != 0) \sum_c1 \sum_c2
    gr mu nu * (randomNoiseTranslated x alpha c2)^* * inverseRandomNoise x nu c1 * grh alpha beta
      * (randomNoise x mu c1)^* * inverseRandomNoiseTranslated x beta c2.
(** XSpaceCorrelators.cpp 103-120: traceInverse after [N] = max_step noise vectors (zero over zero when there are none). *)
Definition trace_inverse (N : nat) (ts : 'I_N -> tape n G) : field := fun x mu c =>
  (\sum_(step < N) (noise C (ts step) x mu c)^* * solve (noise C (ts step)) x mu c) / N%:R.
(** XSpaceCorrelators.cpp 209-241: result_disconnected[gamma]. *)
Definition disconnected_product (gamma : nat) (k : displacement) (N : nat) (ts : 'I_N -> tape n G) : C :=
  let traceInverse := trace_inverse ts in
  let traceInverseTranslated := translate_by old traceInverse k in
  let gammaTraceInverse := gamma_multiply gamma traceInverse in
  let gammaTraceInverseTranslated := gamma_multiply gamma traceInverseTranslated in
  \sum_x (\sum_(mu < 4) \sum_c gammaTraceInverse x mu c) * (\sum_(mu < 4) \sum_c gammaTraceInverseTranslated x mu c).

(** LocalLayout.h 149-170: getGlobalCoordinate with modulus, which subtracts the extent once.  A coordinate that is still
    too large gives the index of another site or an index out of range: no site here. *)
Definition modulus (value modulo : nat) : nat := if (modulo <= value)%N then (value - modulo)%N else value.
Definition site_at (k : displacement) : option G :=
  [pick x : G | [forall mu : 'I_4, coord x mu == modulus (component k mu) (ext G mu)]].
(** XSpaceCorrelators.cpp 332-349 and 354-385: inverseFull[c*4 + alpha] and result_connected[gamma_index]. *)
Definition inverse_full (alpha : 'I_4) (c : 'I_n) : field := solve (@point_source C n G alpha c).
Definition exact_at (gamma : nat) (site : G) : C :=
  \sum_(rho < 4) \sum_c \sum_(alpha < 4) \sum_(mu < 4) \sum_(nu < 4) \sum_d
    (let sign := 1 in
     let sign := if (alpha < 2)%N then - sign else sign in
     let sign := if (mu < 2)%N then - sign else sign in
     sign * chroma gamma rho alpha * (inverse_full alpha c site mu d)^* * chroma gamma mu nu * inverse_full nu d site rho c).
(** XSpaceCorrelators.cpp 387-413: the number written for one displacement. *)
Variable kappa : C.
Definition written_exact (gamma : nat) (k : displacement) : option C :=
  if site_at k is Some site then Some (4%:R * kappa * kappa * exact_at gamma site) else None.
End XSpace.
