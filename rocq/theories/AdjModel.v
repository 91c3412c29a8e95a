(** The generators of the gauge group and the conversion of links to the adjoint representation, for any number of
    colours, in exact arithmetic.  For two and three colours the code is compiled from tables (AdjTables.v), for all
    other numbers of colours from loops. *)
From mathcomp Require Import all_ssreflect all_algebra.
From Verif Require Import GaugeModel AdjTables.
Import GRing.Theory Num.Theory.
Set Implicit Arguments.
Unset Strict Implicit.
Unset Printing Implicit Defensive.
Local Open Scope ring_scope.

Section Adjoint.
Variable C : numClosedFieldType.

(** gen[index] << a, b, ...; Eigen fills a matrix row by row. *)
Definition fill N (l : seq C) : 'M[C]_N := \matrix_(m < N, k < N) nth 0 l (m * N + k).

(** utils/LieGenerators.h 177-181, loop over m and n. *)
Definition symmetric N (i j : nat) : 'M[C]_N :=
  \matrix_(m < N, k < N) ((if (i == m) && (j == k) then 1 else 0) + (if (i == k) && (j == m) then 1 else 0)).
(** utils/LieGenerators.h 190-194. *)
Definition antisymmetric N (i j : nat) : 'M[C]_N :=
  \matrix_(m < N, k < N) ((if (i == m) && (j == k) then 'i else 0) - (if (i == k) && (j == m) then 'i else 0)).
(** utils/LieGenerators.h 201-205. *)
Definition diagonal N (i : nat) : 'M[C]_N :=
  \matrix_(m < N, k < N) ((if (m == k) && (m <= i)%N then sqrtC (2%:R / (i.+1 * i)%:R) else 0)
                          - (if (m == k) && (m == i :> nat) then i.+1%:R * sqrtC (2%:R / (i.+1 * i)%:R) else 0)).
(** utils/LieGenerators.h 171-209: the generators for any number of colours, in the order of index; the last loop
    divides by two. *)
Definition loop_generators N : seq 'M[C]_N :=
  map (fun T => 2%:R^-1 *: T)
    ([seq symmetric N i j | i <- index_iota 0 N, j <- index_iota 0 i]
     ++ [seq antisymmetric N i j | i <- index_iota 0 N, j <- index_iota 0 i]
     ++ [seq diagonal N i | i <- index_iota 1 N]).
(** utils/LieGenerators.h 15-57 for two colours, 120-133 for three, 171-209 otherwise: LieGenerator<GaugeGroup>. *)
Definition generators N : seq 'M[C]_N :=
  if (N == 2)%N then [seq 2%:R^-1 *: fill N l | l <- fund_table2 C]
  else if (N == 3)%N then [seq 2%:R^-1 *: fill N l | l <- fund_table3 C]
  else loop_generators N.
(** utils/LieGenerators.h 224-236: gen[i] of LieGenerator<AdjointGroup> for any number of colours. *)
Definition loop_adjoint N (G : seq 'M[C]_N) (i : nat) : 'M[C]_(N * N - 1) :=
  \matrix_(m < N * N - 1, k < N * N - 1)
    if m != k then - 2%:R * \tr ((G`_m *m G`_k - G`_k *m G`_m) *m G`_i) else 0.
(** utils/LieGenerators.h 71-104, 146-157, 222-236: LieGenerator<AdjointGroup>::get(i). *)
Definition adjoint_generator N (i : nat) : 'M[C]_(N * N - 1) :=
  if (N == 2)%N then fill _ (nth [::] (adj_table2 C) i)
  else if (N == 3)%N then fill _ (nth [::] (adj_table3 C) i)
  else loop_adjoint (generators N) i.

(** utils/ConvertLattice.h 101-105, inner loops of toAdjoint. *)
Definition loop_link N (G : seq 'M[C]_N) (U : 'M[C]_N) : 'M[C]_(N * N - 1) :=
  \matrix_(i < N * N - 1, j < N * N - 1) (2%:R * 'Re (\tr (G`_i *m U *m G`_j *m htrans U))).
(** fundamental.at(i, j). *)
Definition at_ N (U : 'M[C]_N) (i j : nat) : C :=
  if insub i is Some a then if insub j is Some b then U a b else 0 else 0.
Definition at_re N (U : 'M[C]_N) i j := 'Re (at_ U i j).
Definition at_im N (U : 'M[C]_N) i j := 'Im (at_ U i j).
(** utils/ConvertLattice.h 24-107: toAdjoint. *)
Definition to_adjoint N (U : 'M[C]_N) : 'M[C]_(N * N - 1) :=
  if (N == 2)%N then \matrix_(i, j) nth 0 (nth [::] (link_table2 (at_re U) (at_im U)) i) j
  else if (N == 3)%N then \matrix_(i, j) nth 0 (nth [::] (link_table3 (at_re U) (at_im U)) i) j
  else loop_link (generators N) U.
(** utils/ConvertLattice.h 13-22: convert; the halo holds copies of the links of the other processes (HaloProps.v), so
    a function of the site gives every process its links. *)
Definition convert N (L : lattice) (U : gauge C N L) : gauge C (N * N - 1) L := fun x mu => to_adjoint (U x mu).
End Adjoint.
