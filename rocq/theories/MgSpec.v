(** Specification of the multigrid vector spaces: blocks, inner products on a block, orthonormal and independent
    families. *)
From mathcomp Require Import all_ssreflect all_algebra.
From Verif Require Import MgModel.
Import GRing.Theory Num.Theory.
Set Implicit Arguments.
Unset Strict Implicit.
Unset Printing Implicit Defensive.
Local Open Scope ring_scope.

Section Spec.
Variable C : numClosedFieldType.
Variables (X : finType) (K : eqType) (block : X -> K).   (* components of a field, blocks *)
Implicit Types u v : X -> C.

(** The inner products of the space of all fields and of the fields on one block. *)
Definition inner u v : C := \sum_x (u x)^* * v x.
Definition inner_on (k : K) u v : C := \sum_(x | block x == k) (u x)^* * v x.

Variable d : nat.
Implicit Types b w : nat -> X -> C.
(** The first [d] vectors are orthonormal on every block. *)
Definition block_orthonormal b : Prop :=
  forall k i j, (i < d)%N -> (j < d)%N -> inner_on k (b i) (b j) = (i == j)%:R.
(** The first [d] vectors are linearly independent on every block. *)
Definition block_independent b : Prop :=
  forall k (a : nat -> C), (forall x, block x = k -> \sum_(i < d) a i * b i x = 0) ->
  forall i, (i < d)%N -> a i = 0.
(** On every block each of the first [d] vectors of [w] is a combination of those of [b]. *)
Definition block_spanned b w : Prop :=
  forall k i, (i < d)%N -> exists a : nat -> C, forall x, block x = k -> w i x = \sum_(j < d) a j * b j x.

(** Linear, Hermitian and positive operators. *)
Definition additive_op (D : {ffun X -> C} -> {ffun X -> C}) : Prop :=
  forall (a : C) (u v : {ffun X -> C}), D [ffun x => a * u x + v x] = [ffun x => a * D u x + D v x].
Definition hermitian_op (D : {ffun X -> C} -> {ffun X -> C}) : Prop :=
  forall u v : {ffun X -> C}, inner u (D v) = inner (D u) v.
Definition positive_op (D : {ffun X -> C} -> {ffun X -> C}) : Prop :=
  forall u : {ffun X -> C}, (exists x, u x != 0) -> 0 < inner u (D u).
End Spec.

Section Blocks.
Variable C : numClosedFieldType.
Variables (n : nat) (P S : finType) (nb d : nat) (blk : P -> S -> 'I_nb).
(** The block of a component of a field: the process and the number of the block there. *)
Definition block_of (x : P * S * 'I_4 * 'I_n) : P * 'I_nb := (x.1.1.1, blk x.1.1.1 x.1.1.2).
(** The vectors of a basis as functions. *)
Definition vecs (b : basis C n P S) : nat -> P * S * 'I_4 * 'I_n -> C := fun i x => b i x.
(** The inner product of coarse vectors with [d] times [nb] components on every process. *)
Definition coarse_inner (c c' : P -> nat -> C) : C := \sum_p \sum_(m < d * nb) (c p m)^* * c' p m.
End Blocks.
