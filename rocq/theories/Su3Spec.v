(** The group SU(3), stated entry by entry. *)
From Coq Require Import Reals List.
From Verif Require Import ComplexR Su3Model.
Open Scope R_scope.

Definition coordinate (a : vec3) (i : nat) : C := match i with 0%nat => v0 a | 1%nat => v1 a | _ => v2 a end.
(** Row i, column j. *)
Definition entry (m : mat3) (i j : nat) : C :=
  coordinate (match j with 0%nat => col0 m | 1%nat => col1 m | _ => col2 m end) i.
Definition delta (i j : nat) : C := if Nat.eqb i j then C1 else C0.
Definition unitary3 (m : mat3) : Prop := forall i j, (i < 3)%nat -> (j < 3)%nat ->
  (Cconj (entry m 0 i) * entry m 0 j + Cconj (entry m 1 i) * entry m 1 j + Cconj (entry m 2 i) * entry m 2 j)%C = delta i j /\
  (entry m i 0 * Cconj (entry m j 0) + entry m i 1 * Cconj (entry m j 1) + entry m i 2 * Cconj (entry m j 2))%C = delta i j.
Definition det3 (m : mat3) : C :=
  (entry m 0 0 * entry m 1 1 * entry m 2 2 + entry m 0 1 * entry m 1 2 * entry m 2 0
   + entry m 0 2 * entry m 1 0 * entry m 2 1 - entry m 0 2 * entry m 1 1 * entry m 2 0
   - entry m 0 1 * entry m 1 0 * entry m 2 2 - entry m 0 0 * entry m 1 2 * entry m 2 1)%C.
Definition in_SU3 (m : mat3) : Prop := unitary3 m /\ det3 m = C1.
(** Two columns are linearly independent. *)
Definition independent (a b : vec3) : Prop := forall x y,
  (forall i, (i < 3)%nat -> (x * coordinate a i + y * coordinate b i)%C = C0) -> x = C0 /\ y = C0.
