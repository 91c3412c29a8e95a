(** Independent specification for the configuration formats: ranges of machine numbers, fields given by site,
    what it means for a rank to hold its part of such a field. *)
From Coq Require Import ZArith List.
From Verif Require Import Base LayoutModel LayoutSpec.
Open Scope Z_scope.

Definition is_int32 (z : Z) : Prop := - 2 ^ 31 <= z < 2 ^ 31.
Definition is_bits (n : Z) (w : Z) : Prop := 0 <= w < 2 ^ n.
Definition is_byte (b : Z) : Prop := 0 <= b < 256.

(** A link field by site: direction, row, column to a pair of 64-bit patterns. *)
Definition global_field := site -> nat -> nat -> nat -> Z * Z.
Definition doubles (N : nat) (F : global_field) : Prop :=
  forall s mu i j, (mu < 4)%nat -> (i < N)%nat -> (j < N)%nat ->
    is_bits 64 (fst (F s mu i j)) /\ is_bits 64 (snd (F s mu i j)).

(** Two process grids of the same lattice. *)
Definition same_lattice (g h : geom) : Prop := gx g = gx h /\ gy g = gy h /\ gz g = gz h /\ gt g = gt h.
Definition int_extents (g : geom) : Prop :=
  gx g <= 2 ^ 31 /\ gy g <= 2 ^ 31 /\ gz g <= 2 ^ 31 /\ gt g <= 2 ^ 31.
