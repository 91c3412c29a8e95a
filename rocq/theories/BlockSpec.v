(** Independent specification of the blocks of a process. *)
From Coq Require Import ZArith.
From Verif Require Import Base LayoutModel LayoutSpec BlockModel.
Open Scope Z_scope.

Definition positive_blocks (b : block_size) : Prop := 0 < bsx b /\ 0 < bsy b /\ 0 < bsz b /\ 0 < bst b.
(** The extent of a block in direction [mu]. *)
Definition block_extent (b : block_size) (mu : nat) : Z :=
  match mu with 0%nat => bsx b | 1%nat => bsy b | 2%nat => bsz b | _ => bst b end.
(** Two sites lie in the same block of the process whose box starts at [o]: in every direction both lie in
    one interval of the subdivision of the box that starts at its corner. *)
Definition same_block (b : block_size) (o s s' : site) : Prop :=
  forall mu, (mu < 4)%nat -> exists k,
    comp o mu + k * block_extent b mu <= comp s mu < comp o mu + (k + 1) * block_extent b mu /\
    comp o mu + k * block_extent b mu <= comp s' mu < comp o mu + (k + 1) * block_extent b mu.
(** [o] is the corner of the box of rank [r]. *)
Definition corner (g : geom) (r : Z) (o : site) : Prop :=
  exists rx ry rz rt, position_in_grid g rx ry rz rt /\ r = rank_of_position g rx ry rz rt /\
    o = Site (rx * (gx g / px g)) (ry * (gy g / py g)) (rz * (gz g / pz g)) (rt * (gt g / pt g)).
(** Number of intervals of length [b] needed to cover [n] points. *)
Definition cover (n b : Z) : Z := (n + b - 1) / b.
