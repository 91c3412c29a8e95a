(** Independent specification of a periodic box split among a grid of processes. It mentions no table and
    no helper of the model; only coordinates, Euclidean quotient and remainder. *)
From Coq Require Import ZArith List.
From Verif Require Import Base LayoutModel.
Open Scope Z_scope.

(** Sizes chosen by the user that make sense. *)
Definition positive_extents (g : geom) : Prop := 0 < gx g /\ 0 < gy g /\ 0 < gz g /\ 0 < gt g.
Definition positive_grid (g : geom) : Prop := 0 < px g /\ 0 < py g /\ 0 < pz g /\ 0 < pt g.
Definition divides_evenly (g : geom) : Prop :=
  (px g | gx g) /\ (py g | gy g) /\ (pz g | gz g) /\ (pt g | gt g).
Definition valid_geom (g : geom) : Prop := positive_extents g /\ positive_grid g /\ divides_evenly g.

(** A coordinate inside the box; the volume. *)
Definition in_box (g : geom) (s : site) : Prop :=
  0 <= sx s < gx g /\ 0 <= sy s < gy g /\ 0 <= sz s < gz g /\ 0 <= st s < gt g.

(** Two coordinates are periodic images of each other. *)
Definition same_image (g : geom) (a b : site) : Prop :=
  (gx g | sx a - sx b) /\ (gy g | sy a - sy b) /\ (gz g | sz a - sz b) /\ (gt g | st a - st b).

(** The periodic image inside the box. *)
Definition wrap (g : geom) (s : site) : site :=
  Site (sx s mod gx g) (sy s mod gy g) (sz s mod gz g) (st s mod gt g).

(** Rank [r] written in the mixed base (py,pz,pt) gives its position in the process grid;
    its box is the translate of the local box by that position. *)
Definition in_rank_box (g : geom) (rx ry rz rt : Z) (s : site) : Prop :=
  let bx := gx g / px g in let b_y := gy g / py g in let bz := gz g / pz g in let bt := gt g / pt g in
  rx * bx <= sx s < (rx + 1) * bx /\ ry * b_y <= sy s < (ry + 1) * b_y /\
  rz * bz <= sz s < (rz + 1) * bz /\ rt * bt <= st s < (rt + 1) * bt.
Definition rank_of_position (g : geom) (rx ry rz rt : Z) : Z := ((rx * py g + ry) * pz g + rz) * pt g + rt.
Definition position_in_grid (g : geom) (rx ry rz rt : Z) : Prop :=
  0 <= rx < px g /\ 0 <= ry < py g /\ 0 <= rz < pz g /\ 0 <= rt < pt g.

(** The site [s] belongs to the box of rank [r]. *)
Definition owned_by (g : geom) (r : Z) (s : site) : Prop :=
  exists rx ry rz rt, position_in_grid g rx ry rz rt /\ r = rank_of_position g rx ry rz rt /\
                      in_rank_box g rx ry rz rt s.
(** Rank [r] needs a copy of the site [s] of another rank: it is a displacement of one of its sites. *)
Definition mirrors (g : geom) (stencil : list site) (r : Z) (s : site) : Prop :=
  ~ owned_by g r s /\
  exists s0 d, in_box g s0 /\ owned_by g r s0 /\ In d stencil /\ same_image g s (site_add s0 d).

(** Component of a coordinate, of the extents of the lattice and of the box of a rank. *)
Definition comp (s : site) (mu : nat) : Z :=
  match mu with 0%nat => sx s | 1%nat => sy s | 2%nat => sz s | _ => st s end.
Definition extent (g : geom) (mu : nat) : Z :=
  match mu with 0%nat => gx g | 1%nat => gy g | 2%nat => gz g | _ => gt g end.
Definition local_extent (g : geom) (mu : nat) : Z :=
  match mu with 0%nat => gx g / px g | 1%nat => gy g / py g | 2%nat => gz g / pz g | _ => gt g / pt g end.
(** Displacement by [k] steps in direction [mu]. *)
Definition steps (mu : nat) (k : Z) : site :=
  match mu with 0%nat => Site k 0 0 0 | 1%nat => Site 0 k 0 0 | 2%nat => Site 0 0 k 0 | _ => Site 0 0 0 k end.
