(** C53 Blocks of the multigrid, C68 dimension of a block basis. *)
From Coq Require Import ZArith List Bool Lia.
From Verif Require Import Base LayoutModel LayoutSpec BlockModel BlockSpec BlockProofs.
Import ListNotations.
Open Scope Z_scope.

(** ** C53: the table of block numbers, for every layout, rank and block size: defined and in range on the
    sites of the process, equal exactly on sites of the same block, and onto. *)
Theorem C53_blocks (g : geom) (sten : list site) (r : Z) (L : layout) (b : block_size) (dim : Z) (o : site) :
  valid_geom g -> 0 <= r < number_processors g -> initialize g sten (number_processors g) r = Ok L ->
  positive_blocks b -> corner g r o ->
  exists M, mg_initialize L b dim = Ok M /\
    mg_total M = cover (gx g / px g) (bsx b) * cover (gy g / py g) (bsy b) *
                 cover (gz g / pz g) (bsz b) * cover (gt g / pt g) (bst b) /\
    mg_size M = mg_total M * dim /\
    (forall l, 0 <= l < llocalsize L -> exists k, mg_index M l = Some k /\ 0 <= k < mg_total M) /\
    (forall l l' s s', 0 <= l < llocalsize L -> 0 <= l' < llocalsize L ->
       global_coordinate L l = Some s -> global_coordinate L l' = Some s' ->
       (mg_index M l = mg_index M l' <-> same_block b o s s')) /\
    (forall k, 0 <= k < mg_total M -> exists l, 0 <= l < llocalsize L /\ mg_index M l = Some k).
Proof. exact (blocks_of_process g sten r L b dim o). Qed.
(** The coefficients of a coarse vector lie inside its array and are shared exactly by the sites of a block. *)
Theorem C53_positions (M : mg_layout) (d : Z) (v v' l l' p : Z) :
  (forall l k, mg_index M l = Some k -> 0 <= k < mg_total M) -> mg_size M = mg_total M * d ->
  0 <= v < d -> mg_position M v l = Some p ->
  0 <= p < mg_size M /\ (mg_position M v' l' = Some p <-> v' = v /\ mg_index M l' = mg_index M l).
Proof. exact (positions M d v v' l l' p). Qed.
Theorem C53_zero_block_refuted (L : layout) (b : block_size) (dim : Z) :
  (exists mu, (mu < 4)%nat /\ block_extent b mu = 0) -> mg_initialize L b dim = UB.
Proof. exact (zero_block L b dim). Qed.
Example C53_case : valid_geom (Geom 10 3 1 1 2 1 1 1) /\ corner (Geom 10 3 1 1 2 1 1 1) 1 (Site 5 0 0 0) /\
  match initialize (Geom 10 3 1 1 2 1 1 1) reduced_stencil 2 1 with
  | Ok L => match mg_initialize L (BlockSize 2 2 4 4) 40 with
            | Ok M => mg_total M = 6 /\ mg_size M = 240 /\
                map (fun l => match global_coordinate L l, mg_index M l with
                              | Some s, Some k => (sx s, sy s, k) | _, _ => (0, 0, 0) end) (zrange 15)
                = [(5,0,0); (5,1,0); (5,2,1); (9,0,4); (9,1,4); (9,2,5); (6,0,0); (6,1,0); (6,2,1);
                   (7,0,2); (7,1,2); (7,2,3); (8,0,2); (8,1,2); (8,2,3)]
            | _ => False end
  | _ => False end.
Proof.
  split. { repeat split; cbn; try lia; (now exists 5) || (now exists 3) || (now exists 1). }
  split. { exists 1, 0, 0, 0. repeat split; cbn; lia. }
  vm_compute. auto.
Qed.

(** ** C68: the constructor of a block basis leaves the coarse vectors with its dimension, but
    setBasisDimension leaves them with the old one; when the dimension shrinks orthogonalize reads past the
    end of the basis; calling it twice repairs it. *)
Theorem C68_constructor (static d : Z) :
  own_dim (basis_new static d) = d /\ layout_dim (basis_new static d) = d.
Proof. exact (dims_new static d). Qed.
Theorem C68_set_dimension_refuted (s : dims) (d : Z) : own_dim s = layout_dim s -> d <> layout_dim s ->
  own_dim (basis_set s d) = d /\ layout_dim (basis_set s d) = own_dim s /\
  layout_dim (basis_set s d) <> d /\
  (0 <= d < own_dim s -> orthogonalize_reads (basis_set s d) = UB) /\
  layout_dim (basis_set (basis_set s d) d) = d.
Proof. exact (dims_set s d). Qed.
Example C68_case : basis_new 40 20 = Dims 20 20 /\ basis_set (Dims 20 20) 10 = Dims 10 20 /\
  orthogonalize_reads (Dims 10 20) = UB /\ orthogonalize_reads (Dims 2 2) = Ok [0; 1].
Proof. repeat split. Qed.

Print Assumptions C53_blocks.
Print Assumptions C53_positions.
Print Assumptions C53_zero_block_refuted.
Print Assumptions C68_constructor.
Print Assumptions C68_set_dimension_refuted.
