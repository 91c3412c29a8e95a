(** Multigrid blocks of one process (multigrid/MultiGridVectorLayout.cpp, MultiGridVector.h) and the
    basis dimension bookkeeping of BlockBasis.cpp. *)
From Coq Require Import ZArith List Bool.
From Verif Require Import Base LayoutModel.
Import ListNotations.
Open Scope Z_scope.

(** MultiGridVectorLayout.cpp 5-8: the four block sizes (unsigned int). *)
Record block_size := BlockSize { bsx : Z; bsy : Z; bsz : Z; bst : Z }.

(** MultiGridVectorLayout.cpp 23-26: number of blocks in one direction; extents and sizes are not
    negative, so C division and remainder are those of Z. *)
Definition blocks_along (loc b : Z) : Z := loc / b + (if loc mod b =? 0 then 0 else 1).

(** MultiGridVectorLayout.cpp 32: totalNumberOfBlocks. *)
Definition total_blocks (g : geom) (b : block_size) : Z :=
  blocks_along (lx g) (bsx b) * blocks_along (ly g) (bsy b) *
  blocks_along (lz g) (bsz b) * blocks_along (lt g) (bst b).

(** MultiGridVectorLayout.cpp 38-43: the block number of the site with global coordinates [s]. *)
Definition block_number (g : geom) (b : block_size) (s : site) : Z :=
  let x := (sx s mod lx g) / bsx b in
  let y := (sy s mod ly g) / bsy b in
  let z := (sz s mod lz g) / bsz b in
  let t := (st s mod lt g) / bst b in
  blocks_along (lt g) (bst b) *
    (blocks_along (lz g) (bsz b) * (blocks_along (ly g) (bsy b) * x + y) + z) + t.

(** What MultiGridVectorLayout keeps: totalNumberOfBlocks, size, and the table blockIndex. *)
Record mg_layout := MgLayout { mg_total : Z; mg_size : Z; mg_index : Z -> option Z }.

(** MultiGridVectorLayout.cpp 18-46: initialize on the layout [L] of a process with [dim] basis vectors.
    A block size zero divides by zero. The warnings 19 and 28-30 are not modelled; the halo update 45 is
    that of HaloModel, so [mg_index] is given on the sites of the process only: [None] outside. *)
Definition mg_initialize (L : layout) (b : block_size) (dim : Z) : outcome mg_layout :=
  if (bsx b =? 0) || (bsy b =? 0) || (bsz b =? 0) || (bst b =? 0) then UB else
  let total := total_blocks (lgeom L) b in
  Ok (MgLayout total (total * dim)
        (fun l => if (0 <=? l) && (l <? llocalsize L)
                  then match global_coordinate L l with
                       | Some s => Some (block_number (lgeom L) b s)
                       | None => None end
                  else None)).

(** MultiGridVector.h 36-42: position in the data of the coefficient of basis vector [v] at a site. *)
Definition mg_position (M : mg_layout) (v l : Z) : option Z :=
  match mg_index M l with Some k => Some (mg_total M * v + k) | None => None end.

(** BlockBasis.h 32-34 and MultiGridVectorLayout.cpp 13: the dimension of a basis (and the length of its
    array) next to the static dimension of the layout. *)
Record dims := Dims { own_dim : Z; layout_dim : Z }.
(** BlockBasis.cpp 7-13. *)
Definition basis_new (static d : Z) : dims :=
  if negb (d =? static) then Dims d d else Dims d static.
(** BlockBasis.cpp 23-31: line 25 stores the dimension the basis had before. *)
Definition basis_set (s : dims) (d : Z) : dims :=
  if negb (d =? layout_dim s) then Dims d (own_dim s) else Dims d (layout_dim s).
(** BlockBasis.cpp 146-210: the second loop of orthogonalize reads vectorspace[i] for every i below the
    dimension of the layout; the array has [own_dim] entries. *)
Definition orthogonalize_reads (s : dims) : outcome (list Z) :=
  if layout_dim s <=? own_dim s then Ok (zrange (layout_dim s)) else UB.
