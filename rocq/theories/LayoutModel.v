(** Model of the parallel layout (source/MPILattice/MPILayout.h) and of the single-process
    layout (source/MPILattice/LocalLayout.h).  Definitions only. *)
From Coq Require Import String Ascii Decimal DecimalString.
From Verif Require Import Base.
Open Scope Z_scope.

(** Site.h 6-25: a coordinate quadruple, and [operator+] (12-14), [operator-] (15-17), unary minus (18-20). *)
Record site := Site { sx : Z; sy : Z; sz : Z; st : Z }.
Definition site_add (a b : site) : site :=
  Site (sx a + sx b) (sy a + sy b) (sz a + sz b) (st a + st b).
Definition site_sub (a b : site) : site :=
  Site (sx a - sx b) (sy a - sy b) (sz a - sz b) (st a - st b).
Definition site_opp (a : site) : site := Site (- sx a) (- sy a) (- sz a) (- st a).

(** MPILayout.h 33-41: the static members glob_* and pgrid_* chosen by the user. *)
Record geom := Geom { gx : Z; gy : Z; gz : Z; gt : Z; px : Z; py : Z; pz : Z; pt : Z }.

(** MPILayout.h 801-806: [modulus] calls itself until the value is in range. The fuel bounds the
    recursion; [None] means that the fuel was not enough (for mod <= 0 the C++ never returns). *)
Fixpoint modulus_fuel (fuel : nat) (value md : Z) : option Z :=
  match fuel with
  | O => None
  | S f => if md <=? value then modulus_fuel f (value - md) md
           else if value <? 0 then modulus_fuel f (value + md) md
           else Some value
  end.
Definition modulus (value md : Z) : option Z :=
  modulus_fuel (S (Z.to_nat (Z.abs value))) value md.

(** MPILayout.h 463-477: [getGlobalCoordinate] (both overloads). [None]: no result. *)
Definition get_global_coordinate (g : geom) (s : site) : option Z :=
  match modulus (sx s) (gx g), modulus (sy s) (gy g), modulus (sz s) (gz g), modulus (st s) (gt g) with
  | Some x, Some y, Some z, Some t => Some (gt g * (gz g * (gy g * x + y) + z) + t)
  | _, _, _, _ => None
  end.

(** The table-building loops use the number directly; [-1] stands for a missing result (never met for
    positive extents, see [LayoutProofs.get_global_coordinate_spec]). *)
Definition gidx (g : geom) (s : site) : Z :=
  match get_global_coordinate g s with Some i => i | None => -1 end.

(** LocalLayout.h 165-170: wraps one period only. *)
Definition local_modulus (value md : Z) : Z :=
  if md <=? value then value - md
  else if value <? 0 then value + md
  else value.
(** LocalLayout.h 149-163: [getGlobalCoordinate] of the single-process layout. *)
Definition local_gidx (g : geom) (s : site) : Z :=
  gt g * (gz g * (gy g * local_modulus (sx s) (gx g) + local_modulus (sy s) (gy g))
          + local_modulus (sz s) (gz g)) + local_modulus (st s) (gt g).

(** MPILayout.h 54-55: numberProcessors, globalVolume. *)
Definition number_processors (g : geom) : Z := px g * py g * pz g * pt g.
Definition global_volume (g : geom) : Z := gx g * gy g * gz g * gt g.

(** MPILayout.h 76-79: local extents (C++ integer division truncates). *)
Definition lx (g : geom) : Z := Z.quot (gx g) (px g).
Definition ly (g : geom) : Z := Z.quot (gy g) (py g).
Definition lz (g : geom) : Z := Z.quot (gz g) (pz g).
Definition lt (g : geom) : Z := Z.quot (gt g) (pt g).

(** MPILayout.h 62-97: start-up checks before the tables are built, for a communicator of [size]
    processes. Division by zero is undefined. *)
Definition startup_checks (g : geom) (size : Z) : outcome unit :=
  if negb (size =? number_processors g) then Exit 1
  else if (px g =? 0) || (py g =? 0) || (pz g =? 0) || (pt g =? 0) then UB
  else if negb (Z.rem (gx g) (px g) =? 0) then Exit 3
  else if negb (Z.rem (gy g) (py g) =? 0) then Exit 3
  else if negb (Z.rem (gz g) (pz g) =? 0) then Exit 3
  else if negb (Z.rem (gt g) (pt g) =? 0) then Exit 3
  else Ok tt.

(** MPILayout.h 101-104 (and 122-125, 307-310, 330-333): the four nested coordinate loops. *)
Definition all_sites (g : geom) : list site :=
  flat_map (fun x => flat_map (fun y => flat_map (fun z => map (fun t => Site x y z t)
    (zrange (gt g))) (zrange (gz g))) (zrange (gy g))) (zrange (gx g)).

(** MPILayout.h 106-109 and 479-485 ([rankTable]): the owner of a coordinate. *)
Definition rank_table (g : geom) (s : site) : Z :=
  let p := Z.quot (sx s) (lx g) in
  let p := py g * p + Z.quot (sy s) (ly g) in
  let p := pz g * p + Z.quot (sz s) (lz g) in
  pt g * p + Z.quot (st s) (lt g).

(** MPILayout.h 105, 111: globalMapSite, filled by the loop at position [getGlobalCoordinate]. The loop
    order is the order of the numbers (proved: [LayoutProofs.gidx_site_at]), so entry i is the i-th
    coordinate of the loop. *)
Definition site_at (g : geom) (i : Z) : site := nth (Z.to_nat i) (all_sites g) (Site 0 0 0 0).

(** MPILayout.h 110: processorNumberLattice. *)
Definition proc_at (g : geom) (i : Z) : Z := rank_table g (site_at g i).

(** MPILayout.h 120-136: ranks pushed to the exchange table of site i, in loop order: the owner of each
    coordinate one of whose stencil neighbours is i, when it is not the owner of i. *)
Definition exchange_raw (g : geom) (stencil : list site) (i : Z) : list Z :=
  flat_map (fun s => flat_map (fun d =>
     if (gidx g (site_add s d) =? i) && negb (proc_at g (gidx g s) =? proc_at g i)
     then [proc_at g (gidx g s)] else []) stencil) (all_sites g).

(** MPILayout.h 141: std::sort on integers (any correct sort gives the same list). *)
Fixpoint insert (x : Z) (l : list Z) : list Z :=
  match l with
  | [] => [x]
  | y :: r => if x <=? y then x :: l else y :: insert x r
  end.
Fixpoint isort (l : list Z) : list Z :=
  match l with [] => [] | x :: r => insert x (isort r) end.
(** MPILayout.h 142: std::unique followed by erase: of each run of equal elements keep one. *)
Fixpoint unique (l : list Z) : list Z :=
  match l with
  | [] => []
  | x :: r => match unique r with
              | y :: r' => if x =? y then y :: r' else x :: y :: r'
              | [] => [x]
              end
  end.
(** MPILayout.h 139-143: the exchange table after sorting and cleaning. *)
Definition exchange_table (g : geom) (stencil : list site) (i : Z) : list Z :=
  unique (isort (exchange_raw g stencil i)).

(** utils/ToString.h 92-96: decimal rendering of a non-negative integer. *)
Definition to_string (n : Z) : string := NilZero.string_of_uint (Nat.to_uint (Z.to_nat n)).

(** MPILayout.h 155-162: the id of a site: owner, sharers, number of sharers, joined by dots. *)
Definition site_id (g : geom) (stencil : list site) (i : Z) : string :=
  let ex := exchange_table g stencil i in
  let id0 := to_string (proc_at g i) in
  let id1 := fold_left (fun acc r => append (append acc ".") (to_string r)) ex id0 in
  append (append id1 ".") (to_string (Z.of_nat (length ex))).

(** MPILayout.h 164-170: scan of the ids seen so far; the last match is kept. *)
Fixpoint last_index_from (k : Z) (id : string) (ids : list string) (acc : option Z) : option Z :=
  match ids with
  | [] => acc
  | h :: r => last_index_from (k + 1) id r (if String.eqb h id then Some k else acc)
  end.

(** MPILayout.h 154-175: one iteration: extends [ids] when the id is new, records the number. *)
Definition id_step (g : geom) (stencil : list site) (a : list string * list Z) (i : Z)
  : list string * list Z :=
  let '(ids, tab) := a in
  let id := site_id g stencil i in
  match last_index_from 0 id ids None with
  | Some k => (ids, tab ++ [k])
  | None => (ids ++ [id], tab ++ [Z.of_nat (length ids)])
  end.
Definition id_tables (g : geom) (stencil : list site) : list string * list Z :=
  fold_left (id_step g stencil) (zrange (global_volume g)) ([], []).

(** LatticeChunk.h 6-14, without offset and tags (computed per rank / separately); [csites] is the list of
    global sites with that id in increasing order, scanned in MPILayout.h 247-252 etc. *)
Record chunk := Chunk { cid : Z; cowner : Z; csize : Z; csharers : list Z; csites : list Z }.

(** MPILayout.h 178-199: size, owner and sharers of chunk k; the last site of the chunk decides owner
    and sharers, -1 and the empty list if there is none. *)
Definition mk_chunk (g : geom) (stencil : list site) (tab : list Z) (k : Z) : chunk :=
  let sites := filter (fun i => nth (Z.to_nat i) tab (-1) =? k) (zrange (global_volume g)) in
  Chunk k (last (map (proc_at g) sites) (-1)) (Z.of_nat (length sites))
        (last (map (exchange_table g stencil) sites) []) sites.

(** The list latticeChunks: the same on all ranks. *)
Definition chunks (g : geom) (stencil : list site) : list chunk :=
  let '(ids, tab) := id_tables g stencil in
  map (mk_chunk g stencil tab) (zrange (Z.of_nat (length ids))).

(** MPILayout.h 203: localsize. *)
Definition localsize (g : geom) : Z := lx g * ly g * lz g * lt g.

(** MPILayout.h 207-213: completesize, with the chunk sizes added once per matching sharer. *)
Definition completesize (g : geom) (cs : list chunk) (rank : Z) : Z :=
  fold_left (fun acc c => fold_left (fun acc r => if r =? rank then acc + csize c else acc)
     (csharers c) acc) cs (localsize g).

(** MPILayout.h 215-229: the tags. [latticeChunks[j].sharers[j]] is read with j (not i) as chunk index;
    a read outside either vector is undefined behaviour. The map is an association list. *)
Fixpoint lookup_pair (k : Z * Z) (m : list ((Z * Z) * Z)) : option Z :=
  match m with
  | [] => None
  | (k', v) :: r => if (fst k =? fst k') && (snd k =? snd k') then Some v else lookup_pair k r
  end.
Definition tag_one (cs : list chunk) (c : chunk) (j : nat) (m : list ((Z * Z) * Z))
  : outcome (Z * list ((Z * Z) * Z)) :=
  match nth_error cs j with
  | None => UB
  | Some cj =>
    match nth_error (csharers cj) j with
    | None => UB
    | Some r =>
      let pr := (cowner c, r) in
      match lookup_pair pr m with
      | Some v => Ok (v + 1, (pr, v + 1) :: m)
      | None => Ok (0, (pr, 0) :: m)
      end
    end
  end.
Fixpoint tags_chunk (cs : list chunk) (c : chunk) (js : list nat) (m : list ((Z * Z) * Z))
  : outcome (list Z * list ((Z * Z) * Z)) :=
  match js with
  | [] => Ok ([], m)
  | j :: r =>
    obind (tag_one cs c j m) (fun '(tag, m1) =>
    obind (tags_chunk cs c r m1) (fun '(ts, m2) => Ok (tag :: ts, m2)))
  end.
Fixpoint tags_from (cs : list chunk) (todo : list chunk) (m : list ((Z * Z) * Z))
  : outcome (list (list Z)) :=
  match todo with
  | [] => Ok []
  | c :: r =>
    obind (tags_chunk cs c (seq 0 (length (csharers c))) m) (fun '(ts, m1) =>
    obind (tags_from cs r m1) (fun tss => Ok (ts :: tss)))
  end.
Definition compute_tags (cs : list chunk) : outcome (list (list Z)) := tags_from cs cs [].

(** State of the numbering passes: localIndex, [index], [offset], sharedsize and the chunk offsets. *)
Record numbering := Numbering
  { li : Z -> Z; nidx : Z; noff : Z; nshared : Z; noffs : Z -> Z }.

(** MPILayout.h 247-252: number the sites of one chunk. *)
Definition number_sites (f : Z -> Z) (idx : Z) (sites : list Z) : (Z -> Z) * Z :=
  fold_left (fun '(f, idx) s => (upd f s idx, idx + 1)) sites (f, idx).

(** MPILayout.h 245-252: place one chunk at the current offset. *)
Definition place (n : numbering) (c : chunk) : numbering :=
  let '(f, i) := number_sites (li n) (nidx n) (csites c) in
  Numbering f i (noff n + csize c) (nshared n) (upd (noffs n) (cid c) (noff n)).

(** MPILayout.h 233-238 and 242: nothing numbered, offsets -1. *)
Definition numbering0 : numbering := Numbering (fun _ => -1) 0 0 0 (fun _ => -1).

(** MPILayout.h 241-254: owned chunks that are shared. *)
Definition pass1 (rank : Z) (cs : list chunk) (n : numbering) : numbering :=
  fold_left (fun n c =>
    if (cowner c =? rank) && negb (Nat.eqb (length (csharers c)) 0)
    then let n' := place n c in
         Numbering (li n') (nidx n') (noff n') (nshared n + csize c) (noffs n')
    else n) cs n.
(** MPILayout.h 257-268: owned chunks that are not shared. *)
Definition pass2 (rank : Z) (cs : list chunk) (n : numbering) : numbering :=
  fold_left (fun n c =>
    if (cowner c =? rank) && Nat.eqb (length (csharers c)) 0 then place n c else n) cs n.
(** MPILayout.h 277-290: chunks of other ranks shared to this rank. *)
Definition pass3 (rank : Z) (cs : list chunk) (n : numbering) : numbering :=
  fold_left (fun n c => fold_left (fun n r => if r =? rank then place n c else n) (csharers c) n) cs n.

Definition numbering_of (rank : Z) (cs : list chunk) : numbering :=
  pass3 rank cs (pass2 rank cs (pass1 rank cs numbering0)).

(** The layout of one rank. *)
Record layout := Layout
  { lgeom : geom; lrank : Z; lchunks : list chunk; llocalsize : Z; lcompletesize : Z;
    lsharedsize : Z; local_index : Z -> Z; chunk_offset : Z -> Z }.

(** MPILayout.h 53-296 as a whole (tags apart): [exit(7)] checks 271-274 and 293-296 on rank 0 only. *)
Definition initialize (g : geom) (stencil : list site) (size rank : Z) : outcome layout :=
  obind (startup_checks g size) (fun _ =>
    let cs := chunks g stencil in
    let n2 := pass2 rank cs (pass1 rank cs numbering0) in
    if negb (noff n2 =? localsize g) && (rank =? 0) then Exit 7 else
    let n3 := pass3 rank cs n2 in
    if negb (noff n3 =? completesize g cs rank) && (rank =? 0) then Exit 7 else
    Ok (Layout g rank cs (localsize g) (completesize g cs rank) (nshared n3) (li n3) (noffs n3))).

(** MPILayout.h 299-319: deltaPlus and the global sup table; 322-342 the down table. *)
Definition delta_plus (mu : nat) : site :=
  match mu with 0%nat => Site 1 0 0 0 | 1%nat => Site 0 1 0 0 | 2%nat => Site 0 0 1 0 | _ => Site 0 0 0 1 end.
Definition delta_minus (mu : nat) : site :=
  match mu with 0%nat => Site (-1) 0 0 0 | 1%nat => Site 0 (-1) 0 0
              | 2%nat => Site 0 0 (-1) 0 | _ => Site 0 0 0 (-1) end.
Definition global_sup (g : geom) (i : Z) (mu : nat) : Z := gidx g (site_add (site_at g i) (delta_plus mu)).
Definition global_down (g : geom) (i : Z) (mu : nat) : Z := gidx g (site_add (site_at g i) (delta_minus mu)).

(** MPILayout.h 348-363: the entry l of the rank's tables is written by the site whose local index is l,
    scanning the chunks that have an offset. [None]: the entry is never written. *)
Definition global_of (L : layout) (l : Z) : option Z :=
  find (fun i => local_index L i =? l)
    (flat_map csites (filter (fun c => negb (chunk_offset L (cid c) =? -1)) (lchunks L))).
(** Lattice.h 201-207: sup, sdn: the tables sup_table and down_table. [None]: uninitialised entry. *)
Definition sup (L : layout) (l : Z) (mu : nat) : option Z :=
  match global_of L l with Some i => Some (local_index L (global_sup (lgeom L) i mu)) | None => None end.
Definition sdn (L : layout) (l : Z) (mu : nat) : option Z :=
  match global_of L l with Some i => Some (local_index L (global_down (lgeom L) i mu)) | None => None end.
(** MPILayout.h 359, 487-501: globalIndexX/Y/Z/T. *)
Definition global_coordinate (L : layout) (l : Z) : option site :=
  match global_of L l with Some i => Some (site_at (lgeom L) i) | None => None end.

(** MPILayout.h 378-407: getMapIndex: for each owned local site the local index in the other layout. *)
Definition map_index (L M : layout) (l : Z) : Z :=
  match find (fun i => (negb (local_index L i =? -1)) && (local_index L i <? llocalsize L)
                       && (local_index L i =? l)) (zrange (global_volume (lgeom L))) with
  | Some i => local_index M i
  | None => -1
  end.

(** ReducedStencil.h 15-25. *)
Definition reduced_stencil : list site :=
  [Site 1 0 0 0; Site 0 1 0 0; Site 0 0 1 0; Site 0 0 0 1;
   Site (-1) 0 0 0; Site 0 (-1) 0 0; Site 0 0 (-1) 0; Site 0 0 0 (-1)].
(** ReducedUpStencil.h 15-21, ReducedDownStencil.h 15-21. *)
Definition reduced_up_stencil : list site := [Site 1 0 0 0; Site 0 1 0 0; Site 0 0 1 0; Site 0 0 0 1].
Definition reduced_down_stencil : list site :=
  [Site (-1) 0 0 0; Site 0 (-1) 0 0; Site 0 0 (-1) 0; Site 0 0 0 (-1)].
(** StandardStencil.h 15-41. *)
Definition standard_stencil : list site :=
  let dx := Site 1 0 0 0 in let dy := Site 0 1 0 0 in let dz := Site 0 0 1 0 in let dt := Site 0 0 0 1 in
  [dx; dy; dz; dt; site_opp dx; site_opp dy; site_opp dz; site_opp dt;
   site_sub dx dy; site_sub dx dz; site_sub dx dt; site_sub dy dx; site_sub dy dz; site_sub dy dt;
   site_sub dz dx; site_sub dz dy; site_sub dz dt; site_sub dt dx; site_sub dt dy; site_sub dt dz].
(** ExtendedStencil.h 15-131. *)
Definition extended_stencil : list site :=
  [Site 1 0 0 0; Site 0 1 0 0; Site 0 0 1 0; Site 0 0 0 1;
   Site (-1) 0 0 0; Site 0 (-1) 0 0; Site 0 0 (-1) 0; Site 0 0 0 (-1);
   Site 2 0 0 0; Site 0 2 0 0; Site 0 0 2 0; Site 0 0 0 2;
   Site (-2) 0 0 0; Site 0 (-2) 0 0; Site 0 0 (-2) 0; Site 0 0 0 (-2);
   Site 1 (-1) 0 0; Site 1 0 (-1) 0; Site 1 0 0 (-1);
   Site (-1) 1 0 0; Site 0 1 (-1) 0; Site 0 1 0 (-1);
   Site (-1) 0 1 0; Site 0 (-1) 1 0; Site 0 0 1 (-1);
   Site (-1) 0 0 1; Site 0 (-1) 0 1; Site 0 0 (-1) 1;
   Site 1 1 0 0; Site 1 0 1 0; Site 1 0 0 1;
   Site 1 1 0 0; Site 0 1 1 0; Site 0 1 0 1;
   Site 1 0 1 0; Site 0 1 1 0; Site 0 0 1 1;
   Site 1 0 0 1; Site 0 1 0 1; Site 0 0 1 1;
   Site 2 (-1) 0 0; Site 2 0 (-1) 0; Site 2 0 0 (-1);
   Site (-1) 2 0 0; Site 0 2 (-1) 0; Site 0 2 0 (-1);
   Site (-1) 0 2 0; Site 0 (-1) 2 0; Site 0 0 2 (-1);
   Site (-1) 0 0 2; Site 0 (-1) 0 2; Site 0 0 (-1) 2;
   Site 2 1 0 0; Site 2 0 1 0; Site 2 0 0 1;
   Site 1 2 0 0; Site 0 2 1 0; Site 0 2 0 1;
   Site 1 0 2 0; Site 0 1 2 0; Site 0 0 2 1;
   Site 1 0 0 2; Site 0 1 0 2; Site 0 0 1 2;
   Site (-2) 1 0 0; Site (-2) 0 1 0; Site (-2) 0 0 1;
   Site 1 (-2) 0 0; Site 0 (-2) 1 0; Site 0 (-2) 0 1;
   Site 1 0 (-2) 0; Site 0 1 (-2) 0; Site 0 0 (-2) 1;
   Site 1 0 0 (-2); Site 0 1 0 (-2); Site 0 0 1 (-2);
   Site (-2) (-1) 0 0; Site (-2) 0 (-1) 0; Site (-2) 0 0 (-1);
   Site (-1) (-2) 0 0; Site 0 (-2) (-1) 0; Site 0 (-2) 0 (-1);
   Site (-1) 0 (-2) 0; Site 0 (-1) (-2) 0; Site 0 0 (-2) (-1);
   Site (-1) 0 0 (-2); Site 0 (-1) 0 (-2); Site 0 0 (-1) (-2)].
