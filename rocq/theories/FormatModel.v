(** Configuration files: the XDR encoding, the native format and the muenster format.
    Model of io/OutputSweep.cpp and starters/ReadStartGaugeConfiguration.cpp. A file is the list of its bytes.
    Doubles and floats are carried as their IEEE bit patterns (non-negative integers below 2^64, 2^32);
    nothing here computes with them except where stated. *)
From Coq Require Import ZArith List Bool Lia.
From Verif Require Import Base LayoutModel.
Import ListNotations.
Open Scope Z_scope.

(** ** XDR (rpc/xdr.h as called in OutputSweep.cpp 53-63 and ReadStartGaugeConfiguration.cpp 96-108).
    The library itself is not part of the repository; RFC 4506: big-endian, two's complement, IEEE. *)

(** [n] bytes of [z], most significant first. *)
Fixpoint be (n : nat) (z : Z) : list Z :=
  match n with O => [] | S k => be k (z / 256) ++ [z mod 256] end.
(** The number whose bytes are [l], most significant first. *)
Definition of_be (l : list Z) : Z := fold_left (fun acc b => acc * 256 + b) l 0.

(** xdr_int, encoding: 4 bytes two's complement. *)
Definition xdr_put_int (z : Z) : list Z := be 4 (z mod 2 ^ 32).
(** xdr_double, encoding of the bit pattern: 8 bytes; xdr_float: 4 bytes. *)
Definition xdr_put_double (w : Z) : list Z := be 8 w.
Definition xdr_put_float (w : Z) : list Z := be 4 w.

(** Two's complement reading of a 32-bit word. *)
Definition int_of_word (w : Z) : Z := if w <? 2 ^ 31 then w else w - 2 ^ 32.

(** xdrstdio, decoding: takes [n] bytes; at the end of the file the call fails and the variable keeps its
    value ([None]). *)
Definition take_bytes (n : nat) (l : list Z) : option (list Z * list Z) :=
  if (length l <? n)%nat then None else Some (firstn n l, skipn n l).
Definition xdr_get_int (l : list Z) : option (Z * list Z) :=
  match take_bytes 4 l with Some (b, r) => Some (int_of_word (of_be b), r) | None => None end.
Definition xdr_get_double (l : list Z) : option (Z * list Z) :=
  match take_bytes 8 l with Some (b, r) => Some (of_be b, r) | None => None end.
Definition xdr_get_float (l : list Z) : option (Z * list Z) :=
  match take_bytes 4 l with Some (b, r) => Some (of_be b, r) | None => None end.

(** ** Native format. *)

(** A gauge field of one rank: local index, direction, row, column to (real, imaginary) bit patterns. *)
Definition nfield := Z -> nat -> nat -> nat -> Z * Z.

(** OutputSweep.cpp 53-66: one site. *)
Definition put_site (N : nat) (s : site) (u : nat -> nat -> nat -> Z * Z) : list Z :=
  xdr_put_int (sx s) ++ xdr_put_int (sy s) ++ xdr_put_int (sz s) ++ xdr_put_int (st s) ++
  flat_map (fun mu => flat_map (fun i => flat_map (fun j =>
    xdr_put_double (fst (u mu i j)) ++ xdr_put_double (snd (u mu i j)))
    (seq 0 N)) (seq 0 N)) (seq 0 4).

(** OutputSweep.cpp 52-67: the file of one rank. globalCoordinate[site] is the table of C05; an entry that
    was never written would be undefined. *)
Fixpoint put_sites (N : nat) (L : layout) (u : nfield) (ls : list Z) : outcome (list Z) :=
  match ls with
  | [] => Ok []
  | l :: r =>
    match global_coordinate L l with
    | None => UB
    | Some s => obind (put_sites N L u r) (fun bs => Ok (put_site N s (u l) ++ bs))
    end
  end.
Definition native_file (N : nat) (L : layout) (u : nfield) : outcome (list Z) :=
  put_sites N L u (zrange (llocalsize L)).

(** OutputSweep.cpp 78-81, ReadStartGaugeConfiguration.cpp 66-69: the numbers of the descriptor that the
    reader uses. Simplification: printing and parsing of decimal numbers is not modelled; pgrid and the
    plaquette are read but not used. *)
Record descriptor := Descriptor { d_x : Z; d_y : Z; d_z : Z; d_t : Z; d_procs : Z; d_localsize : Z }.
Definition native_descriptor (L : layout) : descriptor :=
  let g := lgeom L in Descriptor (gx g) (gy g) (gz g) (gt g) (number_processors g) (llocalsize L).

(** One stored entry. *)
Definition set_entry (u : nfield) (l : Z) (mu i j : nat) (v : Z * Z) : nfield :=
  fun l' mu' i' j' => if (l' =? l) && Nat.eqb mu' mu && Nat.eqb i' i && Nat.eqb j' j then v else u l' mu' i' j'.

(** ReadStartGaugeConfiguration.cpp 102-112 and 116-124: the loop over the entries of one site; [l] is the
    local index, -1 when the rank does not keep the site (the numbers are then read and dropped). Running
    out of bytes leaves re or im uninitialised. *)
Fixpoint get_entries (keys : list (nat * nat * nat)) (l : Z) (bs : list Z) (u : nfield)
  : outcome (nfield * list Z) :=
  match keys with
  | [] => Ok (u, bs)
  | (mu, i, j) :: r =>
    match xdr_get_double bs with
    | None => UB
    | Some (re, b1) =>
      match xdr_get_double b1 with
      | None => UB
      | Some (im, b2) =>
        get_entries r l b2 (if l =? -1 then u else set_entry u l mu i j (re, im))
      end
    end
  end.
(** The order of the loops 102-104. *)
Definition read_keys (N : nat) : list (nat * nat * nat) :=
  flat_map (fun mu => flat_map (fun i => map (fun j => (mu, i, j)) (seq 0 N)) (seq 0 N)) (seq 0 4).

(** 95-125: one record. [get_global_coordinate] returns [None] where the C++ would divide by zero. *)
Definition get_record (N : nat) (L : layout) (bs : list Z) (u : nfield) : outcome (nfield * list Z) :=
  match xdr_get_int bs with None => UB | Some (x, b1) =>
  match xdr_get_int b1 with None => UB | Some (y, b2) =>
  match xdr_get_int b2 with None => UB | Some (z, b3) =>
  match xdr_get_int b3 with None => UB | Some (t, b4) =>
  match get_global_coordinate (lgeom L) (Site x y z t) with
  | None => UB
  | Some i => get_entries (read_keys N) (local_index L i) b4 u
  end end end end end.
(** 94-126: [n] records. *)
Fixpoint get_records (n : nat) (N : nat) (L : layout) (bs : list Z) (u : nfield) : outcome nfield :=
  match n with
  | O => Ok u
  | S k => obind (get_record N L bs u) (fun '(u1, b1) => get_records k N L b1 u1)
  end.
(** 80-130: the files of the writing processes; a missing file ends the call with [false]. *)
Fixpoint get_files (N : nat) (L : layout) (n : nat) (files : Z -> option (list Z)) (ps : list Z) (u : nfield)
  : outcome (bool * nfield) :=
  match ps with
  | [] => Ok (true, u)
  | p :: r =>
    match files p with
    | None => Ok (false, u)
    | Some bs => obind (get_records n N L bs u) (fun u1 => get_files N L n files r u1)
    end
  end.
(** 57-131: the whole read on one rank, [u] being the configuration before the call. Without a descriptor
    the sizes that are compared are uninitialised. *)
Definition read_native (N : nat) (L : layout) (d : option descriptor) (files : Z -> option (list Z)) (u : nfield)
  : outcome (bool * nfield) :=
  match d with
  | None => UB
  | Some d =>
    let g := lgeom L in
    if negb (d_x d =? gx g) || negb (d_y d =? gy g) || negb (d_z d =? gz g) || negb (d_t d =? gt g)
    then Ok (false, u)
    else get_files N L (Z.to_nat (d_localsize d)) files (zrange (d_procs d)) u
  end.

(** ** Muenster format: order of the sites and communication. *)
Section Muenster.
(** Data of a site on a rank; the words written for one site (16 for SU(2), 48 for SU(3)). *)
Variable data : Type.
Variable words : data -> list Z.
(** Number of words of a site (16 = 4*2*2, OutputSweep.cpp 164; 48 for three colours). *)
Variable K : nat.

(** OutputSweep.cpp 122-143 without MPI: the words of a field given by site, in file order. *)
Definition serial_words (g : geom) (f : site -> data) : list Z :=
  flat_map (fun t => flat_map (fun z => flat_map (fun y => flat_map (fun x => words (f (Site x y z t)))
    (zrange (gx g))) (zrange (gy g))) (zrange (gz g))) (zrange (gt g)).

(** 148-168: the inner while loop: the run of sites of the same rank, and the rest of the row. *)
Fixpoint take_run (g : geom) (rank y z t : Z) (xs : list Z) : list Z * list Z :=
  match xs with
  | [] => ([], [])
  | x :: r =>
    if rank =? rank_table g (Site x y z t)
    then let '(a, b) := take_run g rank y z t r in (x :: a, b)
    else ([], xs)
  end.
(** 145-193: the runs of a row as (rank, sites). [None]: the fuel is exhausted (never, with fuel the length
    of the row: see [FormatProofs.row_runs_total]). *)
Fixpoint row_runs (fuel : nat) (g : geom) (rank y z t : Z) (xs : list Z) : option (list (Z * list site)) :=
  match xs with
  | [] => Some []
  | _ :: _ =>
    match fuel with
    | O => None
    | S k =>
      let '(run, rest) := take_run g rank y z t xs in
      let here := (rank, map (fun x => Site x y z t) run) in
      match rest with
      | [] => Some [here]
      | x' :: _ => match row_runs k g (rank_table g (Site x' y z t)) y z t rest with
                   | Some l => Some (here :: l)
                   | None => None
                   end
      end
    end
  end.
Definition row (g : geom) (y z t : Z) : option (list (Z * list site)) :=
  row_runs (length (zrange (gx g))) g (rank_table g (Site 0 y z t)) y z t (zrange (gx g)).
(** 122-124: all rows. *)
Definition all_rows (g : geom) : list (option (list (Z * list site))) :=
  flat_map (fun t => flat_map (fun z => map (fun y => row g y z t) (zrange (gy g))) (zrange (gz g))) (zrange (gt g)).
Fixpoint join_rows (l : list (option (list (Z * list site)))) : option (list (Z * list site)) :=
  match l with
  | [] => Some []
  | None :: _ => None
  | Some a :: r => match join_rows r with Some b => Some (a ++ b) | None => None end
  end.

(** 149-165: contents of write_field after a run on a rank: the words of the sites it owns, and whatever was
    there ([stale]) for the others. *)
Definition run_buffer (L : layout) (u : Z -> data) (stale : site -> list Z) (run : list site) : list Z :=
  flat_map (fun s =>
    let l := local_index L (gidx (lgeom L) s) in
    if negb (l =? -1) && (l <? llocalsize L) then words (u l) else stale s) run.

(** 170-187: what a rank does after each run. *)
Inductive op :=
| Emit (ws : list Z)            (* xdr_float of the own buffer *)
| Recv (from : Z) (count : nat) (* MPI_Recv of [count] floats, tag 0, and xdr_float of each *)
| Send (ws : list Z).           (* MPI_Send to 0, tag 0 *)
Definition run_ops (L : layout) (me : Z) (u : Z -> data) (stale : site -> list Z) (r : Z * list site) : list op :=
  if me =? 0 then
    if fst r =? me then [Emit (run_buffer L u stale (snd r))] else [Recv (fst r) (length (snd r) * K)]
  else if fst r =? me then [Send (run_buffer L u stale (snd r))] else [].
Definition writer_program (L : layout) (me : Z) (u : Z -> data) (stale : site -> list Z) : option (list op) :=
  match join_rows (all_rows (lgeom L)) with
  | Some rs => Some (flat_map (run_ops L me u stale) rs)
  | None => None
  end.

(** The ranks run concurrently. [chan r]: messages of rank r to rank 0 in transit, oldest first (MPI keeps
    the order of messages of equal source and tag). MPI_Send may return at once or wait for the receiver. *)
Record wstate := WState { prog : Z -> list op; chan : Z -> list (list Z); out : list Z }.
(** [buffered]: whether MPI_Send may return before the message is received. *)
Inductive wstep (buffered : bool) : wstate -> wstate -> Prop :=
| st_emit s m p : prog s 0 = Emit m :: p ->
    wstep buffered s (WState (upd (prog s) 0 p) (chan s) (out s ++ m))
| st_send s r m p : buffered = true -> prog s r = Send m :: p ->
    wstep buffered s (WState (upd (prog s) r p) (upd (chan s) r (chan s r ++ [m])) (out s))
| st_recv s r n m p q : prog s 0 = Recv r n :: p -> chan s r = m :: q -> length m = n ->
    wstep buffered s (WState (upd (prog s) 0 p) (upd (chan s) r q) (out s ++ m))
| st_sync s r n m p q : prog s 0 = Recv r n :: p -> chan s r = [] -> prog s r = Send m :: q -> length m = n ->
    wstep buffered s (WState (upd (upd (prog s) r q) 0 p) (chan s) (out s ++ m)).
(** Any number of steps, each buffered or not. *)
Inductive wreach : wstate -> wstate -> Prop :=
| wr_refl s : wreach s s
| wr_step b s s1 s2 : wreach s s1 -> wstep b s1 s2 -> wreach s s2.
(** Start: no message in transit, nothing written. *)
Definition wstart (n : Z) (P : Z -> list op) : wstate :=
  WState (fun r => if (0 <=? r) && (r <? n) then P r else []) (fun _ => []) [].

(** ReadStartGaugeConfiguration.cpp 157-201 with MPI (each rank reads the whole file): reads the words in
    file order, decodes and stores them at the sites the rank keeps. [decode] is the per-site part
    (178-186). [None] from the file: floats uninitialised. *)
Variable decode : list Z -> data.
Fixpoint take_words (n : nat) (bs : list Z) : option (list Z * list Z) :=
  match n with
  | O => Some ([], bs)
  | S k => match xdr_get_float bs with
           | None => None
           | Some (w, b) => match take_words k b with Some (ws, b') => Some (w :: ws, b') | None => None end
           end
  end.
Definition file_order (g : geom) : list site :=
  flat_map (fun t => flat_map (fun z => flat_map (fun y => map (fun x => Site x y z t)
    (zrange (gx g))) (zrange (gy g))) (zrange (gz g))) (zrange (gt g)).
Fixpoint read_words (L : layout) (ss : list site) (bs : list Z) (u : Z -> data) : outcome ((Z -> data) * list Z) :=
  match ss with
  | [] => Ok (u, bs)
  | s :: r =>
    match take_words K bs with
    | None => UB
    | Some (ws, b) =>
      let l := local_index L (gidx (lgeom L) s) in
      read_words L r b (if l =? -1 then u else upd u l (decode ws))
    end
  end.
Definition read_muenster_links (L : layout) (bs : list Z) (u : Z -> data) : outcome ((Z -> data) * list Z) :=
  read_words L (file_order (lgeom L)) bs u.
End Muenster.

(** ** Muenster format, two colours: the entries. *)
Section SU2.
(** Doubles with negation; conversion to a float word and back (static_cast<float>, and the implicit
    conversion of the float in complex(tmp,tmp2)). *)
Variable D : Type.
Variable neg : D -> D.
Variable to_float : D -> Z.
Variable of_float : Z -> D.

Definition cplx := (D * D)%type.
Definition cconj (c : cplx) : cplx := (fst c, neg (snd c)).
Definition cneg (c : cplx) : cplx := (neg (fst c), neg (snd c)).
Record mat2 := Mat2 { m00 : cplx; m01 : cplx; m10 : cplx; m11 : cplx }.
(** htrans: conjugate transpose. *)
Definition htrans2 (m : mat2) : mat2 := Mat2 (cconj (m00 m)) (cconj (m10 m)) (cconj (m01 m)) (cconj (m11 m)).
(** OutputSweep.cpp 131-140, 155-160: four floats of one link. *)
Definition link_words (m : mat2) : list Z :=
  let h := htrans2 m in
  [to_float (fst (m00 h)); to_float (snd (m00 h)); to_float (fst (m01 h)); to_float (snd (m01 h))].
(** ReadStartGaugeConfiguration.cpp 164-171, 178-185: ii = 0 then ii = 1. *)
Definition link_of_words (a b c d : Z) : mat2 :=
  let c0 := (of_float a, of_float b) in
  let c1 := (of_float c, of_float d) in
  Mat2 (cconj c0) (cneg c1) (cconj c1) c0.
(** The four links of a site. *)
Definition site_words (u : nat -> mat2) : list Z := flat_map (fun mu => link_words (u mu)) (seq 0 4).
Definition site_of_words (ws : list Z) (mu : nat) : mat2 :=
  let k := (4 * mu)%nat in
  link_of_words (nth k ws 0) (nth (k + 1) ws 0) (nth (k + 2) ws 0) (nth (k + 3) ws 0).
End SU2.

(** ** Muenster format, two colours: the trailer, as 32-bit words. *)

(** kappo < 0.0 on a float: sign bit set, not minus zero, not a NaN. *)
Definition float_negative (w : Z) : bool := (2 ^ 31 <? w) && (w <=? 2 ^ 31 + 2139095040).

(** OutputSweep.cpp 214-281: plaq, 0, 0, beta, kappa, alpha, epsilon, lambda, sweep, five orders, extents,
    lvrc. All four-byte items. *)
Definition trailer_words (plaq beta kappa sweep : Z) (g : geom) : list Z :=
  [plaq; 0; 0; beta; kappa; 0; 0; 0; sweep mod 2 ^ 32; 0; 0; 0; 0; 0;
   gx g mod 2 ^ 32; gy g mod 2 ^ 32; gz g mod 2 ^ 32; gt g mod 2 ^ 32; 0].

(** ReadStartGaugeConfiguration.cpp 233-241: the kappa loop: last value, how many were read, rest.
    [None]: the end of the file is reached with a negative value and the loop never ends. *)
Fixpoint kappa_loop (count : nat) (ws : list Z) : option (Z * nat * list Z) :=
  match ws with
  | [] => None
  | w :: r => if float_negative w then kappa_loop (S count) r else Some (w, S count, r)
  end.
Inductive trailer_result :=
| Looping                       (* while (kappo < 0.0) at the end of the file *)
| Uninitialised                 (* lato[] compared without having been read *)
| TrailerRead (plaq beta kappa : Z) (fermiono : nat) (sweep ex ey ez et : Z).
(** 217-271. Floats missing from the file keep their initial value 0, harmlessly. *)
Definition read_trailer (ws : list Z) : trailer_result :=
  let plaq := nth 0 ws 0 in
  let beta := nth 3 ws 0 in
  match kappa_loop 0 (skipn 4 ws) with
  | None => Looping
  | Some (kappa, n, r) =>
    let r := skipn (n + 2 * n) r in
    let sweep := int_of_word (nth 0 r 0) in
    let r := skipn (1 + 5 * n) r in
    match r with
    | a :: b :: c :: d :: _ =>
      TrailerRead plaq beta kappa n sweep (int_of_word a) (int_of_word b) (int_of_word c) (int_of_word d)
    | _ => Uninitialised
    end
  end.
(** 49, 207-284: the value returned on rank [me] once the links have been read (all 16 V of them). The call
    that never returns is put with the undefined ones. *)
Definition muenster_success (me : Z) (g : geom) (tr : trailer_result) : outcome bool :=
  if me =? 0 then
    match tr with
    | TrailerRead _ _ _ _ _ ex ey ez et =>
      Ok ((ex =? gx g) && (ey =? gy g) && (ez =? gz g) && (et =? gt g))
    | _ => UB
    end
  else Ok true.
