(** Model of the halo exchange (source/MPILattice/Lattice.h 132-191) on all ranks, with MPI point-to-point
    messages matched in order per (source, destination, tag). Definitions only. *)
From Coq Require Import ZArith List Bool.
From Verif Require Import Base LayoutModel.
Open Scope Z_scope.

(** A channel: source rank, destination rank, tag. *)
Definition chan : Type := Z * Z * Z.
Definition chan_eqb (a b : chan) : bool :=
  let '(s, d, t) := a in let '(s', d', t') := b in (s =? s') && (d =? d') && (t =? t').
Definition csrc (c : chan) : Z := fst (fst c).
Definition cdst (c : chan) : Z := snd (fst c).
Definition on_chan {A} (f : chan -> A) (c : chan) (v : A) : chan -> A := fun c' => if chan_eqb c' c then v else f c'.

(** What a rank calls: start the update of field f (Lattice.h 137-175, communicateHalo), wait for the requests
    of field f (177-191, waitHalo). [updateHalo] (132-135) is one after the other. Fields are numbered: each
    Lattice object has its own request lists. *)
Inductive call := Communicate (f : nat) | Wait (f : nat).

(** MPI operations of one rank. Send/Recv carry the chunk whose offset and size are used. The loop of MPI_Wait
    calls of [waitHalo] (180-181) is one operation, enabled when all its requests are complete (completion is
    never undone, so waiting in sequence and waiting for all is the same). *)
Inductive op :=
| Send (f : nat) (c : chunk) (ch : chan)
| Recv (f : nat) (c : chunk) (ch : chan)
| WaitOp (f : nat).

(** latticeChunks[i].tags[j]: the tag table of the layout, equal on all ranks. *)
Definition tag_of (tags : list (list Z)) (c : chunk) (j : nat) : Z :=
  nth j (nth (Z.to_nat (cid c)) tags []) 0.

(** Lattice.h 142-157: the sends of rank r, in loop order (i over chunks, j over sharers). *)
Definition sends_of (L : layout) (tags : list (list Z)) (r : Z) (f : nat) : list op :=
  flat_map (fun c => if cowner c =? r
     then map (fun j => Send f c (r, nth j (csharers c) 0, tag_of tags c j)) (seq 0 (length (csharers c)))
     else []) (lchunks L).
(** Lattice.h 159-174: the receives. *)
Definition recvs_of (L : layout) (tags : list (list Z)) (r : Z) (f : nat) : list op :=
  flat_map (fun c => if negb (cowner c =? r)
     then flat_map (fun j => if nth j (csharers c) 0 =? r
            then [Recv f c (cowner c, r, tag_of tags c j)] else []) (seq 0 (length (csharers c)))
     else []) (lchunks L).
Definition ops_of (L : layout) (tags : list (list Z)) (r : Z) (calls : list call) : list op :=
  flat_map (fun k => match k with
     | Communicate f => sends_of L tags r f ++ recvs_of L tags r f
     | Wait f => [WaitOp f] end) calls.

Section Machine.
Context {V : Type}.
Context (lay : Z -> layout).

(** State of the machine. [sends ch] and [recvs ch] are the posted operations of a channel in posting order;
    the k-th send is matched with the k-th receive (MPI non-overtaking rule); [log] holds the pairs whose data
    have been transferred; [reqs r f] are the requests of field f on rank r; [trunc] records a message longer
    than its receive buffer (MPI_ERR_TRUNCATE). *)
Record state := State
  { rem : Z -> list op;
    sends : chan -> list (nat * chunk);
    recvs : chan -> list (nat * chunk);
    log : list (chan * nat);
    reqs : Z -> nat -> list (chan * nat);
    mem : Z -> nat -> Z -> V;
    trunc : bool }.

(** Copy [csize cs] elements from the sender's array to the receiver's array at the receiver's offset. *)
Definition transfer (m : Z -> nat -> Z -> V) (ch : chan) (fs fr : nat) (cs cr : chunk) : Z -> nat -> Z -> V :=
  let so := chunk_offset (lay (csrc ch)) (cid cs) in
  let ro := chunk_offset (lay (cdst ch)) (cid cr) in
  fun r f x => if (r =? cdst ch) && Nat.eqb f fr && (ro <=? x) && (x <? ro + csize cs)
               then m (csrc ch) fs (so + (x - ro)) else m r f x.

Inductive step : state -> state -> Prop :=
| step_send r f c ch rest st :
    rem st r = Send f c ch :: rest ->
    step st (State (upd (rem st) r rest) (on_chan (sends st) ch (sends st ch ++ [(f, c)])) (recvs st) (log st)
      (upd (reqs st) r (fun f' => if Nat.eqb f' f then reqs st r f ++ [(ch, length (sends st ch))] else reqs st r f'))
      (mem st) (trunc st))
| step_recv r f c ch rest st :
    rem st r = Recv f c ch :: rest ->
    step st (State (upd (rem st) r rest) (sends st) (on_chan (recvs st) ch (recvs st ch ++ [(f, c)])) (log st)
      (upd (reqs st) r (fun f' => if Nat.eqb f' f then reqs st r f ++ [(ch, length (recvs st ch))] else reqs st r f'))
      (mem st) (trunc st))
| step_wait r f rest st :
    rem st r = WaitOp f :: rest ->
    (forall q, In q (reqs st r f) -> In q (log st)) ->
    step st (State (upd (rem st) r rest) (sends st) (recvs st) (log st)
      (upd (reqs st) r (fun f' => if Nat.eqb f' f then [] else reqs st r f')) (mem st) (trunc st))
| step_transfer ch k fs cs fr cr st :
    nth_error (sends st ch) k = Some (fs, cs) ->
    nth_error (recvs st ch) k = Some (fr, cr) ->
    ~ In (ch, k) (log st) ->
    step st (State (rem st) (sends st) (recvs st) ((ch, k) :: log st) (reqs st)
      (transfer (mem st) ch fs fr cs cr) (trunc st || (csize cr <? csize cs))).

Inductive steps_n : nat -> state -> state -> Prop :=
| steps_0 st : steps_n 0 st st
| steps_S n st st' st'' : steps_n n st st' -> step st' st'' -> steps_n (S n) st st''.

(** All ranks 0..n-1 start the same sequence of calls. *)
Definition start (n : Z) (tags : list (list Z)) (calls : list call) (m0 : Z -> nat -> Z -> V) : state :=
  State (fun r => if (0 <=? r) && (r <? n) then ops_of (lay r) tags r calls else [])
        (fun _ => []) (fun _ => []) [] (fun _ _ => []) m0 false.

Definition finished (st : state) : Prop := forall r, rem st r = [].
End Machine.
Arguments state : clear implicits.

(** Lattice.h 89-97 and 120-126: copy of the owned sites from a field [old] of layout M into a field of layout L
    on one rank; the loop reads copy[map[site]], and an index outside the M array is undefined behaviour.
    [cur] is the previous content of the array (completesize elements). The calling code then does updateHalo. *)
Definition convert_owned {V} (L M : layout) (old cur : Z -> V) : outcome (Z -> V) :=
  if forallb (fun l => (0 <=? map_index L M l) && (map_index L M l <? lcompletesize M)) (zrange (llocalsize L))
  then Ok (fun x => if (0 <=? x) && (x <? llocalsize L) then old (map_index L M x) else cur x)
  else UB.
