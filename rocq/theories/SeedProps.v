(** C57 Random generators get distinct seeds. *)
From Coq Require Import ZArith List Lia.
From Verif Require Import Base SeedModel SeedProofs.
Import ListNotations.
Open Scope Z_scope.

(** ** C57: up to 534 ranks that create their generators in step get different seeds, generator by
    generator, whatever the draws and the clock (after September 2001); ranks 294 and 534 always get the
    same ones; on one process two generators collide exactly when the sums agree, which draws can bring about. *)
Theorem C57_ranks (inputs : list (Z * Z)) (a b : Z) (i : nat) (time draw : Z) :
  nth_error inputs i = Some (time, draw) -> 1000000000 <= time -> -1000000000 <= draw <= 1000000000 ->
  0 <= a < 534 -> 0 <= b < 534 -> a <> b ->
  exists s s', nth_error (seeds (Mpi a) inputs) i = Some s /\ nth_error (seeds (Mpi b) inputs) i = Some s' /\ s <> s'.
Proof. exact (rank_seeds inputs a b i time draw). Qed.
Theorem C57_ranks_refuted (inputs : list (Z * Z)) : seeds (Mpi 294) inputs = seeds (Mpi 534) inputs.
Proof. exact (rank_collision inputs). Qed.
Theorem C57_threads (inputs : list (Z * Z)) (i j : nat) (t d t' d' : Z) :
  nth_error inputs i = Some (t, d) -> nth_error inputs j = Some (t', d') ->
  1000000000 <= t -> 1000000000 <= t' -> Z.abs (t - t') <= 2000000000 ->
  -1000000000 <= d <= 1000000000 -> -1000000000 <= d' <= 1000000000 ->
  (nth_error (seeds Serial inputs) i = nth_error (seeds Serial inputs) j <->
   nth (i mod 23) seed 0 + t + d = nth (j mod 23) seed 0 + t' + d').
Proof. exact (process_seeds inputs i j t d t' d'). Qed.
Theorem C57_threads_refuted (t : Z) : exists d d', -1000000000 <= d <= 1000000000 /\
  -1000000000 <= d' <= 1000000000 /\ exists s, seeds Serial [(t, d); (t, d')] = [s; s].
Proof. exact (thread_collision t). Qed.
Example C57_case :
  seeds (Mpi 3) [(1700000000, 999); (1700000001, 900000000)] = [1700758263; -1694534686] /\
  seeds (Mpi 4) [(1700000000, 999); (1700000001, 900000000)] = [1700755403; -1694537546].
Proof. vm_compute. auto. Qed.

Print Assumptions C57_ranks.
Print Assumptions C57_ranks_refuted.
Print Assumptions C57_threads.
Print Assumptions C57_threads_refuted.
