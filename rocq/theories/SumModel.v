(** Model of the global sums: utils/MultiThreadSummator.h, MPILattice/MPIUtils.h. Definitions only.
    Addition is any commutative and associative operation with a neutral element (exact arithmetic:
    rounding is not modelled). *)
From Coq Require Import ZArith List.
From Verif Require Import Base.
Open Scope Z_scope.

Section Sums.
Context {V : Type} (add : V -> V -> V) (zero : V).

(** MultiThreadSummator.h 31-37 (add): data[omp_get_thread_num()] += value. The events are the calls in the
    order in which they take effect; distinct threads touch distinct cells, so any interleaving is a list. *)
Definition add_event (data : nat -> V) (e : nat * V) : nat -> V :=
  fun i => if Nat.eqb i (fst e) then add (data (fst e)) (snd e) else data i.
(** The constructor (7-14) and reset (41-48): every cell is 0. *)
Definition run_adds (events : list (nat * V)) : nat -> V := fold_left add_event events (fun _ => zero).
(** computeResult, 52-56: the cells of all threads are added in order. *)
Definition thread_total (threads : nat) (data : nat -> V) : V := fold_left (fun acc i => add acc (data i)) (seq 0 threads) zero.

(** MPI_Allreduce with MPI_SUM (MultiThreadSummator.h 87-135, MPIUtils.h 15-95): the values of the ranks are
    combined in an order and bracketing chosen by the library: any binary tree over the ranks. *)
Inductive tree := Leaf (r : Z) | Node (a b : tree).
Fixpoint leaves (t : tree) : list Z := match t with Leaf r => [r] | Node a b => leaves a ++ leaves b end.
Fixpoint reduce (t : tree) (v : Z -> V) : V :=
  match t with Leaf r => v r | Node a b => add (reduce a v) (reduce b v) end.

(** A site loop "for site < localsize: summator.add(f[site])" followed by computeResult, on all ranks:
    [events r] are the calls of rank r, [t] the reduction. *)
Definition global_sum (threads : nat) (events : Z -> list (nat * V)) (t : tree) : V :=
  reduce t (fun r => thread_total threads (run_adds (events r))).
End Sums.
