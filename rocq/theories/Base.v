(** Shared definitions: outcomes of C++ code, ranges, array update. *)
From Coq Require Export ZArith List Bool Lia.
From Coq Require Import ZifyBool ZifyNat.
Export ListNotations.
Open Scope Z_scope.

(** Outcome of running a piece of C++: a value, a call of [exit(n)], or undefined behaviour
    (out-of-range access, division by zero, dereferencing [end()], ...). *)
Inductive outcome (A : Type) : Type :=
| Ok (a : A)
| Exit (code : Z)
| UB.
Arguments Ok {A} _.
Arguments Exit {A} _.
Arguments UB {A}.

Definition obind {A B} (o : outcome A) (f : A -> outcome B) : outcome B :=
  match o with Ok a => f a | Exit n => Exit n | UB => UB end.

(** [for (int i = 0; i < n; ++i)]: the values taken by i. *)
Definition zrange (n : Z) : list Z := map Z.of_nat (seq 0 (Z.to_nat n)).

(** Arrays indexed by integers, with update at one index. *)
Definition upd {A} (f : Z -> A) (i : Z) (v : A) : Z -> A :=
  fun j => if j =? i then v else f j.
