(** Four by four matrices over the Gaussian integers and the words by which the gamma tables are described. *)
From Coq Require Import ZArith List.
From Verif Require Import GammaModel.
Import ListNotations.
Local Open Scope Z_scope.

(** Matrices as functions of the row and the column (0 to 3). *)
Definition mat := nat -> nat -> gi.
Definition sum4 (f : nat -> gi) : gi := gadd (f 0%nat) (gadd (f 1%nat) (gadd (f 2%nat) (f 3%nat))).
Definition mmul (A B : mat) : mat := fun a b => sum4 (fun c => gmul (A a c) (B c b)).
Definition madd (A B : mat) : mat := fun a b => gadd (A a b) (B a b).
Definition mscale (x : gi) (A : mat) : mat := fun a b => gmul x (A a b).
Definition mone : mat := fun a b => if Nat.eqb a b then (1, 0) else (0, 0).
Definition mdag (A : mat) : mat := fun a b => (fst (A b a), - snd (A b a)).
Definition mtrace (A : mat) : gi := sum4 (fun a => A a a).
Definition meq (A B : mat) : Prop := forall a b, (a < 4)%nat -> (b < 4)%nat -> A a b = B a b.

(** The gamma matrices are whatever the table says. *)
Definition gam (mu : nat) : mat := at3 gammamu mu.
Definition gam5 : mat := at2 gamma5_table.
(** The product of the gamma matrices whose bit is set in the four lowest bits of k, in increasing order. *)
Definition gfactor (k mu : nat) : mat := if Nat.testbit k mu then gam mu else mone.
Definition gproduct (k : nat) : mat := mmul (mmul (gfactor k 0) (gfactor k 1)) (mmul (gfactor k 2) (gfactor k 3)).
