(** The tables of utils/Gamma.cpp and the matrices built by its constructor, over the Gaussian integers (all the
    entries are 0, 1, -1, I or -I). *)
From Coq Require Import ZArith List.
Import ListNotations.
Local Open Scope Z_scope.

(** A complex number with integer real and imaginary part. *)
Definition gi := (Z * Z)%type.
Definition gadd (x y : gi) : gi := (fst x + fst y, snd x + snd y).
Definition gmul (x y : gi) : gi := (fst x * fst y - snd x * snd y, fst x * snd y + snd x * fst y).
Definition gopp (x : gi) : gi := (- fst x, - snd x).
Definition gconj (x : gi) : gi := (fst x, - snd x).
(** The five values occurring in the tables; ei and ej are the I and -I of Gamma.cpp 2. *)
Definition e0 : gi := (0, 0).
Definition e1 : gi := (1, 0).
Definition em : gi := (-1, 0).
Definition ei : gi := (0, 1).
Definition ej : gi := (0, -1).

Definition table2 := list (list gi).
Definition table3 := list table2.
Definition table4 := list table3.
(** The accesses t[a][b], t[mu][a][b] and t[mu][nu][a][b] (Gamma.h 13-34 and 62-68; an index above 3 would be out of
    bounds, here e0). *)
Definition at2 (t : table2) (a b : nat) : gi := nth b (nth a t []) e0.
Definition at3 (t : table3) (mu a b : nat) : gi := at2 (nth mu t []) a b.
Definition at4 (t : table4) (mu nu a b : nat) : gi := at3 (nth mu t []) nu a b.

(** Gamma.cpp 6. *)
Definition gamma5_id_plus_gamma : table3 :=
  [[[e1; e0; e0; ej]; [e0; e1; ej; e0]; [e0; ej; em; e0]; [ej; e0; e0; em]];
   [[e1; e0; e0; em]; [e0; e1; e1; e0]; [e0; em; em; e0]; [e1; e0; e0; em]];
   [[e1; e0; ej; e0]; [e0; e1; e0; ei]; [ej; e0; em; e0]; [e0; ei; e0; em]];
   [[e1; e0; e1; e0]; [e0; e1; e0; e1]; [em; e0; em; e0]; [e0; em; e0; em]]].
(** Gamma.cpp 7. *)
Definition gamma5_id_minus_gamma : table3 :=
  [[[e1; e0; e0; ei]; [e0; e1; ei; e0]; [e0; ei; em; e0]; [ei; e0; e0; em]];
   [[e1; e0; e0; e1]; [e0; e1; em; e0]; [e0; e1; em; e0]; [em; e0; e0; em]];
   [[e1; e0; ei; e0]; [e0; e1; e0; ej]; [ei; e0; em; e0]; [e0; ej; e0; em]];
   [[e1; e0; em; e0]; [e0; e1; e0; em]; [e1; e0; em; e0]; [e0; e1; e0; em]]].
(** Gamma.cpp 8. *)
Definition gamma5gammamu : table3 :=
  [[[e0; e0; e0; ej]; [e0; e0; ej; e0]; [e0; ej; e0; e0]; [ej; e0; e0; e0]];
   [[e0; e0; e0; em]; [e0; e0; e1; e0]; [e0; em; e0; e0]; [e1; e0; e0; e0]];
   [[e0; e0; ej; e0]; [e0; e0; e0; ei]; [ej; e0; e0; e0]; [e0; ei; e0; e0]];
   [[e0; e0; e1; e0]; [e0; e0; e0; e1]; [em; e0; e0; e0]; [e0; em; e0; e0]]].
(** Gamma.cpp 9. *)
Definition gammamu : table3 :=
  [[[e0; e0; e0; ej]; [e0; e0; ej; e0]; [e0; ei; e0; e0]; [ei; e0; e0; e0]];
   [[e0; e0; e0; em]; [e0; e0; e1; e0]; [e0; e1; e0; e0]; [em; e0; e0; e0]];
   [[e0; e0; ej; e0]; [e0; e0; e0; ei]; [ei; e0; e0; e0]; [e0; ej; e0; e0]];
   [[e0; e0; e1; e0]; [e0; e0; e0; e1]; [e1; e0; e0; e0]; [e0; e1; e0; e0]]].
(** Gamma.cpp 10. *)
Definition gamma5_table : table2 :=
  [[e1; e0; e0; e0]; [e0; e1; e0; e0]; [e0; e0; em; e0]; [e0; e0; e0; em]].
(** Gamma.cpp 12. *)
Definition gamma5_sigma : table4 :=
  [[[[e0; e0; e0; e0]; [e0; e0; e0; e0]; [e0; e0; e0; e0]; [e0; e0; e0; e0]];
    [[em; e0; e0; e0]; [e0; e1; e0; e0]; [e0; e0; e1; e0]; [e0; e0; e0; em]];
    [[e0; ej; e0; e0]; [ei; e0; e0; e0]; [e0; e0; e0; ei]; [e0; e0; ej; e0]];
    [[e0; e1; e0; e0]; [e1; e0; e0; e0]; [e0; e0; e0; e1]; [e0; e0; e1; e0]]];
   [[[e1; e0; e0; e0]; [e0; em; e0; e0]; [e0; e0; em; e0]; [e0; e0; e0; e1]];
    [[e0; e0; e0; e0]; [e0; e0; e0; e0]; [e0; e0; e0; e0]; [e0; e0; e0; e0]];
    [[e0; em; e0; e0]; [em; e0; e0; e0]; [e0; e0; e0; e1]; [e0; e0; e1; e0]];
    [[e0; ej; e0; e0]; [ei; e0; e0; e0]; [e0; e0; e0; ej]; [e0; e0; ei; e0]]];
   [[[e0; ei; e0; e0]; [ej; e0; e0; e0]; [e0; e0; e0; ej]; [e0; e0; ei; e0]];
    [[e0; e1; e0; e0]; [e1; e0; e0; e0]; [e0; e0; e0; em]; [e0; e0; em; e0]];
    [[e0; e0; e0; e0]; [e0; e0; e0; e0]; [e0; e0; e0; e0]; [e0; e0; e0; e0]];
    [[e1; e0; e0; e0]; [e0; em; e0; e0]; [e0; e0; e1; e0]; [e0; e0; e0; em]]];
   [[[e0; em; e0; e0]; [em; e0; e0; e0]; [e0; e0; e0; em]; [e0; e0; em; e0]];
    [[e0; ei; e0; e0]; [ej; e0; e0; e0]; [e0; e0; e0; ei]; [e0; e0; ej; e0]];
    [[em; e0; e0; e0]; [e0; e1; e0; e0]; [e0; e0; em; e0]; [e0; e0; e0; e1]];
    [[e0; e0; e0; e0]; [e0; e0; e0; e0]; [e0; e0; e0; e0]; [e0; e0; e0; e0]]]].
(** Gamma.cpp 13. *)
Definition sigma_table : table4 :=
  [[[[e0; e0; e0; e0]; [e0; e0; e0; e0]; [e0; e0; e0; e0]; [e0; e0; e0; e0]];
    [[em; e0; e0; e0]; [e0; e1; e0; e0]; [e0; e0; em; e0]; [e0; e0; e0; e1]];
    [[e0; ej; e0; e0]; [ei; e0; e0; e0]; [e0; e0; e0; ej]; [e0; e0; ei; e0]];
    [[e0; e1; e0; e0]; [e1; e0; e0; e0]; [e0; e0; e0; em]; [e0; e0; em; e0]]];
   [[[e1; e0; e0; e0]; [e0; em; e0; e0]; [e0; e0; e1; e0]; [e0; e0; e0; em]];
    [[e0; e0; e0; e0]; [e0; e0; e0; e0]; [e0; e0; e0; e0]; [e0; e0; e0; e0]];
    [[e0; em; e0; e0]; [em; e0; e0; e0]; [e0; e0; e0; em]; [e0; e0; em; e0]];
    [[e0; ej; e0; e0]; [ei; e0; e0; e0]; [e0; e0; e0; ei]; [e0; e0; ej; e0]]];
   [[[e0; ei; e0; e0]; [ej; e0; e0; e0]; [e0; e0; e0; ei]; [e0; e0; ej; e0]];
    [[e0; e1; e0; e0]; [e1; e0; e0; e0]; [e0; e0; e0; e1]; [e0; e0; e1; e0]];
    [[e0; e0; e0; e0]; [e0; e0; e0; e0]; [e0; e0; e0; e0]; [e0; e0; e0; e0]];
    [[e1; e0; e0; e0]; [e0; em; e0; e0]; [e0; e0; em; e0]; [e0; e0; e0; e1]]];
   [[[e0; em; e0; e0]; [em; e0; e0; e0]; [e0; e0; e0; e1]; [e0; e0; e1; e0]];
    [[e0; ei; e0; e0]; [ej; e0; e0; e0]; [e0; e0; e0; ej]; [e0; e0; ei; e0]];
    [[em; e0; e0; e0]; [e0; e1; e0; e0]; [e0; e0; e1; e0]; [e0; e0; e0; em]];
    [[e0; e0; e0; e0]; [e0; e0; e0; e0]; [e0; e0; e0; e0]; [e0; e0; e0; e0]]]].
(** Gamma.cpp 23-280: the sixteen by sixteen assignments to gammaBasis[i].at(nu,rho). *)
Definition basis_table : table3 :=
  [[[e1; e0; e0; e0]; [e0; e1; e0; e0]; [e0; e0; e1; e0]; [e0; e0; e0; e1]];
   [[e1; e0; e0; e0]; [e0; e1; e0; e0]; [e0; e0; em; e0]; [e0; e0; e0; em]];
   [[e0; e0; e0; ej]; [e0; e0; ej; e0]; [e0; ei; e0; e0]; [ei; e0; e0; e0]];
   [[e0; e0; e0; em]; [e0; e0; e1; e0]; [e0; e1; e0; e0]; [em; e0; e0; e0]];
   [[e0; e0; ej; e0]; [e0; e0; e0; ei]; [ei; e0; e0; e0]; [e0; ej; e0; e0]];
   [[e0; e0; e1; e0]; [e0; e0; e0; e1]; [e1; e0; e0; e0]; [e0; e1; e0; e0]];
   [[e0; e0; e0; e1]; [e0; e0; e1; e0]; [e0; e1; e0; e0]; [e1; e0; e0; e0]];
   [[e0; e0; e0; ej]; [e0; e0; ei; e0]; [e0; ej; e0; e0]; [ei; e0; e0; e0]];
   [[e0; e0; e1; e0]; [e0; e0; e0; em]; [e1; e0; e0; e0]; [e0; em; e0; e0]];
   [[e0; e0; ei; e0]; [e0; e0; e0; ei]; [ej; e0; e0; e0]; [e0; ej; e0; e0]];
   [[em; e0; e0; e0]; [e0; e1; e0; e0]; [e0; e0; em; e0]; [e0; e0; e0; e1]];
   [[e0; ej; e0; e0]; [ei; e0; e0; e0]; [e0; e0; e0; ej]; [e0; e0; ei; e0]];
   [[e0; e1; e0; e0]; [e1; e0; e0; e0]; [e0; e0; e0; em]; [e0; e0; em; e0]];
   [[e0; em; e0; e0]; [em; e0; e0; e0]; [e0; e0; e0; em]; [e0; e0; em; e0]];
   [[e0; ej; e0; e0]; [ei; e0; e0; e0]; [e0; e0; e0; ei]; [e0; e0; ej; e0]];
   [[em; e0; e0; e0]; [e0; e1; e0; e0]; [e0; e0; e1; e0]; [e0; e0; e0; em]]].
(** Gamma.cpp 282-537: the sixteen by sixteen assignments to gammaChroma[i].at(nu,rho). *)
Definition chroma_table : table3 :=
  [[[e1; e0; e0; e0]; [e0; e1; e0; e0]; [e0; e0; e1; e0]; [e0; e0; e0; e1]];
   [[e0; e0; e0; ej]; [e0; e0; ej; e0]; [e0; ei; e0; e0]; [ei; e0; e0; e0]];
   [[e0; e0; e0; em]; [e0; e0; e1; e0]; [e0; e1; e0; e0]; [em; e0; e0; e0]];
   [[ei; e0; e0; e0]; [e0; ej; e0; e0]; [e0; e0; ei; e0]; [e0; e0; e0; ej]];
   [[e0; e0; ej; e0]; [e0; e0; e0; ei]; [ei; e0; e0; e0]; [e0; ej; e0; e0]];
   [[e0; em; e0; e0]; [e1; e0; e0; e0]; [e0; e0; e0; em]; [e0; e0; e1; e0]];
   [[e0; ei; e0; e0]; [ei; e0; e0; e0]; [e0; e0; e0; ei]; [e0; e0; ei; e0]];
   [[e0; e0; e1; e0]; [e0; e0; e0; e1]; [em; e0; e0; e0]; [e0; em; e0; e0]];
   [[e0; e0; e1; e0]; [e0; e0; e0; e1]; [e1; e0; e0; e0]; [e0; e1; e0; e0]];
   [[e0; ej; e0; e0]; [ej; e0; e0; e0]; [e0; e0; e0; ei]; [e0; e0; ei; e0]];
   [[e0; em; e0; e0]; [e1; e0; e0; e0]; [e0; e0; e0; e1]; [e0; e0; em; e0]];
   [[e0; e0; ei; e0]; [e0; e0; e0; ej]; [ei; e0; e0; e0]; [e0; ej; e0; e0]];
   [[ej; e0; e0; e0]; [e0; ei; e0; e0]; [e0; e0; ei; e0]; [e0; e0; e0; ej]];
   [[e0; e0; e0; em]; [e0; e0; e1; e0]; [e0; em; e0; e0]; [e1; e0; e0; e0]];
   [[e0; e0; e0; ei]; [e0; e0; ei; e0]; [e0; ei; e0; e0]; [ei; e0; e0; e0]];
   [[e1; e0; e0; e0]; [e0; e1; e0; e0]; [e0; e0; em; e0]; [e0; e0; e0; em]]].

(** A matrix with 4*diracVectorLength rows and columns under construction. *)
Definition big := nat -> nat -> gi.
Definition at_set (A : big) (r c : nat) (v : gi) : big := fun a b => if andb (Nat.eqb a r) (Nat.eqb b c) then v else A a b.
Definition loop {S} (k : nat) (f : nat -> S -> S) (s : S) : S := fold_left (fun s a => f a s) (seq 0 k) s.
(** Gamma.cpp 20-21: set_to_zero; then the sixteen assignments to one matrix, row by row. *)
Definition assign_corner (t : table2) : big :=
  loop 4 (fun nu A => loop 4 (fun rho A => at_set A nu rho (at2 t nu rho)) A) (fun _ _ => e0).
(** Gamma.cpp 539-553: copy the first block to the other diagonal blocks; n is diracVectorLength. *)
Definition copy_blocks (n : nat) (A : big) : big :=
  loop n (fun c A => loop n (fun d A =>
    if andb (Nat.eqb c 0) (Nat.eqb d 0) then A
    else if Nat.eqb c d then
      loop 4 (fun nu A => loop 4 (fun rho A => at_set A (c * 4 + nu) (d * 4 + rho) (A nu rho)) A) A
    else A) A) A.
(** Gamma.h 36-46: gammaBasisMatrices(k), gammaChromaMatrices(k), gamma5(). *)
Definition gamma_basis (n k : nat) : big := copy_blocks n (assign_corner (nth k basis_table [])).
Definition gamma_chroma (n k : nat) : big := copy_blocks n (assign_corner (nth k chroma_table [])).
Definition gamma5_matrix (n : nat) : big := gamma_chroma n 15.
