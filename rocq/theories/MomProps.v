(** The momenta of molecular dynamics: what is drawn and its kinetic energy. *)
From mathcomp Require Import all_ssreflect all_algebra all_field.
From Verif Require Import GaugeModel GaugeSpec GaugeProofs GaugeProofs2 GaugeProofs3 MomProofs MomProofs2.
Import GRing.Theory Num.Theory.
Set Implicit Arguments.
Unset Strict Implicit.
Unset Printing Implicit Defensive.
Local Open Scope ring_scope.

(** C74.  randomMomenta (HMCUpdater.cpp 33-71) fills every matrix from normal numbers divided by two; momentaEnergy
    (130-140) of the result is one half of the sum of the squares of all numbers drawn, so that the momenta have the
    density exp(-momentaEnergy), whatever was in the matrices before. *)
Theorem C74_energy_of_draws (C : numClosedFieldType) (n : nat) (L : lattice)
  (re im : L -> 'I_4 -> 'I_n -> 'I_n -> C) (dg : L -> 'I_4 -> 'I_n -> C) (A : L -> 'I_4 -> 'M[C]_n) :
  (forall x mu i j, re x mu i j \is Num.real) -> (forall x mu i j, im x mu i j \is Num.real) ->
  (forall x mu i, dg x mu i \is Num.real) ->
  momenta_energy (fun x mu => random_momentum (fun i j => re x mu i j / 2%:R) (fun i j => im x mu i j / 2%:R)
                                (fun i => dg x mu i / 2%:R) (A x mu))
  = (\sum_(x : L) \sum_(mu < 4) (\sum_(i < n) \sum_(j < n | (i < j)%N) (re x mu i j ^+ 2 + im x mu i j ^+ 2)
                                 + \sum_(i < n | (0 < i)%N) dg x mu i ^+ 2)) / 2%:R.
Proof. exact: energy_of_draws. Qed.

(** On the algebra the kinetic energy is a positive definite form. *)
Theorem C74_energy_positive (C : numClosedFieldType) (n : nat) (L : lattice) (P : gauge C n L) :
  (forall x mu, anti_hermitian (P x mu)) ->
  0 <= momenta_energy P /\ (momenta_energy P = 0 <-> forall x mu, P x mu = 0).
Proof. exact: energy_positive. Qed.

(** Every traceless anti-Hermitian matrix is drawn, from real numbers, and from no other numbers: the numbers are
    coordinates on the whole algebra. *)
Theorem C74_coordinates (C : numClosedFieldType) (n : nat) (A P : 'M[C]_n) :
  anti_hermitian P -> traceless P ->
  exists re im : 'I_n -> 'I_n -> C, exists dg : 'I_n -> C,
    [/\ forall i j, re i j \is Num.real /\ im i j \is Num.real, forall i, dg i \is Num.real,
        random_momentum re im dg A = P
      & forall re' im' dg', (forall i j, re' i j \is Num.real /\ im' i j \is Num.real) -> (forall i, dg' i \is Num.real) ->
          random_momentum re' im' dg' A = P ->
          (forall i j : 'I_n, (i < j)%N -> re' i j = re i j /\ im' i j = im i j) /\
          (forall i : 'I_n, (0 < i)%N -> dg' i = dg i)].
Proof.
move=> ah t; exists (of_re P), (of_im P), (of_dg P); split.
- by move=> i j; split; [exact: of_re_real | exact: of_im_real].
- exact: of_dg_real.
- exact: random_onto.
- move=> re' im' dg' r r' E; apply: (@random_unique _ _ _ _ _ _ _ _ A A) => [i j|i j|i j|i j|]; try by case: (r i j).
  + exact: of_re_real.
  + exact: of_im_real.
  + by rewrite E random_onto.
Qed.

(** Three colours, one site, every number drawn equal to one: 4 directions times 8 numbers, halved. *)
Example C74_case :
  momenta_energy (L := box 0 0 0 0)
    (fun x mu => random_momentum (n := 3) (fun i j => 1 / 2%:R) (fun i j => 1 / 2%:R) (fun i => 1 / 2%:R) (0 : 'M[algC]_3)) = 16%:R.
Proof.
rewrite (@C74_energy_of_draws _ _ (box 0 0 0 0) (fun _ _ _ _ => 1) (fun _ _ _ _ => 1) (fun _ _ _ => 1)) //; try by move=> *; exact: real1.
rewrite sumr_const; have -> : #|box 0 0 0 0| = 1%N by rewrite !card_prod !card_ord.
rewrite mulr1n sumr_const card_ord.
have -> : \sum_(i < 3) \sum_(j < 3 | (i < j)%N) (1 ^+ 2 + 1 ^+ 2) + \sum_(i < 3 | (0 < i)%N) 1 ^+ 2 = 8%:R :> algC.
  rewrite expr1n; under eq_bigr do rewrite big_mkcond.
  rewrite [X in _ + X]big_mkcond /= !big_ord_recr !big_ord0 /= !add0r !addr0.
  by rewrite -[1]/(1%:R) -!natrD.
by rewrite -mulrnA -[(8 * 4)%N]/(16 * 2)%N natrM mulfK ?pnatr_eq0.
Qed.

Print Assumptions C74_energy_of_draws.
Print Assumptions C74_energy_positive.
Print Assumptions C74_coordinates.
