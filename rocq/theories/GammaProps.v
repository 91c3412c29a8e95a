(** C40: the gamma tables. *)
From Coq Require Import ZArith List Lia.
From Verif Require Import GammaModel GammaSpec GammaProofs.
Import ListNotations.

(** The gamma matrices anticommute and square to one, they and gamma5 are Hermitian, gamma5 is their product, squares
    to one and anticommutes with each of them. *)
Theorem C40_clifford :
  (forall mu nu, (mu < 4)%nat -> (nu < 4)%nat ->
     meq (madd (mmul (gam mu) (gam nu)) (mmul (gam nu) (gam mu)))
         (mscale (if Nat.eqb mu nu then (2, 0) else (0, 0))%Z mone))
  /\ (forall mu, (mu < 4)%nat -> meq (mdag (gam mu)) (gam mu))
  /\ meq (mmul (mmul (gam 0) (gam 1)) (mmul (gam 2) (gam 3))) gam5
  /\ meq (mdag gam5) gam5 /\ meq (mmul gam5 gam5) mone
  /\ (forall mu, (mu < 4)%nat -> meq (mmul gam5 (gam mu)) (mscale (-1, 0)%Z (mmul (gam mu) gam5))).
Proof.
  exact (conj clifford (conj gam_hermitian (conj gam5_product (conj gam5_hermitian (conj gam5_square gam5_anti))))).
Qed.
(** The derived tables are gamma5 (1 + gamma_mu), gamma5 (1 - gamma_mu), gamma5 gamma_mu, i/2 [gamma_mu, gamma_nu] and
    gamma5 times the latter. *)
Theorem C40_derived_tables :
  (forall mu, (mu < 4)%nat ->
     meq (at3 gamma5_id_plus_gamma mu) (mmul gam5 (madd mone (gam mu)))
     /\ meq (at3 gamma5_id_minus_gamma mu) (mmul gam5 (madd mone (mscale (-1, 0)%Z (gam mu))))
     /\ meq (at3 gamma5gammamu mu) (mmul gam5 (gam mu)))
  /\ (forall mu nu, (mu < 4)%nat -> (nu < 4)%nat ->
     meq (mscale (2, 0)%Z (at4 sigma_table mu nu))
         (mscale (0, 1)%Z (madd (mmul (gam mu) (gam nu)) (mscale (-1, 0)%Z (mmul (gam nu) (gam mu)))))
     /\ meq (at4 gamma5_sigma mu nu) (mmul gam5 (at4 sigma_table mu nu))).
Proof.
  exact (conj (fun mu h => conj (g5idpg_eq mu h) (conj (g5idmg_eq mu h) (g5g_eq mu h)))
              (fun mu nu h k => conj (sigma_eq mu nu h k) (g5sigma_eq mu nu h k))).
Qed.
(** For every number of colour components, matrix k of the Chroma basis is, in each colour, the product of the gamma
    matrices given by the bits of k, and gamma5() is gamma5. *)
Theorem C40_chroma_matrices : forall n k c d nu rho, (k < 16)%nat -> (c < n)%nat -> (d < n)%nat ->
  (nu < 4)%nat -> (rho < 4)%nat ->
  gamma_chroma n k (c * 4 + nu) (d * 4 + rho) = (if Nat.eqb c d then gproduct k nu rho else (0, 0)%Z)
  /\ gamma5_matrix n (c * 4 + nu) (d * 4 + rho) = (if Nat.eqb c d then gam5 nu rho else (0, 0)%Z).
Proof.
  intros n k c d nu rho Hk Hc Hd Hn Hr. split.
  - unfold gamma_chroma. rewrite copy_blocks_eq by assumption. destruct (Nat.eqb c d); [|reflexivity].
    exact (chroma_eq k Hk nu rho Hn Hr).
  - unfold gamma5_matrix, gamma_chroma. rewrite copy_blocks_eq by assumption. destruct (Nat.eqb c d); [|reflexivity].
    rewrite <- (gam5_product nu rho Hn Hr). exact (chroma_eq 15 ltac:(lia) nu rho Hn Hr).
Qed.
(** The other basis: identity, gamma5 and the four gamma matrices come first; all sixteen are Hermitian, square to one
    and are orthogonal for the trace (hence linearly independent), again in every colour. *)
Theorem C40_basis_matrices :
  (meq (at3 basis_table 0) mone /\ meq (at3 basis_table 1) gam5
   /\ forall mu, (mu < 4)%nat -> meq (at3 basis_table (2 + mu)) (gam mu))
  /\ (forall k, (k < 16)%nat -> meq (mdag (at3 basis_table k)) (at3 basis_table k)
        /\ meq (mmul (at3 basis_table k) (at3 basis_table k)) mone)
  /\ (forall k l, (k < 16)%nat -> (l < 16)%nat ->
        mtrace (mmul (at3 basis_table k) (at3 basis_table l)) = (if Nat.eqb k l then (4, 0) else (0, 0))%Z)
  /\ (forall n k c d nu rho, (c < n)%nat -> (d < n)%nat -> (nu < 4)%nat -> (rho < 4)%nat ->
        gamma_basis n k (c * 4 + nu) (d * 4 + rho) = (if Nat.eqb c d then at3 basis_table k nu rho else (0, 0)%Z)).
Proof.
  exact (conj basis_names (conj (fun k h => conj (basis_hermitian k h) (basis_square k h)) (conj basis_trace
    (fun n k c d nu rho hc hd hn hr => copy_blocks_eq (nth k basis_table []) n c d nu rho hc hd hn hr)))).
Qed.
(** A case: with three colours, gamma_1 gamma_2 (number 6) at colour 2, and between different colours. *)
Example C40_case : gamma_chroma 3 6 8 9 = (0, 1)%Z /\ gamma_chroma 3 6 8 8 = (0, 0)%Z /\ gamma_chroma 3 6 9 5 = (0, 0)%Z.
Proof. repeat split; vm_compute; reflexivity. Qed.
Print Assumptions C40_clifford.
Print Assumptions C40_derived_tables.
Print Assumptions C40_chroma_matrices.
Print Assumptions C40_basis_matrices.
