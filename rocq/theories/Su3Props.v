(** Property C20: muenster format for three colours. *)
From Coq Require Import Reals Lra ZArith List Lia.
From Verif Require Import Base LayoutModel LayoutSpec FormatModel FormatSpec FormatProofs FormatProps ComplexR Su3Model Su3Spec Su3Proofs.
Import ListNotations.
Open Scope Z_scope.

(** Whatever two columns are read: independent columns give a matrix of SU(3), dependent ones NaN. *)
Theorem C20_read_is_SU3 a b :
  (independent a b -> exists m, reconstruct a b = Some m) /\
  (~ independent a b -> reconstruct a b = None) /\
  (forall m, reconstruct a b = Some m -> in_SU3 m).
Proof.
  split; [exact (proj2 (reconstruct_some_iff a b))|]. split; [|exact (reconstruct_SU3 a b)].
  intro H. destruct (reconstruct a b) as [m|] eqn:E; [|reflexivity]. exfalso. apply H.
  apply reconstruct_some_iff. now exists m.
Qed.
(** A matrix of SU(3) is recovered from its first two columns. *)
Theorem C20_two_columns_suffice m : in_SU3 m -> reconstruct (col0 m) (col1 m) = Some m.
Proof. exact (reconstruct_SU3_id m). Qed.

Section C20.
(** Any conversion to and from floats that commutes with the sign. *)
Variables (to_float : R -> Z) (of_float : Z -> R).
Hypothesis round_neg : forall a, of_float (to_float (- a)%R) = (- of_float (to_float a))%R.
Hypothesis float_bits : forall a, is_bits 32 (to_float a).

(** Written by any process grid, every interleaving, read by any other: every link is the reconstruction
    from the rounded columns, and the link itself if its entries are floats. *)
Theorem C20_su3_round_trip (g1 g2 : geom) (sten1 sten2 : list site) (Ls1 Ls2 : Z -> layout)
    (F : site -> nat -> mat3) (u1 : Z -> Z -> nat -> mat3) (stale : Z -> site -> list Z) (trailer : list Z) :
  valid_geom g1 -> valid_geom g2 -> same_lattice g1 g2 ->
  (forall p, 0 <= p < number_processors g1 -> initialize g1 sten1 (number_processors g1) p = Ok (Ls1 p)) ->
  (forall p, 0 <= p < number_processors g2 -> initialize g2 sten2 (number_processors g2) p = Ok (Ls2 p)) ->
  (forall p s, in_box g1 s -> owned_by g1 p s -> u1 p (local_index (Ls1 p) (gidx g1 s)) = F s) ->
  (forall s mu, in_SU3 (F s mu)) ->
  exists P, (forall p, 0 <= p < number_processors g1 ->
      writer_program (nat -> mat3) (site3_words to_float) 48 (Ls1 p) p (u1 p) (stale p) = Some (P p)) /\
  forall s0, wreach (wstart (number_processors g1) P) s0 -> prog s0 0 = [] ->
  forall r u, 0 <= r < number_processors g2 ->
  exists u', read_muenster_links (nat -> option mat3) 48 (site3_of_words of_float) (Ls2 r)
      (flat_map xdr_put_float (out s0) ++ trailer) u = Ok (u', trailer) /\
    forall s, in_box g2 s -> (owned_by g2 r s \/ mirrors g2 sten2 r s) -> forall mu, (mu < 4)%nat ->
      let m := u' (local_index (Ls2 r) (gidx g2 s)) mu in
      let round := roundC to_float of_float in
      m = reconstruct (vmap round (col0 (F s mu))) (vmap round (col1 (F s mu))) /\
      ((forall i j, (i < 3)%nat -> (j < 2)%nat -> round (entry (F s mu) i j) = entry (F s mu) i j) -> m = Some (F s mu)).
Proof.
  intros Hg1 Hg2 Hs H1 H2 Hu Hsu.
  assert (HK : forall d : nat -> mat3, length (site3_words to_float d) = 48%nat) by reflexivity.
  destruct (C21_parallel_stream (nat -> mat3) (site3_words to_float) 48 g1 sten1 Ls1 u1 F stale Hg1 H1 HK Hu)
    as (P & HP & pend & Q).
  exists P. split; [exact HP|]. intros s0 R Hfin r u Hr.
  destruct (Q s0 R) as (A & _). destruct (A Hfin) as [Eo _]. rewrite Eo.
  replace (serial_words (nat -> mat3) (site3_words to_float) g1 F)
    with (serial_words (nat -> mat3) (site3_words to_float) g2 F)
    by (destruct Hs as (S1 & S2 & S3 & S4); unfold serial_words; now rewrite S1, S2, S3, S4).
  assert (Hw : forall s, Forall (is_bits 32) (site3_words to_float (F s))).
  { intro s. unfold site3_words, link3_words, entry3. cbn [flat_map seq app]. repeat constructor; apply float_bits. }
  destruct (read_muenster_spec (nat -> mat3) (nat -> option mat3) (site3_words to_float) 48 (site3_of_words of_float)
     g2 sten2 r (Ls2 r) F Hg2 Hr (H2 r Hr) HK Hw trailer u) as (u' & E & B).
  exists u'. split; [exact E|]. intros s Hb Hk mu Hmu. cbn zeta. rewrite (B s Hb Hk).
  rewrite (site3_read to_float of_float round_neg (F s) mu Hmu). split; [reflexivity|]. intro Hf.
  assert (K0 : vmap (roundC to_float of_float) (col0 (F s mu)) = col0 (F s mu)).
  { apply coord_vec. intros i Hi. pose proof (Hf i 0%nat Hi ltac:(lia)) as G.
    unfold entry in G. destruct i as [|[|[|]]]; try lia; exact G. }
  assert (K1 : vmap (roundC to_float of_float) (col1 (F s mu)) = col1 (F s mu)).
  { apply coord_vec. intros i Hi. pose proof (Hf i 1%nat Hi ltac:(lia)) as G.
    unfold entry in G. destruct i as [|[|[|]]]; try lia; exact G. }
  rewrite K0, K1. exact (reconstruct_SU3_id (F s mu) (Hsu s mu)).
Qed.
End C20.

(** The rotation by 3/5, 4i/5 in the first two rows: in SU(3), not the identity; and two columns that are
    independent but neither normalised nor orthogonal. *)
Example C20_case :
  let m := M3 (V3 (mkC (3/5) 0) (mkC 0 (4/5)) C0) (V3 (mkC 0 (4/5)) (mkC (3/5) 0) C0) (V3 C0 C0 C1) in
  in_SU3 m /\ independent (V3 C1 C0 C0) (V3 C1 Ci C0).
Proof.
  cbn zeta. split; [split|].
  - intros i j Hi Hj. unfold entry, delta.
    destruct i as [|[|[|]]]; try lia; destruct j as [|[|[|]]]; try lia;
      split; apply C_eq; cbn; field.
  - apply C_eq; cbn; field.
  - intros x y H. pose proof (H 0%nat ltac:(lia)) as H0. pose proof (H 1%nat ltac:(lia)) as H1. cbn [coordinate v0 v1] in *.
    assert (Y : y = C0).
    { apply (f_equal (Cmul (- Ci))) in H1. replace (- Ci * (x * C0 + y * Ci))%C with y in H1 by creal. rewrite H1. creal. }
    subst y. split; [|reflexivity]. replace (x * C1 + C0 * C1)%C with x in H0 by ring. exact H0.
Qed.
Print Assumptions C20_read_is_SU3.
Print Assumptions C20_su3_round_trip.
