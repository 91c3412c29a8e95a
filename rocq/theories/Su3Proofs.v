(** Proofs: what is read from a muenster file for three colours is in SU(3), and written links come back. *)
From Coq Require Import Reals Lra ZArith List Lia.
From Verif Require Import Base FormatModel ComplexR Su3Model Su3Spec.
Import ListNotations.
Open Scope R_scope.

Definition hdot (a b : vec3) : C := (Cconj (v0 a) * v0 b + Cconj (v1 a) * v1 b + Cconj (v2 a) * v2 b)%C.

Lemma vnorm2_ge0 a : 0 <= vnorm2 a.
Proof. unfold vnorm2. pose proof (Cnorm2_ge0 (v0 a)). pose proof (Cnorm2_ge0 (v1 a)). pose proof (Cnorm2_ge0 (v2 a)). lra. Qed.
Lemma vnorm2_eq0 a : vnorm2 a = 0 -> v0 a = C0 /\ v1 a = C0 /\ v2 a = C0.
Proof.
  unfold vnorm2. intro H. pose proof (Cnorm2_ge0 (v0 a)). pose proof (Cnorm2_ge0 (v1 a)). pose proof (Cnorm2_ge0 (v2 a)).
  repeat split; apply Cnorm2_eq0; lra.
Qed.
Lemma hdot_self a : hdot a a = RtoC (vnorm2 a).
Proof. unfold hdot, vnorm2. creal. Qed.
Lemma vnorm2_scale x a : vnorm2 (vmap (fun c => (c * RtoC x)%C) a) = x * x * vnorm2 a.
Proof. unfold vnorm2, vmap, Cnorm2. cbn. ring. Qed.

Lemma normalise_spec a a1 : normalise a = Some a1 ->
  vnorm2 a1 = 1 /\ exists x, x <> 0 /\ a1 = vmap (fun c => (c * RtoC x)%C) a.
Proof.
  unfold normalise. destruct (Req_EM_T (vnorm2 a) 0) as [E|N]; [discriminate|]. intro H. injection H as <-.
  pose proof (vnorm2_ge0 a) as P.
  assert (S : 0 < sqrt (vnorm2 a)) by (apply sqrt_lt_R0; lra).
  assert (Q : sqrt (vnorm2 a) * sqrt (vnorm2 a) = vnorm2 a) by (apply sqrt_sqrt; lra).
  split.
  - rewrite vnorm2_scale. rewrite <- Q at 3. field. lra.
  - exists (1 / sqrt (vnorm2 a)). split; [|reflexivity]. apply Rgt_not_eq. apply Rdiv_lt_0_compat; lra.
Qed.
Lemma normalise_unit a : vnorm2 a = 1 -> normalise a = Some a.
Proof.
  intro H. unfold normalise. rewrite H. destruct (Req_EM_T 1 0); [lra|]. f_equal.
  rewrite sqrt_1. unfold vmap. destruct a as [a b c]. cbn. f_equal; apply C_eq; cbn; field.
Qed.

(** The projection leaves something orthogonal to a unit vector. *)
Lemma projection_orthogonal a b : vnorm2 a = 1 -> hdot a (subtract_projection a b) = C0.
Proof.
  intro H. unfold subtract_projection. set (t := (_ + _ + _)%C).
  transitivity (hdot a b - t * hdot a a)%C.
  - unfold hdot. cbn [v0 v1 v2]. ring.
  - rewrite hdot_self, H. unfold t, hdot. creal.
Qed.
Lemma hdot_scale x a b : hdot a (vmap (fun c => (c * RtoC x)%C) b) = (RtoC x * hdot a b)%C.
Proof. unfold hdot, vmap. cbn [v0 v1 v2]. ring. Qed.

(** The third column: orthogonal to both, of norm one, determinant one. *)
Lemma third_orth_a a b : hdot a (third_column a b) = C0.
Proof. unfold hdot, third_column. cbn [v0 v1 v2]. ring. Qed.
Lemma third_orth_b a b : hdot b (third_column a b) = C0.
Proof. unfold hdot, third_column. cbn [v0 v1 v2]. ring. Qed.
Lemma hdot_conj a b : hdot b a = Cconj (hdot a b).
Proof. unfold hdot. creal. Qed.
(** Lagrange's identity. *)
Lemma third_norm a b : RtoC (vnorm2 (third_column a b)) = (RtoC (vnorm2 a * vnorm2 b) - hdot a b * Cconj (hdot a b))%C.
Proof. unfold hdot, third_column, vnorm2, Cnorm2. cbn [v0 v1 v2]. creal. Qed.
Lemma det_third a b : det3 (M3 a b (third_column a b)) = RtoC (vnorm2 (third_column a b)).
Proof. unfold det3, entry, coordinate, third_column, vnorm2, Cnorm2. cbn [col0 col1 col2 v0 v1 v2]. creal. Qed.

(** Rows of a matrix with these columns: m m^dagger = 1 follows from the completeness identity. *)
Definition row_dot (m : mat3) (i j : nat) : C :=
  (entry m i 0 * Cconj (entry m j 0) + entry m i 1 * Cconj (entry m j 1) + entry m i 2 * Cconj (entry m j 2))%C.

Lemma rows_completeness a b i j : (i < 3)%nat -> (j < 3)%nat ->
  vnorm2 a = 1 -> vnorm2 b = 1 -> hdot a b = C0 -> row_dot (M3 a b (third_column a b)) i j = delta i j.
Proof.
  intros Hi Hj Ha Hb Hab.
  assert (Hba : hdot b a = C0) by (rewrite hdot_conj, Hab; creal).
  assert (Na : hdot a a = C1) by (rewrite hdot_self, Ha; reflexivity).
  assert (Nb : hdot b b = C1) by (rewrite hdot_self, Hb; reflexivity).
  (* delta_ij |a|^2 |b|^2 - ... : expand the product of the two Levi-Civita symbols *)
  assert (K : row_dot (M3 a b (third_column a b)) i j =
    (coordinate a i * Cconj (coordinate a j) * (C1 - hdot b b) + coordinate b i * Cconj (coordinate b j) * (C1 - hdot a a)
     + delta i j * (hdot a a * hdot b b - hdot a b * hdot b a)
     + coordinate a i * Cconj (coordinate b j) * hdot a b + coordinate b i * Cconj (coordinate a j) * hdot b a)%C).
  { unfold row_dot, entry, hdot, third_column, delta.
    destruct i as [|[|[|]]]; try lia; destruct j as [|[|[|]]]; try lia;
      cbn [col0 col1 col2 coordinate v0 v1 v2 Nat.eqb]; rewrite ?Cconj_sub, ?Cconj_mul, ?Cconj_conj; ring. }
  rewrite K, Na, Nb, Hab, Hba. ring.
Qed.

Lemma columns_SU3 a b : vnorm2 a = 1 -> vnorm2 b = 1 -> hdot a b = C0 -> in_SU3 (M3 a b (third_column a b)).
Proof.
  intros Ha Hb Hab.
  assert (Hba : hdot b a = C0) by (rewrite hdot_conj, Hab; creal).
  assert (Nc : RtoC (vnorm2 (third_column a b)) = C1) by (rewrite third_norm, Ha, Hb, Hab; creal).
  split.
  - intros i j Hi Hj. split; [|now apply rows_completeness].
    change (hdot (match i with 0%nat => a | 1%nat => b | _ => third_column a b end)
                 (match j with 0%nat => a | 1%nat => b | _ => third_column a b end) = delta i j).
    destruct i as [|[|[|]]]; try lia; destruct j as [|[|[|]]]; try lia; cbn [delta Nat.eqb].
    + rewrite hdot_self, Ha. reflexivity.
    + exact Hab.
    + apply third_orth_a.
    + exact Hba.
    + rewrite hdot_self, Hb. reflexivity.
    + apply third_orth_b.
    + rewrite hdot_conj, third_orth_a. creal.
    + rewrite hdot_conj, third_orth_b. creal.
    + rewrite hdot_self. exact Nc.
  - rewrite det_third. exact Nc.
Qed.

Lemma reconstruct_SU3 a b m : reconstruct a b = Some m -> in_SU3 m.
Proof.
  unfold reconstruct. destruct (normalise a) as [a1|] eqn:Ea; [|discriminate].
  destruct (normalise (subtract_projection a1 b)) as [b1|] eqn:Eb; [|discriminate].
  intro H. injection H as <-. destruct (normalise_spec _ _ Ea) as [Na _].
  destruct (normalise_spec _ _ Eb) as (Nb & x & _ & ->). apply columns_SU3; auto.
  rewrite hdot_scale, projection_orthogonal by assumption. ring.
Qed.

Lemma coord_vec a b : (forall i, (i < 3)%nat -> coordinate a i = coordinate b i) -> a = b.
Proof.
  intro H. pose proof (H 0%nat ltac:(lia)) as H0. pose proof (H 1%nat ltac:(lia)) as H1. pose proof (H 2%nat ltac:(lia)) as H2.
  cbn in *. destruct a, b; cbn in *; congruence.
Qed.

(** It succeeds exactly when the two columns are independent. *)
Lemma reconstruct_some_iff a b : (exists m, reconstruct a b = Some m) <-> independent a b.
Proof.
  unfold reconstruct. split.
  - intros (m & H). destruct (normalise a) as [a1|] eqn:Ea; [|discriminate].
    destruct (normalise (subtract_projection a1 b)) as [b1|] eqn:Eb; [|discriminate].
    destruct (normalise_spec _ _ Ea) as (Na & x & Hx & Ha).
    unfold normalise in Eb. destruct (Req_EM_T (vnorm2 (subtract_projection a1 b)) 0) as [E0|N0]; [discriminate|]. clear Eb H.
    intros p q Hz.
    (* the component of x-combination along the remainder *)
    assert (Hq : q = C0).
    { destruct (C_dec q C0) as [E|N]; [exact E|]. exfalso. apply N0.
      (* b = k a1 *)
      assert (Hb : forall i, (i < 3)%nat -> coordinate b i = ((- p * Cinv q * Cinv (RtoC x)) * coordinate a1 i)%C).
      { intros i Hi. pose proof (Hz i Hi) as Z'.
        assert (Xn : RtoC x <> C0) by (intro E; apply Hx; apply RtoC_inj; exact E).
        assert (Ei : coordinate a1 i = (coordinate a i * RtoC x)%C).
        { subst a1. destruct i as [|[|[|]]]; try lia; reflexivity. }
        rewrite Ei.
        assert (Hbq : coordinate b i = (- p * Cinv q * coordinate a i)%C).
        { replace (coordinate b i) with (Cinv q * (p * coordinate a i + q * coordinate b i) - Cinv q * p * coordinate a i)%C by (field; exact N).
          rewrite Z'. field. exact N. }
        rewrite Hbq. field. split; assumption. }
      set (k := (- p * Cinv q * Cinv (RtoC x))%C) in *.
      assert (Eb0 : v0 b = (k * v0 a1)%C) by exact (Hb 0%nat ltac:(lia)).
      assert (Eb1 : v1 b = (k * v1 a1)%C) by exact (Hb 1%nat ltac:(lia)).
      assert (Eb2 : v2 b = (k * v2 a1)%C) by exact (Hb 2%nat ltac:(lia)).
      assert (T : (v0 b * Cconj (v0 a1) + v1 b * Cconj (v1 a1) + v2 b * Cconj (v2 a1))%C = k).
      { rewrite Eb0, Eb1, Eb2. transitivity (k * hdot a1 a1)%C; [unfold hdot; ring|]. rewrite hdot_self, Na. creal. }
      unfold subtract_projection. rewrite T, Eb0, Eb1, Eb2. unfold vnorm2, Cnorm2. cbn. ring. }
    split; [|exact Hq]. destruct (C_dec p C0) as [E|N]; [exact E|]. exfalso.
    assert (Z0 : forall i, (i < 3)%nat -> coordinate a i = C0).
    { intros i Hi. pose proof (Hz i Hi) as Z'. rewrite Hq in Z'.
      replace (p * coordinate a i + C0 * coordinate b i)%C with (p * coordinate a i)%C in Z' by ring.
      apply C_integral in Z' as [Z'|Z']; [contradiction|exact Z']. }
    assert (vnorm2 a1 = 0).
    { rewrite Ha, vnorm2_scale. unfold vnorm2.
      rewrite (Z0 0%nat ltac:(lia) : v0 a = C0), (Z0 1%nat ltac:(lia) : v1 a = C0), (Z0 2%nat ltac:(lia) : v2 a = C0).
      unfold Cnorm2; cbn; ring. }
    lra.
  - intro Hi. destruct (normalise a) as [a1|] eqn:Ea.
    + destruct (normalise (subtract_projection a1 b)) as [b1|] eqn:Eb; [eexists; reflexivity|]. exfalso.
      destruct (normalise_spec _ _ Ea) as (Na & x & Hx & Ha).
      unfold normalise in Eb. destruct (Req_EM_T (vnorm2 (subtract_projection a1 b)) 0) as [E0|]; [|discriminate].
      apply vnorm2_eq0 in E0 as (E0 & E1 & E2). unfold subtract_projection in E0, E1, E2. cbn [v0 v1 v2] in E0, E1, E2.
      set (t := (v0 b * Cconj (v0 a1) + v1 b * Cconj (v1 a1) + v2 b * Cconj (v2 a1))%C) in *.
      destruct (Hi (- t * RtoC x)%C C1) as [_ K]; [|now apply C1_neq_C0].
      intros i Hl.
      assert (Ei : coordinate a1 i = (coordinate a i * RtoC x)%C) by (subst a1; destruct i as [|[|[|]]]; try lia; reflexivity).
      assert (Eb' : (coordinate b i - t * coordinate a1 i)%C = C0) by (destruct i as [|[|[|]]]; try lia; assumption).
      rewrite Ei in Eb'. rewrite <- Eb'. ring.
    + exfalso. unfold normalise in Ea. destruct (Req_EM_T (vnorm2 a) 0) as [E0|]; [|discriminate].
      apply vnorm2_eq0 in E0 as (E0 & E1 & E2).
      destruct (Hi C1 C0) as [K _]; [|now apply C1_neq_C0].
      intros i Hl. destruct i as [|[|[|]]]; try lia; cbn [coordinate]; rewrite ?E0, ?E1, ?E2; ring.
Qed.

(** A link of SU(3) is reconstructed from its first two columns. *)
Lemma reconstruct_SU3_id m : in_SU3 m -> reconstruct (col0 m) (col1 m) = Some m.
Proof.
  intros (HU & HD). destruct m as [a b c]. cbn [col0 col1].
  assert (U : forall i j, (i < 3)%nat -> (j < 3)%nat ->
     hdot (match i with 0%nat => a | 1%nat => b | _ => c end) (match j with 0%nat => a | 1%nat => b | _ => c end) = delta i j).
  { intros i j Hi Hj. exact (proj1 (HU i j Hi Hj)). }
  pose proof (U 0%nat 0%nat ltac:(lia) ltac:(lia)) as Uaa. pose proof (U 1%nat 1%nat ltac:(lia) ltac:(lia)) as Ubb.
  pose proof (U 0%nat 1%nat ltac:(lia) ltac:(lia)) as Uab. cbn [delta Nat.eqb] in Uaa, Ubb, Uab.
  assert (Na : vnorm2 a = 1) by (apply RtoC_inj; rewrite <- hdot_self; exact Uaa).
  assert (Nb : vnorm2 b = 1) by (apply RtoC_inj; rewrite <- hdot_self; exact Ubb).
  unfold reconstruct. rewrite (normalise_unit a Na).
  assert (P : subtract_projection a b = b).
  { unfold subtract_projection.
    replace (v0 b * Cconj (v0 a) + v1 b * Cconj (v1 a) + v2 b * Cconj (v2 a))%C with C0.
    - destruct b as [x y z]. cbn. f_equal; ring.
    - rewrite <- Uab. unfold hdot. ring. }
  rewrite P, (normalise_unit b Nb). f_equal. f_equal.
  (* n = c: expand n in the rows *)
  set (n := third_column a b).
  assert (An : hdot a n = C0) by apply third_orth_a.
  assert (Bn : hdot b n = C0) by apply third_orth_b.
  assert (Cn : hdot c n = C1).
  { replace (hdot c n) with (Cconj (det3 (M3 a b c))); [rewrite HD; creal|].
    unfold det3, n, third_column, hdot, entry, coordinate. cbn [col0 col1 col2 v0 v1 v2].
    rewrite ?Cconj_sub, ?Cconj_add, ?Cconj_mul, ?Cconj_sub, ?Cconj_add, ?Cconj_mul. ring. }
  assert (Row : forall i, (i < 3)%nat -> coordinate n i = coordinate c i).
  { intros i Hi.
    transitivity (coordinate a i * hdot a n + coordinate b i * hdot b n + coordinate c i * hdot c n)%C.
    - assert (R : forall j, (j < 3)%nat -> (coordinate a i * Cconj (coordinate a j) + coordinate b i * Cconj (coordinate b j)
                   + coordinate c i * Cconj (coordinate c j))%C = delta i j) by (intros j Hj; exact (proj2 (HU i j Hi Hj))).
      pose proof (R 0%nat ltac:(lia)) as R0. pose proof (R 1%nat ltac:(lia)) as R1. pose proof (R 2%nat ltac:(lia)) as R2.
      transitivity (delta i 0 * v0 n + delta i 1 * v1 n + delta i 2 * v2 n)%C.
      + unfold delta. destruct i as [|[|[|]]]; try lia; cbn [Nat.eqb coordinate]; ring.
      + rewrite <- R0, <- R1, <- R2. unfold hdot. cbn [coordinate]. ring.
    - rewrite An, Bn, Cn. ring. }
  now apply coord_vec.
Qed.

(** Through the words. *)
Section Words.
Variables (to_float : R -> Z) (of_float : Z -> R).
Hypothesis Hneg : forall a, of_float (to_float (- a)) = - of_float (to_float a).
Definition roundC (c : C) : C := mkC (of_float (to_float (re c))) (of_float (to_float (im c))).
Lemma site3_read u mu : (mu < 4)%nat ->
  site3_of_words of_float (site3_words to_float u) mu =
  reconstruct (vmap roundC (col0 (u mu))) (vmap roundC (col1 (u mu))).
Proof.
  intro H. unfold site3_of_words, site3_words.
  assert (E : forall c d : C, mkC (of_float (to_float (re c))) (- of_float (to_float (- im c))) = roundC c).
  { intros c _. unfold roundC. f_equal. rewrite Hneg. ring. }
  assert (V : forall a, vmap roundC a = V3 (roundC (v0 a)) (roundC (v1 a)) (roundC (v2 a))) by reflexivity.
  rewrite !V. rewrite <- !(fun c => E c c).
  destruct mu as [|[|[|[|]]]]; try lia; reflexivity.
Qed.
End Words.
