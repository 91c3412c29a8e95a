(** Further facts: one-period wrapping, neighbour walks, diagonal reads, tags. *)
From Coq Require Import String Ascii ZifyBool ZifyNat Permutation.
From Verif Require Import Base ListFacts LayoutModel LayoutSpec LayoutProofs LayoutFacts.
Open Scope Z_scope.

(** ** single-process layout *)
Definition one_period (n v : Z) : Prop := - n <= v < 2 * n.

Lemma local_modulus_spec n v : 0 < n -> one_period n v -> local_modulus v n = v mod n.
Proof.
  unfold one_period, local_modulus. intros Hn Hv.
  destruct (Z.leb_spec n v); [|destruct (Z.ltb_spec v 0)].
  - symmetry. replace v with (v - n + 1 * n) at 1 by ring. rewrite Z.mod_add by lia. apply Z.mod_small. lia.
  - symmetry. replace v with (v + n + (-1) * n) at 1 by ring. rewrite Z.mod_add by lia. apply Z.mod_small. lia.
  - symmetry. apply Z.mod_small. lia.
Qed.

Lemma local_modulus_far n v : 0 < n -> ~ one_period n v -> local_modulus v n < 0 \/ n <= local_modulus v n.
Proof.
  unfold one_period, local_modulus. intros Hn Hv.
  destruct (Z.leb_spec n v); [|destruct (Z.ltb_spec v 0)]; lia.
Qed.

Lemma local_gidx_spec g s : positive_extents g ->
  (forall mu, (mu < 4)%nat -> one_period (extent g mu) (comp s mu)) -> local_gidx g s = gidx g s.
Proof.
  intros Hg H. rewrite gidx_spec by auto. destruct Hg as (Hx & Hy & Hz & Ht). unfold local_gidx, encode, wrap; cbn.
  rewrite !local_modulus_spec; auto; [apply (H 3%nat)|apply (H 2%nat)|apply (H 1%nat)|apply (H 0%nat)]; lia.
Qed.

Lemma local_gidx_far g s mu : positive_extents g -> (mu < 4)%nat ->
  ~ one_period (extent g mu) (comp s mu) ->
  (forall nu, (nu < 4)%nat -> nu <> mu -> one_period (extent g nu) (comp s nu)) -> local_gidx g s <> gidx g s.
Proof.
  intros Hg Hmu Hfar H. rewrite gidx_spec by auto. destruct Hg as (Hx & Hy & Hz & Ht).
  unfold local_gidx, encode, wrap; cbn [sx sy sz st].
  destruct mu as [|[|[|[|mu]]]]; [..|lia]; cbn in Hfar; apply local_modulus_far in Hfar; auto.
  - pose proof (H 1%nat) as H1; pose proof (H 2%nat) as H2; pose proof (H 3%nat) as H3; cbn in H1, H2, H3.
    rewrite (local_modulus_spec (gy g)), (local_modulus_spec (gz g)), (local_modulus_spec (gt g)) by (auto; first [apply H1|apply H2|apply H3]; lia).
    pose proof (Z.mod_pos_bound (sx s) (gx g) Hx). set (u := local_modulus (sx s) (gx g)) in *.
    intros E. assert (gt g * (gz g * (gy g * (u - sx s mod gx g))) = 0) as E' by lia.
    apply Z.mul_eq_0 in E' as [?|E']; [lia|]. apply Z.mul_eq_0 in E' as [?|E']; [lia|].
    apply Z.mul_eq_0 in E' as [?|E']; lia.
  - pose proof (H 0%nat) as H1; pose proof (H 2%nat) as H2; pose proof (H 3%nat) as H3; cbn in H1, H2, H3.
    rewrite (local_modulus_spec (gx g)), (local_modulus_spec (gz g)), (local_modulus_spec (gt g)) by (auto; first [apply H1|apply H2|apply H3]; lia).
    pose proof (Z.mod_pos_bound (sy s) (gy g) Hy). set (u := local_modulus (sy s) (gy g)) in *.
    intros E. assert (gt g * (gz g * (u - sy s mod gy g)) = 0) as E' by lia.
    apply Z.mul_eq_0 in E' as [?|E']; [lia|]. apply Z.mul_eq_0 in E' as [?|E']; lia.
  - pose proof (H 0%nat) as H1; pose proof (H 1%nat) as H2; pose proof (H 3%nat) as H3; cbn in H1, H2, H3.
    rewrite (local_modulus_spec (gx g)), (local_modulus_spec (gy g)), (local_modulus_spec (gt g)) by (auto; first [apply H1|apply H2|apply H3]; lia).
    pose proof (Z.mod_pos_bound (sz s) (gz g) Hz). set (u := local_modulus (sz s) (gz g)) in *.
    intros E. assert (gt g * (u - sz s mod gz g) = 0) as E' by lia.
    apply Z.mul_eq_0 in E' as [?|E']; lia.
  - pose proof (H 0%nat) as H1; pose proof (H 1%nat) as H2; pose proof (H 2%nat) as H3; cbn in H1, H2, H3.
    rewrite (local_modulus_spec (gx g)), (local_modulus_spec (gy g)), (local_modulus_spec (gz g)) by (auto; first [apply H1|apply H2|apply H3]; lia).
    pose proof (Z.mod_pos_bound (st s) (gt g) Ht). set (u := local_modulus (st s) (gt g)) in *. lia.
Qed.

(** ** walks *)
Lemma site_add_assoc a b c : site_add (site_add a b) c = site_add a (site_add b c).
Proof. unfold site_add; cbn. f_equal; ring. Qed.
Lemma site_add_comm a b : site_add a b = site_add b a.
Proof. unfold site_add; cbn. f_equal; ring. Qed.
Lemma site_add_0 a mu : site_add a (steps mu 0) = a.
Proof. destruct a, mu as [|[|[|mu]]]; unfold site_add; cbn; f_equal; ring. Qed.
Lemma steps_plus mu : delta_plus mu = steps mu 1.
Proof. destruct mu as [|[|[|mu]]]; reflexivity. Qed.
Lemma steps_minus mu : delta_minus mu = steps mu (-1).
Proof. destruct mu as [|[|[|mu]]]; reflexivity. Qed.
Lemma steps_add mu a b : site_add (steps mu a) (steps mu b) = steps mu (a + b).
Proof. destruct mu as [|[|[|mu]]]; unfold site_add; cbn; f_equal; ring. Qed.

Lemma gidx_move g s d : positive_extents g -> gidx g (site_add (site_at g (gidx g s)) d) = gidx g (site_add s d).
Proof.
  intros Hg. rewrite site_at_gidx by auto. apply gidx_same_image; auto.
  apply same_image_add. now apply same_image_wrap.
Qed.

Lemma sup_down g i mu : positive_extents g -> 0 <= i < global_volume g -> global_sup g (global_down g i mu) mu = i.
Proof.
  intros Hg Hi. unfold global_sup, global_down. rewrite gidx_move by auto.
  rewrite site_add_assoc, steps_plus, steps_minus, steps_add. cbn [Z.add]. 
  replace (-1 + 1) with 0 by lia. rewrite site_add_0. now apply gidx_site_at.
Qed.
Lemma down_sup g i mu : positive_extents g -> 0 <= i < global_volume g -> global_down g (global_sup g i mu) mu = i.
Proof.
  intros Hg Hi. unfold global_sup, global_down. rewrite gidx_move by auto.
  rewrite site_add_assoc, steps_plus, steps_minus, steps_add.
  replace (1 + -1) with 0 by lia. rewrite site_add_0. now apply gidx_site_at.
Qed.
Lemma moves_commute g i d e : positive_extents g ->
  gidx g (site_add (site_at g (gidx g (site_add (site_at g i) d))) e) =
  gidx g (site_add (site_at g (gidx g (site_add (site_at g i) e))) d).
Proof.
  intros Hg. rewrite !gidx_move by auto. rewrite !site_add_assoc, (site_add_comm d e). reflexivity.
Qed.

Lemma iter_sup g i mu n : positive_extents g -> 0 <= i < global_volume g ->
  Nat.iter n (fun j => global_sup g j mu) i = gidx g (site_add (site_at g i) (steps mu (Z.of_nat n))).
Proof.
  intros Hg Hi. induction n as [|n IH].
  - cbn [Nat.iter]. rewrite site_add_0. symmetry. now apply gidx_site_at.
  - change (Nat.iter (S n) (fun j => global_sup g j mu) i) with (global_sup g (Nat.iter n (fun j => global_sup g j mu) i) mu).
    rewrite IH. unfold global_sup. rewrite gidx_move by auto. rewrite site_add_assoc, steps_plus, steps_add.
    do 3 f_equal. lia.
Qed.
Lemma around g i mu : positive_extents g -> 0 <= i < global_volume g -> (mu < 4)%nat ->
  Nat.iter (Z.to_nat (extent g mu)) (fun j => global_sup g j mu) i = i.
Proof.
  intros Hg Hi Hmu. rewrite iter_sup by auto. rewrite <- (gidx_site_at g i) at 2 by auto.
  apply gidx_same_image; auto. destruct Hg as (Hx & Hy & Hz & Ht). unfold same_image, site_add.
  destruct mu as [|[|[|[|mu]]]]; [..|lia]; cbn; rewrite Z2Nat.id by lia; repeat split;
    match goal with |- (?n | ?a + ?b - ?a) => replace (a + b - a) with b by ring end;
    try apply Z.divide_0_r; apply Z.divide_refl.
Qed.

(** ** diagonal reads on the extended layout *)
Lemma owned_comp g r s : valid_geom g -> in_box g s -> owned_by g r s -> forall s', in_box g s' ->
  (forall mu, (mu < 4)%nat -> comp s' mu / local_extent g mu = comp s mu / local_extent g mu) -> owned_by g r s'.
Proof.
  intros Hg Hs Ho s' Hs' H. apply owned_by_spec in Ho; auto. apply owned_by_spec; auto. rewrite <- Ho.
  destruct (valid_locals_div g Hg) as (Ex & Ey & Ez & Et). unfold owner_of. rewrite Ex, Ey, Ez, Et.
  pose proof (H 0%nat) as H0; pose proof (H 1%nat) as H1; pose proof (H 2%nat) as H2; pose proof (H 3%nat) as H3.
  cbn in H0, H1, H2, H3. rewrite H0, H1, H2, H3 by lia. reflexivity.
Qed.

Lemma owned_div g r s s' : valid_geom g -> in_box g s -> in_box g s' -> owned_by g r s -> owned_by g r s' ->
  forall mu, (mu < 4)%nat -> comp s mu / local_extent g mu = comp s' mu / local_extent g mu.
Proof.
  intros Hg Hs Hs' Ho Ho' mu Hmu. apply owned_by_spec in Ho, Ho'; auto. rewrite <- Ho' in Ho. unfold owner_of in Ho.
  apply rank_of_position_inj in Ho; auto using in_box_position. destruct Ho as (A & B & C & D).
  destruct (valid_locals_div g Hg) as (Ex & Ey & Ez & Et). rewrite Ex in A. rewrite Ey in B. rewrite Ez in C. rewrite Et in D.
  destruct mu as [|[|[|[|mu]]]]; auto.
Qed.

Lemma comp_add s d mu : comp (site_add s d) mu = comp s mu + comp d mu.
Proof. destruct mu as [|[|[|mu]]]; reflexivity. Qed.
Lemma comp_steps mu nu k : (mu < 4)%nat -> (nu < 4)%nat -> comp (steps mu k) nu = if Nat.eqb mu nu then k else 0.
Proof. intros. destruct mu as [|[|[|[|mu]]]], nu as [|[|[|[|nu]]]]; try lia; reflexivity. Qed.
Lemma in_box_comp g s : in_box g s <-> forall mu, (mu < 4)%nat -> 0 <= comp s mu < extent g mu.
Proof.
  unfold in_box. split.
  - intros (A & B & C & D) mu Hmu. destruct mu as [|[|[|[|mu]]]]; try lia; auto.
  - intros H. repeat split; try apply (H 0%nat); try apply (H 1%nat); try apply (H 2%nat); try apply (H 3%nat); lia.
Qed.
Lemma same_image_comp g a b : same_image g a b <-> forall mu, (mu < 4)%nat -> (extent g mu | comp a mu - comp b mu).
Proof.
  unfold same_image. split.
  - intros (A & B & C & D) mu Hmu. destruct mu as [|[|[|[|mu]]]]; try lia; auto.
  - intros H. repeat split; [apply (H 0%nat)|apply (H 1%nat)|apply (H 2%nat)|apply (H 3%nat)]; lia.
Qed.
Lemma site_ext a b : (forall mu, (mu < 4)%nat -> comp a mu = comp b mu) -> a = b.
Proof.
  intros H. destruct a, b. pose proof (H 0%nat) as H0; pose proof (H 1%nat) as H1; pose proof (H 2%nat) as H2; pose proof (H 3%nat) as H3.
  cbn in *. rewrite H0, H1, H2, H3 by lia. reflexivity.
Qed.
Lemma extents_factor g mu : valid_geom g -> (mu < 4)%nat ->
  0 < local_extent g mu /\ exists p, 0 < p /\ extent g mu = p * local_extent g mu.
Proof.
  intros Hg Hmu. destruct (valid_locals g Hg) as (Ex & Ey & Ez & Et & Lx & Ly & Lz & Lt).
  destruct (valid_locals_div g Hg) as (Dx & Dy & Dz & Dt). destruct Hg as (_ & (Px & Py & Pz & Pt) & _).
  destruct mu as [|[|[|[|mu]]]]; try lia; cbn [local_extent extent].
  - rewrite <- Dx. split; eauto.
  - rewrite <- Dy. split; eauto.
  - rewrite <- Dz. split; eauto.
  - rewrite <- Dt. split; eauto.
Qed.

(** The other neighbour of a site in its own box. *)
Lemma other_in_box g r s mu : valid_geom g -> in_box g s -> owned_by g r s -> (mu < 4)%nat ->
  2 <= local_extent g mu ->
  (in_box g (site_add s (steps mu (-1))) /\ owned_by g r (site_add s (steps mu (-1)))) \/
  (in_box g (site_add s (steps mu 1)) /\ owned_by g r (site_add s (steps mu 1))).
Proof.
  intros Hg Hs Ho Hmu H2. destruct (extents_factor g mu Hg Hmu) as (Hl & p & Hp & E).
  set (l := local_extent g mu) in *. set (v := comp s mu).
  assert (Hv : 0 <= v < p * l) by (rewrite <- E; apply in_box_comp; auto).
  pose proof (Z.mul_div_le v l Hl) as D1. pose proof (Z.mul_succ_div_gt v l Hl) as D2.
  assert (Hq : 0 <= v / l < p).
  { split; [apply Z.div_pos; lia|]. apply Z.div_lt_upper_bound; lia. }
  assert (K : forall k, (k = -1 \/ k = 1) -> l * (v / l) <= v + k < l * (v / l) + l ->
     in_box g (site_add s (steps mu k)) /\ owned_by g r (site_add s (steps mu k))).
  { intros k Hk Hb.
    assert (B : in_box g (site_add s (steps mu k))).
    { apply in_box_comp. intros nu Hnu. rewrite comp_add, comp_steps by auto.
      destruct (Nat.eqb_spec mu nu) as [<-|].
      - fold v. rewrite E. split; nia.
      - rewrite Z.add_0_r. now apply in_box_comp. }
    split; auto. apply (owned_comp g r s Hg Hs Ho); auto. intros nu Hnu. rewrite comp_add, comp_steps by auto.
    destruct (Nat.eqb_spec mu nu) as [<-|]; [|now rewrite Z.add_0_r].
    fold v l. symmetry. apply Z.div_unique with (r := v + k - l * (v / l)); lia. }
  destruct (Z.eq_dec v (l * (v / l))) as [Q|Q].
  - right. apply K; auto. lia.
  - left. apply K; auto. lia.
Qed.

Lemma extended_has mu nu : (mu < 4)%nat -> (nu < 4)%nat ->
  In (steps mu (-1)) extended_stencil /\ In (steps mu (-2)) extended_stencil /\
  (mu <> nu -> In (site_add (steps mu (-2)) (steps nu (-1))) extended_stencil /\
               In (site_add (steps mu 2) (steps nu (-1))) extended_stencil /\
               In (site_add (steps mu 1) (steps nu (-1))) extended_stencil).
Proof.
  intros Hm Hn.
  assert (D : forall d, existsb (fun e => (sx e =? sx d) && (sy e =? sy d) && (sz e =? sz d) && (st e =? st d)) extended_stencil = true ->
     In d extended_stencil).
  { intros d H. apply existsb_exists in H as (e & He & E). rewrite !andb_true_iff, !Z.eqb_eq in E.
    destruct E as (((A & B) & C) & F). destruct d, e; cbn in *; subst. exact He. }
  destruct mu as [|[|[|[|mu]]]], nu as [|[|[|[|nu]]]]; try lia;
    (split; [apply D; reflexivity|split; [apply D; reflexivity|]]); intros Hne; try (exfalso; lia);
    repeat split; apply D; reflexivity.
Qed.

(** Is the diagonal site mirrored or owned? *)
Lemma diagonal_readable g r L s mu nu : valid_geom g -> 0 <= r < number_processors g ->
  initialize g extended_stencil (number_processors g) r = Ok L ->
  in_box g s -> owned_by g r s -> (mu < 4)%nat -> (nu < 4)%nat ->
  (mu = nu \/ 2 <= local_extent g mu \/ 2 <= local_extent g nu \/ extent g mu <= 3 \/ extent g nu <= 3) ->
  0 <= local_index L (gidx g (site_add (site_add s (delta_minus mu)) (delta_minus nu))) < lcompletesize L.
Proof.
  intros Hg Hr HL Hs Ho Hm Hn Hcase. rewrite !steps_minus. pose proof (valid_pos g Hg) as Hp.
  pose proof (stencil_readable g extended_stencil r L Hg Hr HL) as SR.
  assert (Hbyimage : forall s0 d, in_box g s0 -> owned_by g r s0 -> In d extended_stencil ->
     same_image g (site_add (site_add s (steps mu (-1))) (steps nu (-1))) (site_add s0 d) ->
     0 <= local_index L (gidx g (site_add (site_add s (steps mu (-1))) (steps nu (-1)))) < lcompletesize L).
  { intros s0 d H0 Ho0 Hd Hi. apply gidx_same_image in Hi; auto. rewrite Hi. now apply SR. }
  destruct (extended_has mu nu Hm Hn) as (X1 & X2 & X3). destruct (extended_has nu mu Hn Hm) as (Y1 & Y2 & Y3).
  destruct (Nat.eq_dec mu nu) as [<-|Hne].
  { apply (Hbyimage s (steps mu (-2))); auto. rewrite site_add_assoc, steps_add. apply same_image_refl. }
  destruct (X3 Hne) as (A1 & A2 & A3). destruct (Y3 (not_eq_sym Hne)) as (B1 & B2 & B3).
  assert (Small : forall a b, (a < 4)%nat -> (b < 4)%nat -> a <> b -> extent g a <= 3 ->
     In (steps b (-1)) extended_stencil -> In (site_add (steps a 1) (steps b (-1))) extended_stencil ->
     In (site_add (steps a 2) (steps b (-1))) extended_stencil ->
     exists d, In d extended_stencil /\
       same_image g (site_add (site_add s (steps a (-1))) (steps b (-1))) (site_add s d)).
  { intros a b Ha Hb Hab He I0 I1 I2.
    assert (0 < extent g a) by (destruct Hp as (?&?&?&?); destruct a as [|[|[|[|a]]]]; cbn; lia).
    assert (Hk : exists k, k + 1 = extent g a /\ In (site_add (steps a k) (steps b (-1))) extended_stencil).
    { assert (extent g a = 1 \/ extent g a = 2 \/ extent g a = 3) as [E|[E|E]] by lia.
      - exists 0. split; [lia|]. rewrite site_add_comm, site_add_0. exact I0.
      - exists 1. split; [lia|exact I1].
      - exists 2. split; [lia|exact I2]. }
    destruct Hk as (k & Ek & Hk). exists (site_add (steps a k) (steps b (-1))). split; auto.
    rewrite <- (site_add_assoc s). apply same_image_add. apply same_image_comp. intros c Hc.
    rewrite !comp_add, !comp_steps by auto. destruct (Nat.eqb_spec a c) as [<-|].
    - exists (-1). lia.
    - replace (comp s c + 0 - (comp s c + 0)) with 0 by ring. apply Z.divide_0_r. }
  assert (Swap : site_add (site_add s (steps mu (-1))) (steps nu (-1)) = site_add (site_add s (steps nu (-1))) (steps mu (-1))).
  { rewrite !site_add_assoc. f_equal. apply site_add_comm. }
  destruct Hcase as [|[H2|[H2|[H2|H2]]]]; [contradiction| | | |].
  - destruct (other_in_box g r s mu Hg Hs Ho Hm H2) as [(B & O)|(B & O)].
    + apply (Hbyimage _ (steps nu (-1)) B O Y1). apply same_image_refl.
    + apply (Hbyimage _ (site_add (steps mu (-2)) (steps nu (-1))) B O A1).
      rewrite <- (site_add_assoc _ (steps mu (-2))). rewrite (site_add_assoc s (steps mu 1)), steps_add.
      apply same_image_refl.
  - rewrite Swap in *. destruct (other_in_box g r s nu Hg Hs Ho Hn H2) as [(B & O)|(B & O)].
    + apply (Hbyimage _ (steps mu (-1)) B O X1). apply same_image_refl.
    + apply (Hbyimage _ (site_add (steps nu (-2)) (steps mu (-1))) B O B1).
      rewrite <- (site_add_assoc _ (steps nu (-2))). rewrite (site_add_assoc s (steps nu 1)), steps_add.
      apply same_image_refl.
  - destruct (Small mu nu Hm Hn Hne H2 Y1 A3 A2) as (d & Hd & Hi). now apply (Hbyimage s d).
  - destruct (Small nu mu Hn Hm (not_eq_sym Hne) H2 X1 B3 B2) as (d & Hd & Hi). rewrite Swap in *. now apply (Hbyimage s d).
Qed.

Lemma extended_bound mu nu d : (mu < 4)%nat -> (nu < 4)%nat -> mu <> nu -> In d extended_stencil ->
  -2 <= comp d mu <= 2 /\ -2 <= comp d nu <= 2 /\ ~ (comp d mu = -1 /\ comp d nu = -1).
Proof.
  intros Hm Hn Hne Hd.
  assert (K : forallb (fun d => (-2 <=? comp d mu) && (comp d mu <=? 2) && (-2 <=? comp d nu) && (comp d nu <=? 2)
     && negb ((comp d mu =? -1) && (comp d nu =? -1))) extended_stencil = true).
  { destruct mu as [|[|[|[|mu]]]], nu as [|[|[|[|nu]]]]; try lia; try (exfalso; lia); vm_compute; reflexivity. }
  rewrite forallb_forall in K. specialize (K d Hd).
  rewrite !andb_true_iff, !Z.leb_le, negb_true_iff, andb_false_iff, !Z.eqb_neq in K. lia.
Qed.

(** One-site-thick boxes in both directions: the diagonal is not stored. *)
Lemma diagonal_missing g r L s mu nu : valid_geom g -> 0 <= r < number_processors g ->
  initialize g extended_stencil (number_processors g) r = Ok L ->
  in_box g s -> owned_by g r s -> (mu < 4)%nat -> (nu < 4)%nat -> mu <> nu ->
  local_extent g mu = 1 -> local_extent g nu = 1 -> 4 <= extent g mu -> 4 <= extent g nu ->
  local_index L (gidx g (site_add (site_add s (delta_minus mu)) (delta_minus nu))) = -1.
Proof.
  intros Hg Hr HL Hs Ho Hm Hn Hne Lm Ln Em En. rewrite !steps_minus. pose proof (valid_pos g Hg) as Hp.
  set (s1 := site_add (site_add s (steps mu (-1))) (steps nu (-1))).
  rewrite <- (gidx_wrap g Hg s1). pose proof (wrap_in_box g s1 Hp) as Hw.
  assert (Same : forall s0, in_box g s0 -> owned_by g r s0 -> comp s0 mu = comp s mu /\ comp s0 nu = comp s nu).
  { intros s0 H0 Ho0. pose proof (owned_div g r s0 s Hg H0 Hs Ho0 Ho) as K.
    pose proof (K mu Hm) as K1. pose proof (K nu Hn) as K2. rewrite Lm, !Z.div_1_r in K1. rewrite Ln, !Z.div_1_r in K2. auto. }
  assert (NoIm : forall s0 d, in_box g s0 -> owned_by g r s0 -> In d (Site 0 0 0 0 :: extended_stencil) ->
     ~ same_image g (wrap g s1) (site_add s0 d)).
  { intros s0 d H0 Ho0 Hd Hi. destruct (Same s0 H0 Ho0) as [S1 S2].
    assert (Hi' : same_image g s1 (site_add s0 d)).
    { eapply same_image_trans; [apply same_image_sym, same_image_wrap; auto|exact Hi]. }
    rewrite same_image_comp in Hi'. pose proof (Hi' mu Hm) as I1. pose proof (Hi' nu Hn) as I2.
    unfold s1 in I1, I2. rewrite !comp_add, !comp_steps in I1, I2 by auto. rewrite S1 in I1. rewrite S2 in I2.
    rewrite Nat.eqb_refl in I1, I2. replace (Nat.eqb nu mu) with false in I1 by (symmetry; apply Nat.eqb_neq; auto).
    replace (Nat.eqb mu nu) with false in I2 by (symmetry; apply Nat.eqb_neq; auto).
    assert (Hb : -2 <= comp d mu <= 2 /\ -2 <= comp d nu <= 2 /\ ~ (comp d mu = -1 /\ comp d nu = -1)).
    { destruct Hd as [<-|Hd]; [|now apply extended_bound].
      destruct mu as [|[|[|[|mu]]]], nu as [|[|[|[|nu]]]]; cbn; lia. }
    destruct Hb as (Hb1 & Hb2 & Hb3). apply Hb3. 
    destruct I1 as (k1 & K1). destruct I2 as (k2 & K2). split.
    - assert (k1 = 0) by nia. subst k1. lia.
    - assert (k2 = 0) by nia. subst k2. lia. }
  apply (neither_local g extended_stencil r L Hg Hr HL); auto.
  - intros Ow. apply (NoIm (wrap g s1) (Site 0 0 0 0)); auto; [left; auto|].
    replace (Site 0 0 0 0) with (steps 0 0) by reflexivity. rewrite site_add_0. apply same_image_refl.
  - intros (_ & s0 & d & H0 & Ho0 & Hd & Hi). apply (NoIm s0 d); auto. right; auto.
Qed.

(** ** tags *)
Definition tags_defined (cs : list chunk) (c : chunk) : Prop :=
  forall j, (j < length (csharers c))%nat -> exists cj, nth_error cs j = Some cj /\ (j < length (csharers cj))%nat.

Lemma tags_chunk_ok cs c js : forall m, 
  (exists ts m', tags_chunk cs c js m = Ok (ts, m')) <->
  (forall j, In j js -> exists cj, nth_error cs j = Some cj /\ (j < length (csharers cj))%nat).
Proof.
  induction js as [|j js IH]; intros m; cbn.
  - split; [intros; contradiction|eauto].
  - unfold tag_one. split.
    + intros (ts & m' & E) k Hk. destruct (nth_error cs j) as [cj|] eqn:Ej; [|discriminate].
      destruct (nth_error (csharers cj) j) as [r|] eqn:Er; [|discriminate].
      destruct Hk as [<-|Hk]. { exists cj. split; auto. apply nth_error_Some. congruence. }
      destruct (lookup_pair (cowner c, r) m); cbn in E.
      * destruct (tags_chunk cs c js _) as [[ts2 m2]| |] eqn:E2; try discriminate.
        eapply IH; eauto.
      * destruct (tags_chunk cs c js _) as [[ts2 m2]| |] eqn:E2; try discriminate.
        eapply IH; eauto.
    + intros H. destruct (H j (or_introl eq_refl)) as (cj & Ej & Hj). rewrite Ej.
      destruct (nth_error (csharers cj) j) as [r|] eqn:Er; [|apply nth_error_None in Er; lia].
      destruct (lookup_pair (cowner c, r) m); cbn;
        match goal with |- context [tags_chunk cs c js ?M] =>
          destruct (proj2 (IH M) (fun k Hk => H k (or_intror Hk))) as (ts & m' & ->) end; cbn; eauto.
Qed.

Lemma tags_from_ok cs todo : forall m,
  (exists ts, tags_from cs todo m = Ok ts) <-> (forall c, In c todo -> tags_defined cs c).
Proof.
  induction todo as [|c todo IH]; intros m; cbn [tags_from].
  - split; [intros; contradiction|eauto].
  - pose proof (tags_chunk_ok cs c (seq 0 (length (csharers c))) m) as TC. split.
    + intros (ts & E) d Hd. destruct (tags_chunk cs c _ m) as [[t1 m1]| |] eqn:E1; try discriminate. cbn in E.
      destruct (tags_from cs todo m1) as [t2| |] eqn:E2; try discriminate.
      destruct Hd as [<-|Hd].
      * intros j Hj. apply (proj1 TC); [eauto|]. apply in_seq. lia.
      * eapply IH; eauto.
    + intros H. destruct (proj2 TC) as (t1 & m1 & ->).
      { intros j Hj. apply in_seq in Hj. apply (H c (or_introl eq_refl)). lia. }
      cbn. destruct (proj2 (IH m1) (fun d Hd => H d (or_intror Hd))) as (t2 & ->). cbn. eauto.
Qed.

(** Tables where each chunk has at most one sharer. *)
Lemma lookup_pair_cons k k' v m : lookup_pair k ((k', v) :: m) =
  if (fst k =? fst k') && (snd k =? snd k') then Some v else lookup_pair k m.
Proof. reflexivity. Qed.

Lemma tags_simple cs r0 : forall todo m ts,
  (exists c0 cs', cs = c0 :: cs' /\ csharers c0 = [r0]) ->
  (forall c, In c todo -> (length (csharers c) <= 1)%nat) ->
  tags_from cs todo m = Ok ts ->
  forall i j a b ta tb, nth_error todo i = Some a -> nth_error todo j = Some b -> i <> j ->
    cowner a = cowner b -> csharers a <> [] -> csharers b <> [] ->
    nth_error ts i = Some ta -> nth_error ts j = Some tb -> ta <> tb.
Proof.
  intros todo m ts (c0 & cs' & Ecs & E0).
  assert (Gen : forall todo m ts, (forall c, In c todo -> (length (csharers c) <= 1)%nat) ->
    tags_from cs todo m = Ok ts ->
    (* every tag of a shared chunk is a singleton above the counter of its owner *)
    forall i a ta, nth_error todo i = Some a -> csharers a <> [] -> nth_error ts i = Some ta ->
      exists v, ta = [v] /\ match lookup_pair (cowner a, r0) m with Some w => w < v | None => 0 <= v end /\
      forall j b tb, (i < j)%nat -> nth_error todo j = Some b -> cowner a = cowner b -> csharers b <> [] ->
        nth_error ts j = Some tb -> ta <> tb).
  { clear m ts todo. induction todo as [|c todo IH]; intros m ts H1 E i a ta Hi Ha Hta.
    - destruct i; discriminate.
    - cbn [tags_from] in E. specialize (H1 c (or_introl eq_refl)) as Hc1.
      destruct (csharers c) as [|s [|s' l]] eqn:Es; cbn in Hc1; try lia.
      + cbn in E. destruct (tags_from cs todo m) as [ts2| |] eqn:E2; try discriminate. cbn in E. injection E as <-.
        destruct i as [|i]; cbn in Hi, Hta.
        * injection Hi as <-. congruence.
        * destruct (IH m ts2 (fun d Hd => H1 d (or_intror Hd)) E2 i a ta Hi Ha Hta) as (v & V1 & V2 & V3).
          exists v. split; auto. split; auto. intros j b tb Hj Hb Hab Hsb Htb. destruct j as [|j]; [lia|].
          cbn in Hb, Htb. apply (V3 j b tb); auto. lia.
      + cbn [length seq] in E. cbn [tags_chunk] in E. unfold tag_one in E. rewrite Ecs in E at 1. cbn [nth_error] in E.
        rewrite E0 in E. cbn [nth_error] in E.
        set (w := match lookup_pair (cowner c, r0) m with Some v => v + 1 | None => 0 end).
        set (m1 := ((cowner c, r0), w) :: m).
        assert (E' : obind (tags_from cs todo m1) (fun tss => Ok ([w] :: tss)) = Ok ts).
        { unfold w, m1. unfold w. destruct (lookup_pair (cowner c, r0) m); cbn in E; exact E. }
        clear E. destruct (tags_from cs todo m1) as [ts2| |] eqn:E2; try discriminate. cbn in E'. injection E' as <-.
        assert (Hw : match lookup_pair (cowner c, r0) m with Some x => x < w | None => 0 <= w end).
        { unfold w. destruct (lookup_pair (cowner c, r0) m); lia. }
        specialize (IH m1 ts2 (fun d Hd => H1 d (or_intror Hd)) E2).
        destruct i as [|i]; cbn in Hi, Hta.
        * injection Hi as <-. injection Hta as <-. exists w. split; auto. split; auto.
          intros j b tb Hj Hb Hab Hsb Htb. destruct j as [|j]; [lia|]. cbn in Hb, Htb.
          destruct (IH j b tb Hb Hsb Htb) as (v & -> & V2 & _). unfold m1 in V2.
          rewrite lookup_pair_cons in V2. cbn [fst snd] in V2. rewrite <- Hab, !Z.eqb_refl in V2. cbn in V2.
          intros Heq. injection Heq as Heq. lia.
        * destruct (IH i a ta Hi Ha Hta) as (v & V1 & V2 & V3). exists v. split; auto. split.
          -- unfold m1 in V2. rewrite lookup_pair_cons in V2. cbn [fst snd] in V2. rewrite Z.eqb_refl, andb_true_r in V2.
             destruct (Z.eqb_spec (cowner a) (cowner c)) as [Q|Q]; auto. rewrite Q.
             destruct (lookup_pair (cowner c, r0) m); lia.
          -- intros j b tb Hj Hb Hab Hsb Htb. destruct j as [|j]; [lia|]. cbn in Hb, Htb. apply (V3 j b tb); auto. lia. }
  intros H1 E i j a b ta tb Hi Hj Hij Hab Ha Hb Hta Htb.
  destruct (Nat.lt_ge_cases i j) as [Hlt|Hge].
  - destruct (Gen todo m ts H1 E i a ta Hi Ha Hta) as (v & _ & _ & V). apply (V j b tb); auto.
  - destruct (Gen todo m ts H1 E j b tb Hj Hb Htb) as (v & _ & _ & V). apply not_eq_sym. apply (V i a ta); auto. lia.
Qed.
