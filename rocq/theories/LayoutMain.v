(** The lemmas closing the property theorems of [LayoutProps]. *)
From Coq Require Import ZArith List Bool Lia ZifyBool ZifyNat.
From Verif Require Import Base ListFacts LayoutModel LayoutSpec LayoutProofs LayoutFacts LayoutFacts2.
Open Scope Z_scope.

Lemma ggc_gidx g s : positive_extents g -> get_global_coordinate g s = Some (gidx g s).
Proof.
  intros Hg. unfold gidx. rewrite get_global_coordinate_spec by auto. reflexivity.
Qed.

Lemma numbering_bijection (g : geom) : positive_extents g ->
  (forall s, exists i, get_global_coordinate g s = Some i /\ 0 <= i < gx g * gy g * gz g * gt g) /\
  (forall a b, get_global_coordinate g a = get_global_coordinate g b <-> same_image g a b) /\
  (forall i, 0 <= i < gx g * gy g * gz g * gt g -> exists s, in_box g s /\ get_global_coordinate g s = Some i).
Proof.
  intros Hg. split; [|split].
  - intros s. exists (gidx g s). rewrite ggc_gidx by auto. split; auto. now apply gidx_range.
  - intros a b. rewrite !ggc_gidx by auto. rewrite <- gidx_same_image by auto. split; congruence.
  - intros i Hi. exists (site_at g i). rewrite ggc_gidx by auto. split; [now apply site_at_in_box|].
    f_equal. now apply gidx_site_at.
Qed.

Lemma local_one_period (g : geom) (s : site) : positive_extents g ->
  (forall mu, (mu < 4)%nat -> - extent g mu <= comp s mu < 2 * extent g mu) ->
  exists s', in_box g s' /\ same_image g s s' /\
    local_gidx g s = ((sx s' * gy g + sy s') * gz g + sz s') * gt g + st s'.
Proof.
  intros Hg H. exists (wrap g s). split; [now apply wrap_in_box|].
  split; [apply same_image_sym; now apply same_image_wrap|].
  rewrite local_gidx_spec by auto. rewrite gidx_spec by auto. unfold encode. ring.
Qed.

Lemma local_further (g : geom) (s : site) (mu : nat) : positive_extents g -> (mu < 4)%nat ->
  ~ (- extent g mu <= comp s mu < 2 * extent g mu) ->
  (forall nu, (nu < 4)%nat -> nu <> mu -> - extent g nu <= comp s nu < 2 * extent g nu) ->
  Some (local_gidx g s) <> get_global_coordinate g s.
Proof.
  intros Hg Hmu H1 H2 E. rewrite ggc_gidx in E by auto. injection E. now apply (local_gidx_far g s mu).
Qed.

Lemma neighbours (g : geom) (i : Z) : positive_extents g -> 0 <= i < gx g * gy g * gz g * gt g ->
  (forall mu, same_image g (site_at g (global_sup g i mu)) (site_add (site_at g i) (steps mu 1)) /\
              same_image g (site_at g (global_down g i mu)) (site_add (site_at g i) (steps mu (-1)))) /\
  (forall mu, global_sup g (global_down g i mu) mu = i /\ global_down g (global_sup g i mu) mu = i) /\
  (forall mu nu, global_sup g (global_sup g i mu) nu = global_sup g (global_sup g i nu) mu /\
                 global_down g (global_down g i mu) nu = global_down g (global_down g i nu) mu /\
                 global_sup g (global_down g i mu) nu = global_down g (global_sup g i nu) mu) /\
  (forall mu, (mu < 4)%nat -> Nat.iter (Z.to_nat (extent g mu)) (fun j => global_sup g j mu) i = i).
Proof.
  intros Hg Hi. split; [|split; [|split]].
  - intros mu. unfold global_sup, global_down. rewrite !site_at_gidx, steps_plus, steps_minus by auto.
    split; now apply same_image_wrap.
  - intros mu. split; [now apply sup_down|now apply down_sup].
  - intros mu nu. unfold global_sup, global_down. repeat split; now apply moves_commute.
  - intros mu Hmu. now apply around.
Qed.

Lemma rank_tables (g : geom) (sten : list site) (r : Z) (L : layout) (l : Z) (mu : nat) :
  valid_geom g -> 0 <= r < number_processors g -> initialize g sten (number_processors g) r = Ok L ->
  In (steps mu 1) sten -> In (steps mu (-1)) sten -> 0 <= l < llocalsize L ->
  exists up down s, sup L l mu = Some up /\ sdn L l mu = Some down /\
    sdn L up mu = Some l /\ sup L down mu = Some l /\
    global_coordinate L l = Some s /\
    global_coordinate L up = Some (wrap g (site_add s (steps mu 1))) /\
    global_coordinate L down = Some (wrap g (site_add s (steps mu (-1)))).
Proof.
  intros Hg Hr HL Hu Hd Hl. pose proof (valid_pos g Hg) as Hp.
  pose proof (sizes_ordered g sten r L Hg Hr HL) as HS.
  destruct (coordinate_of g sten r L Hg Hr HL l ltac:(lia)) as (s & Ec & Hs & El).
  assert (Ho : owned_by g r s) by (apply (owned_local g sten r L Hg Hr HL); auto; lia).
  pose proof (stencil_readable g sten r L Hg Hr HL s (steps mu 1) Hs Ho Hu) as Ru.
  pose proof (stencil_readable g sten r L Hg Hr HL s (steps mu (-1)) Hs Ho Hd) as Rd.
  rewrite <- (gidx_wrap g Hg) in Ru, Rd.
  exists (local_index L (gidx g (wrap g (site_add s (steps mu 1))))),
         (local_index L (gidx g (wrap g (site_add s (steps mu (-1)))))), s.
  assert (K : forall a b, a + b = 0 -> gidx g (site_add (wrap g (site_add s (steps mu a))) (steps mu b)) = gidx g s).
  { intros a b Hab. apply gidx_same_image; auto. eapply same_image_trans; [apply same_image_add, same_image_wrap; auto|].
    rewrite site_add_assoc, steps_add, Hab, site_add_0. apply same_image_refl. }
  rewrite <- El.
  rewrite (sup_spec g sten r L Hg Hr HL s mu Hs) by lia.
  rewrite (sdn_spec g sten r L Hg Hr HL s mu Hs) by lia.
  rewrite (sdn_spec g sten r L Hg Hr HL _ mu (wrap_in_box g (site_add s (steps mu 1)) Hp) Ru).
  rewrite (sup_spec g sten r L Hg Hr HL _ mu (wrap_in_box g (site_add s (steps mu (-1))) Hp) Rd).
  rewrite steps_plus, steps_minus, !K by lia. rewrite !(gidx_wrap g Hg).
  repeat split; auto.
  - now rewrite El.
  - rewrite <- (gidx_wrap g Hg). apply (coordinate_at g sten r L Hg Hr HL); auto. now apply wrap_in_box.
  - rewrite <- (gidx_wrap g Hg). apply (coordinate_at g sten r L Hg Hr HL); auto. now apply wrap_in_box.
Qed.

Lemma startup_exact (g : geom) (size : Z) : positive_extents g -> positive_grid g ->
  (startup_checks g size = Ok tt <-> size = px g * py g * pz g * pt g /\ divides_evenly g) /\
  (startup_checks g size = Ok tt \/ startup_checks g size = Exit 1 \/ startup_checks g size = Exit 3).
Proof.
  intros (Hx & Hy & Hz & Ht) (Px & Py & Pz & Pt). unfold startup_checks, number_processors, divides_evenly.
  assert (D : forall a b, 0 < b -> (Z.rem a b =? 0) = true <-> (b | a)).
  { intros a b Hb. rewrite Z.eqb_eq. rewrite <- Z.rem_divide by lia. tauto. }
  rewrite !(proj2 (Z.eqb_neq _ 0)) by lia. cbn [orb].
  rewrite <- !D by auto.
  destruct (Z.eqb_spec size (px g * py g * pz g * pt g)); cbn [negb]; [|intuition (congruence || lia)].
  destruct (Z.rem (gx g) (px g) =? 0); cbn [negb]; [|intuition congruence].
  destruct (Z.rem (gy g) (py g) =? 0); cbn [negb]; [|intuition congruence].
  destruct (Z.rem (gz g) (pz g) =? 0); cbn [negb]; [|intuition congruence].
  destruct (Z.rem (gt g) (pt g) =? 0); cbn [negb]; intuition congruence.
Qed.

Lemma localsize_div g : valid_geom g ->
  localsize g = (gx g / px g) * (gy g / py g) * (gz g / pz g) * (gt g / pt g).
Proof. intros Hg. unfold localsize. destruct (valid_locals_div g Hg) as (E1 & E2 & E3 & E4). now rewrite E1, E2, E3, E4. Qed.

Lemma ownership (g : geom) : valid_geom g ->
  (forall s, in_box g s -> exists r, owned_by g r s /\ 0 <= r < number_processors g /\
                           proc_at g (gidx g s) = r /\ forall r', owned_by g r' s -> r' = r) /\
  (forall r, 0 <= r < number_processors g ->
     exists l, NoDup l /\ (forall s, In s l <-> in_box g s /\ owned_by g r s) /\
       Z.of_nat (length l) = (gx g / px g) * (gy g / py g) * (gz g / pz g) * (gt g / pt g)).
Proof.
  intros Hg. pose proof (valid_pos g Hg) as Hp. split.
  - intros s Hs. exists (proc_at g (gidx g s)). split; [now apply proc_at_owned|].
    split; [apply proc_at_range; auto; now apply gidx_range|]. split; auto.
    intros r' Hr'. symmetry. now apply proc_at_owned.
  - intros r Hr. exists (map (site_at g) (filter (fun i => proc_at g i =? r) (zrange (global_volume g)))). split; [|split].
    + apply NoDup_map_inj; [|apply NoDup_filter, NoDup_zrange]. intros x y Hx Hy E.
      apply filter_In in Hx as [Hx _]. apply filter_In in Hy as [Hy _]. apply in_zrange in Hx, Hy.
      rewrite <- (gidx_site_at g x), <- (gidx_site_at g y), E by auto. reflexivity.
    + intros s. rewrite in_map_iff. split.
      * intros (i & <- & Hi). apply filter_In in Hi as [Hi Hr']. apply in_zrange in Hi. apply Z.eqb_eq in Hr'.
        split; [now apply site_at_in_box|]. apply proc_at_owned; auto; [now apply site_at_in_box|]. now rewrite gidx_site_at.
      * intros (Hs & Ho). exists (gidx g s). rewrite site_at_gidx, wrap_id by auto. split; auto.
        apply filter_In. rewrite in_zrange, Z.eqb_eq. split; [now apply gidx_range|]. now apply proc_at_owned.
    + rewrite map_length, count_owned by auto. rewrite localsize_div in * by auto.
      pose proof (localsize_pos g Hg) as K. rewrite localsize_div in K by auto. lia.
Qed.

Lemma local_numbering (g : geom) (sten : list site) (r : Z) : valid_geom g -> 0 <= r < number_processors g ->
  exists L, initialize g sten (number_processors g) r = Ok L /\
    llocalsize L = (gx g / px g) * (gy g / py g) * (gz g / pz g) * (gt g / pt g) /\
    0 <= lsharedsize L <= llocalsize L /\ llocalsize L <= lcompletesize L /\
    (forall s, in_box g s ->
      (owned_by g r s /\ (exists r', mirrors g sten r' s) <-> 0 <= local_index L (gidx g s) < lsharedsize L) /\
      (owned_by g r s <-> 0 <= local_index L (gidx g s) < llocalsize L) /\
      (mirrors g sten r s <-> llocalsize L <= local_index L (gidx g s) < lcompletesize L) /\
      (~ owned_by g r s -> ~ mirrors g sten r s -> local_index L (gidx g s) = -1)) /\
    (forall l, 0 <= l < lcompletesize L -> exists s, in_box g s /\ local_index L (gidx g s) = l /\
       (forall s', in_box g s' -> local_index L (gidx g s') = l -> s' = s) /\ global_coordinate L l = Some s).
Proof.
  intros Hg Hr. destruct (initialize_ok g sten r Hg Hr) as (L & HL & _). exists L. split; auto.
  rewrite (L_localsize g sten r L Hg Hr HL), localsize_div by auto. split; auto.
  pose proof (sizes_ordered g sten r L Hg Hr HL) as (S1 & S2).
  rewrite <- localsize_div, <- (L_localsize g sten r L Hg Hr HL) by auto.
  split; auto. split; auto. split.
  - intros s Hs. split; [now apply (shared_local g sten r L)|]. split; [now apply (owned_local g sten r L)|].
    split; [now apply (mirrors_local g sten r L)|now apply (neither_local g sten r L)].
  - intros l Hl. destruct (coordinate_of g sten r L Hg Hr HL l Hl) as (s & Ec & Hs & El).
    exists s. split; auto. split; auto. split; auto. intros s' Hs' El'.
    apply (same_image_box g); auto using valid_pos. apply gidx_same_image; auto using valid_pos.
    apply (li_inj g sten r L Hg Hr HL); [lia|congruence].
Qed.

Lemma stencil_reads (g : geom) (sten : list site) (r : Z) (L : layout) (s d : site) :
  valid_geom g -> 0 <= r < number_processors g -> initialize g sten (number_processors g) r = Ok L ->
  in_box g s -> owned_by g r s -> In d sten ->
  exists l, local_index L (gidx g (site_add s d)) = l /\ 0 <= l < lcompletesize L /\
            global_coordinate L l = Some (wrap g (site_add s d)).
Proof.
  intros Hg Hr HL Hs Ho Hd. eexists. split; [reflexivity|].
  pose proof (stencil_readable g sten r L Hg Hr HL s d Hs Ho Hd) as R. split; auto.
  rewrite <- (gidx_wrap g Hg) in *. apply (coordinate_at g sten r L Hg Hr HL); auto. apply wrap_in_box, Hg.
Qed.

Lemma back_table (g : geom) (r : Z) (L : layout) (l : Z) (mu nu : nat) :
  valid_geom g -> 0 <= r < number_processors g -> initialize g extended_stencil (number_processors g) r = Ok L ->
  0 <= l < llocalsize L -> (mu < 4)%nat -> (nu < 4)%nat ->
  exists a s, in_box g s /\ owned_by g r s /\ local_index L (gidx g s) = l /\ global_coordinate L l = Some s /\
    sdn L l mu = Some a /\
    sdn L a nu = Some (local_index L (gidx g (site_add (site_add s (delta_minus mu)) (delta_minus nu)))).
Proof.
  intros Hg Hr HL Hl Hm Hn. pose proof (valid_pos g Hg) as Hp.
  pose proof (sizes_ordered g _ r L Hg Hr HL) as HS.
  destruct (coordinate_of g _ r L Hg Hr HL l ltac:(lia)) as (s & Ec & Hs & El).
  assert (Ho : owned_by g r s) by (apply (owned_local g _ r L Hg Hr HL); auto; lia).
  destruct (extended_has mu nu Hm Hn) as (X1 & _).
  pose proof (stencil_readable g _ r L Hg Hr HL s (steps mu (-1)) Hs Ho X1) as Rd.
  rewrite <- (gidx_wrap g Hg) in Rd.
  exists (local_index L (gidx g (site_add s (delta_minus mu)))), s.
  split; auto. split; auto. split; auto. split; auto. split.
  - rewrite <- El. now apply (sdn_spec g _ r L Hg Hr HL); auto; lia.
  - rewrite <- (gidx_wrap g Hg (site_add s (delta_minus mu))). rewrite steps_minus in *.
    rewrite (sdn_spec g _ r L Hg Hr HL _ nu (wrap_in_box g _ Hp) Rd). do 2 f_equal.
    rewrite steps_minus. apply gidx_same_image; auto. now apply same_image_add, same_image_wrap.
Qed.

Lemma two_back (g : geom) (r : Z) (L : layout) (l : Z) (mu nu : nat) :
  valid_geom g -> 0 <= r < number_processors g -> initialize g extended_stencil (number_processors g) r = Ok L ->
  0 <= l < llocalsize L -> (mu < 4)%nat -> (nu < 4)%nat ->
  (mu = nu \/ 2 <= local_extent g mu \/ 2 <= local_extent g nu \/ extent g mu <= 3 \/ extent g nu <= 3) ->
  exists a b s, sdn L l mu = Some a /\ sdn L a nu = Some b /\ 0 <= b < lcompletesize L /\
    global_coordinate L l = Some s /\
    global_coordinate L b = Some (wrap g (site_add (site_add s (steps mu (-1))) (steps nu (-1)))).
Proof.
  intros Hg Hr HL Hl Hm Hn Hc. destruct (back_table g r L l mu nu Hg Hr HL Hl Hm Hn) as (a & s & Hs & Ho & El & Ec & E1 & E2).
  pose proof (diagonal_readable g r L s mu nu Hg Hr HL Hs Ho Hm Hn Hc) as R.
  exists a. eexists. exists s. split; [exact E1|]. split; [exact E2|]. split; auto. split; auto.
  rewrite !steps_minus in *. rewrite <- (gidx_wrap g Hg) in *. apply (coordinate_at g _ r L Hg Hr HL); auto.
  apply wrap_in_box, Hg.
Qed.

Lemma two_back_missing (g : geom) (r : Z) (L : layout) (l : Z) (mu nu : nat) :
  valid_geom g -> 0 <= r < number_processors g -> initialize g extended_stencil (number_processors g) r = Ok L ->
  0 <= l < llocalsize L -> (mu < 4)%nat -> (nu < 4)%nat -> mu <> nu ->
  local_extent g mu = 1 -> local_extent g nu = 1 -> 4 <= extent g mu -> 4 <= extent g nu ->
  exists a, sdn L l mu = Some a /\ sdn L a nu = Some (-1).
Proof.
  intros Hg Hr HL Hl Hm Hn Hne L1 L2 E1' E2'.
  destruct (back_table g r L l mu nu Hg Hr HL Hl Hm Hn) as (a & s & Hs & Ho & El & Ec & E1 & E2).
  exists a. split; auto. rewrite E2. f_equal. now apply (diagonal_missing g r L s mu nu).
Qed.

Lemma tags_out_of_bounds : exists g sten, valid_geom g /\ compute_tags (chunks g sten) = UB.
Proof.
  exists (Geom 1 1 2 6 1 1 2 2), reduced_stencil. split.
  - repeat split; cbn; try lia; try (now exists 1); now exists 3.
  - vm_compute. reflexivity.
Qed.
