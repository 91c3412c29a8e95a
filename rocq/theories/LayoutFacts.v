(** Consequences of the layout invariants, phrased with the independent specification. *)
From Coq Require Import String Ascii ZifyBool ZifyNat Permutation.
From Verif Require Import Base ListFacts LayoutModel LayoutSpec LayoutProofs.
Open Scope Z_scope.
Ltac Zify.zify_post_hook ::= Z.div_mod_to_equations.

Lemma valid_pos g : valid_geom g -> positive_extents g.
Proof. intros H; apply H. Qed.

Lemma valid_locals_div g : valid_geom g ->
  lx g = gx g / px g /\ ly g = gy g / py g /\ lz g = gz g / pz g /\ lt g = gt g / pt g.
Proof.
  intros ((Hx & Hy & Hz & Ht) & (Px & Py & Pz & Pt) & _). unfold lx, ly, lz, lt.
  rewrite !Z.quot_div_nonneg by lia. auto.
Qed.

(** Two coordinates have the same number exactly when they are images. *)
Lemma mod_eq_iff a b n : 0 < n -> (a mod n = b mod n <-> (n | a - b)).
Proof.
  intros Hn. split; intros H.
  - exists (a / n - b / n). rewrite (Z.div_mod a n), (Z.div_mod b n) at 1 by lia. rewrite H. ring.
  - destruct H as [k Hk]. replace a with (b + k * n) by lia. now rewrite Z.mod_add by lia.
Qed.

Lemma wrap_same_image g a b : positive_extents g -> (wrap g a = wrap g b <-> same_image g a b).
Proof.
  intros (Hx & Hy & Hz & Ht). unfold wrap, same_image. rewrite <- !mod_eq_iff by auto. split.
  - intros H. injection H as -> -> -> ->. auto.
  - intros (-> & -> & -> & ->). auto.
Qed.

Lemma encode_inj g a b : positive_extents g -> in_box g a -> in_box g b -> encode g a = encode g b -> a = b.
Proof. intros Hg Ha Hb E. rewrite <- (decode_encode g a), <- (decode_encode g b), E by auto. auto. Qed.

Lemma gidx_same_image g a b : positive_extents g -> (gidx g a = gidx g b <-> same_image g a b).
Proof.
  intros Hg. rewrite <- wrap_same_image, !gidx_spec by auto. split; intros H; [|now rewrite H].
  apply (encode_inj g) in H; auto using wrap_in_box.
Qed.

Lemma same_image_refl g s : same_image g s s.
Proof. unfold same_image. rewrite !Z.sub_diag. repeat split; apply Z.divide_0_r. Qed.

Lemma same_image_wrap g s : positive_extents g -> same_image g (wrap g s) s.
Proof. intros Hg. apply wrap_same_image; auto. apply wrap_id, wrap_in_box; auto. Qed.

Lemma same_image_sym g a b : same_image g a b -> same_image g b a.
Proof.
  intros (A & B & C & D). repeat split; apply Z.divide_opp_r; rewrite Z.opp_sub_distr;
  match goal with |- (_ | - ?x + ?y) => replace (- x + y) with (y - x) by ring end; auto.
Qed.
Lemma same_image_trans g a b c : same_image g a b -> same_image g b c -> same_image g a c.
Proof.
  intros (A & B & C & D) (A' & B' & C' & D').
  repeat split; [replace (sx a - sx c) with ((sx a - sx b) + (sx b - sx c)) by ring
                |replace (sy a - sy c) with ((sy a - sy b) + (sy b - sy c)) by ring
                |replace (sz a - sz c) with ((sz a - sz b) + (sz b - sz c)) by ring
                |replace (st a - st c) with ((st a - st b) + (st b - st c)) by ring]; now apply Z.divide_add_r.
Qed.
Lemma same_image_add g a b d : same_image g a b -> same_image g (site_add a d) (site_add b d).
Proof.
  intros (A & B & C & D). unfold same_image, site_add; cbn.
  repeat split; match goal with |- (_ | ?x + ?y - (?z + ?y)) => replace (x + y - (z + y)) with (x - z) by ring end; auto.
Qed.
Lemma same_image_box g a b : positive_extents g -> in_box g a -> in_box g b -> same_image g a b -> a = b.
Proof.
  intros Hg Ha Hb H. apply wrap_same_image in H; auto. now rewrite !wrap_id in H by auto.
Qed.

(** Ownership. *)
Lemma owned_by_spec g r s : valid_geom g -> in_box g s -> (owned_by g r s <-> owner_of g s = r).
Proof.
  intros Hg Hs. destruct (valid_locals_div g Hg) as (Ex & Ey & Ez & Et).
  destruct (valid_locals g Hg) as (_ & _ & _ & _ & Lx & Ly & Lz & Lt).
  unfold owned_by, in_rank_box, owner_of. rewrite <- Ex, <- Ey, <- Ez, <- Et.
  assert (K : forall a l q, 0 < l -> (q * l <= a < (q + 1) * l <-> a / l = q)).
  { intros a l q Hl. split.
    - intros H. symmetry. apply Z.div_unique with (r := a - q * l); lia.
    - intros <-. pose proof (Z.mul_div_le a l Hl). pose proof (Z.mul_succ_div_gt a l Hl). lia. }
  split.
  - intros (rx & ry & rz & rt & Hp & -> & (A & B & C & D)). apply K in A, B, C, D; auto.
    now rewrite A, B, C, D.
  - intros <-. exists (sx s / lx g), (sy s / ly g), (sz s / lz g), (st s / lt g).
    split; [now apply in_box_position|]. split; auto. repeat split; apply K; auto.
Qed.

Lemma proc_at_owned g r s : valid_geom g -> in_box g s -> (proc_at g (gidx g s) = r <-> owned_by g r s).
Proof.
  intros Hg Hs. rewrite owned_by_spec by auto. pose proof (valid_pos g Hg) as Hp.
  rewrite proc_at_spec by (auto using gidx_range). rewrite site_at_gidx by auto. rewrite wrap_id by auto. tauto.
Qed.

Lemma exchange_mirrors g sten r s : valid_geom g -> in_box g s ->
  (In r (exchange_table g sten (gidx g s)) <-> mirrors g sten r s).
Proof.
  intros Hg Hs. pose proof (valid_pos g Hg) as Hp. rewrite in_exchange. unfold mirrors. split.
  - intros (s0 & d & Hs0 & Hd & He & Hr & Hne). split.
    + rewrite <- proc_at_owned by auto. congruence.
    + exists s0, d. split; auto. split; [now apply proc_at_owned|]. split; auto.
      apply same_image_sym. now apply gidx_same_image.
  - intros (Hn & s0 & d & Hs0 & Ho & Hd & Hi). exists s0, d. split; auto. split; auto.
    split; [apply gidx_same_image; auto; now apply same_image_sym|]. split; [now apply proc_at_owned|].
    intros E. apply Hn. apply proc_at_owned; auto.
Qed.

Lemma owned_range g r s : valid_geom g -> owned_by g r s -> 0 <= r < number_processors g.
Proof. intros Hg (a & b & c & d & Hp & -> & _). now apply rank_of_position_range. Qed.

Lemma mirrors_range g sten r s : valid_geom g -> mirrors g sten r s -> 0 <= r < number_processors g.
Proof. intros Hg (_ & s0 & d & _ & Ho & _). eapply owned_range; eauto. Qed.

(** Positions in a concatenated list. *)
Lemma index_or_range l i : (In i l -> 0 <= index_or l i < Z.of_nat (length l)) /\ (~ In i l -> index_or l i = -1).
Proof.
  unfold index_or. split; intros H.
  - destruct (index_of_In i l H) as (k & E). rewrite E. apply index_of_lt in E. lia.
  - apply index_of_None in H. now rewrite H.
Qed.
Lemma index_or_app_l l m i : In i l -> index_or (l ++ m) i = index_or l i.
Proof.
  intros H. unfold index_or. rewrite index_of_app. destruct (index_of_In i l H) as (k & ->). reflexivity.
Qed.
Lemma index_or_app_r l m i : ~ In i l -> In i m -> index_or (l ++ m) i = Z.of_nat (length l) + index_or m i.
Proof.
  intros H Hm. unfold index_or. rewrite index_of_app. apply index_of_None in H. rewrite H.
  destruct (index_of_In i m Hm) as (k & ->). cbn. lia.
Qed.
Lemma index_or_inj l i j : NoDup l -> index_or l i <> -1 -> index_or l i = index_or l j -> i = j.
Proof.
  intros Hnd. unfold index_or. destruct (index_of i l) as [k|] eqn:E; [|congruence]. intros _ H.
  destruct (index_of j l) as [m|] eqn:E'; [|lia].
  apply index_of_Some in E; auto. apply index_of_Some in E'; auto. assert (k = m) by lia. congruence.
Qed.
Lemma index_or_surj l k : NoDup l -> 0 <= k < Z.of_nat (length l) -> exists i, In i l /\ index_or l i = k.
Proof.
  intros Hnd Hk. destruct (nth_error l (Z.to_nat k)) as [i|] eqn:E.
  - exists i. split; [eapply nth_error_In; eauto|]. unfold index_or. apply index_of_Some in E; auto. rewrite E. lia.
  - apply nth_error_None in E. lia.
Qed.

Section Rank.
Context (g : geom) (sten : list site) (r : Z) (L : layout).
Context (Hg : valid_geom g) (Hr : 0 <= r < number_processors g).
Context (HL : initialize g sten (number_processors g) r = Ok L).

Lemma L_facts :
   lgeom L = g /\ lrank L = r /\ lchunks L = chunks g sten /\ llocalsize L = localsize g /\
   lcompletesize L = Z.of_nat (length (flat_map csites (P123 g sten r))) /\
   lsharedsize L = Z.of_nat (length (flat_map csites (P1 g sten r))) /\
   (forall i, local_index L i = index_or (flat_map csites (P123 g sten r)) i) /\
   (forall k, chunk_offset L k = offset_in k 0 (P123 g sten r)).
Proof.
  destruct (initialize_ok g sten r Hg Hr) as (L' & E & H). rewrite HL in E. injection E as <-. exact H.
Qed.

Lemma L_geom : lgeom L = g. Proof. apply L_facts. Qed.
Lemma L_localsize : llocalsize L = localsize g. Proof. apply L_facts. Qed.

Lemma sizes_ordered : 0 <= lsharedsize L <= llocalsize L /\ llocalsize L <= lcompletesize L.
Proof.
  destruct L_facts as (_ & _ & _ & E1 & E2 & E3 & _ & _). rewrite E1, E2, E3.
  rewrite <- (length_P12 g sten r Hg Hr). unfold P123. rewrite !flat_map_app, !app_length. lia.
Qed.

Lemma li_shared i : 0 <= i < global_volume g -> proc_at g i = r -> exchange_table g sten i <> [] ->
  0 <= local_index L i < lsharedsize L.
Proof.
  intros Hi Hp He. destruct L_facts as (_ & _ & _ & E1 & E2 & E3 & E4 & _). rewrite E4, E3.
  assert (K : In i (flat_map csites (P1 g sten r))) by (apply in_P1; auto).
  unfold P123. rewrite flat_map_app, index_or_app_l by auto. now apply index_or_range.
Qed.

Lemma P1_P2_disj i : In i (flat_map csites (P1 g sten r)) -> In i (flat_map csites (P2 g sten r)) -> False.
Proof. rewrite in_P1, in_P2 by auto. tauto. Qed.
Lemma P12_P3_disj i : In i (flat_map csites (P1 g sten r ++ P2 g sten r)) -> In i (flat_map csites (P3 g sten r)) -> False.
Proof.
  rewrite flat_map_app, in_app_iff, in_P1, in_P2, in_P3 by auto. intros H [_ K].
  apply in_exchange in K as (s & d & _ & _ & _ & _ & Hne). intuition congruence.
Qed.

Lemma li_inner i : 0 <= i < global_volume g -> proc_at g i = r -> exchange_table g sten i = [] ->
  lsharedsize L <= local_index L i < llocalsize L.
Proof.
  intros Hi Hp He. destruct L_facts as (_ & _ & _ & E1 & E2 & E3 & E4 & _). rewrite E4, E3, E1.
  assert (K : In i (flat_map csites (P2 g sten r))) by (apply in_P2; auto).
  unfold P123. rewrite app_assoc, flat_map_app, index_or_app_l.
  2:{ rewrite flat_map_app. apply in_app_iff. auto. }
  rewrite <- (length_P12 g sten r Hg Hr). rewrite flat_map_app.
  rewrite index_or_app_r; auto. 2:{ intros H. eapply P1_P2_disj; eauto. }
  rewrite app_length. pose proof (proj1 (index_or_range _ _) K). lia.
Qed.

Lemma li_halo i : 0 <= i < global_volume g -> In r (exchange_table g sten i) ->
  llocalsize L <= local_index L i < lcompletesize L.
Proof.
  intros Hi He. destruct L_facts as (_ & _ & _ & E1 & E2 & E3 & E4 & _). rewrite E4, E2, E1.
  assert (K : In i (flat_map csites (P3 g sten r))) by (apply in_P3; auto).
  unfold P123. rewrite app_assoc, flat_map_app. rewrite index_or_app_r; auto.
  2:{ intros H. eapply P12_P3_disj; eauto. }
  rewrite app_length, Nat2Z.inj_add, (length_P12 g sten r Hg Hr). pose proof (proj1 (index_or_range _ _) K). lia.
Qed.

Lemma in_P123 i : In i (flat_map csites (P123 g sten r)) <->
  0 <= i < global_volume g /\ (proc_at g i = r \/ In r (exchange_table g sten i)).
Proof.
  unfold P123. rewrite !flat_map_app, !in_app_iff, in_P1, in_P2, in_P3 by auto.
  destruct (exchange_table g sten i) as [|a l]; split; intuition (try congruence).
Qed.

Lemma li_none i : ~ (0 <= i < global_volume g /\ (proc_at g i = r \/ In r (exchange_table g sten i))) ->
  local_index L i = -1.
Proof.
  intros H. destruct L_facts as (_ & _ & _ & _ & _ & _ & E4 & _). rewrite E4.
  apply index_or_range. rewrite in_P123. exact H.
Qed.

Lemma li_valid_iff i : 0 <= local_index L i < lcompletesize L <->
  0 <= i < global_volume g /\ (proc_at g i = r \/ In r (exchange_table g sten i)).
Proof.
  destruct L_facts as (_ & _ & _ & _ & E2 & _ & E4 & _). rewrite E4, E2, <- in_P123. split; intros H.
  - destruct (in_dec Z.eq_dec i (flat_map csites (P123 g sten r))) as [|N]; auto.
    apply index_or_range in N. lia.
  - now apply index_or_range.
Qed.

Lemma li_owned_iff i : 0 <= local_index L i < llocalsize L <-> 0 <= i < global_volume g /\ proc_at g i = r.
Proof.
  pose proof sizes_ordered as HS. split.
  - intros H. assert (0 <= local_index L i < lcompletesize L) as H' by lia.
    apply li_valid_iff in H' as (Hi & [Hp|He]); auto. apply li_halo in He; auto. lia.
  - intros (Hi & Hp). destruct (exchange_table g sten i) as [|a l] eqn:E.
    + pose proof (li_inner i Hi Hp E). lia.
    + assert (exchange_table g sten i <> []) as N by (rewrite E; discriminate).
      pose proof (li_shared i Hi Hp N). lia.
Qed.

Lemma li_inj i j : local_index L i <> -1 -> local_index L i = local_index L j -> i = j.
Proof.
  destruct L_facts as (_ & _ & _ & _ & _ & _ & E4 & _). rewrite !E4.
  apply index_or_inj. now apply NoDup_sites123.
Qed.

Lemma li_surj l : 0 <= l < lcompletesize L -> exists i, 0 <= i < global_volume g /\ local_index L i = l.
Proof.
  destruct L_facts as (_ & _ & _ & _ & E2 & _ & E4 & _). rewrite E2. intros Hl.
  destruct (index_or_surj _ l (NoDup_sites123 g sten r Hg) Hl) as (i & Hi & E).
  exists i. rewrite E4. split; auto. now apply in_P123 in Hi.
Qed.

Lemma offset_in_neg k P acc : 0 <= acc -> (forall c, In c P -> 0 <= csize c) ->
  (offset_in k acc P <> -1 <-> In k (map cid P)).
Proof.
  revert acc. induction P as [|c P IH]; intros acc Ha Hc; cbn; [intuition|].
  destruct (Z.eqb_spec (cid c) k) as [E|E].
  - split; intros; [auto|lia].
  - rewrite IH; [|specialize (Hc c (or_introl eq_refl)); lia|intros; apply Hc; right; auto].
    intuition.
Qed.

Lemma offset_iff c : In c (chunks g sten) -> (chunk_offset L (cid c) <> -1 <-> In c (P123 g sten r)).
Proof.
  intros Hc. destruct L_facts as (_ & _ & _ & _ & _ & _ & _ & E5). rewrite E5.
  rewrite offset_in_neg; [|lia|]. 2:{ intros d Hd. apply P123_chunks in Hd. apply chunk_size in Hd as [-> _]. lia. }
  split; intros H.
  - apply in_map_iff in H as (d & Hd1 & Hd2). assert (d = c); [|now subst].
    apply P123_chunks in Hd2. pose proof (NoDup_cid g sten) as K. clear -K Hd1 Hd2 Hc.
    induction (chunks g sten) as [|a l IH]; [contradiction|]. cbn in K. inversion K; subst.
    destruct Hd2 as [->|Hd2], Hc as [->|Hc]; auto.
    + exfalso. apply H1. rewrite Hd1. now apply in_map.
    + exfalso. apply H1. rewrite <- Hd1. now apply in_map.
  - now apply in_map.
Qed.

Lemma global_of_spec i : 0 <= local_index L i < lcompletesize L -> global_of L (local_index L i) = Some i.
Proof.
  intros Hi. unfold global_of. apply find_some_iff.
  - intros j Hj E. apply Z.eqb_eq in E. symmetry. apply li_inj; [lia|auto].
  - destruct L_facts as (_ & _ & E3 & _ & E2 & _ & E4 & _). rewrite E4, E2 in Hi.
    assert (In i (flat_map csites (P123 g sten r))) as K.
    { destruct (in_dec Z.eq_dec i (flat_map csites (P123 g sten r))) as [|N]; auto. apply index_or_range in N. lia. }
    apply in_flat_map in K as (c & Hc & Hic). apply in_flat_map. exists c. split; auto.
    apply filter_In. rewrite E3. apply P123_chunks in Hc as Hc'. split; auto.
    apply offset_iff in Hc; auto. apply negb_true_iff, Z.eqb_neq. auto.
  - apply Z.eqb_refl.
Qed.

Lemma global_of_inv l : 0 <= l < lcompletesize L -> exists i, global_of L l = Some i /\ local_index L i = l /\
  0 <= i < global_volume g.
Proof.
  intros Hl. destruct (li_surj l Hl) as (i & Hi & <-). exists i. split; auto. now apply global_of_spec.
Qed.

(** Coordinates. *)
Lemma coordinate_of l : 0 <= l < lcompletesize L -> exists s, global_coordinate L l = Some s /\ in_box g s /\
   local_index L (gidx g s) = l.
Proof.
  intros Hl. destruct (global_of_inv l Hl) as (i & E1 & E2 & E3). pose proof (valid_pos g Hg).
  exists (site_at g i). unfold global_coordinate. rewrite E1, L_geom. split; auto.
  split; [now apply site_at_in_box|]. now rewrite gidx_site_at.
Qed.

Lemma coordinate_at s : in_box g s -> 0 <= local_index L (gidx g s) < lcompletesize L ->
  global_coordinate L (local_index L (gidx g s)) = Some s.
Proof.
  intros Hs Hl. unfold global_coordinate. rewrite global_of_spec by auto. rewrite L_geom.
  pose proof (valid_pos g Hg). rewrite site_at_gidx by auto. now rewrite wrap_id.
Qed.

Lemma gidx_wrap s : gidx g (wrap g s) = gidx g s.
Proof. pose proof (valid_pos g Hg). apply gidx_same_image; auto. now apply same_image_wrap. Qed.

(** Any displacement of a readable site: the table entry is the local index of the displaced site. *)
Lemma sup_spec s mu : in_box g s -> 0 <= local_index L (gidx g s) < lcompletesize L ->
  sup L (local_index L (gidx g s)) mu = Some (local_index L (gidx g (site_add s (delta_plus mu)))).
Proof.
  intros Hs Hl. unfold sup. rewrite global_of_spec by auto. rewrite L_geom. unfold global_sup.
  pose proof (valid_pos g Hg). rewrite site_at_gidx, wrap_id by auto. reflexivity.
Qed.
Lemma sdn_spec s mu : in_box g s -> 0 <= local_index L (gidx g s) < lcompletesize L ->
  sdn L (local_index L (gidx g s)) mu = Some (local_index L (gidx g (site_add s (delta_minus mu)))).
Proof.
  intros Hs Hl. unfold sdn. rewrite global_of_spec by auto. rewrite L_geom. unfold global_down.
  pose proof (valid_pos g Hg). rewrite site_at_gidx, wrap_id by auto. reflexivity.
Qed.

(** Stencil completeness. *)
Lemma stencil_readable s d : in_box g s -> owned_by g r s -> In d sten ->
  0 <= local_index L (gidx g (site_add s d)) < lcompletesize L.
Proof.
  intros Hs Ho Hd. pose proof (valid_pos g Hg) as Hp. apply li_valid_iff. split; [now apply gidx_range|].
  destruct (Z.eq_dec (proc_at g (gidx g (site_add s d))) r) as [E|E]; auto. right.
  apply in_exchange. exists s, d. split; auto. split; auto. split; auto. split; [now apply proc_at_owned|]. congruence.
Qed.

Lemma owned_local s : in_box g s -> (owned_by g r s <-> 0 <= local_index L (gidx g s) < llocalsize L).
Proof.
  intros Hs. rewrite li_owned_iff, proc_at_owned by auto. pose proof (gidx_range g s (valid_pos g Hg)). tauto.
Qed.
Lemma mirrors_local s : in_box g s -> (mirrors g sten r s <-> llocalsize L <= local_index L (gidx g s) < lcompletesize L).
Proof.
  intros Hs. rewrite <- exchange_mirrors by auto. pose proof (gidx_range g s (valid_pos g Hg)) as Hi. split.
  - now apply li_halo.
  - intros H. pose proof sizes_ordered.
    assert (0 <= local_index L (gidx g s) < lcompletesize L) as K by lia.
    apply li_valid_iff in K as (_ & [K|K]); auto.
    assert (0 <= local_index L (gidx g s) < llocalsize L) by (apply li_owned_iff; auto). lia.
Qed.
Lemma shared_local s : in_box g s ->
  (owned_by g r s /\ (exists r', mirrors g sten r' s) <-> 0 <= local_index L (gidx g s) < lsharedsize L).
Proof.
  intros Hs. pose proof (gidx_range g s (valid_pos g Hg)) as Hi. pose proof sizes_ordered as HS. split.
  - intros (Ho & r' & Hm). apply li_shared; auto; [now apply proc_at_owned|].
    apply exchange_mirrors in Hm; auto. intros E. rewrite E in Hm. contradiction.
  - intros H. assert (0 <= local_index L (gidx g s) < llocalsize L) as K by lia.
    apply owned_local in K as Ho; auto. split; auto.
    destruct (exchange_table g sten (gidx g s)) as [|r' l] eqn:E.
    + apply proc_at_owned in Ho; auto. pose proof (li_inner _ Hi Ho E). lia.
    + exists r'. apply exchange_mirrors; auto. rewrite E. left; auto.
Qed.
Lemma neither_local s : in_box g s -> ~ owned_by g r s -> ~ mirrors g sten r s -> local_index L (gidx g s) = -1.
Proof.
  intros Hs Ho Hm. apply li_none. rewrite proc_at_owned, exchange_mirrors by auto. tauto.
Qed.
End Rank.
