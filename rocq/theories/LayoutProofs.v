(** Proofs about the layout model. *)
From Coq Require Import String Ascii ZifyBool ZifyNat Permutation Sorted DecimalString DecimalNat.
From Verif Require Import Base ListFacts LayoutModel LayoutSpec.
Open Scope Z_scope.
Ltac Zify.zify_post_hook ::= Z.div_mod_to_equations.

(** ** modulus *)
Lemma modulus_fuel_spec fuel v m :
  0 < m -> Z.abs v < Z.of_nat fuel -> modulus_fuel fuel v m = Some (v mod m).
Proof.
  intros Hm. revert v. induction fuel as [|f IH]; intros v Hf; [lia|]. cbn [modulus_fuel].
  destruct (Z.leb_spec m v).
  - rewrite IH by lia. f_equal. replace (v - m) with (v + (-1) * m) by ring. now rewrite Z.mod_add by lia.
  - destruct (Z.ltb_spec v 0).
    + destruct (Z.ltb_spec (v + m) 0).
      * rewrite IH by lia. f_equal. replace (v + m) with (v + 1 * m) by ring. now rewrite Z.mod_add by lia.
      * destruct f as [|f']; [lia|]. cbn [modulus_fuel].
        destruct (Z.leb_spec m (v + m)); [lia|]. destruct (Z.ltb_spec (v + m) 0); [lia|].
        f_equal. replace (v + m) with ((v + m) mod m) by (apply Z.mod_small; lia).
        replace (v + m) with (v + 1 * m) by ring. now rewrite Z.mod_add by lia.
    + f_equal. symmetry. apply Z.mod_small. lia.
Qed.

Lemma modulus_spec v m : 0 < m -> modulus v m = Some (v mod m).
Proof. intros Hm. apply modulus_fuel_spec; lia. Qed.

Definition encode (g : geom) (s : site) : Z := gt g * (gz g * (gy g * sx s + sy s) + sz s) + st s.
Definition decode (g : geom) (i : Z) : site :=
  Site (i / (gt g * gz g * gy g)) ((i / (gt g * gz g)) mod gy g) ((i / gt g) mod gz g) (i mod gt g).

Lemma get_global_coordinate_spec g s :
  positive_extents g -> get_global_coordinate g s = Some (encode g (wrap g s)).
Proof.
  intros (Hx & Hy & Hz & Ht). unfold get_global_coordinate. now rewrite !modulus_spec by auto.
Qed.

Lemma gidx_spec g s : positive_extents g -> gidx g s = encode g (wrap g s).
Proof. intros H. unfold gidx. now rewrite get_global_coordinate_spec. Qed.

Lemma wrap_in_box g s : positive_extents g -> in_box g (wrap g s).
Proof.
  intros (Hx & Hy & Hz & Ht). unfold in_box, wrap; cbn.
  repeat split; apply Z.mod_pos_bound || (apply Z.mod_pos_bound); auto.
Qed.

Lemma wrap_id g s : in_box g s -> wrap g s = s.
Proof.
  intros (Hx & Hy & Hz & Ht). destruct s as [x y z t]; unfold wrap; cbn in *.
  now rewrite !Z.mod_small.
Qed.

Lemma encode_range g s : positive_extents g -> in_box g s -> 0 <= encode g s < global_volume g.
Proof.
  intros (Px & Py & Pz & Pt) (Hx & Hy & Hz & Ht). unfold encode, global_volume.
  set (a := gy g * sx s + sy s). assert (Ha : 0 <= a <= gx g * gy g - 1) by (unfold a; nia).
  set (b := gz g * a + sz s). assert (Hb : 0 <= b <= gx g * gy g * gz g - 1) by (unfold b; nia).
  nia.
Qed.

Lemma decode_encode g s : positive_extents g -> in_box g s -> decode g (encode g s) = s.
Proof.
  intros (Px & Py & Pz & Pt) (Hx & Hy & Hz & Ht). destruct s as [x y z t]. cbn in *.
  unfold decode, encode; cbn.
  set (a := gy g * x + y). set (b := gz g * a + z). set (c := gt g * b + t).
  assert (E1 : c / gt g = b) by (unfold c; rewrite Z.mul_comm, Z.div_add_l, Z.div_small; lia).
  assert (E2 : b / gz g = a) by (unfold b; rewrite Z.mul_comm, Z.div_add_l, Z.div_small; lia).
  assert (E3 : a / gy g = x) by (unfold a; rewrite Z.mul_comm, Z.div_add_l, Z.div_small; lia).
  rewrite <- !Z.div_div by lia. rewrite E1, E2, E3. f_equal.
  - unfold a. rewrite Z.add_comm, Z.mul_comm, Z.mod_add by lia. now apply Z.mod_small.
  - unfold b. rewrite Z.add_comm, Z.mul_comm, Z.mod_add by lia. now apply Z.mod_small.
  - unfold c. rewrite Z.add_comm, Z.mul_comm, Z.mod_add by lia. now apply Z.mod_small.
Qed.

Lemma decode_in_box g i : positive_extents g -> 0 <= i < global_volume g -> in_box g (decode g i).
Proof.
  intros (Px & Py & Pz & Pt) Hi. unfold in_box, decode, global_volume in *; cbn.
  repeat split; try (apply Z.mod_pos_bound; lia).
  - apply Z.div_pos; nia.
  - apply Z.div_lt_upper_bound; nia.
Qed.

Lemma encode_decode g i : positive_extents g -> 0 <= i < global_volume g -> encode g (decode g i) = i.
Proof.
  intros (Px & Py & Pz & Pt) Hi. unfold encode, decode; cbn.
  rewrite <- !Z.div_div by lia.
  pose proof (Z.div_mod (i / gt g / gz g) (gy g)) as E3.
  pose proof (Z.div_mod (i / gt g) (gz g)) as E2.
  pose proof (Z.div_mod i (gt g)) as E1.
  rewrite <- E3, <- E2, <- E1 by lia. reflexivity.
Qed.

Lemma length_t_block (T : Z) (f : Z -> site) : 0 <= T -> length (map f (zrange T)) = Z.to_nat T.
Proof. intros. now rewrite map_length, length_zrange. Qed.

Lemma length_all_sites g : positive_extents g -> length (all_sites g) = Z.to_nat (global_volume g).
Proof.
  intros (Px & Py & Pz & Pt). unfold all_sites, global_volume.
  rewrite length_flat_map_zrange with (m := gy g * (gz g * gt g)); try nia.
  intros x Hx. rewrite length_flat_map_zrange with (m := gz g * gt g); try nia.
    intros y Hy. rewrite length_flat_map_zrange with (m := gt g); try nia.
    intros z Hz. apply length_t_block; lia.
Qed.

Lemma mod_mul_mod i a b : 0 < a -> 0 < b -> (i mod (a * b)) mod b = i mod b.
Proof.
  intros. rewrite (Z.mul_comm a), Z.rem_mul_r by lia.
  rewrite (Z.mul_comm b), Z.mod_add by lia. apply Z.mod_mod; lia.
Qed.

Lemma mod_mul_div i a b : 0 < a -> 0 < b -> (i mod (a * b)) / b = (i / b) mod a.
Proof.
  intros. rewrite (Z.mul_comm a), Z.rem_mul_r by lia.
  rewrite Z.add_comm, (Z.mul_comm b), Z.div_add_l by lia.
  rewrite (Z.div_small (i mod b)) by (apply Z.mod_pos_bound; lia). lia.
Qed.

Lemma site_at_spec g i : positive_extents g -> 0 <= i < global_volume g -> site_at g i = decode g i.
Proof.
  intros (Px & Py & Pz & Pt) Hi. unfold site_at, all_sites, decode, global_volume in *.
  assert (Hyz : 0 < gy g * (gz g * gt g)) by nia.
  assert (Hz : 0 < gz g * gt g) by nia.
  rewrite nth_flat_map_zrange with (m := gy g * (gz g * gt g)); try nia.
  2:{ intros x Hx. rewrite length_flat_map_zrange with (m := gz g * gt g); try nia.
      intros y Hy. rewrite length_flat_map_zrange with (m := gt g); try nia.
      intros z Hz'. apply length_t_block; lia. }
  set (i1 := i mod (gy g * (gz g * gt g))).
  assert (H1 : 0 <= i1 < gy g * (gz g * gt g)) by (apply Z.mod_pos_bound; lia).
  rewrite nth_flat_map_zrange with (m := gz g * gt g); try nia.
  2:{ intros y Hy. rewrite length_flat_map_zrange with (m := gt g); try nia.
      intros z Hz'. apply length_t_block; lia. }
  set (i2 := i1 mod (gz g * gt g)).
  assert (H2 : 0 <= i2 < gz g * gt g) by (apply Z.mod_pos_bound; lia).
  rewrite nth_flat_map_zrange with (m := gt g); try nia.
  2:{ intros z Hz'. apply length_t_block; lia. }
  set (i3 := i2 mod gt g).
  assert (H3 : 0 <= i3 < gt g) by (apply Z.mod_pos_bound; lia).
  rewrite nth_indep with (d' := (fun t => Site (i / (gy g * (gz g * gt g))) (i1 / (gz g * gt g)) (i2 / gt g) t) 0)
    by (rewrite map_length, length_zrange; lia).
  rewrite map_nth, nth_zrange by lia. rewrite Z2Nat.id by lia.
  assert (E1 : i1 mod (gz g * gt g) = i mod (gz g * gt g)) by (apply mod_mul_mod; lia).
  assert (E2 : i2 mod gt g = i mod gt g) by (unfold i2; rewrite E1; apply mod_mul_mod; lia).
  f_equal.
  - f_equal. ring.
  - unfold i1. rewrite mod_mul_div by lia. f_equal. f_equal. ring.
  - unfold i2. rewrite E1. now rewrite mod_mul_div by lia.
  - unfold i3. exact E2.
Qed.

Lemma site_at_in_box g i : positive_extents g -> 0 <= i < global_volume g -> in_box g (site_at g i).
Proof. intros. rewrite site_at_spec by auto. now apply decode_in_box. Qed.

(** The loop visits the sites in the order of their numbers. *)
Lemma gidx_site_at g i : positive_extents g -> 0 <= i < global_volume g -> gidx g (site_at g i) = i.
Proof.
  intros Hg Hi. rewrite site_at_spec, gidx_spec by auto.
  rewrite wrap_id by (now apply decode_in_box). now apply encode_decode.
Qed.

Lemma site_at_gidx g s : positive_extents g -> site_at g (gidx g s) = wrap g s.
Proof.
  intros Hg. rewrite gidx_spec by auto.
  pose proof (wrap_in_box g s Hg). rewrite site_at_spec by (auto using encode_range).
  now apply decode_encode.
Qed.

Lemma gidx_range g s : positive_extents g -> 0 <= gidx g s < global_volume g.
Proof. intros Hg. rewrite gidx_spec by auto. apply encode_range; auto. now apply wrap_in_box. Qed.

Lemma in_all_sites g s : In s (all_sites g) <-> in_box g s.
Proof.
  unfold all_sites, in_box. split.
  - intros H. apply in_flat_map in H as (x & Hx & H). apply in_flat_map in H as (y & Hy & H).
    apply in_flat_map in H as (z & Hz & H). apply in_map_iff in H as (t & <- & Ht).
    rewrite in_zrange in *. cbn. auto.
  - intros (Hx & Hy & Hz & Ht). destruct s as [x y z t]; cbn in *. rewrite <- in_zrange in *.
    apply in_flat_map. exists x; split; auto. apply in_flat_map. exists y; split; auto.
    apply in_flat_map. exists z; split; auto. apply in_map_iff. exists t; split; auto.
Qed.

(** ** owners *)
Definition owner_of (g : geom) (s : site) : Z :=
  rank_of_position g (sx s / lx g) (sy s / ly g) (sz s / lz g) (st s / lt g).

Lemma valid_locals g : valid_geom g ->
  gx g = px g * lx g /\ gy g = py g * ly g /\ gz g = pz g * lz g /\ gt g = pt g * lt g /\
  0 < lx g /\ 0 < ly g /\ 0 < lz g /\ 0 < lt g.
Proof.
  intros ((Hx & Hy & Hz & Ht) & (Px & Py & Pz & Pt) & (Dx & Dy & Dz & Dt)).
  assert (K : forall a b, 0 < a -> 0 < b -> (b | a) -> a = b * Z.quot a b /\ 0 < Z.quot a b).
  { intros a b Ha Hb (k & ->). rewrite Z.quot_mul by lia. nia. }
  unfold lx, ly, lz, lt.
  destruct (K _ _ Hx Px Dx), (K _ _ Hy Py Dy), (K _ _ Hz Pz Dz), (K _ _ Ht Pt Dt). auto 10.
Qed.

Lemma rank_table_spec g s : valid_geom g -> in_box g s -> rank_table g s = owner_of g s.
Proof.
  intros Hg (Hx & Hy & Hz & Ht).
  destruct (valid_locals g Hg) as (_ & _ & _ & _ & Lx & Ly & Lz & Lt).
  unfold rank_table, owner_of, rank_of_position. rewrite !Z.quot_div_nonneg by lia. ring.
Qed.

Lemma in_box_position g s : valid_geom g -> in_box g s ->
  position_in_grid g (sx s / lx g) (sy s / ly g) (sz s / lz g) (st s / lt g).
Proof.
  intros Hg (Hx & Hy & Hz & Ht).
  destruct (valid_locals g Hg) as (Ex & Ey & Ez & Et & Lx & Ly & Lz & Lt).
  rewrite Ex in Hx. rewrite Ey in Hy. rewrite Ez in Hz. rewrite Et in Ht.
  assert (K : forall a l p, 0 < l -> 0 <= a < p * l -> 0 <= a / l < p).
  { intros a l p Hl Ha. split; [apply Z.div_pos; lia|]. apply Z.div_lt_upper_bound; lia. }
  unfold position_in_grid. repeat split; eapply K; eauto.
Qed.

Lemma rank_of_position_inj g a b c d a' b' c' d' :
  position_in_grid g a b c d -> position_in_grid g a' b' c' d' ->
  rank_of_position g a b c d = rank_of_position g a' b' c' d' -> a = a' /\ b = b' /\ c = c' /\ d = d'.
Proof.
  unfold position_in_grid, rank_of_position. intros (Ha & Hb & Hc & Hd) (Ha' & Hb' & Hc' & Hd') E.
  assert (K : forall u v u' v' m, 0 <= v < m -> 0 <= v' < m -> u * m + v = u' * m + v' -> u = u' /\ v = v').
  { intros u v u' v' m Hv Hv' E'. assert (u = u') by nia. subst. lia. }
  apply K in E as [E ->]; auto. apply K in E as [E ->]; auto. apply K in E as [E ->]; auto.
Qed.

Lemma rank_of_position_range g a b c d :
  position_in_grid g a b c d -> 0 <= rank_of_position g a b c d < number_processors g.
Proof.
  unfold position_in_grid, rank_of_position, number_processors. intros (Ha & Hb & Hc & Hd).
  assert (H1 : 0 <= a * py g + b <= px g * py g - 1) by nia.
  assert (H2 : 0 <= (a * py g + b) * pz g + c <= px g * py g * pz g - 1) by nia.
  nia.
Qed.

Lemma rank_has_position g r : valid_geom g -> 0 <= r < number_processors g ->
  exists a b c d, position_in_grid g a b c d /\ rank_of_position g a b c d = r.
Proof.
  intros (_ & (Px & Py & Pz & Pt) & _) Hr. unfold number_processors in Hr.
  exists (r / pt g / pz g / py g), ((r / pt g / pz g) mod py g), ((r / pt g) mod pz g), (r mod pt g).
  unfold position_in_grid, rank_of_position. split.
  - repeat split; try (apply Z.mod_pos_bound; lia).
    + repeat apply Z.div_pos; lia.
    + apply Z.div_lt_upper_bound; [lia|]. apply Z.div_lt_upper_bound; [lia|].
      apply Z.div_lt_upper_bound; [lia|]. nia.
  - pose proof (Z.div_mod (r / pt g / pz g) (py g)) as E3.
    pose proof (Z.div_mod (r / pt g) (pz g)) as E2.
    pose proof (Z.div_mod r (pt g)) as E1.
    rewrite (Z.mul_comm _ (py g)), <- E3 by lia. rewrite (Z.mul_comm _ (pz g)), <- E2 by lia.
    rewrite (Z.mul_comm _ (pt g)), <- E1 by lia. reflexivity.
Qed.

Lemma proc_at_spec g i : valid_geom g -> 0 <= i < global_volume g ->
  proc_at g i = owner_of g (site_at g i).
Proof. intros Hg Hi. apply rank_table_spec; auto. apply site_at_in_box; auto. apply Hg. Qed.

Lemma proc_at_range g i : valid_geom g -> 0 <= i < global_volume g -> 0 <= proc_at g i < number_processors g.
Proof.
  intros Hg Hi. rewrite proc_at_spec by auto. apply rank_of_position_range.
  apply in_box_position; auto. apply site_at_in_box; auto. apply Hg.
Qed.

(** Number of sites of a rank. *)
Lemma map_site_at g : positive_extents g -> map (site_at g) (zrange (global_volume g)) = all_sites g.
Proof.
  intros Hg. pose proof (length_all_sites g Hg) as HL.
  apply nth_ext with (d := site_at g 0) (d' := Site 0 0 0 0).
  - now rewrite map_length, length_zrange.
  - intros n Hn. rewrite map_length, length_zrange in Hn. rewrite map_nth, nth_zrange by auto.
    unfold site_at. now rewrite Nat2Z.id.
Qed.

Lemma length_filter_prod (X Y Z' T : list Z) (a b c d : Z -> bool) :
  length (filter (fun s => a (sx s) && b (sy s) && c (sz s) && d (st s))
    (flat_map (fun x => flat_map (fun y => flat_map (fun z => map (fun t => Site x y z t) T) Z') Y) X))
  = (length (filter a X) * (length (filter b Y) * (length (filter c Z') * length (filter d T))))%nat.
Proof.
  assert (HT : forall x y z, length (filter (fun s => a (sx s) && b (sy s) && c (sz s) && d (st s))
                  (map (fun t => Site x y z t) T)) = if a x && b y && c z then length (filter d T) else 0%nat).
  { intros x y z. rewrite filter_map_comm, map_length. cbn.
    destruct (a x && b y && c z); cbn; auto. now rewrite filter_false. }
  assert (HZ : forall x y, length (filter (fun s => a (sx s) && b (sy s) && c (sz s) && d (st s))
                  (flat_map (fun z => map (fun t => Site x y z t) T) Z'))
               = if a x && b y then (length (filter c Z') * length (filter d T))%nat else 0%nat).
  { intros x y. induction Z' as [|z Z' IH]; cbn; [now destruct (a x && b y)|].
    rewrite filter_app, app_length, HT, IH. destruct (a x && b y); cbn; auto.
    destruct (c z); cbn; lia. }
  assert (HY : forall x, length (filter (fun s => a (sx s) && b (sy s) && c (sz s) && d (st s))
                  (flat_map (fun y => flat_map (fun z => map (fun t => Site x y z t) T) Z') Y))
               = if a x then (length (filter b Y) * (length (filter c Z') * length (filter d T)))%nat else 0%nat).
  { intros x. induction Y as [|y Y IH]; cbn; [now destruct (a x)|].
    rewrite filter_app, app_length, HZ, IH. destruct (a x); cbn; auto.
    destruct (b y); cbn; lia. }
  induction X as [|x X IH]; cbn; auto.
  rewrite filter_app, app_length, HY, IH. destruct (a x); cbn; lia.
Qed.

Lemma localsize_pos g : valid_geom g -> 0 < localsize g.
Proof. intros Hg. destruct (valid_locals g Hg) as (_ & _ & _ & _ & Lx & Ly & Lz & Lt). unfold localsize. nia. Qed.

Lemma count_owned g r : valid_geom g -> 0 <= r < number_processors g ->
  length (filter (fun i => proc_at g i =? r) (zrange (global_volume g))) = Z.to_nat (localsize g).
Proof.
  intros Hg Hr. destruct (rank_has_position g r Hg Hr) as (a & b & c & d & Hp & <-).
  destruct (valid_locals g Hg) as (Ex & Ey & Ez & Et & Lx & Ly & Lz & Lt).
  destruct Hp as (Ha & Hb & Hc & Hd).
  assert (Hpos : positive_extents g) by apply Hg.
  transitivity (length (filter (fun s => (sx s / lx g =? a) && (sy s / ly g =? b) && (sz s / lz g =? c) && (st s / lt g =? d))
     (all_sites g))).
  - rewrite <- (map_site_at g Hpos). rewrite filter_map_comm, map_length. f_equal.
    apply filter_ext_in. intros i Hi. apply in_zrange in Hi.
    rewrite proc_at_spec by auto. unfold owner_of.
    pose proof (in_box_position g (site_at g i) Hg (site_at_in_box g i Hpos Hi)) as Hp.
    destruct (Z.eqb_spec (rank_of_position g (sx (site_at g i) / lx g) (sy (site_at g i) / ly g)
       (sz (site_at g i) / lz g) (st (site_at g i) / lt g)) (rank_of_position g a b c d)) as [E|E].
    + apply rank_of_position_inj in E; [|auto|repeat split; lia]. destruct E as (-> & -> & -> & ->).
      now rewrite !Z.eqb_refl.
    + symmetry. apply not_true_is_false. intros H. apply E.
      rewrite !andb_true_iff, !Z.eqb_eq in H. destruct H as (((-> & ->) & ->) & ->). reflexivity.
  - etransitivity; [exact (length_filter_prod (zrange (gx g)) (zrange (gy g)) (zrange (gz g)) (zrange (gt g))
      (fun x => x / lx g =? a) (fun x => x / ly g =? b) (fun x => x / lz g =? c) (fun x => x / lt g =? d))|].
    rewrite Ex, Ey, Ez, Et. rewrite !length_filter_div by auto.
    unfold localsize. rewrite !Z2Nat.inj_mul by nia. lia.
Qed.

(** ** exchange table *)
Lemma in_insert x y l : In x (insert y l) <-> x = y \/ In x l.
Proof.
  induction l as [|z l IH]; cbn; [intuition|].
  destruct (y <=? z); cbn; rewrite ?IH; intuition.
Qed.
Lemma in_isort x l : In x (isort l) <-> In x l.
Proof. induction l as [|y l IH]; cbn; [tauto|]. rewrite in_insert, IH. intuition. Qed.
Lemma in_unique x l : In x (unique l) <-> In x l.
Proof.
  induction l as [|y l IH]; cbn; [tauto|].
  destruct (unique l) as [|z r] eqn:E.
  - cbn in *. intuition.
  - destruct (Z.eqb_spec y z) as [->|]; cbn in *; intuition.
Qed.

Inductive asc : list Z -> Prop :=
| asc_nil : asc []
| asc_one x : asc [x]
| asc_cons x y l : x <= y -> asc (y :: l) -> asc (x :: y :: l).
Lemma asc_insert x l : asc l -> asc (insert x l).
Proof.
  induction 1 as [|y|y z l Hyz Hl IH]; cbn.
  - constructor.
  - destruct (Z.leb_spec x y); constructor; try lia; constructor.
  - destruct (Z.leb_spec x y); [constructor; auto; constructor; auto|].
    cbn in IH. destruct (Z.leb_spec x z).
    + constructor; [lia|]. auto.
    + constructor; auto.
Qed.
Lemma asc_isort l : asc (isort l).
Proof. induction l; cbn; [constructor|]. now apply asc_insert. Qed.
Lemma asc_ge x l : asc (x :: l) -> forall y, In y l -> x <= y.
Proof.
  revert x. induction l as [|z l IH]; intros x H y Hy; [contradiction|].
  inversion H; subst. destruct Hy as [->|Hy]; auto. specialize (IH z ltac:(auto) y Hy). lia.
Qed.
Lemma NoDup_unique l : asc l -> NoDup (unique l).
Proof.
  induction l as [|x l IH]; intros H; cbn; [constructor|].
  assert (Hl : asc l) by (inversion H; [constructor|auto]).
  specialize (IH Hl). pose proof (asc_ge x l H) as Hge.
  destruct (unique l) as [|y r] eqn:E; [repeat constructor; auto|].
  destruct (Z.eqb_spec x y); auto.
  constructor; auto. intros Hin.
  (* x <> y, x in y::r: then all elements >= x; y is the least of the unique list *)
  assert (Hy : asc (y :: r)).
  { clear - E Hl. revert y r E. induction l as [|a l IH]; intros y r E; cbn in E; [discriminate|].
    assert (Hl' : asc l) by (inversion Hl; [constructor|auto]).
    destruct (unique l) as [|b r'] eqn:E'.
    - injection E as <- <-. constructor.
    - specialize (IH Hl' b r' eq_refl). destruct (Z.eqb_spec a b).
      + injection E as <- <-. auto.
      + injection E as <- <-. constructor; auto. apply (asc_ge a l Hl).
        apply in_unique. rewrite E'. left; auto. }
  destruct Hin as [|Hin]; [congruence|].
  pose proof (asc_ge y r Hy x Hin).
  assert (x <= y) by (apply Hge; apply in_unique; rewrite E; left; auto). lia.
Qed.

Lemma NoDup_exchange g sten i : NoDup (exchange_table g sten i).
Proof. apply NoDup_unique, asc_isort. Qed.

Lemma in_exchange g sten i r :
  In r (exchange_table g sten i) <->
  exists s d, in_box g s /\ In d sten /\ gidx g (site_add s d) = i /\
              proc_at g (gidx g s) = r /\ r <> proc_at g i.
Proof.
  unfold exchange_table, exchange_raw. rewrite in_unique, in_isort, in_flat_map. split.
  - intros (s & Hs & H). apply in_all_sites in Hs. apply in_flat_map in H as (d & Hd & Hr).
    destruct (Z.eqb_spec (gidx g (site_add s d)) i); cbn in Hr; [|contradiction].
    destruct (Z.eqb_spec (proc_at g (gidx g s)) (proc_at g i)); cbn in Hr; [contradiction|].
    destruct Hr as [<-|[]]. exists s, d. auto.
  - intros (s & d & Hs & Hd & He & Hp & Hne). exists s. rewrite in_all_sites. split; auto.
    apply in_flat_map. exists d. split; auto. rewrite He, Z.eqb_refl. cbn.
    destruct (Z.eqb_spec (proc_at g (gidx g s)) (proc_at g i)); [congruence|]. cbn. auto.
Qed.

Lemma exchange_range g sten i r : valid_geom g -> In r (exchange_table g sten i) -> 0 <= r < number_processors g.
Proof.
  intros Hg H. apply in_exchange in H as (s & d & Hs & Hd & He & <- & Hne).
  apply proc_at_range; auto. apply gidx_range, Hg.
Qed.

(** ** ids *)
Definition nodot (s : string) : Prop := forall k, String.get k s <> Some "."%char.

Lemma append_assoc a b c : append (append a b) c = append a (append b c).
Proof. induction a; cbn; auto. now rewrite IHa. Qed.

Lemma nodot_cons c s : nodot (String c s) -> c <> "."%char /\ nodot s.
Proof.
  intros H. split.
  - intros ->. now apply (H 0%nat).
  - intros k. apply (H (S k)).
Qed.

Lemma split_dot a b x y : nodot a -> nodot b ->
  append a (String "."%char x) = append b (String "."%char y) -> a = b /\ x = y.
Proof.
  revert b. induction a as [|c a IH]; intros b Ha Hb E; destruct b as [|c' b]; cbn in E.
  - injection E as E. auto.
  - injection E as E1 E2. subst c'. apply nodot_cons in Hb as [Hb _]. congruence.
  - injection E as E1 E2. subst c. apply nodot_cons in Ha as [Ha _]. congruence.
  - injection E as E1 E2. subst c'. apply nodot_cons in Ha as [_ Ha]. apply nodot_cons in Hb as [_ Hb].
    destruct (IH b Ha Hb E2) as [-> ->]. auto.
Qed.
Lemma split_dot_end a b y : nodot a -> append b (String "."%char y) = a -> False.
Proof.
  revert a. induction b as [|c b IH]; intros a Ha E; cbn in E; subst a.
  - now apply (Ha 0%nat).
  - apply nodot_cons in Ha as [_ Ha]. eapply IH; eauto.
Qed.

Lemma nodot_string_of_uint d : nodot (NilEmpty.string_of_uint d).
Proof.
  induction d; intros k; cbn; try (destruct k; cbn; [discriminate|apply IHd]). discriminate.
Qed.
Lemma nodot_to_string n : nodot (to_string n).
Proof.
  unfold to_string, NilZero.string_of_uint. destruct (Nat.to_uint (Z.to_nat n)) eqn:E;
    try (rewrite <- E; apply nodot_string_of_uint); try (intros [|k]; cbn; discriminate).
  all: apply (nodot_string_of_uint).
Qed.

Lemma to_uint_nonnil n : Nat.to_uint n <> Decimal.Nil.
Proof.
  intros H. assert (K : Nat.to_uint (Nat.of_uint (Nat.to_uint n)) = Decimal.unorm (Nat.to_uint n))
    by apply DecimalNat.Unsigned.to_of.
  rewrite DecimalNat.Unsigned.of_to, H in K. discriminate.
Qed.

Lemma to_string_inj a b : 0 <= a -> 0 <= b -> to_string a = to_string b -> a = b.
Proof.
  intros Ha Hb E. unfold to_string in E.
  apply (f_equal NilZero.uint_of_string) in E.
  rewrite !NilZero.usu in E by apply to_uint_nonnil.
  injection E as E. apply (f_equal Nat.of_uint) in E.
  rewrite !DecimalNat.Unsigned.of_to in E. lia.
Qed.

(** A list of numbers written with dots in front. *)
Fixpoint tails (l : list Z) : string :=
  match l with [] => EmptyString | r :: l => String "."%char (append (to_string r) (tails l)) end.

Lemma tails_app l n : append (append (tails l) ".") (to_string n) = tails (l ++ [n]).
Proof.
  induction l as [|r l IH]; cbn.
  - f_equal. induction (to_string n); cbn; congruence.
  - f_equal. rewrite !append_assoc. f_equal. rewrite <- IH. now rewrite append_assoc.
Qed.

Lemma fold_tails l acc :
  fold_left (fun acc r => append (append acc ".") (to_string r)) l acc = append acc (tails l).
Proof.
  revert acc. induction l as [|r l IH]; intros acc; cbn.
  - induction acc; cbn; congruence.
  - rewrite IH, !append_assoc. reflexivity.
Qed.

Lemma site_id_tails g sten i :
  site_id g sten i = append (to_string (proc_at g i))
     (tails (exchange_table g sten i ++ [Z.of_nat (length (exchange_table g sten i))])).
Proof.
  unfold site_id. cbv zeta. rewrite fold_tails. rewrite <- tails_app. now rewrite !append_assoc.
Qed.

Lemma append_nil_r s : append s EmptyString = s.
Proof. induction s; cbn; congruence. Qed.

Lemma tails_inj l : forall a b m, (forall x, In x (a :: l) -> 0 <= x) -> (forall x, In x (b :: m) -> 0 <= x) ->
  append (to_string a) (tails l) = append (to_string b) (tails m) -> a :: l = b :: m.
Proof.
  induction l as [|x l IH]; intros a b m Hl Hm E; destruct m as [|y m]; cbn in E.
  - rewrite !append_nil_r in E. apply to_string_inj in E; [congruence| |]; [apply Hl|apply Hm]; left; auto.
  - rewrite append_nil_r in E. symmetry in E. exfalso. eapply split_dot_end; [|exact E]. apply nodot_to_string.
  - rewrite append_nil_r in E. exfalso. eapply split_dot_end; [|exact E]. apply nodot_to_string.
  - apply split_dot in E as [E1 E2]; try apply nodot_to_string.
    apply to_string_inj in E1; [|apply Hl; left; auto|apply Hm; left; auto].
    apply IH in E2; [congruence| |]; intros; [apply Hl|apply Hm]; right; auto.
Qed.

Lemma site_id_inj g sten i j : valid_geom g -> 0 <= i < global_volume g -> 0 <= j < global_volume g ->
  site_id g sten i = site_id g sten j ->
  proc_at g i = proc_at g j /\ exchange_table g sten i = exchange_table g sten j.
Proof.
  intros Hg Hi Hj E. rewrite !site_id_tails in E.
  assert (K : forall k, 0 <= k < global_volume g -> forall x,
     In x (proc_at g k :: exchange_table g sten k ++ [Z.of_nat (length (exchange_table g sten k))]) -> 0 <= x).
  { intros k Hk x [<-|Hx]; [now apply proc_at_range|].
    apply in_app_iff in Hx as [Hx|[<-|[]]]; [|lia]. eapply exchange_range; eauto. }
  apply tails_inj in E; [|exact (K i Hi)|exact (K j Hj)]. injection E as E1 E2. apply app_inj_tail in E2 as [E2 _]. auto.
Qed.

(** ** chunk numbers *)
Lemma last_index_from_spec id ids : forall k acc,
  match last_index_from k id ids acc with
  | Some j => (acc = Some j) \/ (exists n, j = k + Z.of_nat n /\ nth_error ids n = Some id)
  | None => True
  end.
Proof.
  induction ids as [|h ids IH]; intros k acc; cbn; [now destruct acc; auto|].
  specialize (IH (k + 1) (if String.eqb h id then Some k else acc)).
  destruct (last_index_from (k + 1) id ids (if String.eqb h id then Some k else acc)) as [j|]; auto.
  destruct IH as [IH|(n & -> & Hn)].
  - destruct (String.eqb_spec h id) as [->|]; auto. right. injection IH as <-. exists 0%nat. split; [lia|auto].
  - right. exists (S n). split; [lia|auto].
Qed.

Definition tab_ok (g : geom) (sten : list site) (n : Z) (a : list string * list Z) : Prop :=
  length (snd a) = Z.to_nat n /\
  forall i, 0 <= i < n -> exists k, nth_error (snd a) (Z.to_nat i) = Some (Z.of_nat k) /\
     nth_error (fst a) k = Some (site_id g sten i).

Lemma tab_ok_step g sten n a : 0 <= n -> tab_ok g sten n a -> tab_ok g sten (n + 1) (id_step g sten a n).
Proof.
  intros Hn [HL HT]. destruct a as [ids tab]. cbn in *. unfold id_step. cbv zeta.
  pose proof (last_index_from_spec (site_id g sten n) ids 0 None) as HS.
  assert (Hnew : forall v, length (tab ++ [v]) = Z.to_nat (n + 1)) by (intros; rewrite app_length; cbn; lia).
  assert (Hold : forall v i, 0 <= i < n -> nth_error (tab ++ [v]) (Z.to_nat i) = nth_error tab (Z.to_nat i))
    by (intros; apply nth_error_app1; lia).
  assert (Hlast : forall v, nth_error (tab ++ [v]) (Z.to_nat n) = Some v).
  { intros. rewrite nth_error_app2 by lia. replace (Z.to_nat n - length tab)%nat with 0%nat by lia. reflexivity. }
  destruct (last_index_from 0 (site_id g sten n) ids None) as [j|].
  - destruct HS as [HS|(m & -> & Hm)]; [discriminate|]. split; cbn; [apply Hnew|].
    intros i Hi. destruct (Z.eq_dec i n) as [->|Hne].
    + exists m. rewrite Hlast. auto.
    + destruct (HT i ltac:(lia)) as (k & Hk1 & Hk2). exists k. rewrite Hold by lia. auto.
  - split; cbn; [apply Hnew|]. intros i Hi. destruct (Z.eq_dec i n) as [->|Hne].
    + exists (length ids). rewrite Hlast. split; auto.
      rewrite nth_error_app2 by lia. now rewrite Nat.sub_diag.
    + destruct (HT i ltac:(lia)) as (k & Hk1 & Hk2). exists k. rewrite Hold by lia. split; auto.
      rewrite nth_error_app1; auto. apply nth_error_Some. congruence.
Qed.

Lemma tab_ok_all g sten n : 0 <= n -> tab_ok g sten n (fold_left (id_step g sten) (zrange n) ([], [])).
Proof.
  intros Hn. rewrite <- (Z2Nat.id n) by lia. induction (Z.to_nat n) as [|k IH].
  - split; auto. cbn. intros; lia.
  - rewrite Nat2Z.inj_succ. unfold Z.succ. rewrite zrange_S by lia. rewrite fold_left_app. cbn [fold_left].
    apply tab_ok_step; [lia|exact IH].
Qed.

(** Facts about the chunks. *)
Lemma in_csites g sten tab k i : In i (csites (mk_chunk g sten tab k)) <->
  0 <= i < global_volume g /\ nth (Z.to_nat i) tab (-1) = k.
Proof. cbn. rewrite filter_In, in_zrange, Z.eqb_eq. tauto. Qed.

Lemma chunk_uniform g sten c i : valid_geom g -> In c (chunks g sten) -> In i (csites c) ->
  0 <= i < global_volume g /\ cowner c = proc_at g i /\ csharers c = exchange_table g sten i.
Proof.
  intros Hg Hc Hi. unfold chunks in Hc.
  assert (HV : 0 <= global_volume g) by (destruct Hg as ((?&?&?&?)&_); unfold global_volume; nia).
  pose proof (tab_ok_all g sten (global_volume g) HV) as HT. fold (id_tables g sten) in HT.
  destruct (id_tables g sten) as [ids tab]. destruct HT as [HL HT]. cbn in HL, HT.
  apply in_map_iff in Hc as (k & <- & Hk). apply in_csites in Hi as [Hi Hik]. split; auto.
  assert (Hsame : forall j, In j (csites (mk_chunk g sten tab k)) ->
    proc_at g j = proc_at g i /\ exchange_table g sten j = exchange_table g sten i).
  { intros j Hj. apply in_csites in Hj as [Hj Hjk]. apply site_id_inj; auto.
    destruct (HT i Hi) as (a & Ha1 & Ha2). destruct (HT j Hj) as (b & Hb1 & Hb2).
    rewrite (nth_error_nth _ _ _ Ha1) in Hik. rewrite (nth_error_nth _ _ _ Hb1) in Hjk.
    assert (a = b) by lia. subst b. congruence. }
  assert (Hin : In i (csites (mk_chunk g sten tab k))) by (apply in_csites; auto).
  assert (Hne : csites (mk_chunk g sten tab k) <> []) by (intros E; rewrite E in Hin; contradiction).
  assert (Hlast : forall A (f : Z -> A) d, (forall j, In j (csites (mk_chunk g sten tab k)) -> f j = f i) ->
     last (map f (csites (mk_chunk g sten tab k))) d = f i).
  { intros A f d Hf. assert (In (last (map f (csites (mk_chunk g sten tab k))) d) (map f (csites (mk_chunk g sten tab k)))) as HI.
    { apply last_In. intros E. apply map_eq_nil in E. auto. }
    apply in_map_iff in HI as (j & <- & Hj). auto. }
  split.
  - apply (Hlast _ (proc_at g)). intros j Hj. now apply Hsame.
  - apply (Hlast _ (exchange_table g sten)). intros j Hj. now apply Hsame.
Qed.

Lemma chunk_exists g sten i : valid_geom g -> 0 <= i < global_volume g ->
  exists c, In c (chunks g sten) /\ In i (csites c).
Proof.
  intros Hg Hi. unfold chunks.
  pose proof (tab_ok_all g sten (global_volume g) ltac:(lia)) as HT. fold (id_tables g sten) in HT.
  destruct (id_tables g sten) as [ids tab]. destruct HT as [HL HT]. cbn in HL, HT.
  destruct (HT i Hi) as (k & Hk1 & Hk2). exists (mk_chunk g sten tab (Z.of_nat k)). split.
  - apply in_map. apply in_zrange. assert (k < length ids)%nat by (apply nth_error_Some; congruence). lia.
  - apply in_csites. split; auto. now apply nth_error_nth.
Qed.

Lemma chunks_cid g sten : map cid (chunks g sten) = zrange (Z.of_nat (length (chunks g sten))).
Proof.
  unfold chunks. destruct (id_tables g sten) as [ids tab]. rewrite map_map. cbn.
  rewrite map_length, length_zrange, Nat2Z.id. apply map_id.
Qed.

Lemma NoDup_cid g sten : NoDup (map cid (chunks g sten)).
Proof. rewrite chunks_cid. apply NoDup_zrange. Qed.

Lemma NoDup_chunks g sten : NoDup (chunks g sten).
Proof. eapply NoDup_map_inv. apply NoDup_cid. Qed.

Lemma chunk_size g sten c : In c (chunks g sten) -> csize c = Z.of_nat (length (csites c)) /\ NoDup (csites c).
Proof.
  unfold chunks. destruct (id_tables g sten) as [ids tab]. intros H. apply in_map_iff in H as (k & <- & Hk).
  cbn. split; auto. apply NoDup_filter, NoDup_zrange.
Qed.

Lemma chunk_disjoint g sten c d i : In c (chunks g sten) -> In d (chunks g sten) ->
  In i (csites c) -> In i (csites d) -> c = d.
Proof.
  unfold chunks. destruct (id_tables g sten) as [ids tab]. intros H1 H2 Hi Hj.
  apply in_map_iff in H1 as (k & <- & _). apply in_map_iff in H2 as (l & <- & _).
  apply in_csites in Hi as [_ <-]. apply in_csites in Hj as [_ <-]. reflexivity.
Qed.

Lemma NoDup_sites g sten (L : list chunk) : NoDup L -> (forall c, In c L -> In c (chunks g sten)) ->
  NoDup (flat_map csites L).
Proof.
  intros HL H. apply NoDup_flat_map; auto.
  - intros c Hc. eapply chunk_size; eauto.
  - intros c d i Hc Hd. apply (chunk_disjoint g sten); auto.
Qed.

(** ** numbering *)
Definition index_or (l : list Z) (i : Z) : Z :=
  match index_of i l with Some k => Z.of_nat k | None => -1 end.

Lemma number_sites_spec l : forall f idx, NoDup l ->
  snd (number_sites f idx l) = idx + Z.of_nat (length l) /\
  forall i, fst (number_sites f idx l) i = match index_of i l with Some k => idx + Z.of_nat k | None => f i end.
Proof.
  unfold number_sites. induction l as [|x l IH]; intros f idx Hnd.
  - split; cbn; [lia|auto].
  - inversion Hnd as [|? ? Hni Hnd']; subst. cbn [fold_left].
    destruct (IH (upd f x idx) (idx + 1) Hnd') as [H1 H2]. split.
    + rewrite H1. cbn [length]. lia.
    + intros i. rewrite H2. cbn [index_of]. unfold upd.
      destruct (Z.eqb_spec x i) as [->|Hne].
      * rewrite (proj2 (index_of_None i l)) by auto. rewrite Z.eqb_refl. cbn. lia.
      * destruct (index_of i l); cbn; [lia|]. destruct (Z.eqb_spec i x); [congruence|auto].
Qed.

(** Offset of a chunk number in a list of placed chunks. *)
Fixpoint offset_in (k : Z) (acc : Z) (L : list chunk) : Z :=
  match L with
  | [] => -1
  | c :: r => if cid c =? k then acc else offset_in k (acc + csize c) r
  end.

Lemma offset_in_app k L c : forall acc, ~ In (cid c) (map cid L) ->
  offset_in k acc (L ++ [c]) = if cid c =? k then fold_left (fun a c => a + csize c) L acc else offset_in k acc L.
Proof.
  induction L as [|d L IH]; intros acc Hni; cbn.
  - now destruct (cid c =? k).
  - cbn in Hni. rewrite IH by tauto.
    destruct (Z.eqb_spec (cid d) k) as [<-|]; auto.
    destruct (Z.eqb_spec (cid c) (cid d)) as [E|]; auto. exfalso. apply Hni. left. auto.
Qed.

Definition placed (L : list chunk) (n : numbering) : Prop :=
  (forall i, li n i = index_or (flat_map csites L) i) /\
  nidx n = Z.of_nat (length (flat_map csites L)) /\
  noff n = Z.of_nat (length (flat_map csites L)) /\
  (forall k, noffs n k = offset_in k 0 L).

Lemma sum_csize L : forall acc, (forall c, In c L -> csize c = Z.of_nat (length (csites c))) ->
  fold_left (fun a c => a + csize c) L acc = acc + Z.of_nat (length (flat_map csites L)).
Proof.
  induction L as [|c L IH]; intros acc H; cbn; [lia|].
  rewrite IH by (intros; apply H; right; auto). rewrite (H c) by (left; auto). rewrite app_length. lia.
Qed.

Lemma place_placed L n c : placed L n -> (forall d, In d (L ++ [c]) -> csize d = Z.of_nat (length (csites d))) ->
  ~ In (cid c) (map cid L) -> NoDup (flat_map csites (L ++ [c])) -> placed (L ++ [c]) (place n c).
Proof.
  intros (Hli & Hidx & Hoff & Hoffs) Hsz Hni Hnd. unfold place.
  rewrite flat_map_app in Hnd. cbn [flat_map] in Hnd. rewrite app_nil_r in Hnd.
  assert (Hc : NoDup (csites c)).
  { clear -Hnd. induction (flat_map csites L) as [|a l IH]; cbn in Hnd; auto. inversion Hnd; auto. }
  destruct (number_sites_spec (csites c) (li n) (nidx n) Hc) as [H1 H2].
  destruct (number_sites (li n) (nidx n) (csites c)) as [f j]. cbn in H1, H2.
  assert (Hsc : csize c = Z.of_nat (length (csites c))) by (apply Hsz, in_app_iff; right; left; auto).
  split; [|split; [|split]]; cbn.
  - intros i. rewrite H2. unfold index_or. rewrite flat_map_app. cbn [flat_map]. rewrite app_nil_r, index_of_app.
    rewrite Hli, Hidx. unfold index_or.
    destruct (index_of i (csites c)) as [k|] eqn:E.
    + destruct (index_of i (flat_map csites L)) as [m|] eqn:E'; cbn; [|lia]. exfalso.
      assert (In i (csites c)) by (destruct (in_dec Z.eq_dec i (csites c)) as [|N]; auto; apply index_of_None in N; congruence).
      assert (In i (flat_map csites L)) by (destruct (in_dec Z.eq_dec i (flat_map csites L)) as [|N]; auto; apply index_of_None in N; congruence).
      clear - Hnd H H0. induction (flat_map csites L) as [|a l IH]; [contradiction|]. cbn in Hnd. inversion Hnd; subst.
      destruct H0 as [->|]; auto. apply H3, in_app_iff. auto.
    + now destruct (index_of i (flat_map csites L)).
  - rewrite H1, Hidx, flat_map_app, app_length. cbn [flat_map]. rewrite app_nil_r. lia.
  - rewrite Hoff, flat_map_app, app_length. cbn [flat_map]. rewrite app_nil_r. lia.
  - intros k. rewrite offset_in_app by auto. unfold upd. rewrite Z.eqb_sym.
    destruct (cid c =? k); auto. rewrite sum_csize, Hoff; [lia|].
    intros d Hd. apply Hsz, in_app_iff. auto.
Qed.

Lemma NoDup_app_l {A} (l m : list A) : NoDup (l ++ m) -> NoDup l.
Proof.
  induction l as [|a l IH]; cbn; intros H; [constructor|]. inversion H; subst. constructor; auto.
  intros Hi. apply H2, in_app_iff. auto.
Qed.

Lemma placed_fold (g : geom) (sten : list site) M : forall L n, placed L n ->
  NoDup (L ++ M) -> (forall c, In c (L ++ M) -> In c (chunks g sten)) ->
  placed (L ++ M) (fold_left place M n).
Proof.
  induction M as [|c M IH]; intros L n HP Hnd Hin; cbn.
  - now rewrite app_nil_r.
  - replace (L ++ c :: M) with ((L ++ [c]) ++ M) in * by now rewrite <- app_assoc.
    apply IH; auto.
    assert (Hin' : forall d, In d (L ++ [c]) -> In d (chunks g sten)) by (intros; apply Hin, in_app_iff; auto).
    apply NoDup_app_l in Hnd as Hnd'.
    apply place_placed; auto.
    + intros d Hd. eapply chunk_size; eauto.
    + intros H. apply in_map_iff in H as (d & Hd1 & Hd2).
      assert (d = c).
      { assert (Hd3 : In d (chunks g sten)) by (apply Hin', in_app_iff; auto). assert (Hc3 : In c (chunks g sten)) by (apply Hin', in_app_iff; right; left; auto).
        pose proof (NoDup_cid g sten) as K. clear - K Hd1 Hd3 Hc3.
        induction (chunks g sten) as [|a l IH]; [contradiction|]. cbn in K. inversion K; subst.
        destruct Hd3 as [->|Hd3], Hc3 as [->|Hc3]; auto.
        - exfalso. apply H1. rewrite Hd1. now apply in_map.
        - exfalso. apply H1. rewrite <- Hd1. now apply in_map. }
      subst d. apply NoDup_remove_2 in Hnd'. rewrite app_nil_r in Hnd'. contradiction.
    + eapply NoDup_sites; eauto.
Qed.

Lemma placed_ext L n m : li n = li m -> nidx n = nidx m -> noff n = noff m -> noffs n = noffs m ->
  placed L n -> placed L m.
Proof. unfold placed. intros -> -> -> ->. auto. Qed.

Definition P1 (g : geom) sten r := filter (fun c => (cowner c =? r) && negb (Nat.eqb (length (csharers c)) 0)) (chunks g sten).
Definition P2 (g : geom) sten r := filter (fun c => (cowner c =? r) && Nat.eqb (length (csharers c)) 0) (chunks g sten).
Definition P3 (g : geom) sten r := filter (fun c => existsb (Z.eqb r) (csharers c)) (chunks g sten).

Lemma pass1_fold r cs n :
  let m := pass1 r cs n in
  let L := filter (fun c => (cowner c =? r) && negb (Nat.eqb (length (csharers c)) 0)) cs in
  let m' := fold_left place L n in
  li m = li m' /\ nidx m = nidx m' /\ noff m = noff m' /\ noffs m = noffs m' /\
  nshared m = fold_left (fun a c => a + csize c) L (nshared n).
Proof.
  cbv zeta. unfold pass1. revert n. induction cs as [|c cs IH]; intros n; cbn; [auto|].
  destruct ((cowner c =? r) && negb (Nat.eqb (length (csharers c)) 0)); cbn [fold_left]; auto.
  set (n1 := Numbering _ _ _ _ _). destruct (IH n1) as (A & B & C & D & E).
  rewrite A, B, C, D, E. clear.
  assert (G : forall L a b, li a = li b -> nidx a = nidx b -> noff a = noff b -> noffs a = noffs b ->
     li (fold_left place L a) = li (fold_left place L b) /\ nidx (fold_left place L a) = nidx (fold_left place L b) /\
     noff (fold_left place L a) = noff (fold_left place L b) /\ noffs (fold_left place L a) = noffs (fold_left place L b)).
  { induction L as [|d L IHL]; intros a b H1 H2 H3 H4; cbn; auto.
    apply IHL; unfold place; rewrite H1, H2, ?H3, ?H4; destruct (number_sites _ _ _); cbn; congruence. }
  destruct (G (filter (fun c => (cowner c =? r) && negb (Nat.eqb (length (csharers c)) 0)) cs) n1 (place n c)) as (G1 & G2 & G3 & G4); auto.
Qed.

Lemma pass2_fold r cs n : pass2 r cs n = fold_left place (filter (fun c => (cowner c =? r) && Nat.eqb (length (csharers c)) 0) cs) n.
Proof. unfold pass2. apply fold_left_filter. Qed.

Lemma pass3_fold r cs n : (forall c, In c cs -> NoDup (csharers c)) ->
  pass3 r cs n = fold_left place (filter (fun c => existsb (Z.eqb r) (csharers c)) cs) n.
Proof.
  unfold pass3. revert n. induction cs as [|c cs IH]; intros n H; cbn; auto.
  rewrite IH by (intros; apply H; right; auto).
  rewrite (fold_left_filter (fun n _ => place n c) (fun x => x =? r)).
  rewrite filter_eq_NoDup by (apply H; left; auto).
  destruct (in_dec Z.eq_dec r (csharers c)) as [Hi|Hi].
  - replace (existsb (Z.eqb r) (csharers c)) with true; auto. symmetry. apply existsb_exists. exists r. split; auto. apply Z.eqb_refl.
  - replace (existsb (Z.eqb r) (csharers c)) with false; auto. symmetry. apply not_true_is_false. intros K.
    apply existsb_exists in K as (x & Hx & E). apply Z.eqb_eq in E. subst x. contradiction.
Qed.

Lemma csharers_NoDup g sten c : In c (chunks g sten) -> NoDup (csharers c).
Proof.
  unfold chunks. destruct (id_tables g sten) as [ids tab]. intros H. apply in_map_iff in H as (k & <- & Hk).
  cbn. destruct (filter _ _) as [|a l]; [constructor|].
  assert (In (last (map (exchange_table g sten) (a :: l)) []) (map (exchange_table g sten) (a :: l))) as HI
    by (apply last_In; discriminate).
  apply in_map_iff in HI as (j & <- & _). apply NoDup_exchange.
Qed.

Lemma sharer_nonempty g sten c r : In c (chunks g sten) -> In r (csharers c) -> exists i, In i (csites c).
Proof.
  unfold chunks. destruct (id_tables g sten) as [ids tab]. intros H. apply in_map_iff in H as (k & <- & Hk).
  cbn. intros H. destruct (filter _ _) as [|a l]; [contradiction|]. exists a. left; auto.
Qed.

Lemma in_P1 g sten r i : valid_geom g ->
  In i (flat_map csites (P1 g sten r)) <->
  0 <= i < global_volume g /\ proc_at g i = r /\ exchange_table g sten i <> [].
Proof.
  intros Hg. rewrite in_flat_map. unfold P1. split.
  - intros (c & Hc & Hi). apply filter_In in Hc as [Hc Hb].
    destruct (chunk_uniform g sten c i Hg Hc Hi) as (HV & HO & HS).
    apply andb_true_iff in Hb as [Hb1 Hb2]. apply Z.eqb_eq in Hb1. rewrite HO in Hb1. rewrite HS in Hb2.
    split; auto. split; auto. intros E. rewrite E in Hb2. discriminate.
  - intros (HV & HO & HS). destruct (chunk_exists g sten i Hg HV) as (c & Hc & Hi).
    exists c. split; auto. apply filter_In. split; auto.
    destruct (chunk_uniform g sten c i Hg Hc Hi) as (_ & HO' & HS'). rewrite HO', HS', HO, Z.eqb_refl.
    destruct (exchange_table g sten i); [congruence|]. reflexivity.
Qed.
Lemma in_P2 g sten r i : valid_geom g ->
  In i (flat_map csites (P2 g sten r)) <->
  0 <= i < global_volume g /\ proc_at g i = r /\ exchange_table g sten i = [].
Proof.
  intros Hg. rewrite in_flat_map. unfold P2. split.
  - intros (c & Hc & Hi). apply filter_In in Hc as [Hc Hb].
    destruct (chunk_uniform g sten c i Hg Hc Hi) as (HV & HO & HS).
    apply andb_true_iff in Hb as [Hb1 Hb2]. apply Z.eqb_eq in Hb1. rewrite HO in Hb1. rewrite HS in Hb2.
    split; auto. split; auto. now destruct (exchange_table g sten i).
  - intros (HV & HO & HS). destruct (chunk_exists g sten i Hg HV) as (c & Hc & Hi).
    exists c. split; auto. apply filter_In. split; auto.
    destruct (chunk_uniform g sten c i Hg Hc Hi) as (_ & HO' & HS'). rewrite HO', HS', HO, HS, Z.eqb_refl. reflexivity.
Qed.
Lemma existsb_In r l : existsb (Z.eqb r) l = true <-> In r l.
Proof.
  rewrite existsb_exists. split.
  - intros (x & Hx & E). apply Z.eqb_eq in E. now subst.
  - intros H. exists r. split; auto. apply Z.eqb_refl.
Qed.
Lemma in_P3 g sten r i : valid_geom g ->
  In i (flat_map csites (P3 g sten r)) <-> 0 <= i < global_volume g /\ In r (exchange_table g sten i).
Proof.
  intros Hg. rewrite in_flat_map. unfold P3. split.
  - intros (c & Hc & Hi). apply filter_In in Hc as [Hc Hb]. apply existsb_In in Hb.
    destruct (chunk_uniform g sten c i Hg Hc Hi) as (HV & HO & HS). rewrite HS in Hb. auto.
  - intros (HV & HS). destruct (chunk_exists g sten i Hg HV) as (c & Hc & Hi).
    exists c. split; auto. apply filter_In. split; auto. apply existsb_In.
    destruct (chunk_uniform g sten c i Hg Hc Hi) as (_ & HO' & HS'). now rewrite HS'.
Qed.

Definition P123 g sten r := P1 g sten r ++ P2 g sten r ++ P3 g sten r.

Lemma P123_chunks g sten r c : In c (P123 g sten r) -> In c (chunks g sten).
Proof.
  unfold P123, P1, P2, P3. rewrite !in_app_iff, !filter_In. tauto.
Qed.

Lemma NoDup_P123 g sten r : valid_geom g -> NoDup (P123 g sten r).
Proof.
  intros Hg. unfold P123, P1, P2, P3. pose proof (NoDup_chunks g sten) as HN.
  apply NoDup_app; [now apply NoDup_filter| |].
  - apply NoDup_app; [now apply NoDup_filter|now apply NoDup_filter|].
    intros c Hc Hd. apply filter_In in Hc as [Hc Hb]. apply filter_In in Hd as [_ Hd].
    apply existsb_In in Hd. apply andb_true_iff in Hb as [_ Hb]. destruct (csharers c); [contradiction|discriminate].
  - intros c Hc Hd. apply filter_In in Hc as [Hc Hb]. apply in_app_iff in Hd as [Hd|Hd]; apply filter_In in Hd as [_ Hd].
    + apply andb_true_iff in Hb as [_ Hb]. apply andb_true_iff in Hd as [_ Hd]. rewrite Hd in Hb. discriminate.
    + apply existsb_In in Hd. apply andb_true_iff in Hb as [Hb _]. apply Z.eqb_eq in Hb.
      destruct (sharer_nonempty g sten c r Hc Hd) as (i & Hi).
      destruct (chunk_uniform g sten c i Hg Hc Hi) as (HV & HO & HS). rewrite HS in Hd.
      apply in_exchange in Hd as (s & d & _ & _ & _ & _ & Hne). congruence.
Qed.

Lemma NoDup_app_r {A} (l m : list A) : NoDup (l ++ m) -> NoDup m.
Proof. induction l as [|a l IH]; cbn; intros H; auto. inversion H; auto. Qed.

Lemma NoDup_sites123 g sten r : valid_geom g -> NoDup (flat_map csites (P123 g sten r)).
Proof. intros Hg. eapply NoDup_sites; [now apply NoDup_P123|apply P123_chunks]. Qed.

Lemma placed0 : placed [] numbering0.
Proof. unfold placed, numbering0. cbn. auto. Qed.

Lemma numbering_placed g sten r : valid_geom g ->
  placed (P1 g sten r ++ P2 g sten r) (pass2 r (chunks g sten) (pass1 r (chunks g sten) numbering0)) /\
  placed (P123 g sten r) (numbering_of r (chunks g sten)) /\
  nshared (numbering_of r (chunks g sten)) = Z.of_nat (length (flat_map csites (P1 g sten r))).
Proof.
  intros Hg. pose proof (NoDup_P123 g sten r Hg) as HN. pose proof (P123_chunks g sten r) as HC.
  unfold P123 in *.
  destruct (pass1_fold r (chunks g sten) numbering0) as (A & B & C & D & E). fold (P1 g sten r) in A, B, C, D, E.
  assert (H1 : placed (P1 g sten r) (pass1 r (chunks g sten) numbering0)).
  { eapply placed_ext; [symmetry; exact A|symmetry; exact B|symmetry; exact C|symmetry; exact D|].
    apply (placed_fold g sten (P1 g sten r) [] numbering0 placed0).
    - cbn. now apply NoDup_app_l in HN.
    - cbn. intros c Hc. apply HC, in_app_iff. auto. }
  assert (H2 : placed (P1 g sten r ++ P2 g sten r) (pass2 r (chunks g sten) (pass1 r (chunks g sten) numbering0))).
  { rewrite pass2_fold. fold (P2 g sten r). apply (placed_fold g sten); auto.
    - rewrite app_assoc in HN. now apply NoDup_app_l in HN.
    - intros c Hc. apply HC. rewrite app_assoc. apply in_app_iff. auto. }
  assert (S2 : forall L n, nshared (fold_left place L n) = nshared n).
  { induction L as [|c L IH]; intros n; cbn; auto. rewrite IH. unfold place. now destruct (number_sites _ _ _). }
  split; [|split]; auto.
  - unfold numbering_of. rewrite (pass3_fold r) by (intros; eapply csharers_NoDup; eauto). fold (P3 g sten r).
    rewrite app_assoc. apply (placed_fold g sten); auto; rewrite <- app_assoc; auto.
  - unfold numbering_of. rewrite (pass3_fold r) by (intros; eapply csharers_NoDup; eauto).
    rewrite S2, pass2_fold, S2, E. cbn. rewrite sum_csize; [lia|].
    intros c Hc. eapply chunk_size. apply HC, in_app_iff. left. exact Hc.
Qed.

Lemma length_P12 g sten r : valid_geom g -> 0 <= r < number_processors g ->
  Z.of_nat (length (flat_map csites (P1 g sten r ++ P2 g sten r))) = localsize g.
Proof.
  intros Hg Hr. pose proof (localsize_pos g Hg).
  rewrite <- (Z2Nat.id (localsize g)) by lia. f_equal. rewrite <- (count_owned g r Hg Hr).
  apply Permutation_length. apply NoDup_Permutation.
  - pose proof (NoDup_sites123 g sten r Hg) as K. unfold P123 in K. rewrite app_assoc, flat_map_app in K.
    now apply NoDup_app_l in K.
  - apply NoDup_filter, NoDup_zrange.
  - intros i. rewrite flat_map_app, in_app_iff, in_P1, in_P2, filter_In, in_zrange, Z.eqb_eq by auto.
    destruct (exchange_table g sten i); split; intuition (try congruence).
Qed.

Lemma completesize_spec g sten r : valid_geom g -> 0 <= r < number_processors g ->
  completesize g (chunks g sten) r = Z.of_nat (length (flat_map csites (P123 g sten r))).
Proof.
  intros Hg Hr. unfold P123. rewrite app_assoc, flat_map_app, app_length, Nat2Z.inj_add, length_P12 by auto.
  unfold completesize. rewrite <- (sum_csize (P3 g sten r)).
  2:{ intros c Hc. eapply chunk_size. unfold P3 in Hc. apply filter_In in Hc. apply Hc. }
  unfold P3. rewrite <- (fold_left_filter (fun a c => a + csize c)).
  assert (K : forall cs a, (forall c, In c cs -> NoDup (csharers c)) ->
    fold_left (fun acc c => fold_left (fun acc r0 => if r0 =? r then acc + csize c else acc) (csharers c) acc) cs a =
    fold_left (fun a b => if existsb (Z.eqb r) (csharers b) then a + csize b else a) cs a).
  { induction cs as [|c cs IH]; intros a H; cbn; auto.
    rewrite IH by (intros; apply H; right; auto). f_equal.
    rewrite (fold_left_filter (fun n _ => n + csize c) (fun x => x =? r)).
    rewrite filter_eq_NoDup by (apply H; left; auto).
    destruct (in_dec Z.eq_dec r (csharers c)) as [Hi|Hi].
    - now rewrite (proj2 (existsb_In r (csharers c)) Hi).
    - replace (existsb (Z.eqb r) (csharers c)) with false; auto. symmetry. apply not_true_is_false.
      intros Q. apply existsb_In in Q. contradiction. }
  apply K. intros; eapply csharers_NoDup; eauto.
Qed.

Lemma startup_ok g : valid_geom g -> startup_checks g (number_processors g) = Ok tt.
Proof.
  intros ((Hx & Hy & Hz & Ht) & (Px & Py & Pz & Pt) & (Dx & Dy & Dz & Dt)).
  unfold startup_checks. rewrite Z.eqb_refl. cbn.
  assert (E : forall a b, 0 < a -> (b | a) -> Z.rem a b = 0).
  { intros a b Ha (k & ->). apply Z.rem_mul. intros ->. lia. }
  rewrite !(proj2 (Z.eqb_neq _ _)) by lia. cbn. rewrite !E by auto. reflexivity.
Qed.

(** The layout of a rank exists and is described by the concatenated site list. *)
Lemma initialize_ok g sten r : valid_geom g -> 0 <= r < number_processors g ->
  exists L, initialize g sten (number_processors g) r = Ok L /\
   lgeom L = g /\ lrank L = r /\ lchunks L = chunks g sten /\ llocalsize L = localsize g /\
   lcompletesize L = Z.of_nat (length (flat_map csites (P123 g sten r))) /\
   lsharedsize L = Z.of_nat (length (flat_map csites (P1 g sten r))) /\
   (forall i, local_index L i = index_or (flat_map csites (P123 g sten r)) i) /\
   (forall k, chunk_offset L k = offset_in k 0 (P123 g sten r)).
Proof.
  intros Hg Hr. unfold initialize. rewrite startup_ok by auto. cbn [obind]. cbv zeta.
  destruct (numbering_placed g sten r Hg) as ((_ & _ & O2 & _) & (I3 & _ & O3 & F3) & S3).
  rewrite O2, length_P12, Z.eqb_refl by auto. cbn [negb andb].
  fold (numbering_of r (chunks g sten)).
  rewrite completesize_spec by auto. rewrite O3, Z.eqb_refl. cbn [negb andb].
  eexists. split; [reflexivity|]. cbn. auto 10.
Qed.
