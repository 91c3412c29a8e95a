From Coq Require Import ZArith List Bool Lia.
From Verif Require Import Base ListFacts LayoutModel LayoutSpec LayoutProofs LayoutMain BlockModel BlockSpec.
Import ListNotations.
Open Scope Z_scope.

Lemma blocks_along_cover n b : 0 <= n -> 0 < b -> blocks_along n b = cover n b.
Proof.
  intros Hn Hb. unfold blocks_along, cover.
  pose proof (Z.div_mod n b ltac:(lia)) as E. pose proof (Z.mod_pos_bound n b Hb) as R.
  destruct (Z.eqb_spec (n mod b) 0) as [e|e].
  - rewrite Z.add_0_r. apply Z.div_unique with (r := b - 1); lia.
  - apply Z.div_unique with (r := n mod b - 1); lia.
Qed.

Lemma blocks_along_bound n b x : 0 < b -> 0 <= x < n -> 0 <= x / b < blocks_along n b.
Proof.
  intros Hb Hx. split; [apply Z.div_pos; lia|].
  rewrite blocks_along_cover by lia. unfold cover.
  assert (x / b + 1 <= (n + b - 1) / b); [|lia].
  replace (x / b + 1) with ((x + 1 * b) / b) by (rewrite Z.div_add by lia; reflexivity).
  apply Z.div_le_mono; lia.
Qed.

Lemma blocks_along_hit n b k : 0 < n -> 0 < b -> 0 <= k < blocks_along n b -> 0 <= k * b < n.
Proof.
  intros Hn Hb Hk. rewrite blocks_along_cover in Hk by lia. unfold cover in Hk.
  pose proof (Z.mul_div_le (n + b - 1) b Hb). nia.
Qed.

Lemma interval_same o b x y : 0 < b ->
  ((x - o) / b = (y - o) / b <->
   exists k, o + k * b <= x < o + (k + 1) * b /\ o + k * b <= y < o + (k + 1) * b).
Proof.
  intros Hb. split.
  - intros E. exists ((x - o) / b).
    pose proof (Z.div_mod (x - o) b ltac:(lia)). pose proof (Z.mod_pos_bound (x - o) b Hb).
    pose proof (Z.div_mod (y - o) b ltac:(lia)). pose proof (Z.mod_pos_bound (y - o) b Hb).
    rewrite <- E in *. nia.
  - intros (k & Hx & Hy).
    assert (K : forall z, o + k * b <= z < o + (k + 1) * b -> (z - o) / b = k).
    { intros z Hz. symmetry. apply Z.div_unique with (r := z - o - k * b); nia. }
    now rewrite !K.
Qed.

Lemma in_local k n s : 0 < n -> k * n <= s < (k + 1) * n -> s mod n = s - k * n /\ 0 <= s - k * n < n.
Proof.
  intros Hn Hs. split; [|lia]. symmetry. apply Z.mod_unique with (q := k); lia.
Qed.

Lemma mixed_inj n x y x' y' : 0 <= y < n -> 0 <= y' < n -> n * x + y = n * x' + y' -> x = x' /\ y = y'.
Proof.
  intros Hy Hy' E. assert (x = x').
  { rewrite (Z.div_unique (n * x + y) n x y) by lia. rewrite E. symmetry. apply Z.div_unique with (r := y'); lia. }
  subst. lia.
Qed.

Section G.
Variables (g : geom) (b : block_size).
Hypothesis Hg : valid_geom g.
Hypothesis Hb : positive_blocks b.

Lemma local_quot : lx g = gx g / px g /\ ly g = gy g / py g /\ lz g = gz g / pz g /\ lt g = gt g / pt g.
Proof.
  destruct Hg as ((? & ? & ? & ?) & (? & ? & ? & ?) & _).
  unfold lx, ly, lz, lt. rewrite !Z.quot_div_nonneg by lia. auto.
Qed.
Lemma local_pos : 0 < lx g /\ 0 < ly g /\ 0 < lz g /\ 0 < lt g.
Proof.
  destruct local_quot as (-> & -> & -> & ->).
  destruct Hg as ((? & ? & ? & ?) & (? & ? & ? & ?) & (D1 & D2 & D3 & D4)).
  repeat split; apply Z.div_str_pos; split; try lia; apply Z.divide_pos_le; auto; lia.
Qed.

Definition rel (o s : site) : site := site_sub s o.
Definition in_local_box (x : site) : Prop :=
  0 <= sx x < lx g /\ 0 <= sy x < ly g /\ 0 <= sz x < lz g /\ 0 <= st x < lt g.

Lemma owned_rel r o s : corner g r o -> owned_by g r s ->
  in_local_box (rel o s) /\ sx s mod lx g = sx (rel o s) /\ sy s mod ly g = sy (rel o s) /\
  sz s mod lz g = sz (rel o s) /\ st s mod lt g = st (rel o s).
Proof.
  intros (rx & ry & rz & rt & P & E & ->) (rx' & ry' & rz' & rt' & P' & E' & B).
  rewrite E in E'. apply rank_of_position_inj in E'; auto. destruct E' as (<- & <- & <- & <-).
  unfold in_rank_box in B. cbv zeta in B. destruct local_quot as (<- & <- & <- & <-).
  destruct local_quot as (Q1 & Q2 & Q3 & Q4). rewrite <- Q1, <- Q2, <- Q3, <- Q4 in B.
  destruct local_pos as (L1 & L2 & L3 & L4). destruct B as (B1 & B2 & B3 & B4).
  unfold in_local_box, rel, site_sub. cbn [sx sy sz st].
  destruct (in_local rx (lx g) (sx s) L1 B1), (in_local ry (ly g) (sy s) L2 B2),
    (in_local rz (lz g) (sz s) L3 B3), (in_local rt (lt g) (st s) L4 B4). auto 10.
Qed.

Definition number_of (x : site) : Z :=
  blocks_along (lt g) (bst b) *
    (blocks_along (lz g) (bsz b) * (blocks_along (ly g) (bsy b) * (sx x / bsx b) + sy x / bsy b) + sz x / bsz b)
  + st x / bst b.

Lemma block_number_rel r o s : corner g r o -> owned_by g r s -> block_number g b s = number_of (rel o s).
Proof.
  intros C O. destruct (owned_rel r o s C O) as (_ & E1 & E2 & E3 & E4).
  unfold block_number, number_of. cbv zeta. now rewrite E1, E2, E3, E4.
Qed.

Lemma quot_bounds x : in_local_box x ->
  0 <= sx x / bsx b < blocks_along (lx g) (bsx b) /\ 0 <= sy x / bsy b < blocks_along (ly g) (bsy b) /\
  0 <= sz x / bsz b < blocks_along (lz g) (bsz b) /\ 0 <= st x / bst b < blocks_along (lt g) (bst b).
Proof.
  intros (X & Y & Z0 & T). destruct Hb as (B1 & B2 & B3 & B4).
  split; [|split; [|split]]; apply blocks_along_bound; auto.
Qed.

Lemma number_of_bound x : in_local_box x -> 0 <= number_of x < total_blocks g b.
Proof.
  intros H. destruct (quot_bounds x H) as (X & Y & Z0 & T). unfold number_of, total_blocks.
  set (nx := blocks_along (lx g) _) in *. set (ny := blocks_along (ly g) _) in *.
  set (nz := blocks_along (lz g) _) in *. set (nt := blocks_along (lt g) _) in *.
  set (x1 := sx x / _) in *. set (y1 := sy x / _) in *. set (z1 := sz x / _) in *. set (t1 := st x / _) in *.
  clearbody nx ny nz nt x1 y1 z1 t1. clear H.
  assert (K : forall n m u v, 0 <= u < m -> 0 <= v < n -> 0 <= n * u + v < m * n).
  { intros n m u v Hu Hv. assert (u <= m - 1) by lia. nia. }
  apply K; auto; apply K; auto; apply K; auto.
Qed.

Lemma number_of_same o s s' : in_local_box (rel o s) -> in_local_box (rel o s') ->
  (number_of (rel o s) = number_of (rel o s') <-> same_block b o s s').
Proof.
  intros H H'. destruct (quot_bounds _ H) as (X & Y & Z0 & T). destruct (quot_bounds _ H') as (X' & Y' & Z0' & T').
  destruct Hb as (B1 & B2 & B3 & B4).
  assert (K : number_of (rel o s) = number_of (rel o s') <->
    (sx (rel o s) / bsx b = sx (rel o s') / bsx b /\ sy (rel o s) / bsy b = sy (rel o s') / bsy b /\
     sz (rel o s) / bsz b = sz (rel o s') / bsz b /\ st (rel o s) / bst b = st (rel o s') / bst b)).
  { unfold number_of. split.
    - intros E. apply mixed_inj in E; auto. destruct E as (E & E4).
      apply mixed_inj in E; auto. destruct E as (E & E3). apply mixed_inj in E; auto. tauto.
    - intros (-> & -> & -> & ->). reflexivity. }
  rewrite K. unfold rel, site_sub. cbn [sx sy sz st]. rewrite !interval_same by auto.
  unfold same_block. split.
  - intros (E1 & E2 & E3 & E4) mu Hmu. destruct mu as [|[|[|[|]]]]; cbn; auto; lia.
  - intros E. split; [apply (E 0%nat)|split; [apply (E 1%nat)|split; [apply (E 2%nat)|apply (E 3%nat)]]]; lia.
Qed.

Lemma mixed_hit n k : 0 < n -> k = n * (k / n) + k mod n /\ 0 <= k mod n < n.
Proof. intros. split; [apply Z.div_mod; lia|apply Z.mod_pos_bound; lia]. Qed.

Lemma along_pos n c : 0 < n -> 0 < c -> 0 < blocks_along n c.
Proof. intros. pose proof (blocks_along_bound n c 0 ltac:(lia) ltac:(lia)). lia. Qed.

Lemma number_of_hit k : 0 <= k < total_blocks g b -> exists x, in_local_box x /\ number_of x = k.
Proof.
  intros Hk. unfold total_blocks in Hk. destruct local_pos as (L1 & L2 & L3 & L4).
  destruct Hb as (B1 & B2 & B3 & B4).
  set (nx := blocks_along (lx g) _) in *. set (ny := blocks_along (ly g) _) in *.
  set (nz := blocks_along (lz g) _) in *. set (nt := blocks_along (lt g) _) in *.
  assert (Px : 0 < nx) by (apply along_pos; auto). assert (Py : 0 < ny) by (apply along_pos; auto).
  assert (Pz : 0 < nz) by (apply along_pos; auto). assert (Pt : 0 < nt) by (apply along_pos; auto).
  destruct (mixed_hit nt k Pt) as (E1 & R1). set (k1 := k / nt) in *. set (t := k mod nt) in *.
  assert (H1 : 0 <= k1 < nx * ny * nz) by (clearbody nx ny nz nt; split; [apply Z.div_pos; lia|apply Z.div_lt_upper_bound; lia]).
  destruct (mixed_hit nz k1 Pz) as (E2 & R2). set (k2 := k1 / nz) in *. set (z := k1 mod nz) in *.
  assert (H2 : 0 <= k2 < nx * ny) by (clearbody nx ny nz nt k1; split; [apply Z.div_pos; lia|apply Z.div_lt_upper_bound; lia]).
  destruct (mixed_hit ny k2 Py) as (E3 & R3). set (k3 := k2 / ny) in *. set (y := k2 mod ny) in *.
  assert (H3 : 0 <= k3 < nx) by (clearbody nx ny nz nt k2; split; [apply Z.div_pos; lia|apply Z.div_lt_upper_bound; lia]).
  exists (Site (k3 * bsx b) (y * bsy b) (z * bsz b) (t * bst b)). split.
  - unfold in_local_box. cbn [sx sy sz st]. split; [|split; [|split]]; eapply blocks_along_hit; eauto.
  - unfold number_of. cbn [sx sy sz st]. rewrite !Z.div_mul by lia. fold nt nz ny. congruence.
Qed.

End G.

Lemma inside_box a c k y : 0 < c -> 0 < a -> (c | a) -> 0 <= k < c -> 0 <= y < a / c -> 0 <= y + k * (a / c) < a.
Proof.
  intros Hc Ha (q & ->) Hk Hy. rewrite Z.div_mul in * by lia. assert (k <= c - 1) by lia. nia.
Qed.

Lemma blocks_of_process (g : geom) (sten : list site) (r : Z) (L : layout) (b : block_size) (dim : Z) (o : site) :
  valid_geom g -> 0 <= r < number_processors g -> initialize g sten (number_processors g) r = Ok L ->
  positive_blocks b -> corner g r o ->
  exists M, mg_initialize L b dim = Ok M /\
    mg_total M = cover (gx g / px g) (bsx b) * cover (gy g / py g) (bsy b) *
                 cover (gz g / pz g) (bsz b) * cover (gt g / pt g) (bst b) /\
    mg_size M = mg_total M * dim /\
    (forall l, 0 <= l < llocalsize L -> exists k, mg_index M l = Some k /\ 0 <= k < mg_total M) /\
    (forall l l' s s', 0 <= l < llocalsize L -> 0 <= l' < llocalsize L ->
       global_coordinate L l = Some s -> global_coordinate L l' = Some s' ->
       (mg_index M l = mg_index M l' <-> same_block b o s s')) /\
    (forall k, 0 <= k < mg_total M -> exists l, 0 <= l < llocalsize L /\ mg_index M l = Some k).
Proof.
  intros Hg Hr HL Hb Co. destruct (local_numbering g sten r Hg Hr) as (L' & HL' & S0 & S1 & S2 & Sa & Sb).
  rewrite HL in HL'. injection HL' as <-.
  destruct (initialize_ok g sten r Hg Hr) as (L' & HL' & G1 & _). rewrite HL in HL'. injection HL' as <-.
  clear S0. assert (Sub : forall l, 0 <= l < llocalsize L -> 0 <= l < lcompletesize L) by (intros; lia).
  assert (Own : forall l s, 0 <= l < llocalsize L -> global_coordinate L l = Some s -> owned_by g r s).
  { intros l s Hl E. destruct (Sb l (Sub l Hl)) as (s1 & I1 & I2 & _ & I4). rewrite E in I4. injection I4 as ->.
    apply (proj1 (proj2 (Sa s1 I1))). rewrite I2. exact Hl. }
  destruct (local_quot g Hg) as (Q1 & Q2 & Q3 & Q4). destruct (local_pos g Hg) as (P1 & P2 & P3 & P4).
  pose proof Hb as (B1 & B2 & B3 & B4).
  unfold mg_initialize.
  destruct (Z.eqb_spec (bsx b) 0); [lia|]. destruct (Z.eqb_spec (bsy b) 0); [lia|].
  destruct (Z.eqb_spec (bsz b) 0); [lia|]. destruct (Z.eqb_spec (bst b) 0); [lia|].
  cbn [orb]. cbv zeta. eexists. split; [reflexivity|]. cbn [mg_total mg_size mg_index]. rewrite G1.
  assert (Idx : forall l s, 0 <= l < llocalsize L -> global_coordinate L l = Some s ->
    (if (0 <=? l) && (l <? llocalsize L) then match global_coordinate L l with
       | Some s => Some (block_number g b s) | None => None end else None) = Some (number_of g b (rel o s))).
  { intros l s Hl E. rewrite (proj2 (Z.leb_le 0 l) (proj1 Hl)), (proj2 (Z.ltb_lt _ _) (proj2 Hl)). cbn [andb]. rewrite E. f_equal. eapply block_number_rel; eauto. }
  split. { unfold total_blocks. rewrite !blocks_along_cover by lia. now rewrite Q1, Q2, Q3, Q4. }
  split; [reflexivity|]. split; [|split].
  - intros l Hl. destruct (Sb l (Sub l Hl)) as (s & _ & _ & _ & E). rewrite (Idx l s Hl E).
    eexists. split; [reflexivity|]. apply number_of_bound; auto. eapply owned_rel; eauto.
  - intros l l' s s' Hl Hl' E E'. rewrite (Idx l s Hl E), (Idx l' s' Hl' E').
    rewrite <- (number_of_same g b Hb o s s'); try (eapply owned_rel; eauto).
    split; congruence.
  - intros k Hk. destruct (number_of_hit g b Hg Hb k Hk) as (x & Bx & Ex).
    pose proof Co as (rx & ry & rz & rt & Pg & Er & Eo).
    set (s := site_add x o).
    assert (Os : owned_by g r s).
    { exists rx, ry, rz, rt. split; auto. split; auto. unfold in_rank_box. cbv zeta.
      rewrite <- Q1, <- Q2, <- Q3, <- Q4. unfold s, site_add. rewrite Eo. cbn [sx sy sz st].
      rewrite <- Q1, <- Q2, <- Q3, <- Q4. destruct Bx as (? & ? & ? & ?). lia. }
    assert (Is : in_box g s).
    { destruct Hg as (He & Hp & (D1 & D2 & D3 & D4)).
      destruct Hp as (? & ? & ? & ?). destruct He as (? & ? & ? & ?). destruct Pg as (? & ? & ? & ?).
      destruct Bx as (X1 & X2 & X3 & X4). rewrite Q1 in X1. rewrite Q2 in X2. rewrite Q3 in X3. rewrite Q4 in X4.
      unfold in_box, s, site_add. rewrite Eo. cbn [sx sy sz st]. split; [|split; [|split]]; eapply inside_box; eauto. }
    pose proof (proj1 (proj1 (proj2 (Sa s Is))) Os) as Hl. set (l := local_index L (gidx g s)) in *.
    exists l. split; auto. destruct (Sb l (Sub l Hl)) as (s1 & I1 & I2 & I3 & I4).
    rewrite <- (I3 s Is eq_refl) in I4. rewrite (Idx l s Hl I4). f_equal.
    rewrite <- Ex. f_equal. unfold rel, s, site_sub, site_add. destruct x as [x1 x2 x3 x4]. cbn [sx sy sz st]. f_equal; ring.
Qed.

Lemma zero_block (L : layout) (b : block_size) (dim : Z) :
  (exists mu, (mu < 4)%nat /\ block_extent b mu = 0) -> mg_initialize L b dim = UB.
Proof.
  intros (mu & Hmu & E). unfold mg_initialize.
  destruct mu as [|[|[|[|]]]]; try lia; cbn in E; rewrite E; cbn [Z.eqb]; now rewrite ?orb_true_r.
Qed.

(** Positions in the data of a coarse vector. *)
Lemma positions (M : mg_layout) (d : Z) (v v' l l' p : Z) :
  (forall l k, mg_index M l = Some k -> 0 <= k < mg_total M) -> mg_size M = mg_total M * d ->
  0 <= v < d -> mg_position M v l = Some p ->
  0 <= p < mg_size M /\ (mg_position M v' l' = Some p <-> v' = v /\ mg_index M l' = mg_index M l).
Proof.
  unfold mg_position. intros R S Hv. destruct (mg_index M l) as [k|] eqn:E; [|discriminate].
  intros [= <-]. pose proof (R _ _ E) as B. split; [rewrite S; nia|].
  destruct (mg_index M l') as [k'|] eqn:E'.
  - pose proof (R _ _ E') as B'. split.
    + intros [= H]. destruct (mixed_inj (mg_total M) v' k' v k B' B H). subst. auto.
    + now intros (-> & [= ->]).
  - split; [discriminate|]. now intros (_ & [=]).
Qed.

Lemma dims_new (static d : Z) : own_dim (basis_new static d) = d /\ layout_dim (basis_new static d) = d.
Proof. unfold basis_new. destruct (Z.eqb_spec d static); cbn; auto. Qed.

Lemma dims_set (s : dims) (d : Z) : own_dim s = layout_dim s -> d <> layout_dim s ->
  own_dim (basis_set s d) = d /\ layout_dim (basis_set s d) = own_dim s /\
  layout_dim (basis_set s d) <> d /\
  (0 <= d < own_dim s -> orthogonalize_reads (basis_set s d) = UB) /\
  layout_dim (basis_set (basis_set s d) d) = d.
Proof.
  intros E N. unfold basis_set at 1 2 3 4 6. destruct (Z.eqb_spec d (layout_dim s)); [contradiction|].
  cbn [negb own_dim layout_dim]. split; auto. split; auto. split; [congruence|]. split.
  - intros H. unfold orthogonalize_reads. cbn [layout_dim own_dim]. destruct (Z.leb_spec (own_dim s) d); [lia|auto].
  - unfold basis_set. cbn [layout_dim own_dim]. destruct (Z.eqb_spec d (own_dim s)); [congruence|reflexivity].
Qed.
