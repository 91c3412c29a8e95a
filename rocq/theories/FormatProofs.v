(** Proofs about the configuration formats. *)
From Coq Require Import ZArith List Bool Lia ZifyBool ZifyNat.
From Verif Require Import Base ListFacts LayoutModel LayoutSpec LayoutProofs LayoutFacts LayoutMain FormatModel FormatSpec.
Import ListNotations.
Open Scope Z_scope.

(** ** XDR. *)
Lemma be_length n z : length (be n z) = n.
Proof. revert z; induction n as [|n IH]; intro z; cbn [be]; [reflexivity|]. rewrite app_length, IH. cbn. lia. Qed.
Lemma of_be_snoc l b : of_be (l ++ [b]) = of_be l * 256 + b.
Proof. unfold of_be. rewrite fold_left_app. reflexivity. Qed.
Lemma of_be_be n z : of_be (be n z) = z mod 256 ^ Z.of_nat n.
Proof.
  revert z; induction n as [|n IH]; intro z; cbn [be].
  - change (256 ^ Z.of_nat 0) with 1. rewrite Z.mod_1_r. reflexivity.
  - rewrite of_be_snoc, IH. rewrite Nat2Z.inj_succ, Z.pow_succ_r by lia.
    pose proof (Z.pow_pos_nonneg 256 (Z.of_nat n)) as P.
    rewrite Z.rem_mul_r by lia. lia.
Qed.
Lemma be_bytes n z : Forall is_byte (be n z).
Proof.
  revert z; induction n as [|n IH]; intro z; cbn [be]; [constructor|].
  apply Forall_app; split; [apply IH|]. constructor; [|constructor].
  unfold is_byte. apply Z.mod_pos_bound; lia.
Qed.
Lemma take_bytes_app n b r : length b = n -> take_bytes n (b ++ r) = Some (b, r).
Proof.
  intro E. unfold take_bytes. rewrite app_length.
  destruct (Nat.ltb_spec (length b + length r) n); [lia|].
  rewrite <- E. rewrite firstn_app, firstn_all, Nat.sub_diag, skipn_app, skipn_all, Nat.sub_diag. cbn.
  now rewrite app_nil_r.
Qed.
Lemma take_bytes_short n l : (length l < n)%nat -> take_bytes n l = None.
Proof. intro H. unfold take_bytes. destruct (Nat.ltb_spec (length l) n); [reflexivity|lia]. Qed.

Lemma int_word z : is_int32 z -> int_of_word (z mod 2 ^ 32) = z.
Proof.
  unfold is_int32, int_of_word. change (2 ^ 31) with 2147483648. change (2 ^ 32) with 4294967296. intro H.
  destruct (Z_lt_le_dec z 0).
  - replace (z mod 4294967296) with (z + 4294967296)
      by (apply Z.mod_unique with (q := -1); lia).
    destruct (Z.ltb_spec (z + 4294967296) 2147483648); lia.
  - rewrite Z.mod_small by lia. destruct (Z.ltb_spec z 2147483648); lia.
Qed.
Lemma get_put_int z r : is_int32 z -> xdr_get_int (xdr_put_int z ++ r) = Some (z, r).
Proof.
  intro H. unfold xdr_get_int, xdr_put_int. rewrite take_bytes_app by apply be_length.
  rewrite of_be_be. change (256 ^ Z.of_nat 4) with (2 ^ 32). rewrite Z.mod_mod by lia. now rewrite int_word.
Qed.
Lemma get_put_double w r : is_bits 64 w -> xdr_get_double (xdr_put_double w ++ r) = Some (w, r).
Proof.
  intro H. unfold xdr_get_double, xdr_put_double. rewrite take_bytes_app by apply be_length.
  rewrite of_be_be. change (256 ^ Z.of_nat 8) with (2 ^ 64). now rewrite Z.mod_small.
Qed.
Lemma get_put_float w r : is_bits 32 w -> xdr_get_float (xdr_put_float w ++ r) = Some (w, r).
Proof.
  intro H. unfold xdr_get_float, xdr_put_float. rewrite take_bytes_app by apply be_length.
  rewrite of_be_be. change (256 ^ Z.of_nat 4) with (2 ^ 32). now rewrite Z.mod_small.
Qed.

(** ** Native format. *)
Definition entry_bytes (f : nat -> nat -> nat -> Z * Z) (k : nat * nat * nat) : list Z :=
  let '(mu, i, j) := k in xdr_put_double (fst (f mu i j)) ++ xdr_put_double (snd (f mu i j)).

Lemma flat_map_flat_map {A B C} (f : A -> list B) (g : B -> list C) l :
  flat_map g (flat_map f l) = flat_map (fun a => flat_map g (f a)) l.
Proof. induction l as [|a l IH]; cbn; [reflexivity|]. now rewrite flat_map_app, IH. Qed.
Lemma flat_map_of_map {A B C} (f : A -> B) (g : B -> list C) l : flat_map g (map f l) = flat_map (fun a => g (f a)) l.
Proof. induction l as [|a l IH]; cbn; [reflexivity|]. now rewrite IH. Qed.
Lemma flat_map_eq {A B} (f g : A -> list B) l : (forall a, In a l -> f a = g a) -> flat_map f l = flat_map g l.
Proof. induction l as [|a l IH]; cbn; intro H; [reflexivity|]. rewrite (H a) by auto. now rewrite IH by auto. Qed.

Lemma put_site_keys N s f : put_site N s f =
  xdr_put_int (sx s) ++ xdr_put_int (sy s) ++ xdr_put_int (sz s) ++ xdr_put_int (st s) ++
  flat_map (entry_bytes f) (read_keys N).
Proof.
  unfold put_site. do 4 f_equal. unfold read_keys. rewrite flat_map_flat_map.
  apply flat_map_eq; intros mu _. rewrite flat_map_flat_map.
  apply flat_map_eq; intros i _. rewrite flat_map_of_map. reflexivity.
Qed.
Lemma in_read_keys N mu i j : In (mu, i, j) (read_keys N) <-> (mu < 4)%nat /\ (i < N)%nat /\ (j < N)%nat.
Proof.
  unfold read_keys. split.
  - intro H. apply in_flat_map in H as (a & Ha & H). apply in_flat_map in H as (b & Hb & H).
    apply in_map_iff in H as (c & E & Hc). injection E as -> -> ->.
    apply in_seq in Ha, Hb, Hc. lia.
  - intros (A & B & C). apply in_flat_map. exists mu. split; [apply in_seq; lia|].
    apply in_flat_map. exists i. split; [apply in_seq; lia|]. apply in_map_iff. exists j.
    split; [reflexivity|apply in_seq; lia].
Qed.

(** Effect of reading one site. *)
Lemma get_entries_spec keys l f rest : forall u,
  (forall mu i j, In (mu, i, j) keys -> is_bits 64 (fst (f mu i j)) /\ is_bits 64 (snd (f mu i j))) ->
  exists u', get_entries keys l (flat_map (entry_bytes f) keys ++ rest) u = Ok (u', rest) /\
    (forall l' mu i j, l' <> l -> u' l' mu i j = u l' mu i j) /\
    (l <> -1 -> forall mu i j, In (mu, i, j) keys -> u' l mu i j = f mu i j) /\
    (l <> -1 -> forall mu i j, ~ In (mu, i, j) keys -> u' l mu i j = u l mu i j).
Proof.
  induction keys as [|((mu, i), j) keys IH]; intros u Hb.
  - exists u. repeat split; auto. intros _ mu i j [].
  - cbn [flat_map get_entries]. unfold entry_bytes at 1. rewrite <- !app_assoc.
    destruct (Hb mu i j (or_introl eq_refl)) as [B1 B2].
    rewrite (get_put_double _ _ B1), (get_put_double _ _ B2), <- surjective_pairing.
    set (u1 := if l =? -1 then u else set_entry u l mu i j (f mu i j)).
    destruct (IH u1) as (u' & E & A1 & A2 & A3); [intros; apply Hb; now right|].
    assert (S0 : forall l' a b c, l' <> l -> u1 l' a b c = u l' a b c).
    { intros l' a b c Hl. unfold u1, set_entry. destruct (l =? -1); [reflexivity|].
      destruct (Z.eqb_spec l' l); [contradiction|reflexivity]. }
    assert (S1 : l <> -1 -> u1 l mu i j = f mu i j).
    { intro Hl. unfold u1, set_entry. destruct (Z.eqb_spec l (-1)); [contradiction|].
      now rewrite Z.eqb_refl, !Nat.eqb_refl. }
    assert (S2 : l <> -1 -> forall a b c, (a, b, c) <> (mu, i, j) -> u1 l a b c = u l a b c).
    { intros Hl a b c Hn. unfold u1, set_entry. destruct (Z.eqb_spec l (-1)); [contradiction|].
      rewrite Z.eqb_refl. cbn [andb].
      destruct (Nat.eqb_spec a mu), (Nat.eqb_spec b i), (Nat.eqb_spec c j); cbn; try reflexivity. congruence. }
    exists u'. split; [exact E|]. split; [|split].
    + intros l' a b c Hl. rewrite A1 by assumption. now apply S0.
    + intros Hl a b c Hin.
      destruct (in_dec (fun x y : nat * nat * nat => ltac:(repeat decide equality)) (a, b, c) keys) as [Hk|Hk];
        [now apply A2|].
      rewrite A3 by assumption. destruct Hin as [Eq|Hin]; [|contradiction].
      injection Eq as <- <- <-. now apply S1.
    + intros Hl a b c Hin. rewrite A3; [|assumption|intro; apply Hin; now right].
      apply S2; [assumption|]. intro Eq. apply Hin. now left.
Qed.

Lemma coords_int g s : int_extents g -> in_box g s ->
  is_int32 (sx s) /\ is_int32 (sy s) /\ is_int32 (sz s) /\ is_int32 (st s).
Proof. unfold int_extents, in_box, is_int32. intros. lia. Qed.

Section Reader.
Variables (N : nat) (g : geom) (sten : list site) (r : Z) (L : layout) (F : global_field).
Hypothesis Hg : valid_geom g.
Hypothesis Hr : 0 <= r < number_processors g.
Hypothesis HL : initialize g sten (number_processors g) r = Ok L.
Hypothesis HI : int_extents g.
Hypothesis HF : doubles N F.

(** The sites of [done] kept by the rank hold the field. *)
Definition restored (done : list site) (u : nfield) : Prop :=
  forall s, In s done -> in_box g s -> local_index L (gidx g s) <> -1 ->
  forall mu i j, (mu < 4)%nat -> (i < N)%nat -> (j < N)%nat -> u (local_index L (gidx g s)) mu i j = F s mu i j.

Lemma get_record_spec s f rest u done : in_box g s ->
  (forall mu i j, (mu < 4)%nat -> (i < N)%nat -> (j < N)%nat -> f mu i j = F s mu i j) ->
  restored done u ->
  exists u', get_record N L (put_site N s f ++ rest) u = Ok (u', rest) /\ restored (s :: done) u'.
Proof.
  intros Hs Hf Hd. destruct (coords_int g s HI Hs) as (X & Y & Z' & T).
  unfold get_record. rewrite put_site_keys, <- !app_assoc.
  rewrite (get_put_int _ _ X), (get_put_int _ _ Y), (get_put_int _ _ Z'), (get_put_int _ _ T).
  replace (Site (sx s) (sy s) (sz s) (st s)) with s by (destruct s; reflexivity).
  rewrite (L_geom g sten r L Hg Hr HL).
  rewrite (ggc_gidx g s (valid_pos g Hg)).
  destruct (get_entries_spec (read_keys N) (local_index L (gidx g s)) f rest u) as (u' & E & A1 & A2 & A3).
  { intros mu i j Hin. apply in_read_keys in Hin as (B1 & B2 & B3). rewrite Hf by assumption. now apply HF. }
  exists u'. split; [exact E|].
  intros s' Hin Hs' Hk mu i j B1 B2 B3.
  destruct (Z.eq_dec (local_index L (gidx g s')) (local_index L (gidx g s))) as [Eq|Ne].
  - assert (s' = s) as ->.
    { pose proof (li_inj g sten r L Hg Hr HL _ _ Hk Eq) as G.
      apply (gidx_same_image g s' s (valid_pos g Hg)) in G. now apply (same_image_box g s' s (valid_pos g Hg)). }
    rewrite A2; [now apply Hf|assumption|]. now apply in_read_keys.
  - rewrite A1 by assumption. destruct Hin as [<-|Hin]; [congruence|]. now apply Hd.
Qed.

(** One file written by any rank of any grid of the lattice, then read back. *)
Lemma get_records_spec (h : geom) (M : layout) (u1 : nfield) (ls : list Z) :
  (forall l, In l ls -> exists s, global_coordinate M l = Some s /\ in_box g s /\
     forall mu i j, (mu < 4)%nat -> (i < N)%nat -> (j < N)%nat -> u1 l mu i j = F s mu i j) ->
  exists bs, put_sites N M u1 ls = Ok bs /\
  forall u done rest, restored done u ->
  exists u', get_records (length ls) N L (bs ++ rest) u = Ok u' /\
    restored done u' /\
    forall l s, In l ls -> global_coordinate M l = Some s -> restored [s] u'.
Proof.
  induction ls as [|l ls IH]; intro H.
  - exists []. split; [reflexivity|]. intros u done rest Hd. exists u. repeat split; auto. intros l s [].
  - destruct (H l (or_introl eq_refl)) as (s & Es & Hs & Hu).
    destruct IH as (bs & E & K); [intros; apply H; now right|].
    exists (put_site N s (u1 l) ++ bs). split; [cbn [put_sites]; rewrite Es, E; reflexivity|].
    intros u done rest Hd. rewrite <- app_assoc. cbn [length get_records].
    destruct (get_record_spec s (u1 l) (bs ++ rest) u done Hs Hu Hd) as (u' & E' & R').
    rewrite E'. cbn [obind].
    destruct (K u' (s :: done) rest R') as (u'' & E'' & R'' & Q). exists u''. split; [exact E''|]. split.
    + intros x Hx. apply R''. now right.
    + intros l' s' Hl Hs'. destruct Hl as [<-|Hl]; [|now apply (Q l')].
      rewrite Es in Hs'. injection Hs' as <-. intros x [<-|[]]. apply R''. now left.
Qed.

Lemma get_files_spec (h : geom) (Ms : Z -> layout) (u1 : Z -> nfield) (files : Z -> option (list Z)) n (ps : list Z) :
  (forall p, In p ps -> llocalsize (Ms p) = Z.of_nat n /\ (exists bs, native_file N (Ms p) (u1 p) = Ok bs /\ files p = Some bs) /\
    forall l, 0 <= l < llocalsize (Ms p) -> exists s, global_coordinate (Ms p) l = Some s /\ in_box g s /\
     forall mu i j, (mu < 4)%nat -> (i < N)%nat -> (j < N)%nat -> u1 p l mu i j = F s mu i j) ->
  forall u done, restored done u ->
  exists u', get_files N L n files ps u = Ok (true, u') /\ restored done u' /\
    forall p l s, In p ps -> 0 <= l < llocalsize (Ms p) -> global_coordinate (Ms p) l = Some s -> restored [s] u'.
Proof.
  induction ps as [|p ps IH]; intros H u done Hd.
  - exists u. repeat split; auto. intros p l s [].
  - destruct (H p (or_introl eq_refl)) as (En & (bs & Eb & Ef) & Hc).
    destruct (get_records_spec h (Ms p) (u1 p) (zrange (llocalsize (Ms p)))) as (bs' & E & K).
    { intros l Hl. apply in_zrange in Hl. now apply Hc. }
    assert (bs' = bs) as ->. { unfold native_file in Eb. rewrite E in Eb. now injection Eb. }
    destruct (K u done [] Hd) as (u' & E' & R' & Q).
    rewrite app_nil_r in E'. rewrite length_zrange, En, Nat2Z.id in E'.
    cbn [get_files]. rewrite Ef, E'. cbn [obind].
    set (done' := done ++ flat_map (fun l => match global_coordinate (Ms p) l with Some s => [s] | None => [] end)
                                   (zrange (llocalsize (Ms p)))).
    destruct (IH (fun q Hq => H q (or_intror Hq)) u' done') as (u'' & E'' & R'' & Q'').
    { intros s Hin. unfold done' in Hin. apply in_app_iff in Hin as [Hin|Hin]; [now apply R'|].
      apply in_flat_map in Hin as (l & Hl & Hin).
      destruct (global_coordinate (Ms p) l) as [s'|] eqn:Es; [|contradiction].
      destruct Hin as [<-|[]]. apply (Q l s' Hl Es). now left. }
    exists u''. split; [exact E''|]. split.
    + intros s Hin. apply R''. unfold done'. apply in_app_iff. now left.
    + intros q l s Hq Hl Es. destruct Hq as [<-|Hq]; [|now apply (Q'' q l)].
      intros x [<-|[]]. apply R''. unfold done'. apply in_app_iff. right. apply in_flat_map. exists l.
      split; [now apply in_zrange|]. rewrite Es. now left.
Qed.
End Reader.

(** ** Native format as a whole. *)
Lemma native_restores N g1 g2 sten1 sten2 (Ls1 Ls2 : Z -> layout) (F : global_field) (u1 : Z -> nfield) files :
  valid_geom g1 -> valid_geom g2 -> same_lattice g1 g2 -> int_extents g1 -> doubles N F ->
  (forall p, 0 <= p < number_processors g1 -> initialize g1 sten1 (number_processors g1) p = Ok (Ls1 p)) ->
  (forall p, 0 <= p < number_processors g2 -> initialize g2 sten2 (number_processors g2) p = Ok (Ls2 p)) ->
  (forall p s, in_box g1 s -> owned_by g1 p s -> forall mu i j, (mu < 4)%nat -> (i < N)%nat -> (j < N)%nat ->
     u1 p (local_index (Ls1 p) (gidx g1 s)) mu i j = F s mu i j) ->
  (forall p, 0 <= p < number_processors g1 ->
     exists bs, native_file N (Ls1 p) (u1 p) = Ok bs /\ files p = Some bs) ->
  forall r u, 0 <= r < number_processors g2 ->
  exists u', read_native N (Ls2 r) (Some (native_descriptor (Ls1 0))) files u = Ok (true, u') /\
    forall s, in_box g2 s -> (owned_by g2 r s \/ mirrors g2 sten2 r s) ->
    forall mu i j, (mu < 4)%nat -> (i < N)%nat -> (j < N)%nat ->
      u' (local_index (Ls2 r) (gidx g2 s)) mu i j = F s mu i j.
Proof.
  intros Hg1 Hg2 (Sx & Sy & Sz & St) HI HF H1 H2 Hu Hfiles r u Hr.
  assert (P0 : 0 <= 0 < number_processors g1).
  { destruct Hg1 as (_ & (A & B & C & D) & _). unfold number_processors. nia. }
  assert (HI2 : int_extents g2) by (unfold int_extents in *; lia).
  assert (Hbox : forall s, in_box g1 s <-> in_box g2 s) by (intro s; unfold in_box; rewrite Sx, Sy, Sz, St; tauto).
  unfold read_native. rewrite (L_geom g2 sten2 r (Ls2 r) Hg2 Hr (H2 r Hr)).
  unfold native_descriptor. rewrite (L_geom g1 sten1 0 (Ls1 0) Hg1 P0 (H1 0 P0)). cbn [d_x d_y d_z d_t d_procs d_localsize].
  rewrite Sx, Sy, Sz, St, !Z.eqb_refl. cbn [negb orb].
  rewrite (L_localsize g1 sten1 0 (Ls1 0) Hg1 P0 (H1 0 P0)).
  assert (Hpos : 0 <= localsize g1).
  { rewrite <- (L_localsize g1 sten1 0 (Ls1 0) Hg1 P0 (H1 0 P0)).
    pose proof (sizes_ordered g1 sten1 0 (Ls1 0) Hg1 P0 (H1 0 P0)). lia. }
  destruct (get_files_spec N g2 sten2 r (Ls2 r) F Hg2 Hr (H2 r Hr) HI2 HF g1 Ls1 u1 files
              (Z.to_nat (localsize g1)) (zrange (number_processors g1))) with (u := u) (done := @nil site)
    as (u' & E & _ & Q).
  - intros p Hp. apply in_zrange in Hp. split; [|split].
    + rewrite (L_localsize g1 sten1 p (Ls1 p) Hg1 Hp (H1 p Hp)). lia.
    + now apply Hfiles.
    + intros l Hl. pose proof (sizes_ordered g1 sten1 p (Ls1 p) Hg1 Hp (H1 p Hp)) as So.
      destruct (coordinate_of g1 sten1 p (Ls1 p) Hg1 Hp (H1 p Hp) l) as (s & Es & Hs & Hl'); [lia|].
      exists s. split; [exact Es|]. split; [now apply Hbox|]. intros mu i j B1 B2 B3.
      rewrite <- Hl'. apply Hu; auto. apply (owned_local g1 sten1 p (Ls1 p) Hg1 Hp (H1 p Hp)); [assumption|lia].
  - intros s [].
  - exists u'. split; [exact E|]. intros s Hs Hk mu i j B1 B2 B3.
    assert (Hk' : local_index (Ls2 r) (gidx g2 s) <> -1).
    { destruct Hk as [Hk|Hk].
      - apply (owned_local g2 sten2 r (Ls2 r) Hg2 Hr (H2 r Hr) s Hs) in Hk. lia.
      - apply (mirrors_local g2 sten2 r (Ls2 r) Hg2 Hr (H2 r Hr) s Hs) in Hk.
        pose proof (sizes_ordered g2 sten2 r (Ls2 r) Hg2 Hr (H2 r Hr)). lia. }
    assert (Hs1 : in_box g1 s) by now apply Hbox.
    set (p := owner_of g1 s).
    assert (Ho : owned_by g1 p s) by now apply (owned_by_spec g1 p s Hg1 Hs1).
    pose proof (owned_range g1 p s Hg1 Ho) as Hp.
    pose proof (proj1 (owned_local g1 sten1 p (Ls1 p) Hg1 Hp (H1 p Hp) s Hs1) Ho) as Hl.
    pose proof (sizes_ordered g1 sten1 p (Ls1 p) Hg1 Hp (H1 p Hp)) as So.
    assert (Ec : global_coordinate (Ls1 p) (local_index (Ls1 p) (gidx g1 s)) = Some s).
    { apply (coordinate_at g1 sten1 p (Ls1 p) Hg1 Hp (H1 p Hp)); [assumption|lia]. }
    apply (Q p _ s (proj2 (in_zrange (number_processors g1) p) Hp) Hl Ec); auto. now left.
Qed.

Lemma native_file_ok N g sten r L u : valid_geom g -> 0 <= r < number_processors g ->
  initialize g sten (number_processors g) r = Ok L -> exists bs, native_file N L u = Ok bs.
Proof.
  intros Hg Hr HL. unfold native_file.
  assert (H : forall l, In l (zrange (llocalsize L)) -> global_coordinate L l <> None).
  { intros l Hl. apply in_zrange in Hl. pose proof (sizes_ordered g sten r L Hg Hr HL).
    destruct (coordinate_of g sten r L Hg Hr HL l) as (s & -> & _); [lia|discriminate]. }
  induction (zrange (llocalsize L)) as [|l ls IH]; cbn [put_sites]; [now exists []|].
  destruct (global_coordinate L l) as [s|] eqn:E; [|exfalso; now apply (H l (or_introl eq_refl))].
  destruct IH as (bs & ->); [intros; apply H; now right|]. now eexists.
Qed.

Lemma native_other_size N L d files u :
  ~ (d_x d = gx (lgeom L) /\ d_y d = gy (lgeom L) /\ d_z d = gz (lgeom L) /\ d_t d = gt (lgeom L)) ->
  read_native N L (Some d) files u = Ok (false, u).
Proof.
  intro H. unfold read_native.
  destruct (Z.eqb_spec (d_x d) (gx (lgeom L))); [|reflexivity].
  destruct (Z.eqb_spec (d_y d) (gy (lgeom L))); [|reflexivity].
  destruct (Z.eqb_spec (d_z d) (gz (lgeom L))); [|reflexivity].
  destruct (Z.eqb_spec (d_t d) (gt (lgeom L))); [|reflexivity]. tauto.
Qed.

(** ** Muenster format: runs of a row. *)
Lemma take_run_spec g rank y z t xs : let '(a, b) := take_run g rank y z t xs in
  xs = a ++ b /\ (forall x, In x a -> rank_table g (Site x y z t) = rank) /\
  (forall x r, b = x :: r -> rank_table g (Site x y z t) <> rank).
Proof.
  induction xs as [|x xs IH]; cbn [take_run].
  - split; [reflexivity|]. split; [intros x []|discriminate].
  - destruct (Z.eqb_spec rank (rank_table g (Site x y z t))) as [E|E].
    + destruct (take_run g rank y z t xs) as (a, b). destruct IH as (-> & H1 & H2).
      split; [reflexivity|]. split; [|exact H2]. intros x' [<-|H]; auto.
    + split; [reflexivity|]. split; [intros x' []|]. intros x' r Eq. injection Eq as <- <-. congruence.
Qed.

Lemma row_runs_spec g y z t : forall fuel rank xs,
  (length xs <= fuel)%nat -> (forall x r, xs = x :: r -> rank_table g (Site x y z t) = rank) ->
  exists rs, row_runs fuel g rank y z t xs = Some rs /\
    flat_map snd rs = map (fun x => Site x y z t) xs /\
    (forall r s, In r rs -> In s (snd r) -> rank_table g s = fst r) /\ (forall r, In r rs -> snd r <> []).
Proof.
  induction fuel as [|k IH]; intros rank xs Hl Hr.
  - destruct xs; [|cbn in Hl; lia]. exists []. split; [reflexivity|]. split; [reflexivity|]. split; [intros r s []|intros r []].
  - destruct xs as [|x xs];
      [exists []; split; [reflexivity|]; split; [reflexivity|]; split; [intros r s []|intros r []]|].
    remember (x :: xs) as l eqn:El. cbn [row_runs]. pose proof (take_run_spec g rank y z t l) as T.
    destruct (take_run g rank y z t l) as (a, b) eqn:Et. destruct T as (E & A & B).
    assert (La : (0 < length a)%nat).
    { subst l. cbn [take_run] in Et. rewrite (Hr x xs eq_refl), Z.eqb_refl in Et.
      destruct (take_run g rank y z t xs). injection Et as <- <-. cbn; lia. }
    assert (Hrun : forall r s, In r [(rank, map (fun x => Site x y z t) a)] -> In s (snd r) -> rank_table g s = fst r).
    { intros r s [<-|[]] Hs. cbn [fst snd] in *. apply in_map_iff in Hs as (x' & <- & Hx). now apply A. }
    assert (Hne : map (fun x => Site x y z t) a <> []) by (destruct a; [cbn in La; lia|discriminate]).
    rewrite El. rewrite <- El. destruct b as [|x' b].
    + exists [(rank, map (fun x => Site x y z t) a)]. split; [reflexivity|].
      split; [cbn [flat_map snd]; rewrite app_nil_r in *; now subst a|]. split; [exact Hrun|]. intros r [<-|[]]. exact Hne.
    + destruct (IH (rank_table g (Site x' y z t)) (x' :: b)) as (rs & E1 & E2 & E3 & E4).
      { apply (f_equal (@length Z)) in E. rewrite app_length in E. lia. }
      { intros x0 r0 Eq. injection Eq as <- <-. reflexivity. }
      rewrite E1. exists ((rank, map (fun x => Site x y z t) a) :: rs). split; [reflexivity|]. split; [|split].
      * cbn [flat_map snd]. rewrite E2, E, map_app. reflexivity.
      * intros r s [Hin|Hin] Hs; [apply (Hrun r s); [now left|assumption]|now apply (E3 r s)].
      * intros r [<-|Hin]; [exact Hne|now apply E4].
Qed.

Lemma row_spec g y z t : 0 < gx g ->
  exists rs, row g y z t = Some rs /\ flat_map snd rs = map (fun x => Site x y z t) (zrange (gx g)) /\
    (forall r s, In r rs -> In s (snd r) -> rank_table g s = fst r) /\ (forall r, In r rs -> snd r <> []).
Proof.
  intro Hx. unfold row. apply row_runs_spec; [lia|].
  intros x r E. unfold zrange in E. destruct (Z.to_nat (gx g)) as [|n] eqn:En; [lia|].
  cbn [seq map] in E. injection E as <- _. reflexivity.
Qed.

Lemma join_rows_spec (A : Type) (P : Z * list site -> Prop) (f : A -> option (list (Z * list site))) (h : A -> list site) l :
  (forall a, In a l -> exists rs, f a = Some rs /\ flat_map snd rs = h a /\ Forall P rs) ->
  exists rs, join_rows (map f l) = Some rs /\ flat_map snd rs = flat_map h l /\ Forall P rs.
Proof.
  induction l as [|a l IH]; intro H.
  - exists []. repeat split. constructor.
  - destruct (H a (or_introl eq_refl)) as (rs & E & S & Q).
    destruct IH as (rs' & E' & S' & Q'); [intros; apply H; now right|].
    exists (rs ++ rs'). cbn [map join_rows]. rewrite E, E'. split; [reflexivity|]. split.
    + cbn [flat_map]. now rewrite flat_map_app, S, S'.
    + now apply Forall_app.
Qed.

Lemma flat_map_single {A B} (f : A -> B) l : map f l = flat_map (fun a => [f a]) l.
Proof. induction l; cbn; congruence. Qed.

Lemma all_rows_spec g : 0 < gx g ->
  exists rs, join_rows (all_rows g) = Some rs /\ flat_map snd rs = file_order g /\
    Forall (fun r => (forall s, In s (snd r) -> rank_table g s = fst r) /\ snd r <> []) rs.
Proof.
  intro Hx. unfold all_rows, file_order.
  set (tzy := flat_map (fun t => flat_map (fun z => map (fun y => (t, z, y)) (zrange (gy g))) (zrange (gz g))) (zrange (gt g))).
  replace (flat_map _ (zrange (gt g))) with (map (fun '(t, z, y) => row g y z t) tzy).
  2: { unfold tzy. rewrite !flat_map_single, flat_map_flat_map. apply flat_map_eq; intros t _.
       rewrite flat_map_flat_map. apply flat_map_eq; intros z _. rewrite flat_map_of_map. now rewrite flat_map_single. }
  replace (flat_map _ (zrange (gt g))) with (flat_map (fun '(t, z, y) => map (fun x => Site x y z t) (zrange (gx g))) tzy).
  2: { unfold tzy. rewrite flat_map_flat_map. apply flat_map_eq; intros t _.
       rewrite flat_map_flat_map. apply flat_map_eq; intros z _. now rewrite flat_map_of_map. }
  apply join_rows_spec. intros ((t, z), y) _. destruct (row_spec g y z t Hx) as (rs & E & S & Q & Q').
  exists rs. split; [exact E|]. split; [exact S|]. apply Forall_forall. intros r Hr.
  split; [intros s Hs; now apply (Q r s)|now apply Q'].
Qed.

Lemma in_file_order g s : In s (file_order g) <-> in_box g s.
Proof.
  unfold file_order, in_box. split.
  - intro H. apply in_flat_map in H as (t & Ht & H). apply in_flat_map in H as (z & Hz & H).
    apply in_flat_map in H as (y & Hy & H). apply in_map_iff in H as (x & <- & Hx).
    apply in_zrange in Ht, Hz, Hy, Hx. cbn [sx sy sz LayoutModel.st]. lia.
  - intros (X & Y & Z' & T). apply in_flat_map. exists (LayoutModel.st s). split; [now apply in_zrange|].
    apply in_flat_map. exists (sz s). split; [now apply in_zrange|].
    apply in_flat_map. exists (sy s). split; [now apply in_zrange|].
    apply in_map_iff. exists (sx s). split; [destruct s; reflexivity|now apply in_zrange].
Qed.

Lemma serial_is_file_order data (words : data -> list Z) g F : serial_words data words g F = flat_map (fun s => words (F s)) (file_order g).
Proof.
  unfold serial_words, file_order. rewrite flat_map_flat_map. apply flat_map_eq; intros t _.
  rewrite flat_map_flat_map. apply flat_map_eq; intros z _. rewrite flat_map_flat_map.
  apply flat_map_eq; intros y _. now rewrite flat_map_of_map.
Qed.

(** ** Muenster format: the parallel writer. *)
Section Writer.
Variables (data : Type) (words : data -> list Z) (K : nat).
Variables (g : geom) (sten : list site) (Ls : Z -> layout) (u : Z -> Z -> data) (F : site -> data)
  (stale : Z -> site -> list Z).
Hypothesis Hg : valid_geom g.
Hypothesis HL : forall r, 0 <= r < number_processors g -> initialize g sten (number_processors g) r = Ok (Ls r).
Hypothesis HK : forall d, length (words d) = K.
Hypothesis Hu : forall r s, in_box g s -> owned_by g r s -> u r (local_index (Ls r) (gidx g s)) = F s.

Definition run_words (r : Z * list site) : list Z := flat_map (fun s => words (F s)) (snd r).
Definition op0 (r : Z * list site) : op :=
  if fst r =? 0 then Emit (run_words r) else Recv (fst r) (length (snd r) * K).
Definition msgs (p : list op) : list (list Z) := flat_map (fun o => match o with Send m => [m] | _ => [] end) p.
Definition is_send (o : op) : Prop := match o with Send _ => True | _ => False end.

Lemma rank_table_owned r s : in_box g s -> rank_table g s = r -> owned_by g r s.
Proof.
  intros Hs E. apply (proc_at_owned g r s Hg Hs). unfold proc_at.
  pose proof (valid_pos g Hg) as P. rewrite site_at_gidx by auto. now rewrite wrap_id.
Qed.

Variable rs : list (Z * list site).
Hypothesis Hrs : join_rows (all_rows g) = Some rs.
Hypothesis Hsites : flat_map snd rs = file_order g.
Hypothesis Hruns : forall r, In r rs -> (forall s, In s (snd r) -> rank_table g s = fst r) /\ snd r <> [].

Lemma run_in_box r s : In r rs -> In s (snd r) -> in_box g s /\ owned_by g (fst r) s.
Proof.
  intros Hr Hs. assert (B : in_box g s).
  { apply in_file_order. rewrite <- Hsites. apply in_flat_map. now exists r. }
  split; [exact B|]. apply rank_table_owned; [exact B|].
  now apply (proj1 (Hruns r Hr)).
Qed.
Lemma run_rank r : In r rs -> 0 <= fst r < number_processors g.
Proof.
  intro Hr. destruct (Hruns r Hr) as [_ Hn].
  destruct (snd r) as [|s l] eqn:E; [contradiction|].
  destruct (run_in_box r s Hr) as [_ Ho]; [rewrite E; now left|]. now apply (owned_range g (fst r) s Hg).
Qed.

Lemma own_buffer r : In r rs -> run_buffer data words (Ls (fst r)) (u (fst r)) (stale (fst r)) (snd r) = run_words r.
Proof.
  intro Hr. pose proof (run_rank r Hr) as Hp. unfold run_buffer, run_words. apply flat_map_eq. intros s Hs.
  destruct (run_in_box r s Hr Hs) as [B O].
  rewrite (L_geom g sten (fst r) (Ls (fst r)) Hg Hp (HL _ Hp)).
  pose proof (proj1 (owned_local g sten (fst r) (Ls (fst r)) Hg Hp (HL _ Hp) s B) O) as Hl. cbn zeta.
  destruct (Z.eqb_spec (local_index (Ls (fst r)) (gidx g s)) (-1)); [lia|].
  destruct (Z.ltb_spec (local_index (Ls (fst r)) (gidx g s)) (llocalsize (Ls (fst r)))); [|lia].
  cbn [negb andb]. now rewrite Hu.
Qed.

Definition P (r : Z) : list op := flat_map (run_ops data words K (Ls r) r (u r) (stale r)) rs.

Lemma P_program r : 0 <= r < number_processors g -> writer_program data words K (Ls r) r (u r) (stale r) = Some (P r).
Proof.
  intro Hr. unfold writer_program. rewrite (L_geom g sten r (Ls r) Hg Hr (HL r Hr)), Hrs. reflexivity.
Qed.

Lemma P0 l : (forall r, In r l -> In r rs) ->
  flat_map (run_ops data words K (Ls 0) 0 (u 0) (stale 0)) l = map op0 l.
Proof.
  induction l as [|r l IH]; intro H; [reflexivity|]. cbn [flat_map map].
  rewrite IH by (intros; apply H; now right). unfold run_ops at 1. cbn [Z.eqb].
  replace (op0 r) with (if fst r =? 0 then Emit (run_words r) else Recv (fst r) (length (snd r) * K)) by reflexivity.
  destruct (Z.eqb_spec (fst r) 0) as [E|E]; [|reflexivity]. cbn [app].
  pose proof (own_buffer r (H r (or_introl eq_refl))) as B. rewrite E in B. now rewrite B.
Qed.
Lemma Pr r l : r <> 0 -> (forall x, In x l -> In x rs) ->
  flat_map (run_ops data words K (Ls r) r (u r) (stale r)) l =
  map (fun x => Send (run_words x)) (filter (fun x => fst x =? r) l).
Proof.
  intro Hr. induction l as [|x l IH]; intro H; [reflexivity|]. cbn [flat_map filter].
  rewrite IH by (intros; apply H; now right). unfold run_ops at 1.
  destruct (Z.eqb_spec r 0); [contradiction|].
  destruct (Z.eqb_spec (fst x) r) as [E|E]; [|reflexivity]. cbn [map app].
  pose proof (own_buffer x (H x (or_introl eq_refl))) as B. rewrite E in B. now rewrite B.
Qed.

(** What holds of every reachable state. *)
Definition winv (s : wstate) : Prop := exists don todo,
  rs = don ++ todo /\ prog s 0 = map op0 todo /\ out s = flat_map run_words don /\
  forall r, r <> 0 ->
    Forall is_send (prog s r) /\
    chan s r ++ msgs (prog s r) = map run_words (filter (fun x => fst x =? r) todo).

Lemma msgs_sends l : msgs (map (fun x => Send (run_words x)) l) = map run_words l.
Proof. induction l; cbn; [reflexivity|]. now f_equal. Qed.

Lemma winv_start : winv (wstart (number_processors g) P).
Proof.
  assert (N0 : 0 < number_processors g).
  { destruct Hg as (_ & (A & B & C & D) & _). unfold number_processors. nia. }
  exists [], rs. split; [reflexivity|]. split; [|split; [reflexivity|]].
  - cbn [prog wstart]. destruct (Z.leb_spec 0 0); [|lia]. destruct (Z.ltb_spec 0 (number_processors g)); [|lia].
    cbn [andb]. apply P0. auto.
  - intros r Hr. cbn [prog chan wstart app].
    destruct (Z.leb_spec 0 r), (Z.ltb_spec r (number_processors g)); cbn [andb].
    1: { unfold P. rewrite (Pr r rs Hr) by auto. split; [|apply msgs_sends].
         apply Forall_forall. intros o Ho. apply in_map_iff in Ho as (x & <- & _). exact I. }
    all: split; [constructor|]; cbn [msgs flat_map].
    all: rewrite filter_false; [reflexivity|]; intros x Hx; pose proof (run_rank x Hx).
    all: destruct (Z.eqb_spec (fst x) r); [lia|reflexivity].
Qed.

Lemma op0_emit x m : op0 x = Emit m -> fst x = 0 /\ m = run_words x.
Proof. unfold op0. destruct (Z.eqb_spec (fst x) 0); [|discriminate]. intro E. injection E as <-. auto. Qed.
Lemma op0_recv x r n : op0 x = Recv r n -> fst x = r /\ r <> 0 /\ n = (length (snd x) * K)%nat.
Proof. unfold op0. destruct (Z.eqb_spec (fst x) 0); [discriminate|]. intro E. injection E as <- <-. auto. Qed.
Lemma op0_send x m : op0 x <> Send m.
Proof. unfold op0. destruct (fst x =? 0); discriminate. Qed.
Lemma upd_same {A} (f : Z -> A) i v : upd f i v i = v.
Proof. unfold upd. now rewrite Z.eqb_refl. Qed.
Lemma upd_other {A} (f : Z -> A) i j v : j <> i -> upd f i v j = f j.
Proof. intro H. unfold upd. destruct (Z.eqb_spec j i); [contradiction|reflexivity]. Qed.

Lemma winv_step b s s' : winv s -> wstep b s s' -> winv s'.
Proof.
  intros (don & todo & E & E0 & Eo & Er) St. destruct St as [s m p Hp|s r m p _ Hp|s r n m p q Hp Hc Hl|s r n m p q Hp Hc Hs Hl].
  - (* emit *)
    rewrite E0 in Hp. destruct todo as [|x todo]; [discriminate|]. cbn [map] in Hp.
    assert (op0 x = Emit m /\ map op0 todo = p) as [Ox Op] by (split; congruence).
    destruct (op0_emit x m Ox) as [Fx ->].
    exists (don ++ [x]), todo. split; [rewrite E, <- app_assoc; reflexivity|].
    cbn [prog chan out]. split; [now rewrite upd_same|].
    split; [rewrite Eo, flat_map_app; cbn [flat_map]; now rewrite app_nil_r|].
    intros r Hr. rewrite upd_other by assumption. destruct (Er r Hr) as [A B]. split; [exact A|].
    rewrite B. cbn [filter]. destruct (Z.eqb_spec (fst x) r); [congruence|reflexivity].
  - (* send *)
    assert (r <> 0) as Hr.
    { intros ->. rewrite E0 in Hp. destruct todo as [|x todo]; [discriminate|].
      cbn [map] in Hp. apply (op0_send x m). congruence. }
    exists don, todo. split; [exact E|]. cbn [prog chan out]. split; [rewrite upd_other by congruence; exact E0|].
    split; [exact Eo|]. intros r' Hr'. destruct (Er r' Hr') as [A B].
    destruct (Z.eq_dec r' r) as [->|Ne].
    + rewrite !upd_same. rewrite Hp in A, B. inversion A as [|? ? _ A']; subst. split; [exact A'|].
      rewrite <- B, <- app_assoc. reflexivity.
    + rewrite !upd_other by assumption. now split.
  - (* receive *)
    rewrite E0 in Hp. destruct todo as [|x todo]; [discriminate|]. cbn [map] in Hp.
    assert (op0 x = Recv r n /\ map op0 todo = p) as [Ox Op] by (split; congruence).
    destruct (op0_recv x r n Ox) as (Fx & Hr & En).
    destruct (Er r Hr) as [A B]. rewrite Hc in B. cbn [filter] in B.
    destruct (Z.eqb_spec (fst x) r); [|contradiction]. cbn [map app] in B.
    assert (m = run_words x /\ q ++ msgs (prog s r) = map run_words (filter (fun x => fst x =? r) todo)) as [-> Bq]
      by (split; congruence).
    exists (don ++ [x]), todo. split; [rewrite E, <- app_assoc; reflexivity|].
    cbn [prog chan out]. split; [now rewrite upd_same|].
    split; [rewrite Eo, flat_map_app; cbn [flat_map]; now rewrite app_nil_r|].
    intros r' Hr'. rewrite upd_other by assumption. destruct (Er r' Hr') as [A' B'].
    destruct (Z.eq_dec r' r) as [->|Ne].
    + rewrite upd_same. now split.
    + rewrite upd_other by assumption. split; [exact A'|]. rewrite B'. cbn [filter].
      destruct (Z.eqb_spec (fst x) r'); [congruence|reflexivity].
  - (* rendezvous *)
    rewrite E0 in Hp. destruct todo as [|x todo]; [discriminate|]. cbn [map] in Hp.
    assert (op0 x = Recv r n /\ map op0 todo = p) as [Ox Op] by (split; congruence).
    destruct (op0_recv x r n Ox) as (Fx & Hr & En).
    destruct (Er r Hr) as [A B]. rewrite Hc, Hs in B. rewrite Hs in A. cbn [filter] in B.
    destruct (Z.eqb_spec (fst x) r); [|contradiction]. cbn [map app msgs flat_map] in B.
    assert (m = run_words x /\ msgs q = map run_words (filter (fun x => fst x =? r) todo)) as [-> Bq]
      by (split; unfold msgs in *; congruence).
    exists (don ++ [x]), todo. split; [rewrite E, <- app_assoc; reflexivity|].
    cbn [prog chan out]. split; [now rewrite upd_same|].
    split; [rewrite Eo, flat_map_app; cbn [flat_map]; now rewrite app_nil_r|].
    intros r' Hr'. rewrite upd_other by assumption. destruct (Er r' Hr') as [A' B'].
    destruct (Z.eq_dec r' r) as [->|Ne].
    + rewrite upd_same, Hc. inversion A as [|? ? _ A'']; subst. now split.
    + rewrite upd_other by assumption. split; [exact A'|]. rewrite B'. cbn [filter].
      destruct (Z.eqb_spec (fst x) r'); [congruence|reflexivity].
Qed.

Lemma winv_reach s : wreach (wstart (number_processors g) P) s -> winv s.
Proof.
  intro R. remember (wstart (number_processors g) P) as s0. induction R as [s|b s s1 s2 R IH St]; subst.
  - apply winv_start.
  - apply (winv_step b s1 s2); auto.
Qed.

Lemma runs_words : flat_map run_words rs = serial_words data words g F.
Proof. rewrite serial_is_file_order, <- Hsites. now rewrite flat_map_flat_map. Qed.

Lemma run_words_length x : length (run_words x) = (length (snd x) * K)%nat.
Proof.
  unfold run_words. induction (snd x) as [|s l IH]; [reflexivity|]. cbn [flat_map length].
  rewrite app_length, IH, HK. lia.
Qed.

(** When the output process is done, everything is written and nothing is left; before, some rank can move
    without relying on buffering. *)
Lemma writer_result s : wreach (wstart (number_processors g) P) s ->
  (prog s 0 = [] -> out s = serial_words data words g F /\ forall r, prog s r = [] /\ (r <> 0 -> chan s r = [])) /\
  (prog s 0 <> [] -> exists s', wstep false s s') /\
  exists rest, serial_words data words g F = out s ++ rest.
Proof.
  intro R. destruct (winv_reach s R) as (don & todo & E & E0 & Eo & Er). split; [|split].
  - intro H0. rewrite E0 in H0. apply map_eq_nil in H0. subst todo. rewrite app_nil_r in E. subst don.
    split; [rewrite Eo; apply runs_words|]. intro r. destruct (Z.eq_dec r 0) as [->|Hr].
    + split; [exact E0|contradiction].
    + destruct (Er r Hr) as [A B]. cbn [filter map] in B. apply app_eq_nil in B as [B1 B2].
      split; [|auto]. destruct (prog s r) as [|o p]; [reflexivity|].
      inversion A as [|? ? S _]; subst. destruct o; try contradiction. discriminate.
  - intro H0. destruct todo as [|x todo]; [rewrite E0 in H0; contradiction|]. cbn [map] in E0.
    destruct (op0 x) as [m|r n|m] eqn:Ox.
    + eexists. eapply st_emit. exact E0.
    + destruct (op0_recv x r n Ox) as (Fx & Hr & En). destruct (Er r Hr) as [A B]. cbn [filter] in B.
      destruct (Z.eqb_spec (fst x) r); [|contradiction]. cbn [map] in B.
      destruct (chan s r) as [|m q] eqn:Ec.
      * cbn [app] in B. destruct (prog s r) as [|o p] eqn:Ep; [discriminate|].
        inversion A as [|? ? S _]; subst. destruct o as [| |m]; try contradiction.
        cbn [msgs flat_map app] in B. eexists. eapply (st_sync false s (fst x) _ m); [exact E0|exact Ec|exact Ep|].
        assert (m = run_words x) as -> by congruence. apply run_words_length.
      * cbn [app] in B. eexists. eapply st_recv; [exact E0|exact Ec|].
        assert (m = run_words x) as -> by congruence. rewrite En. apply run_words_length.
    + exfalso. now apply (op0_send x m).
  - exists (flat_map run_words todo). rewrite Eo, <- flat_map_app, <- E. symmetry. apply runs_words.
Qed.

(** Every step uses up instructions. *)
Definition pending (s : wstate) : nat :=
  list_sum (map (fun r => length (prog s r)) (zrange (number_processors g))).
Lemma list_sum_lt (f h : Z -> nat) l i : In i l -> (forall j, In j l -> (f j <= h j)%nat) -> (f i < h i)%nat ->
  (list_sum (map f l) < list_sum (map h l))%nat.
Proof.
  induction l as [|a l IH]; intros Hi Hle Hlt; [contradiction|]. cbn [map list_sum fold_right].
  pose proof (Hle a (or_introl eq_refl)) as Ha. destruct Hi as [->|Hi].
  - assert ((list_sum (map f l) <= list_sum (map h l))%nat).
    { clear IH. assert (H : forall j, In j l -> (f j <= h j)%nat) by (intros; apply Hle; now right).
      clear Hle. induction l as [|c l IHl]; [cbn; lia|]. cbn [map list_sum fold_right].
      pose proof (H c (or_introl eq_refl)).
      assert ((list_sum (map f l) <= list_sum (map h l))%nat) by (apply IHl; intros; apply H; now right).
      unfold list_sum in *. lia. }
    unfold list_sum in *. lia.
  - assert ((list_sum (map f l) < list_sum (map h l))%nat) by (apply IH; auto; intros; apply Hle; now right).
    unfold list_sum in *. lia.
Qed.
Lemma prog_in_range s r : winv s -> prog s r <> [] -> 0 <= r < number_processors g.
Proof.
  intros (don & todo & E & E0 & Eo & Er) H.
  assert (N0 : 0 < number_processors g).
  { destruct Hg as (_ & (A & B & C & D) & _). unfold number_processors. nia. }
  destruct (Z.eq_dec r 0) as [->|Hr]; [lia|]. destruct (Er r Hr) as [A B].
  destruct (prog s r) as [|o p]; [contradiction|]. pose proof (Forall_inv A) as S. destruct o; try contradiction.
  destruct (filter (fun x => fst x =? r) todo) as [|x l] eqn:Ef.
  - cbn [msgs flat_map map] in B. apply app_eq_nil in B as [_ B]. discriminate.
  - assert (Hin : In x (filter (fun x => fst x =? r) todo)) by (rewrite Ef; now left).
    apply filter_In in Hin as [Hin Ex]. apply Z.eqb_eq in Ex. rewrite <- Ex. apply run_rank.
    rewrite E. apply in_app_iff. now right.
Qed.
Lemma pending_step b s s' : wreach (wstart (number_processors g) P) s -> wstep b s s' -> (pending s' < pending s)%nat.
Proof.
  intros R St. pose proof (winv_reach s R) as I. unfold pending.
  destruct St as [s m p Hp|s r m p _ Hp|s r n m p q Hp Hc Hl|s r n m p q Hp Hc Hs Hl]; cbn [prog].
  - apply list_sum_lt with (i := 0).
    + apply in_zrange. apply (prog_in_range s 0 I). congruence.
    + intros j _. unfold upd. destruct (Z.eqb_spec j 0) as [->|]; [rewrite Hp; cbn; lia|lia].
    + rewrite upd_same, Hp. cbn; lia.
  - apply list_sum_lt with (i := r).
    + apply in_zrange. apply (prog_in_range s r I). congruence.
    + intros j _. unfold upd. destruct (Z.eqb_spec j r) as [->|]; [rewrite Hp; cbn; lia|lia].
    + rewrite upd_same, Hp. cbn; lia.
  - apply list_sum_lt with (i := 0).
    + apply in_zrange. apply (prog_in_range s 0 I). congruence.
    + intros j _. unfold upd. destruct (Z.eqb_spec j 0) as [->|]; [rewrite Hp; cbn; lia|lia].
    + rewrite upd_same, Hp. cbn; lia.
  - apply list_sum_lt with (i := 0).
    + apply in_zrange. apply (prog_in_range s 0 I). congruence.
    + intros j _. unfold upd. destruct (Z.eqb_spec j 0) as [->|]; [rewrite Hp; cbn; lia|].
      destruct (Z.eqb_spec j r) as [->|]; [rewrite Hs; cbn; lia|lia].
    + rewrite upd_same, Hp. cbn; lia.
Qed.
End Writer.

(** ** Muenster format: reading. *)
Lemma take_words_spec ws rest : Forall (is_bits 32) ws ->
  take_words (length ws) (flat_map xdr_put_float ws ++ rest) = Some (ws, rest).
Proof.
  induction ws as [|w ws IH]; intro H; [reflexivity|]. inversion H as [|? ? Hw Hws]; subst.
  cbn [length take_words flat_map]. rewrite <- app_assoc, (get_put_float _ _ Hw), IH by assumption. reflexivity.
Qed.

Section MReader.
(** Data as written and as read (they differ for three colours, where reading can fail). *)
Variables (wdata data : Type) (words : wdata -> list Z) (K : nat) (decode : list Z -> data).
Variables (g : geom) (sten : list site) (r : Z) (L : layout) (F : site -> wdata).
Hypothesis Hg : valid_geom g.
Hypothesis Hr : 0 <= r < number_processors g.
Hypothesis HL : initialize g sten (number_processors g) r = Ok L.
Hypothesis HK : forall d, length (words d) = K.
Hypothesis Hw : forall s, Forall (is_bits 32) (words (F s)).

Definition mrestored (don : list site) (u : Z -> data) : Prop :=
  forall s, In s don -> in_box g s -> local_index L (gidx g s) <> -1 ->
    u (local_index L (gidx g s)) = decode (words (F s)).
Lemma read_words_spec ss rest : (forall s, In s ss -> in_box g s) -> forall u don, mrestored don u ->
  exists u', read_words data K decode L ss (flat_map xdr_put_float (flat_map (fun s => words (F s)) ss) ++ rest) u
    = Ok (u', rest) /\ mrestored (don ++ ss) u'.
Proof.
  induction ss as [|s ss IH]; intros Hb u don Hd.
  - exists u. rewrite app_nil_r. now split.
  - cbn [flat_map read_words]. rewrite flat_map_app, <- app_assoc. 
    pose proof (take_words_spec (words (F s)) (flat_map xdr_put_float (flat_map (fun s => words (F s)) ss) ++ rest) (Hw s)) as T.
    rewrite HK in T. rewrite T. rewrite (L_geom g sten r L Hg Hr HL). cbn zeta.
    set (u1 := if local_index L (gidx g s) =? -1 then u else upd u (local_index L (gidx g s)) (decode (words (F s)))).
    destruct (IH (fun x Hx => Hb x (or_intror Hx)) u1 (don ++ [s])) as (u' & E & R).
    { intros s' Hin Hs' Hk. unfold u1.
      destruct (Z.eq_dec (local_index L (gidx g s')) (local_index L (gidx g s))) as [Eq|Ne].
      - assert (s' = s) as ->.
        { pose proof (li_inj g sten r L Hg Hr HL _ _ Hk Eq) as G.
          apply (gidx_same_image g s' s (valid_pos g Hg)) in G. apply (same_image_box g s' s (valid_pos g Hg)); auto.
          apply Hb. now left. }
        destruct (Z.eqb_spec (local_index L (gidx g s)) (-1)); [contradiction|]. apply upd_same.
      - assert (In s' don) as Hd'.
        { apply in_app_iff in Hin as [Hin|[<-|[]]]; [exact Hin|]. now destruct Ne. }
        destruct (local_index L (gidx g s) =? -1); [now apply Hd|]. rewrite upd_other by assumption. now apply Hd. }
    exists u'. rewrite <- app_assoc in R. split; [exact E|exact R].
Qed.

Lemma read_muenster_spec rest u :
  exists u', read_muenster_links data K decode L (flat_map xdr_put_float (serial_words wdata words g F) ++ rest) u
    = Ok (u', rest) /\
    forall s, in_box g s -> (owned_by g r s \/ mirrors g sten r s) ->
      u' (local_index L (gidx g s)) = decode (words (F s)).
Proof.
  unfold read_muenster_links. rewrite (L_geom g sten r L Hg Hr HL), serial_is_file_order.
  destruct (read_words_spec (file_order g) rest) with (u := u) (don := @nil site) as (u' & E & R).
  - intros s Hin. exact (proj1 (in_file_order g s) Hin).
  - intros s [].
  - exists u'. split; [exact E|]. intros s Hs Hk. apply R; [exact (proj2 (in_file_order g s) Hs)|assumption|].
    destruct Hk as [Hk|Hk].
    + apply (owned_local g sten r L Hg Hr HL s Hs) in Hk. lia.
    + apply (mirrors_local g sten r L Hg Hr HL s Hs) in Hk.
      pose proof (sizes_ordered g sten r L Hg Hr HL). lia.
Qed.
End MReader.

(** Two colours: what comes back. *)
Section SU2Proofs.
Variables (D : Type) (neg : D -> D) (to_float : D -> Z) (of_float : Z -> D).
Notation mat2 := (mat2 D).

Definition su2_shape (m : mat2) : Prop := m11 D m = cconj D neg (m00 D m) /\ m01 D m = cneg D neg (cconj D neg (m10 D m)).
(** Rounding an entry to a float and back. *)
Definition rounded (c : D * D) : D * D := (of_float (to_float (fst c)), of_float (to_float (snd c))).

Lemma site_of_site_words (u : nat -> mat2) mu : (mu < 4)%nat ->
  site_of_words D neg of_float (site_words D neg to_float u) mu =
  link_of_words D neg of_float (to_float (fst (m00 D (u mu)))) (to_float (neg (snd (m00 D (u mu)))))
                               (to_float (fst (m10 D (u mu)))) (to_float (neg (snd (m10 D (u mu))))).
Proof. intro H. destruct mu as [|[|[|[|mu]]]]; try lia; reflexivity. Qed.

Lemma su2_round_trip (u : nat -> mat2) mu : (mu < 4)%nat ->
  (forall a, neg (neg a) = a) ->
  (forall a, of_float (to_float (neg a)) = neg (of_float (to_float a))) ->
  su2_shape (u mu) ->
  let m := site_of_words D neg of_float (site_words D neg to_float u) mu in
  m00 D m = rounded (m00 D (u mu)) /\ m01 D m = rounded (m01 D (u mu)) /\
  m10 D m = rounded (m10 D (u mu)) /\ m11 D m = rounded (m11 D (u mu)).
Proof.
  intros Hmu Hn Hf (S1 & S2). cbn zeta. rewrite site_of_site_words by assumption.
  rewrite S1, S2. destruct (u mu) as [a b c d]. unfold link_of_words, rounded, cconj, cneg.
  cbn [m00 m01 m10 m11 fst snd]. rewrite !Hf, !Hn. repeat split.
Qed.
Lemma su2_always_shape a b c d : (forall x, neg (neg x) = x) -> su2_shape (link_of_words D neg of_float a b c d).
Proof. intro Hn. unfold su2_shape, link_of_words, cconj, cneg. cbn [m00 m01 m10 m11 fst snd]. rewrite !Hn. now split. Qed.
End SU2Proofs.

(** ** The trailer. *)
Lemma trailer_ok plaq beta kappa sweep g : float_negative kappa = false -> is_int32 sweep ->
  is_int32 (gx g) -> is_int32 (gy g) -> is_int32 (gz g) -> is_int32 (gt g) ->
  read_trailer (trailer_words plaq beta kappa sweep g) =
    TrailerRead plaq beta kappa 1 sweep (gx g) (gy g) (gz g) (gt g).
Proof.
  intros Hk Hs X Y Z' T. unfold read_trailer, trailer_words. cbn [skipn nth kappa_loop]. rewrite Hk.
  cbn [Nat.mul Nat.add skipn nth]. now rewrite !int_word.
Qed.
Lemma trailer_negative plaq beta kappa sweep g : float_negative kappa = true ->
  read_trailer (trailer_words plaq beta kappa sweep g) = Uninitialised.
Proof.
  intro Hk. unfold read_trailer, trailer_words. cbn [skipn nth kappa_loop]. rewrite Hk.
  replace (float_negative 0) with false by reflexivity. reflexivity.
Qed.
