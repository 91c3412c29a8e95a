(** Proofs about the halo exchange machine. *)
From Coq Require Import ZArith List Bool Lia Permutation ZifyBool ZifyNat.
From Verif Require Import Base ListFacts LayoutModel LayoutSpec LayoutProofs LayoutFacts HaloModel.
Open Scope Z_scope.

Lemma chan_eqb_spec a b : reflect (a = b) (chan_eqb a b).
Proof.
  destruct a as [[s d] t], b as [[s' d'] t']. cbn.
  destruct (Z.eqb_spec s s'), (Z.eqb_spec d d'), (Z.eqb_spec t t'); cbn; constructor; congruence.
Qed.
Lemma chan_eqb_refl a : chan_eqb a a = true.
Proof. destruct (chan_eqb_spec a a); congruence. Qed.

Definition sends_on (ch : chan) (E : list op) : list (nat * chunk) :=
  flat_map (fun o => match o with Send f c ch' => if chan_eqb ch' ch then [(f, c)] else [] | _ => [] end) E.
Definition recvs_on (ch : chan) (E : list op) : list (nat * chunk) :=
  flat_map (fun o => match o with Recv f c ch' => if chan_eqb ch' ch then [(f, c)] else [] | _ => [] end) E.

Lemma sends_on_app ch a b : sends_on ch (a ++ b) = sends_on ch a ++ sends_on ch b.
Proof. apply flat_map_app. Qed.
Lemma recvs_on_app ch a b : recvs_on ch (a ++ b) = recvs_on ch a ++ recvs_on ch b.
Proof. apply flat_map_app. Qed.

Lemma flat_map_flat_map {A B C} (f : B -> list C) (h : A -> list B) l :
  flat_map f (flat_map h l) = flat_map (fun a => flat_map f (h a)) l.
Proof. induction l as [|a l IH]; cbn; auto. now rewrite flat_map_app, IH. Qed.
Lemma flat_map_ext_in {A B} (f h : A -> list B) l : (forall a, In a l -> f a = h a) -> flat_map f l = flat_map h l.
Proof. induction l as [|a l IH]; cbn; intros H; auto. rewrite H, IH; auto. Qed.
Lemma flat_map_nil {A B} (f : A -> list B) l : (forall a, In a l -> f a = []) -> flat_map f l = [].
Proof. induction l as [|a l IH]; cbn; intros H; auto. rewrite H, IH; auto. Qed.

Section Halo.
Context {V : Type}.
Context (g : geom) (sten : list site) (Hg : valid_geom g).
Context (lay : Z -> layout).
Context (Hlay : forall r, 0 <= r < number_processors g -> initialize g sten (number_processors g) r = Ok (lay r)).
Context (tags : list (list Z)).
Let n := number_processors g.
Let cs := chunks g sten.

Lemma lay_chunks r : 0 <= r < n -> lchunks (lay r) = cs.
Proof. intros Hr. destruct (L_facts g sten r (lay r) Hg Hr (Hlay r Hr)) as (_ & _ & E & _). exact E. Qed.

Lemma owner_not_sharer c : In c cs -> ~ In (cowner c) (csharers c).
Proof.
  intros Hc Hi. destruct (sharer_nonempty g sten c _ Hc Hi) as (i & Hi').
  destruct (chunk_uniform g sten c i Hg Hc Hi') as (_ & EO & ES). rewrite EO, ES in Hi.
  apply in_exchange in Hi as (s & d & _ & _ & _ & _ & Hne). congruence.
Qed.
Lemma sharer_range c r : In c cs -> In r (csharers c) -> 0 <= r < n.
Proof.
  intros Hc Hi. destruct (sharer_nonempty g sten c _ Hc Hi) as (i & Hi').
  destruct (chunk_uniform g sten c i Hg Hc Hi') as (_ & EO & ES). rewrite ES in Hi.
  eapply exchange_range; eauto.
Qed.
Lemma shared_owner_range c r : In c cs -> In r (csharers c) -> 0 <= cowner c < n.
Proof.
  intros Hc Hi. destruct (sharer_nonempty g sten c _ Hc Hi) as (i & Hi').
  destruct (chunk_uniform g sten c i Hg Hc Hi') as (HV & EO & ES). rewrite EO. now apply proc_at_range.
Qed.

(** What one call contributes to a channel. *)
Lemma sends_on_sends ch r f : 0 <= r < n ->
  sends_on ch (sends_of (lay r) tags r f) =
  flat_map (fun c => if cowner c =? r then flat_map (fun j => if chan_eqb (r, nth j (csharers c) 0, tag_of tags c j) ch
      then [(f, c)] else []) (seq 0 (length (csharers c))) else []) cs.
Proof.
  intros Hr. unfold sends_on, sends_of. rewrite lay_chunks by auto. rewrite flat_map_flat_map.
  apply flat_map_ext_in. intros c Hc. destruct (cowner c =? r); cbn; auto. now rewrite flat_map_map.
Qed.
Lemma sends_on_recvs ch r f : sends_on ch (recvs_of (lay r) tags r f) = [].
Proof.
  unfold sends_on, recvs_of. rewrite flat_map_flat_map. apply flat_map_nil. intros c Hc.
  destruct (cowner c =? r); cbn; auto. rewrite flat_map_flat_map. apply flat_map_nil. intros j Hj.
  destruct (nth j (csharers c) 0 =? r); cbn; auto.
Qed.
Lemma recvs_on_sends ch r f : recvs_on ch (sends_of (lay r) tags r f) = [].
Proof.
  unfold recvs_on, sends_of. rewrite flat_map_flat_map. apply flat_map_nil. intros c Hc.
  destruct (cowner c =? r); cbn; auto. rewrite flat_map_map. apply flat_map_nil. auto.
Qed.
Lemma recvs_on_recvs ch r f : 0 <= r < n ->
  recvs_on ch (recvs_of (lay r) tags r f) =
  flat_map (fun c => if negb (cowner c =? r) then flat_map (fun j => if nth j (csharers c) 0 =? r then
      (if chan_eqb (cowner c, r, tag_of tags c j) ch then [(f, c)] else []) else []) (seq 0 (length (csharers c))) else []) cs.
Proof.
  intros Hr. unfold recvs_on, recvs_of. rewrite lay_chunks by auto. rewrite flat_map_flat_map.
  apply flat_map_ext_in. intros c Hc. destruct (negb (cowner c =? r)); cbn; auto. rewrite flat_map_flat_map.
  apply flat_map_ext_in. intros j Hj. destruct (nth j (csharers c) 0 =? r); cbn; auto.
  now rewrite app_nil_r.
Qed.

Lemma channel_lists ch calls : 0 <= csrc ch < n -> 0 <= cdst ch < n ->
  sends_on ch (ops_of (lay (csrc ch)) tags (csrc ch) calls) = recvs_on ch (ops_of (lay (cdst ch)) tags (cdst ch) calls).
Proof.
  intros Hs Hd. unfold ops_of. induction calls as [|[f|f] calls IH]; cbn [flat_map]; auto.
  rewrite !sends_on_app, !recvs_on_app, IH. f_equal. rewrite sends_on_recvs, recvs_on_sends, app_nil_r. cbn [app].
  rewrite sends_on_sends, recvs_on_recvs by auto. apply flat_map_ext_in. intros c Hc.
  destruct ch as [[s d] t]; cbn [csrc cdst fst snd] in *.
  destruct (Z.eqb_spec (cowner c) s) as [Es|Es]; destruct (Z.eqb_spec (cowner c) d) as [Ed|Ed]; cbn [negb]; auto.
  - apply flat_map_nil. intros j Hj. apply in_seq in Hj. cbn.
    destruct (Z.eqb_spec (nth j (csharers c) 0) d) as [E|E]; [|now rewrite andb_false_r].
    exfalso. apply (owner_not_sharer c Hc). rewrite Ed, <- E. apply nth_In. lia.
  - apply flat_map_ext_in. intros j Hj. cbn. rewrite Es, !Z.eqb_refl. cbn.
    destruct (nth j (csharers c) 0 =? d); cbn; auto.
  - symmetry. apply flat_map_nil. intros j Hj. cbn.
    rewrite (proj2 (Z.eqb_neq (cowner c) s)) by auto. cbn. now destruct (nth j (csharers c) 0 =? d).
Qed.

(** Entries of the channels. *)
Lemma in_sends_on ch r calls f c : 0 <= r < n -> In (f, c) (sends_on ch (ops_of (lay r) tags r calls)) ->
  In c cs /\ cowner c = r /\ csrc ch = r /\ In (cdst ch) (csharers c) /\ In (Communicate f) calls.
Proof.
  intros Hr. unfold ops_of. induction calls as [|[f'|f'] calls IH]; cbn [flat_map].
  - contradiction.
  - rewrite !sends_on_app, sends_on_recvs, app_nil_r, in_app_iff. intros [H|H].
    + rewrite sends_on_sends in H by auto. apply in_flat_map in H as (c' & Hc & H).
      destruct (Z.eqb_spec (cowner c') r) as [E|E]; [|contradiction].
      apply in_flat_map in H as (j & Hj & H). destruct (chan_eqb_spec (r, nth j (csharers c') 0, tag_of tags c' j) ch) as [Q|]; [|contradiction].
      destruct H as [H|[]]. injection H as <- <-. rewrite <- Q. cbn. repeat split; auto.
      apply nth_In. apply in_seq in Hj. lia.
    + destruct (IH H) as (A & B & C & D & F). repeat split; auto. right; auto.
  - cbn [sends_on flat_map app]. intros H. destruct (IH H) as (A & B & C & D & F). repeat split; auto. right; auto.
Qed.
Lemma in_recvs_on ch r calls f c : 0 <= r < n -> In (f, c) (recvs_on ch (ops_of (lay r) tags r calls)) ->
  In c cs /\ csrc ch = cowner c /\ cdst ch = r /\ In r (csharers c) /\ In (Communicate f) calls.
Proof.
  intros Hr. unfold ops_of. induction calls as [|[f'|f'] calls IH]; cbn [flat_map].
  - contradiction.
  - rewrite !recvs_on_app, recvs_on_sends. cbn [app]. rewrite in_app_iff. intros [H|H].
    + rewrite recvs_on_recvs in H by auto. apply in_flat_map in H as (c' & Hc & H).
      destruct (Z.eqb_spec (cowner c') r) as [E|E]; [contradiction|]. cbn [negb] in H.
      apply in_flat_map in H as (j & Hj & H). destruct (Z.eqb_spec (nth j (csharers c') 0) r) as [Er|]; [|contradiction].
      destruct (chan_eqb_spec (cowner c', r, tag_of tags c' j) ch) as [Q|]; [|contradiction].
      destruct H as [H|[]]. injection H as <- <-. rewrite <- Q. cbn. repeat split; auto.
      rewrite <- Er. apply nth_In. apply in_seq in Hj. lia.
    + destruct (IH H) as (A & B & C & D & F). repeat split; auto. right; auto.
  - cbn [recvs_on flat_map app]. intros H. destruct (IH H) as (A & B & C & D & F). repeat split; auto. right; auto.
Qed.
(** A mirrored chunk is received. *)
Lemma recv_posted c r f calls : In c cs -> 0 <= r < n -> In r (csharers c) -> In (Communicate f) calls ->
  exists ch, cdst ch = r /\ csrc ch = cowner c /\ In (f, c) (recvs_on ch (ops_of (lay r) tags r calls)).
Proof.
  intros Hc Hr Hi Hf. assert (Hne : cowner c <> r) by (intros E; apply (owner_not_sharer c Hc); now rewrite E).
  destruct (In_nth (csharers c) r 0 Hi) as (j & Hj & Ej).
  exists (cowner c, r, tag_of tags c j). split; auto. split; auto.
  apply in_split in Hf as (l1 & l2 & ->). unfold ops_of. rewrite flat_map_app, recvs_on_app, in_app_iff. right.
  cbn [flat_map]. rewrite !recvs_on_app, !in_app_iff. left. right. rewrite recvs_on_recvs by auto.
  apply in_flat_map. exists c. split; auto. rewrite (proj2 (Z.eqb_neq _ _) Hne). cbn.
  apply in_flat_map. exists j. split; [apply in_seq; lia|]. rewrite Ej, Z.eqb_refl, !Z.eqb_refl. cbn. auto.
Qed.

(** Positions of chunk sites. *)
Lemma offset_in_split k A c B acc : ~ In (cid c) (map cid A) -> cid c = k ->
  offset_in k acc (A ++ c :: B) = fold_left (fun a c => a + csize c) A acc.
Proof.
  revert acc. induction A as [|a A IH]; intros acc Hni E; cbn.
  - now rewrite E, Z.eqb_refl.
  - cbn in Hni. rewrite IH by tauto. destruct (Z.eqb_spec (cid a) k) as [Q|Q]; auto.
    exfalso. apply Hni. left. congruence.
Qed.

Lemma chunk_position r c k i : 0 <= r < n -> In c cs -> (cowner c = r \/ In r (csharers c)) ->
  nth_error (csites c) k = Some i ->
  local_index (lay r) i = chunk_offset (lay r) (cid c) + Z.of_nat k.
Proof.
  intros Hr Hc Hor Hk. destruct (L_facts g sten r (lay r) Hg Hr (Hlay r Hr)) as (_ & _ & _ & _ & _ & _ & EI & EO).
  rewrite EI, EO.
  assert (HP : In c (P123 g sten r)).
  { unfold P123, P1, P2, P3. rewrite !in_app_iff, !filter_In. fold cs. rewrite existsb_In. destruct Hor as [<-|Ho].
    - rewrite Z.eqb_refl. cbn. destruct (Nat.eqb (length (csharers c)) 0); cbn; auto.
    - auto. }
  pose proof (NoDup_P123 g sten r Hg) as HN. pose proof (P123_chunks g sten r) as HC.
  pose proof (NoDup_sites123 g sten r Hg) as HS.
  apply in_split in HP as (A & B & E). rewrite E in *.
  rewrite offset_in_split; auto.
  - rewrite sum_csize by (intros d Hd; eapply chunk_size; apply HC, in_app_iff; eauto).
    unfold index_or. rewrite flat_map_app in *. cbn [flat_map] in *.
    assert (K : nth_error (flat_map csites A ++ csites c ++ flat_map csites B) (length (flat_map csites A) + k) = Some i).
    { rewrite nth_error_app2 by lia. replace (_ + k - _)%nat with k by lia.
      rewrite nth_error_app1; auto. apply nth_error_Some. congruence. }
    apply index_of_Some in K; auto. rewrite K. lia.
  - intros H. apply in_map_iff in H as (d & Hd1 & Hd2).
    assert (d = c).
    { assert (Hd3 : In d cs) by (apply HC, in_app_iff; auto). pose proof (NoDup_cid g sten) as K. fold cs in K.
      clear - K Hd1 Hd3 Hc. induction cs as [|a l IH]; [contradiction|]. cbn in K. inversion K; subst.
      destruct Hd3 as [->|Hd3], Hc as [->|Hc]; auto.
      - exfalso. apply H1. rewrite Hd1. now apply in_map.
      - exfalso. apply H1. rewrite <- Hd1. now apply in_map. }
    subst d. apply NoDup_remove_2 in HN. apply HN, in_app_iff. auto.
Qed.

Lemma csite_at c j : In c cs -> 0 <= j < csize c -> exists i, nth_error (csites c) (Z.to_nat j) = Some i /\ In i (csites c).
Proof.
  intros Hc Hj. destruct (chunk_size g sten c Hc) as [E _]. destruct (nth_error (csites c) (Z.to_nat j)) as [i|] eqn:Q.
  - exists i. split; auto. eapply nth_error_In; eauto.
  - apply nth_error_None in Q. lia.
Qed.

Lemma owned_region c j : In c cs -> 0 <= cowner c < n -> 0 <= j < csize c ->
  0 <= chunk_offset (lay (cowner c)) (cid c) + j < localsize g.
Proof.
  intros Hc Hr Hj. destruct (csite_at c j Hc Hj) as (i & Hi & Hin).
  pose proof (chunk_position (cowner c) c _ i Hr Hc (or_introl eq_refl) Hi) as E. rewrite Z2Nat.id in E by lia.
  rewrite <- E. destruct (chunk_uniform g sten c i Hg Hc Hin) as (HV & EO & _).
  rewrite <- (L_localsize g sten _ _ Hg Hr (Hlay _ Hr)). apply (li_owned_iff g sten _ _ Hg Hr (Hlay _ Hr)). auto.
Qed.
Lemma halo_region c j r : In c cs -> 0 <= r < n -> In r (csharers c) -> 0 <= j < csize c ->
  localsize g <= chunk_offset (lay r) (cid c) + j < lcompletesize (lay r).
Proof.
  intros Hc Hr Hs Hj. destruct (csite_at c j Hc Hj) as (i & Hi & Hin).
  pose proof (chunk_position r c _ i Hr Hc (or_intror Hs) Hi) as E. rewrite Z2Nat.id in E by lia.
  rewrite <- E. destruct (chunk_uniform g sten c i Hg Hc Hin) as (HV & EO & ES). rewrite ES in Hs.
  rewrite <- (L_localsize g sten _ _ Hg Hr (Hlay _ Hr)). now apply (li_halo g sten _ _ Hg Hr (Hlay _ Hr)).
Qed.
Lemma regions_disjoint c d j k r : In c cs -> In d cs -> 0 <= r < n -> In r (csharers c) -> In r (csharers d) ->
  0 <= j < csize c -> 0 <= k < csize d ->
  chunk_offset (lay r) (cid c) + j = chunk_offset (lay r) (cid d) + k -> c = d /\ j = k.
Proof.
  intros Hc Hd Hr Hsc Hsd Hj Hk E. destruct (csite_at c j Hc Hj) as (i & Hi & Hin). destruct (csite_at d k Hd Hk) as (i' & Hi' & Hin').
  pose proof (chunk_position r c _ i Hr Hc (or_intror Hsc) Hi) as E1. pose proof (chunk_position r d _ i' Hr Hd (or_intror Hsd) Hi') as E2.
  rewrite Z2Nat.id in E1, E2 by lia.
  pose proof (halo_region c j r Hc Hr Hsc Hj). pose proof (localsize_pos g Hg).
  assert (i = i') by (apply (li_inj g sten _ _ Hg Hr (Hlay _ Hr)); lia). subst i'.
  assert (c = d) by (eapply (chunk_disjoint g sten); eauto). subst d. split; auto. lia.
Qed.

(** ** invariant *)
Context (calls : list call) (m0 : Z -> nat -> Z -> V).
Let OPS r := ops_of (lay r) tags r calls.

Definition executed (st : state V) (E : Z -> list op) : Prop :=
  (forall r, 0 <= r < n -> E r ++ rem st r = OPS r) /\
  (forall r, ~ 0 <= r < n -> rem st r = [] /\ E r = []) /\
  (forall ch, sends st ch = sends_on ch (E (csrc ch))) /\
  (forall ch, recvs st ch = recvs_on ch (E (cdst ch))).

Record inv (st : state V) (E : Z -> list op) : Prop := Inv
 { i_exec : executed st E;
   i_trunc : trunc st = false;
   i_log : NoDup (log st) /\ forall ch k, In (ch, k) (log st) -> (k < length (recvs st ch))%nat /\ (k < length (sends st ch))%nat;
   i_req : forall r f ch k, In (ch, k) (reqs st r f) ->
      (csrc ch = r /\ (k < length (sends st ch))%nat) \/ (cdst ch = r /\ (k < length (recvs st ch))%nat);
   i_post : forall ch k f c, nth_error (recvs st ch) k = Some (f, c) ->
      In (ch, k) (log st) \/ In (ch, k) (reqs st (cdst ch) f);
   i_wait : forall r f E1 E2, E r = E1 ++ WaitOp f :: E2 -> forall ch k c, cdst ch = r ->
      nth_error (recvs_on ch E1) k = Some (f, c) -> In (ch, k) (log st);
   i_own : forall r f x, ~ (localsize g <= x < lcompletesize (lay r)) -> mem st r f x = m0 r f x;
   i_other : forall r f x, ~ (0 <= r < n) -> mem st r f x = m0 r f x;
   i_unused : forall r f x, ~ In (Communicate f) calls -> mem st r f x = m0 r f x;
   i_data : forall ch k f c, In (ch, k) (log st) -> nth_error (recvs st ch) k = Some (f, c) ->
      forall j, 0 <= j < csize c ->
        mem st (cdst ch) f (chunk_offset (lay (cdst ch)) (cid c) + j) =
        m0 (csrc ch) f (chunk_offset (lay (csrc ch)) (cid c) + j) }.

Lemma nth_error_app_Some {A} (l m : list A) k x : nth_error l k = Some x -> nth_error (l ++ m) k = Some x.
Proof. intros H. rewrite nth_error_app1; auto. apply nth_error_Some. congruence. Qed.

Lemma prefix_entry_send st E ch k f c : executed st E -> nth_error (sends st ch) k = Some (f, c) ->
  0 <= csrc ch < n /\ nth_error (sends_on ch (OPS (csrc ch))) k = Some (f, c).
Proof.
  intros (X1 & X2 & X3 & X4) H. rewrite X3 in H.
  destruct (Z_lt_dec (csrc ch) 0) as [N|N]; [|destruct (Z_lt_dec (csrc ch) n) as [M|M]].
  - destruct (X2 (csrc ch)) as [_ K]; [lia|]. rewrite K in H. destruct k; discriminate.
  - split; [lia|]. rewrite <- X1 by lia. rewrite sends_on_app. now apply nth_error_app_Some.
  - destruct (X2 (csrc ch)) as [_ K]; [lia|]. rewrite K in H. destruct k; discriminate.
Qed.
Lemma prefix_entry_recv st E ch k f c : executed st E -> nth_error (recvs st ch) k = Some (f, c) ->
  0 <= cdst ch < n /\ nth_error (recvs_on ch (OPS (cdst ch))) k = Some (f, c).
Proof.
  intros (X1 & X2 & X3 & X4) H. rewrite X4 in H.
  destruct (Z_lt_dec (cdst ch) 0) as [N|N]; [|destruct (Z_lt_dec (cdst ch) n) as [M|M]].
  - destruct (X2 (cdst ch)) as [_ K]; [lia|]. rewrite K in H. destruct k; discriminate.
  - split; [lia|]. rewrite <- X1 by lia. rewrite recvs_on_app. now apply nth_error_app_Some.
  - destruct (X2 (cdst ch)) as [_ K]; [lia|]. rewrite K in H. destruct k; discriminate.
Qed.

(** The two sides of a match are the same field and the same chunk. *)
Lemma match_same st E ch k fs c_s fr cr : executed st E ->
  nth_error (sends st ch) k = Some (fs, c_s) -> nth_error (recvs st ch) k = Some (fr, cr) ->
  fs = fr /\ c_s = cr /\ 0 <= csrc ch < n /\ 0 <= cdst ch < n /\ In cr cs /\ cowner cr = csrc ch /\
  In (cdst ch) (csharers cr) /\ In (Communicate fr) calls.
Proof.
  intros X H1 H2. destruct (prefix_entry_send _ _ _ _ _ _ X H1) as [R1 K1].
  destruct (prefix_entry_recv _ _ _ _ _ _ X H2) as [R2 K2]. unfold OPS in *.
  rewrite channel_lists in K1 by auto. rewrite K2 in K1. injection K1 as <- <-.
  apply nth_error_In in K2. apply in_recvs_on in K2 as (A & B & C & D & F); auto.
  repeat (split; [solve [auto]|]). auto.
Qed.

Lemma inv_start : inv (start lay n tags calls m0) (fun _ => []).
Proof.
  constructor; cbn; auto.
  - split; [|split; [|split]]; cbn; auto.
    + intros r Hr. rewrite (proj2 (Z.leb_le 0 r)), (proj2 (Z.ltb_lt r n)) by lia. reflexivity.
    + intros r Hr. destruct (Z.leb_spec 0 r), (Z.ltb_spec r n); cbn; auto. lia.
  - split; [constructor|]. intros ch k [].
  - intros r f ch k [].
  - intros ch k f c H. destruct k; discriminate.
  - intros r f E1 E2 H. destruct E1; discriminate.
  - intros ch k f c [].
Qed.

Definition extend (E : Z -> list op) (r : Z) (o : op) : Z -> list op := upd E r (E r ++ [o]).

Lemma rank_of_rem st E r o rest : executed st E -> rem st r = o :: rest -> 0 <= r < n.
Proof.
  intros (X1 & X2 & _) H. destruct (Z_lt_dec r 0) as [N|N]; [|destruct (Z_lt_dec r n) as [M|M]]; [|lia|].
  - destruct (X2 r) as [K _]; [lia|]. congruence.
  - destruct (X2 r) as [K _]; [lia|]. congruence.
Qed.

Lemma in_OPS_send r f c ch : In (Send f c ch) (OPS r) -> csrc ch = r.
Proof.
  unfold OPS, ops_of. intros H. apply in_flat_map in H as ([f'|f'] & _ & H).
  - apply in_app_iff in H as [H|H].
    + apply in_flat_map in H as (c' & _ & H). destruct (cowner c' =? r); [|contradiction].
      apply in_map_iff in H as (j & E & _). injection E as _ _ <-. reflexivity.
    + apply in_flat_map in H as (c' & _ & H). destruct (negb (cowner c' =? r)); [|contradiction].
      apply in_flat_map in H as (j & _ & H). destruct (nth j (csharers c') 0 =? r); [|contradiction].
      destruct H as [H|[]]; discriminate.
  - destruct H as [H|[]]; discriminate.
Qed.
Lemma in_OPS_recv r f c ch : In (Recv f c ch) (OPS r) -> cdst ch = r.
Proof.
  unfold OPS, ops_of. intros H. apply in_flat_map in H as ([f'|f'] & _ & H).
  - apply in_app_iff in H as [H|H].
    + apply in_flat_map in H as (c' & _ & H). destruct (cowner c' =? r); [|contradiction].
      apply in_map_iff in H as (j & E & _). discriminate.
    + apply in_flat_map in H as (c' & _ & H). destruct (negb (cowner c' =? r)); [|contradiction].
      apply in_flat_map in H as (j & _ & H). destruct (nth j (csharers c') 0 =? r); [|contradiction].
      destruct H as [H|[]]. injection H as _ _ <-. reflexivity.
  - destruct H as [H|[]]; discriminate.
Qed.

Lemma upd_same {A} (f : Z -> A) i v : upd f i v i = v.
Proof. unfold upd. now rewrite Z.eqb_refl. Qed.
Lemma upd_other {A} (f : Z -> A) i v j : j <> i -> upd f i v j = f j.
Proof. intros H. unfold upd. now rewrite (proj2 (Z.eqb_neq j i)). Qed.

Lemma last_split {A} (E E1 E2 : list A) o x : E ++ [o] = E1 ++ x :: E2 ->
  (E2 = [] /\ o = x /\ E = E1) \/ (exists E2', E2 = E2' ++ [o] /\ E = E1 ++ x :: E2').
Proof.
  intros H. destruct E2 as [|y E2] using rev_ind.
  - apply app_inj_tail in H as [-> ->]. auto.
  - right. clear IHE2. exists E2. rewrite app_comm_cons, app_assoc in H. apply app_inj_tail in H as [-> ->]. auto.
Qed.

Lemma executed_extend st E r o rest sends' recvs' log' reqs' mem' tr' :
  executed st E -> rem st r = o :: rest -> 0 <= r < n ->
  (forall ch, sends' ch = sends st ch ++ if csrc ch =? r then sends_on ch [o] else []) ->
  (forall ch, recvs' ch = recvs st ch ++ if cdst ch =? r then recvs_on ch [o] else []) ->
  executed (State (upd (rem st) r rest) sends' recvs' log' reqs' mem' tr') (extend E r o).
Proof.
  intros (X1 & X2 & X3 & X4) Hrem Hr HS HR. split; [|split; [|split]]; cbn; unfold extend.
  - intros q Hq. destruct (Z.eq_dec q r) as [->|Hne].
    + rewrite !upd_same, <- app_assoc. cbn. rewrite <- Hrem. auto.
    + rewrite !upd_other by auto. auto.
  - intros q Hq. rewrite !upd_other by (intros ->; lia). auto.
  - intros ch. rewrite HS, X3. destruct (Z.eqb_spec (csrc ch) r) as [->|Hne].
    + rewrite upd_same, sends_on_app. reflexivity.
    + rewrite upd_other, app_nil_r by auto. reflexivity.
  - intros ch. rewrite HR, X4. destruct (Z.eqb_spec (cdst ch) r) as [->|Hne].
    + rewrite upd_same, recvs_on_app. reflexivity.
    + rewrite upd_other, app_nil_r by auto. reflexivity.
Qed.

Lemma inv_step st st' E : inv st E -> step lay st st' -> exists E', inv st' E'.
Proof.
  intros I HS. pose proof (i_exec _ _ I) as X. destruct HS as [r f c ch rest st Hrem | r f c ch rest st Hrem | r f rest st Hrem Hdone | ch k fs c_s fr cr st Hs Hr Hlog].
  - (* send *)
    pose proof (rank_of_rem _ _ _ _ _ X Hrem) as Hr.
    assert (Hsrc : csrc ch = r).
    { apply (in_OPS_send r f c ch). destruct X as (X1 & _). rewrite <- X1 by auto. rewrite Hrem. apply in_app_iff. right; left; auto. }
    exists (extend E r (Send f c ch)).
    assert (Hlen : forall ch', (length (sends st ch') <= length (on_chan (sends st) ch (sends st ch ++ [(f, c)]) ch'))%nat).
    { intros ch'. unfold on_chan. destruct (chan_eqb_spec ch' ch) as [->|]; [rewrite app_length|]; lia. }
    constructor; cbn.
    + eapply executed_extend; eauto.
      * intros ch'. unfold on_chan, sends_on. cbn. destruct (chan_eqb_spec ch' ch) as [->|Hne].
        -- rewrite Hsrc, Z.eqb_refl, chan_eqb_refl. reflexivity.
        -- destruct (csrc ch' =? r); [|now rewrite app_nil_r]. destruct (chan_eqb_spec ch ch'); [congruence|]. now rewrite app_nil_r.
      * intros ch'. cbn. destruct (cdst ch' =? r); now rewrite app_nil_r.
    + apply (i_trunc _ _ I).
    + destruct (i_log _ _ I) as [HN HL]. split; auto. intros ch' k' H. destruct (HL ch' k' H). split; auto.
      eapply Nat.lt_le_trans; [|apply Hlen]; auto.
    + intros r' f' ch' k' H. unfold upd in H. destruct (Z.eqb_spec r' r) as [->|Hne].
      * destruct (Nat.eqb_spec f' f) as [->|Hnf].
        -- apply in_app_iff in H as [H|[H|[]]].
           ++ destruct (i_req _ _ I _ _ _ _ H) as [[A B]|A]; auto. left. split; auto. eapply Nat.lt_le_trans; [|apply Hlen]; auto.
           ++ injection H as <- <-. left. split; auto. unfold on_chan. rewrite chan_eqb_refl, app_length. cbn. lia.
        -- destruct (i_req _ _ I _ _ _ _ H) as [[A B]|A]; auto. left. split; auto. eapply Nat.lt_le_trans; [|apply Hlen]; auto.
      * destruct (i_req _ _ I _ _ _ _ H) as [[A B]|A]; auto. left. split; auto. eapply Nat.lt_le_trans; [|apply Hlen]; auto.
    + intros ch' k' f' c' H. destruct (i_post _ _ I _ _ _ _ H) as [A|A]; auto. right. unfold upd.
      destruct (Z.eqb_spec (cdst ch') r) as [<-|]; auto. destruct (Nat.eqb_spec f' f) as [->|]; auto. apply in_app_iff. auto.
    + intros r' f' E1 E2 HE ch' k' c' Hd H. unfold extend in HE. destruct (Z.eq_dec r' r) as [->|Hne].
      * rewrite upd_same in HE. apply last_split in HE as [(_ & Q & _)|(E2' & _ & Q)]; [discriminate|].
        eapply (i_wait _ _ I); eauto.
      * rewrite upd_other in HE by auto. eapply (i_wait _ _ I); eauto.
    + apply (i_own _ _ I).
    + apply (i_other _ _ I).
    + apply (i_unused _ _ I).
    + apply (i_data _ _ I).
  - (* recv *)
    pose proof (rank_of_rem _ _ _ _ _ X Hrem) as Hr.
    assert (Hdst : cdst ch = r).
    { apply (in_OPS_recv r f c ch). destruct X as (X1 & _). rewrite <- X1 by auto. rewrite Hrem. apply in_app_iff. right; left; auto. }
    exists (extend E r (Recv f c ch)).
    assert (Hlen : forall ch', (length (recvs st ch') <= length (on_chan (recvs st) ch (recvs st ch ++ [(f, c)]) ch'))%nat).
    { intros ch'. unfold on_chan. destruct (chan_eqb_spec ch' ch) as [->|]; [rewrite app_length|]; lia. }
    assert (Hold : forall ch' k' f' c', nth_error (on_chan (recvs st) ch (recvs st ch ++ [(f, c)]) ch') k' = Some (f', c') ->
       nth_error (recvs st ch') k' = Some (f', c') \/ (ch' = ch /\ k' = length (recvs st ch) /\ f' = f /\ c' = c)).
    { intros ch' k' f' c' H. unfold on_chan in H. destruct (chan_eqb_spec ch' ch) as [->|Hne]; auto.
      destruct (Nat.lt_ge_cases k' (length (recvs st ch))) as [Hlt|Hge].
      - rewrite nth_error_app1 in H by auto. auto.
      - rewrite nth_error_app2 in H by auto. destruct (k' - length (recvs st ch))%nat as [|u] eqn:Eu.
        + cbn in H. injection H as <- <-. right. repeat split; auto. lia.
        + destruct u; discriminate. }
    constructor; cbn.
    + eapply executed_extend; eauto.
      * intros ch'. cbn. destruct (csrc ch' =? r); now rewrite app_nil_r.
      * intros ch'. unfold on_chan, recvs_on. cbn. destruct (chan_eqb_spec ch' ch) as [->|Hne].
        -- rewrite Hdst, Z.eqb_refl, chan_eqb_refl. reflexivity.
        -- destruct (cdst ch' =? r); [|now rewrite app_nil_r]. destruct (chan_eqb_spec ch ch'); [congruence|]. now rewrite app_nil_r.
    + apply (i_trunc _ _ I).
    + destruct (i_log _ _ I) as [HN HL]. split; auto. intros ch' k' H. destruct (HL ch' k' H). split; auto.
      eapply Nat.lt_le_trans; [|apply Hlen]; auto.
    + intros r' f' ch' k' H. unfold upd in H. destruct (Z.eqb_spec r' r) as [->|Hne].
      * destruct (Nat.eqb_spec f' f) as [->|Hnf].
        -- apply in_app_iff in H as [H|[H|[]]].
           ++ destruct (i_req _ _ I _ _ _ _ H) as [A|[A B]]; auto. right. split; auto. eapply Nat.lt_le_trans; [|apply Hlen]; auto.
           ++ injection H as <- <-. right. split; auto. unfold on_chan. rewrite chan_eqb_refl, app_length. cbn. lia.
        -- destruct (i_req _ _ I _ _ _ _ H) as [A|[A B]]; auto. right. split; auto. eapply Nat.lt_le_trans; [|apply Hlen]; auto.
      * destruct (i_req _ _ I _ _ _ _ H) as [A|[A B]]; auto. right. split; auto. eapply Nat.lt_le_trans; [|apply Hlen]; auto.
    + intros ch' k' f' c' H. apply Hold in H as [H|(-> & -> & -> & ->)].
      * destruct (i_post _ _ I _ _ _ _ H) as [A|A]; auto. right. unfold upd.
        destruct (Z.eqb_spec (cdst ch') r) as [<-|]; auto. destruct (Nat.eqb_spec f' f) as [->|]; auto. apply in_app_iff. auto.
      * right. unfold upd. rewrite Hdst, Z.eqb_refl, Nat.eqb_refl. apply in_app_iff. right. left. auto.
    + intros r' f' E1 E2 HE ch' k' c' Hd H. unfold extend in HE. destruct (Z.eq_dec r' r) as [->|Hne].
      * rewrite upd_same in HE. apply last_split in HE as [(_ & Q & _)|(E2' & _ & Q)]; [discriminate|].
        eapply (i_wait _ _ I); eauto.
      * rewrite upd_other in HE by auto. eapply (i_wait _ _ I); eauto.
    + apply (i_own _ _ I).
    + apply (i_other _ _ I).
    + apply (i_unused _ _ I).
    + intros ch' k' f' c' Hin H. apply Hold in H as [H|(-> & -> & -> & ->)].
      * now apply (i_data _ _ I _ k').
      * destruct (i_log _ _ I) as [_ HL]. apply HL in Hin as [Hin _]. lia.
  - (* wait *)
    pose proof (rank_of_rem _ _ _ _ _ X Hrem) as Hr.
    exists (extend E r (WaitOp f)). constructor; cbn.
    + eapply executed_extend; eauto; intros ch'; cbn; [destruct (csrc ch' =? r)|destruct (cdst ch' =? r)]; now rewrite app_nil_r.
    + apply (i_trunc _ _ I).
    + apply (i_log _ _ I).
    + intros r' f' ch' k' H. unfold upd in H. destruct (Z.eqb_spec r' r) as [->|Hne]; [|now apply (i_req _ _ I _ f')].
      destruct (Nat.eqb_spec f' f) as [->|Hnf]; [contradiction|]. now apply (i_req _ _ I _ f').
    + intros ch' k' f' c' H. destruct (i_post _ _ I _ _ _ _ H) as [A|A]; auto. unfold upd.
      destruct (Z.eqb_spec (cdst ch') r) as [Er|]; auto. destruct (Nat.eqb_spec f' f) as [->|]; auto.
      * left. apply Hdone. now rewrite <- Er.
      * right. now rewrite <- Er.
    + intros r' f' E1 E2 HE ch' k' c' Hd H. unfold extend in HE. destruct (Z.eq_dec r' r) as [->|Hne].
      * rewrite upd_same in HE. apply last_split in HE as [(_ & Q & <-)|(E2' & _ & Q)].
        -- injection Q as <-. destruct X as (_ & _ & _ & X4). rewrite <- Hd, <- X4 in H.
           destruct (i_post _ _ I _ _ _ _ H) as [A|A]; auto. apply Hdone. now rewrite <- Hd.
        -- eapply (i_wait _ _ I); eauto.
      * rewrite upd_other in HE by auto. eapply (i_wait _ _ I); eauto.
    + apply (i_own _ _ I).
    + apply (i_other _ _ I).
    + apply (i_unused _ _ I).
    + apply (i_data _ _ I).
  - (* transfer *)
    destruct (match_same _ _ _ _ _ _ _ _ X Hs Hr) as (-> & -> & R1 & R2 & Hc & Hown & Hsh & Hcall).
    exists E.
    assert (Hval : forall r f x, transfer lay (mem st) ch fr fr cr cr r f x <> mem st r f x ->
       r = cdst ch /\ f = fr /\ exists j, 0 <= j < csize cr /\ x = chunk_offset (lay (cdst ch)) (cid cr) + j).
    { intros r f x. unfold transfer. destruct (Z.eqb_spec r (cdst ch)); cbn; [|congruence].
      destruct (Nat.eqb_spec f fr); cbn; [|congruence].
      destruct (Z.leb_spec (chunk_offset (lay (cdst ch)) (cid cr)) x); cbn; [|congruence].
      destruct (Z.ltb_spec x (chunk_offset (lay (cdst ch)) (cid cr) + csize cr)); cbn; [|congruence].
      intros _. split; auto. split; auto. exists (x - chunk_offset (lay (cdst ch)) (cid cr)). lia. }
    assert (Hnew : forall j, 0 <= j < csize cr ->
       transfer lay (mem st) ch fr fr cr cr (cdst ch) fr (chunk_offset (lay (cdst ch)) (cid cr) + j) =
       m0 (csrc ch) fr (chunk_offset (lay (csrc ch)) (cid cr) + j)).
    { intros j Hj. unfold transfer. rewrite Z.eqb_refl, Nat.eqb_refl. cbn.
      rewrite (proj2 (Z.leb_le _ _)), (proj2 (Z.ltb_lt _ _)) by lia. cbn.
      replace (_ + j - _) with j by lia. apply (i_own _ _ I).
      rewrite <- Hown. rewrite <- Hown in R1. pose proof (owned_region cr j Hc R1 Hj). lia. }
    constructor; cbn.
    + destruct X as (X1 & X2 & X3 & X4). split; [|split; [|split]]; cbn; auto.
    + rewrite (i_trunc _ _ I), Z.ltb_irrefl. reflexivity.
    + destruct (i_log _ _ I) as [HN HL]. split; [constructor; auto|]. intros ch' k' [H|H]; auto.
      injection H as <- <-. split; apply nth_error_Some; congruence.
    + apply (i_req _ _ I).
    + intros ch' k' f' c' H. destruct (i_post _ _ I _ _ _ _ H); auto.
    + intros r' f' E1 E2 HE ch' k' c' Hd H. right. eapply (i_wait _ _ I); eauto.
    + intros r f x Hx. rewrite <- (i_own _ _ I) by auto.
      destruct (Z.eq_dec r (cdst ch)) as [->|Hne].
      * unfold transfer. destruct (Nat.eqb f fr); rewrite ?andb_false_r; auto. rewrite Z.eqb_refl. cbn.
        destruct (Z.leb_spec (chunk_offset (lay (cdst ch)) (cid cr)) x); cbn; auto.
        destruct (Z.ltb_spec x (chunk_offset (lay (cdst ch)) (cid cr) + csize cr)); cbn; auto.
        exfalso. apply Hx. pose proof (halo_region cr (x - chunk_offset (lay (cdst ch)) (cid cr)) (cdst ch) Hc R2 Hsh). lia.
      * unfold transfer. rewrite (proj2 (Z.eqb_neq _ _) Hne). reflexivity.
    + intros r f x Hx. rewrite <- (i_other _ _ I) by auto. unfold transfer.
      destruct (Z.eqb_spec r (cdst ch)) as [->|]; [lia|]. reflexivity.
    + intros r f x Hx. rewrite <- (i_unused _ _ I) by auto. unfold transfer.
      destruct (Nat.eqb_spec f fr) as [->|]; [contradiction|]. now rewrite andb_false_r.
    + intros ch' k' f' c' Hin H j Hj.
      destruct Hin as [Hin|Hin].
      * injection Hin as <- <-. rewrite Hr in H. injection H as <- <-. now apply Hnew.
      * pose proof (i_data _ _ I ch' k' f' c' Hin H j Hj) as Hd.
        destruct (i_log _ _ I) as [_ HL]. destruct (HL _ _ Hin) as [_ HLs].
        destruct (nth_error (sends st ch') k') as [[fs' cs']|] eqn:Hs'; [|apply nth_error_None in Hs'; lia].
        destruct (match_same _ _ _ _ _ _ _ _ X Hs' H) as (-> & -> & R1' & R2' & Hc' & Hown' & Hsh' & _).
        destruct (Z.eq_dec (cdst ch') (cdst ch)) as [Ed|Ed].
        -- destruct (Nat.eq_dec f' fr) as [->|Ef].
           ++ set (x := chunk_offset (lay (cdst ch')) (cid c') + j) in *.
              destruct (Z_le_dec (chunk_offset (lay (cdst ch)) (cid cr)) x) as [Hx1|Hx1];
              [destruct (Z_lt_dec x (chunk_offset (lay (cdst ch)) (cid cr) + csize cr)) as [Hx2|Hx2]|].
              ** unfold x in *. rewrite Ed in *.
                 destruct (regions_disjoint c' cr j (chunk_offset (lay (cdst ch)) (cid c') + j - chunk_offset (lay (cdst ch)) (cid cr)) (cdst ch)) as [-> Ej]; auto; try lia.
                 rewrite Hnew by auto. now rewrite <- Hown, Hown'.
              ** rewrite <- Hd. unfold transfer. destruct (Z.ltb_spec x (chunk_offset (lay (cdst ch)) (cid cr) + csize cr)); [lia|]. now rewrite andb_false_r.
              ** rewrite <- Hd. unfold transfer. destruct (Z.leb_spec (chunk_offset (lay (cdst ch)) (cid cr)) x); [lia|]. now rewrite andb_false_r.
           ++ rewrite <- Hd. unfold transfer. rewrite (proj2 (Nat.eqb_neq _ _) Ef). now rewrite andb_false_r.
        -- rewrite <- Hd. unfold transfer. now rewrite (proj2 (Z.eqb_neq _ _) Ed).
Qed.

Lemma inv_reach k st : steps_n lay k (start lay n tags calls m0) st -> exists E, inv st E.
Proof.
  intros H. remember (start lay n tags calls m0) as st0. induction H as [|k st st' st'' H IH HS]; subst.
  - eexists. apply inv_start.
  - destruct (IH eq_refl) as (E & I). eapply inv_step; eauto.
Qed.

(** ** final memory *)
Lemma final_halo k st f r i : steps_n lay k (start lay n tags calls m0) st -> finished st ->
  (exists A B, calls = A ++ Communicate f :: B /\ In (Wait f) B) ->
  0 <= r < n -> 0 <= i < global_volume g -> In r (exchange_table g sten i) ->
  mem st r f (local_index (lay r) i) = m0 (proc_at g i) f (local_index (lay (proc_at g i)) i).
Proof.
  intros H Hfin (A & B & Hcalls & HB) Hr Hi Hex. destruct (inv_reach _ _ H) as (E & I).
  destruct (chunk_exists g sten i Hg Hi) as (c & Hc & Hic).
  destruct (chunk_uniform g sten c i Hg Hc Hic) as (_ & EO & ES).
  assert (Hsh : In r (csharers c)) by now rewrite ES.
  apply in_split in HB as (B1 & B2 & ->).
  (* the receive is in the part of the calls before the wait *)
  destruct (recv_posted c r f (A ++ Communicate f :: B1) Hc Hr Hsh) as (ch & Hd & Hsrc & Hin).
  { apply in_app_iff. right. left. auto. }
  apply In_nth_error in Hin as (q & Hq).
  destruct (i_exec _ _ I) as (X1 & X2 & X3 & X4).
  assert (HE : E r = ops_of (lay r) tags r (A ++ Communicate f :: B1) ++ WaitOp f :: ops_of (lay r) tags r B2).
  { specialize (X1 r Hr). rewrite Hfin, app_nil_r in X1. rewrite X1. unfold OPS. rewrite Hcalls.
    unfold ops_of. rewrite !flat_map_app. cbn [flat_map]. rewrite !flat_map_app. cbn [flat_map app].
    rewrite <- !app_assoc. reflexivity. }
  pose proof (i_wait _ _ I r f _ _ HE ch q c Hd Hq) as Hlog.
  assert (Hrq : nth_error (recvs st ch) q = Some (f, c)).
  { rewrite X4, Hd, HE, recvs_on_app. now apply nth_error_app_Some. }
  apply In_nth_error in Hic as (j & Hj).
  pose proof (chunk_position r c j i Hr Hc (or_intror Hsh) Hj) as P1'.
  assert (Ho : 0 <= cowner c < n) by (rewrite EO; now apply proc_at_range).
  pose proof (chunk_position (cowner c) c j i Ho Hc (or_introl eq_refl) Hj) as P2'.
  rewrite P1', <- EO, P2'. destruct (chunk_size g sten c Hc) as [Esz _].
  assert (j < length (csites c))%nat by (apply nth_error_Some; congruence).
  pose proof (i_data _ _ I ch q f c Hlog Hrq (Z.of_nat j)) as D. rewrite Hd, Hsrc in D. apply D. lia.
Qed.

Lemma always_owned k st f r x : steps_n lay k (start lay n tags calls m0) st ->
  0 <= x < localsize g -> mem st r f x = m0 r f x.
Proof. intros H Hx. destruct (inv_reach _ _ H) as (E & I). apply (i_own _ _ I). lia. Qed.

Lemma never_truncated k st : steps_n lay k (start lay n tags calls m0) st -> trunc st = false.
Proof. intros H. destruct (inv_reach _ _ H) as (E & I). apply (i_trunc _ _ I). Qed.

Lemma not_communicated k st f r x : steps_n lay k (start lay n tags calls m0) st ->
  ~ In (Communicate f) calls -> mem st r f x = m0 r f x.
Proof. intros H Hf. destruct (inv_reach _ _ H) as (E & I). now apply (i_unused _ _ I). Qed.

(** ** progress *)
Lemma at_wait r f E rest C : 0 <= r < n -> E ++ WaitOp f :: rest = ops_of (lay r) tags r C ->
  exists C1 C2, C = C1 ++ Wait f :: C2 /\ E = ops_of (lay r) tags r C1.
Proof.
  intros Hr. revert E. induction C as [|k C IH]; intros E H; cbn in H.
  - destruct E; discriminate.
  - destruct k as [f'|f'].
    + set (P := sends_of (lay r) tags r f' ++ recvs_of (lay r) tags r f') in *.
      assert (NW : forall f0, ~ In (WaitOp f0) P).
      { intros f0 Hin. apply in_app_iff in Hin as [Hin|Hin]; apply in_flat_map in Hin as (c & _ & Hin).
        - destruct (cowner c =? r); [|contradiction]. apply in_map_iff in Hin as (j & Q & _). discriminate.
        - destruct (negb (cowner c =? r)); [|contradiction]. apply in_flat_map in Hin as (j & _ & Hin).
          destruct (nth j (csharers c) 0 =? r); [|contradiction]. destruct Hin as [Q|[]]; discriminate. }
      assert (exists E', E = P ++ E' /\ E' ++ WaitOp f :: rest = ops_of (lay r) tags r C) as (E' & -> & H').
      { clear IH. revert E H. induction P as [|p P IHP]; intros E H; cbn in H.
        - exists E. auto.
        - destruct E as [|e E]; cbn in H.
          + injection H as H1 H2. exfalso. apply (NW f). left. auto.
          + injection H as -> H. destruct (IHP (fun f0 Q => NW f0 (or_intror Q)) E H) as (E' & -> & H'). exists E'. auto. }
      destruct (IH E' H') as (C1 & C2 & -> & ->). exists (Communicate f' :: C1), C2. split; auto.
    + destruct E as [|e E]; cbn in H.
      * injection H as -> H. exists [], C. auto.
      * injection H as -> H. destruct (IH E H) as (C1 & C2 & -> & ->). exists (Wait f' :: C1), C2. auto.
Qed.

Lemma prefix_of_calls (C C1 D1 C2 D2 : list call) : C = C1 ++ C2 -> C = D1 ++ D2 -> (length C1 <= length D1)%nat -> exists M, D1 = C1 ++ M.
Proof.
  revert C D1. induction C1 as [|c C1 IH]; intros C D1 H1 H2 Hl; cbn in *; [eauto|].
  destruct D1 as [|d D1]; cbn in *; [lia|]. rewrite H1 in H2. injection H2 as -> H2.
  destruct (IH (C1 ++ C2) D1 eq_refl) as (M & ->); auto; [lia|]. eauto.
Qed.

Lemma progress k st : steps_n lay k (start lay n tags calls m0) st -> ~ finished st -> exists st', step lay st st'.
Proof.
  intros H Hnf. destruct (inv_reach _ _ H) as (E & I). pose proof (i_exec _ _ I) as X. destruct X as (X1 & X2 & X3 & X4).
  (* some rank still has something to do *)
  assert (D : (exists r, 0 <= r < n /\ rem st r <> []) \/ finished st).
  { assert (K : forall m, (0 <= m)%nat -> (exists r, 0 <= r < Z.of_nat m /\ rem st r <> []) \/ (forall r, 0 <= r < Z.of_nat m -> rem st r = [])).
    { induction m as [|m IH]; intros _; [right; intros; lia|]. destruct IH as [(r & Hr & Q)|IH]; [lia|left; exists r; split; [lia|auto]|].
      destruct (rem st (Z.of_nat m)) as [|o l] eqn:Q.
      - right. intros r Hr. destruct (Z.eq_dec r (Z.of_nat m)) as [->|]; auto. apply IH. lia.
      - left. exists (Z.of_nat m). split; [lia|congruence]. }
    assert (Hn : 0 <= n). { unfold n, number_processors. destruct Hg as (_ & (?&?&?&?) & _). nia. }
    destruct (K (Z.to_nat n) ltac:(lia)) as [(r & Hr & Q)|Q].
    - left. exists r. split; [lia|auto].
    - right. intros r. destruct (Z_le_dec 0 r); [destruct (Z_lt_dec r n)|].
      + apply Q. lia.
      + apply X2. lia.
      + apply X2. lia. }
  destruct D as [D|D]; [|contradiction].
  (* if any rank is at a post, it can move *)
  assert (Hdec : (exists r o rest, rem st r = o :: rest /\ (forall f, o <> WaitOp f)) \/
     (forall r, 0 <= r < n -> rem st r = [] \/ exists f rest, rem st r = WaitOp f :: rest)).
  { assert (K : forall m, (exists r o rest, rem st r = o :: rest /\ (forall f, o <> WaitOp f)) \/
       (forall r, 0 <= r < Z.of_nat m -> rem st r = [] \/ exists f rest, rem st r = WaitOp f :: rest)).
    { induction m as [|m IH]; [right; intros; lia|]. destruct IH as [|IH]; auto.
      destruct (rem st (Z.of_nat m)) as [|o l] eqn:Q.
      - right. intros r Hr. destruct (Z.eq_dec r (Z.of_nat m)) as [->|]; auto. apply IH. lia.
      - destruct o as [f c ch|f c ch|f].
        + left. exists (Z.of_nat m). do 2 eexists. split; eauto. discriminate.
        + left. exists (Z.of_nat m). do 2 eexists. split; eauto. discriminate.
        + right. intros r Hr. destruct (Z.eq_dec r (Z.of_nat m)) as [->|]; [right; eauto|]. apply IH. lia. }
    destruct (K (Z.to_nat n)) as [|Q]; auto. right. intros r Hr. apply Q. lia. }
  destruct Hdec as [(r & o & rest & Q & No)|Hw].
  { destruct o as [f c ch|f c ch|f].
    - eexists. eapply step_send; eauto.
    - eexists. eapply step_recv; eauto.
    - exfalso. now apply (No f). }
  (* every rank is finished or at a wait: number of calls passed *)
  assert (Pos : forall r, 0 <= r < n -> exists C1 C2, calls = C1 ++ C2 /\ E r = ops_of (lay r) tags r C1 /\
     (rem st r <> [] -> exists f rest, rem st r = WaitOp f :: rest)).
  { intros r Hr. destruct (Hw r Hr) as [Q|(f & rest & Q)].
    - exists calls, []. rewrite app_nil_r. split; auto. split; [|congruence].
      specialize (X1 r Hr). rewrite Q, app_nil_r in X1. exact X1.
    - specialize (X1 r Hr). rewrite Q in X1. destruct (at_wait r f (E r) rest calls Hr X1) as (C1 & C2 & EC & EE).
      exists C1, (Wait f :: C2). split; auto. split; auto. eauto. }
  (* the rank with the fewest calls passed among the unfinished ones *)
  assert (Min : exists r C1 C2, 0 <= r < n /\ rem st r <> [] /\ calls = C1 ++ C2 /\ E r = ops_of (lay r) tags r C1 /\
     forall r' D1 D2, 0 <= r' < n -> rem st r' <> [] -> calls = D1 ++ D2 -> E r' = ops_of (lay r') tags r' D1 -> (length C1 <= length D1)%nat).
  { destruct D as (r0 & Hr0 & Q0). destruct (Pos r0 Hr0) as (C1 & C2 & EC & EE & _).
    remember (length C1) as m eqn:Em. revert r0 Hr0 Q0 C1 C2 EC EE Em.
    induction m as [m IH] using lt_wf_ind. intros r0 Hr0 Q0 C1 C2 EC EE Em.
    (* either minimal or there is a smaller one *)
    assert (LEM : (exists r' D1 D2, 0 <= r' < n /\ rem st r' <> [] /\ calls = D1 ++ D2 /\ E r' = ops_of (lay r') tags r' D1 /\ (length D1 < m)%nat) \/
      (forall r' D1 D2, 0 <= r' < n -> rem st r' <> [] -> calls = D1 ++ D2 -> E r' = ops_of (lay r') tags r' D1 -> (m <= length D1)%nat)).
    { (* decidable: ranks and prefixes are finite *)
      assert (K : forall q, (exists r' D1 D2, 0 <= r' < n /\ rem st r' <> [] /\ calls = D1 ++ D2 /\ E r' = ops_of (lay r') tags r' D1 /\ (length D1 < m)%nat) \/
         (forall r' D1 D2, 0 <= r' < Z.of_nat q -> r' < n -> rem st r' <> [] -> calls = D1 ++ D2 -> E r' = ops_of (lay r') tags r' D1 -> (m <= length D1)%nat)).
      { induction q as [|q IHq]; [right; intros; lia|]. destruct IHq as [|IHq]; auto.
        destruct (Z_lt_dec (Z.of_nat q) n) as [Hqn|Hqn].
        2:{ right. intros r' D1 D2 Hr' Hn'. apply IHq; auto. lia. }
        destruct (rem st (Z.of_nat q)) as [|o l] eqn:Qq.
        - right. intros r' D1 D2 Hr' Hn' Hne. destruct (Z.eq_dec r' (Z.of_nat q)) as [->|]; [congruence|]. apply IHq; auto. lia.
        - (* unique prefix: a wait operation follows *)
          destruct (Pos (Z.of_nat q) ltac:(lia)) as (D1 & D2 & ED & EE1 & Hwt).
          assert (PF : forall p, (exists D1 D2, calls = D1 ++ D2 /\ E (Z.of_nat q) = ops_of (lay (Z.of_nat q)) tags (Z.of_nat q) D1 /\ (length D1 < p)%nat)
             \/ (forall D1 D2, calls = D1 ++ D2 -> E (Z.of_nat q) = ops_of (lay (Z.of_nat q)) tags (Z.of_nat q) D1 -> (p <= length D1)%nat)).
          { assert (Hopdec : forall a b : list op, {a = b} + {a <> b}).
            { assert (forall a b : chunk, {a = b} + {a <> b}) by (repeat decide equality; apply Z.eq_dec).
              assert (forall a b : chan, {a = b} + {a <> b}) by (intros [[? ?] ?] [[? ?] ?]; repeat decide equality; apply Z.eq_dec).
              intros a b. apply list_eq_dec. intros x y. decide equality; apply Nat.eq_dec. }
            induction p as [|p IHp]; [right; intros; lia|]. destruct IHp as [(D & D' & A1 & A2 & A3)|IHp].
            { left. exists D, D'. repeat split; auto. }
            destruct (Nat.le_gt_cases p (length calls)) as [Hp|Hp].
            - destruct (Hopdec (E (Z.of_nat q)) (ops_of (lay (Z.of_nat q)) tags (Z.of_nat q) (firstn p calls))) as [Y|Nq].
              + left. exists (firstn p calls), (skipn p calls). rewrite firstn_skipn, firstn_length. repeat split; auto. lia.
              + right. intros D D' A1 A2. specialize (IHp D D' A1 A2).
                destruct (Nat.eq_dec (length D) p) as [El|]; [|lia]. exfalso. apply Nq. rewrite A2. f_equal.
                rewrite A1, firstn_app, El, Nat.sub_diag. cbn. rewrite app_nil_r. rewrite <- El. now rewrite firstn_all.
            - left. exists D1, D2. repeat split; auto. rewrite ED, app_length in Hp. lia. }
          destruct (PF m) as [(D & D' & A1 & A2 & A3)|PF'].
          + left. exists (Z.of_nat q), D, D'. repeat split; auto; try lia. congruence.
          + right. intros r' F1 F2 Hr' Hn' Hne. destruct (Z.eq_dec r' (Z.of_nat q)) as [->|]; [apply PF'|]. apply IHq; auto. lia. }
      destruct (K (Z.to_nat n)) as [|Q]; auto. right. intros r' D1 D2 Hr'. apply Q; lia. }
    destruct LEM as [(r' & D1 & D2 & Hr' & Q' & ED & EE' & Hlt)|Hmin].
    - apply (IH (length D1) Hlt r' Hr' Q' D1 D2 ED EE' eq_refl).
    - exists r0, C1, C2. repeat split; auto; try lia. intros. rewrite <- Em. eapply Hmin; eauto. }
  destruct Min as (r & C1 & C2 & Hr & Q & EC & EE & Hmin).
  destruct (Hw r Hr) as [|(f & rest & Hrem)]; [contradiction|].
  (* every rank has posted everything of the calls C1 *)
  assert (Ahead : forall r', 0 <= r' < n -> exists M, E r' = ops_of (lay r') tags r' (C1 ++ M)).
  { intros r' Hr'. destruct (Pos r' Hr') as (D1 & D2 & ED & EE' & _).
    destruct (rem st r') as [|o l] eqn:Q'.
    - (* finished *) exists C2. rewrite <- EC. specialize (X1 r' Hr'). rewrite Q', app_nil_r in X1. exact X1.
    - assert (Q2 : rem st r' <> []) by congruence. pose proof (Hmin r' D1 D2 Hr' Q2 ED EE') as Hle.
      destruct (prefix_of_calls calls C1 D1 C2 D2 EC ED Hle) as (M & ->). eauto. }
  (* a pending request of rank r that is not transferred can be transferred *)
  assert (Hpend : (forall q, In q (reqs st r f) -> In q (log st)) \/ exists ch k', In (ch, k') (reqs st r f) /\ ~ In (ch, k') (log st)).
  { assert (Hqdec : forall a b : chan * nat, {a = b} + {a <> b}) by (intros [[[? ?] ?] ?] [[[? ?] ?] ?]; repeat decide equality; apply Z.eq_dec).
    induction (reqs st r f) as [|q l IHl]; [left; intros ? []|].
    destruct (in_dec Hqdec q (log st)) as [Y|N].
    - destruct IHl as [IHl|(ch & k' & A1 & A2)].
      + left. intros q' [<-|Hq']; auto.
      + right. exists ch, k'. split; auto. right; auto.
    - right. destruct q as [ch k']. exists ch, k'. split; auto. left; auto. }
  destruct Hpend as [Hall|(ch & k' & Hreq & Hnl)].
  { eexists. eapply step_wait; eauto. }
  destruct (i_req _ _ I _ _ _ _ Hreq) as [[Hsrc Hlt]|[Hdst Hlt]].
  - (* own send *)
    destruct (nth_error (sends st ch) k') as [[fs c_s]|] eqn:Hs; [|apply nth_error_None in Hs; lia].
    assert (HsE : nth_error (sends_on ch (ops_of (lay r) tags r C1)) k' = Some (fs, c_s)).
    { rewrite <- EE, <- Hsrc, <- X3. exact Hs. }
    destruct (in_sends_on ch r C1 fs c_s Hr (nth_error_In _ _ HsE)) as (Hc & Ho & _ & Hsh & _).
    assert (Hd : 0 <= cdst ch < n) by (eapply sharer_range; eauto).
    destruct (Ahead (cdst ch) Hd) as (M & EM).
    assert (Hr' : nth_error (recvs st ch) k' = Some (fs, c_s)).
    { rewrite X4, EM. unfold ops_of. rewrite flat_map_app, recvs_on_app. apply nth_error_app_Some.
      fold (ops_of (lay (cdst ch)) tags (cdst ch) C1).
      assert (Hs0 : 0 <= csrc ch < n) by now rewrite Hsrc.
      rewrite <- (channel_lists ch C1 Hs0 Hd). rewrite Hsrc. exact HsE. }
    eexists. eapply step_transfer; eauto.
  - (* own receive *)
    destruct (nth_error (recvs st ch) k') as [[fr cr]|] eqn:Hs; [|apply nth_error_None in Hs; lia].
    assert (HsE : nth_error (recvs_on ch (ops_of (lay r) tags r C1)) k' = Some (fr, cr)).
    { rewrite <- EE, <- Hdst, <- X4. exact Hs. }
    destruct (in_recvs_on ch r C1 fr cr Hr (nth_error_In _ _ HsE)) as (Hc & Ho & _ & Hsh & _).
    assert (Hs0 : 0 <= csrc ch < n) by (rewrite Ho; eapply shared_owner_range; eauto).
    destruct (Ahead (csrc ch) Hs0) as (M & EM).
    assert (Hs' : nth_error (sends st ch) k' = Some (fr, cr)).
    { rewrite X3, EM. unfold ops_of. rewrite flat_map_app, sends_on_app. apply nth_error_app_Some.
      fold (ops_of (lay (csrc ch)) tags (csrc ch) C1).
      assert (Hd : 0 <= cdst ch < n) by now rewrite Hdst.
      rewrite (channel_lists ch C1 Hs0 Hd). rewrite Hdst. exact HsE. }
    eexists. eapply step_transfer; eauto.
Qed.

(** ** length of a run *)
Definition total_ops : nat := list_sum (map (fun r => length (OPS r)) (zrange n)).

Lemma list_sum_upd (f : Z -> nat) r l d : NoDup l -> In r l -> (f r = d + 1)%nat ->
  (list_sum (map f l) = list_sum (map (upd f r d) l) + 1)%nat.
Proof.
  intros HN Hin Hf. induction l as [|a l IH]; [contradiction|]. inversion HN; subst. cbn [map]. unfold list_sum in *; cbn [fold_right]. destruct Hin as [->|Hin].
  - rewrite upd_same, Hf. assert (K : map (upd f r d) l = map f l).
    { apply map_ext_in. intros b Hb. apply upd_other. intros ->; contradiction. } rewrite K. lia.
  - rewrite IH by auto. rewrite (upd_other f r d a) by (intros ->; contradiction). lia.
Qed.

Definition remaining (st : state V) : nat := list_sum (map (fun r => length (rem st r)) (zrange n)).

Lemma remaining_step (st : state V) r o rest : 0 <= r < n -> rem st r = o :: rest ->
  (remaining st = list_sum (map (fun q => length (upd (rem st) r rest q)) (zrange n)) + 1)%nat.
Proof.
  intros Hr H. unfold remaining.
  rewrite (list_sum_upd (fun q => length (rem st q)) r (zrange n) (length rest)).
  - f_equal. f_equal. apply map_ext. intros q. unfold upd. now destruct (q =? r).
  - apply NoDup_zrange.
  - now apply in_zrange.
  - rewrite H. cbn. lia.
Qed.

(** Every transfer has its own receive. *)
Fixpoint recv_keys (r : Z) (E : list op) (seen : list op) : list (chan * nat) :=
  match E with
  | [] => []
  | Recv f c ch :: E' => (ch, length (recvs_on ch seen)) :: recv_keys r E' (seen ++ [Recv f c ch])
  | o :: E' => recv_keys r E' (seen ++ [o])
  end.
Lemma recv_keys_length r E : forall seen, (length (recv_keys r E seen) <= length E)%nat.
Proof. induction E as [|[f c ch|f c ch|f] E IH]; intros seen; cbn; auto; try (etransitivity; [apply IH|]; lia). apply le_n_S, IH. Qed.
Lemma recv_keys_all r E : forall seen ch k, (length (recvs_on ch seen) <= k < length (recvs_on ch (seen ++ E)))%nat ->
  In (ch, k) (recv_keys r E seen).
Proof.
  induction E as [|o E IH]; intros seen ch k Hk.
  - rewrite app_nil_r in Hk. lia.
  - assert (K : recvs_on ch (seen ++ o :: E) = recvs_on ch ((seen ++ [o]) ++ E)) by now rewrite <- app_assoc.
    rewrite K in Hk. destruct o as [f c ch'|f c ch'|f]; cbn [recv_keys].
    + apply IH. rewrite (recvs_on_app ch seen [_]). cbn. rewrite app_nil_r. auto.
    + destruct (chan_eqb_spec ch' ch) as [->|Hne].
      * destruct (Nat.eq_dec k (length (recvs_on ch seen))) as [->|Hk']; [left; auto|]. right. apply IH.
        rewrite (recvs_on_app ch seen [_]). cbn. rewrite chan_eqb_refl, app_length. cbn. lia.
      * right. apply IH. rewrite (recvs_on_app ch seen [_]). cbn.
        destruct (chan_eqb_spec ch' ch); [congruence|]. rewrite app_nil_r. auto.
    + apply IH. rewrite (recvs_on_app ch seen [_]). cbn. rewrite app_nil_r. auto.
Qed.

Definition all_keys : list (chan * nat) := flat_map (fun r => recv_keys r (OPS r) []) (zrange n).
Lemma all_keys_length : (length all_keys <= total_ops)%nat.
Proof.
  unfold all_keys, total_ops, list_sum. induction (zrange n) as [|r l IH]; cbn; auto. rewrite app_length.
  pose proof (recv_keys_length r (OPS r) []). lia.
Qed.
Lemma log_bound st E : inv st E -> (length (log st) <= total_ops)%nat.
Proof.
  intros I. etransitivity; [|apply all_keys_length]. destruct (i_log _ _ I) as [HN HL].
  apply NoDup_incl_length; auto. intros [ch k] Hin. apply HL in Hin as [Hin _].
  destruct (nth_error (recvs st ch) k) as [[f c]|] eqn:Q; [|apply nth_error_None in Q; lia].
  destruct (prefix_entry_recv _ _ _ _ _ _ (i_exec _ _ I) Q) as [Hd K].
  apply in_flat_map. exists (cdst ch). split; [now apply in_zrange|]. apply recv_keys_all. cbn [app].
  split; [cbn; lia|]. apply nth_error_Some. congruence.
Qed.

Lemma run_length k st : steps_n lay k (start lay n tags calls m0) st -> (k <= 2 * total_ops)%nat.
Proof.
  intros H. assert (K : (k + remaining st = total_ops + length (log st))%nat).
  { remember (start lay n tags calls m0) as st0. induction H as [st|k st st' st'' H IH HS]; subst.
    - cbn. unfold remaining, total_ops. cbn. rewrite Nat.add_0_r. f_equal. apply map_ext_in. intros r Hr. apply in_zrange in Hr.
      rewrite (proj2 (Z.leb_le 0 r)), (proj2 (Z.ltb_lt r n)) by lia. reflexivity.
    - specialize (IH eq_refl). destruct (inv_reach _ _ H) as (E & I). pose proof (i_exec _ _ I) as X.
      destruct HS as [r f c ch rest st Hrem | r f c ch rest st Hrem | r f rest st Hrem Hdone | ch q fs c_s fr cr st Hs Hr Hlog].
      + pose proof (remaining_step st r _ _ (rank_of_rem _ _ _ _ _ X Hrem) Hrem). unfold remaining in *. cbn in *. lia.
      + pose proof (remaining_step st r _ _ (rank_of_rem _ _ _ _ _ X Hrem) Hrem). unfold remaining in *. cbn in *. lia.
      + pose proof (remaining_step st r _ _ (rank_of_rem _ _ _ _ _ X Hrem) Hrem). unfold remaining in *. cbn in *. lia.
      + unfold remaining in *. cbn in *. lia. }
  destruct (inv_reach _ _ H) as (E & I). pose proof (log_bound _ _ I). lia.
Qed.

(** Hence a maximal run exists and is finished. *)
Lemma run_finishes : exists k st, steps_n lay k (start lay n tags calls m0) st /\ finished st.
Proof.
  assert (K : forall q k st, steps_n lay k (start lay n tags calls m0) st -> (2 * total_ops - k <= q)%nat ->
     exists k st, steps_n lay k (start lay n tags calls m0) st /\ finished st).
  { assert (FD : forall st E, inv st E -> finished st \/ ~ finished st).
    { intros st E I. destruct (i_exec _ _ I) as (X1 & X2 & _).
      assert (D : forall m, (forall r, 0 <= r < Z.of_nat m -> rem st r = []) \/ exists r, rem st r <> []).
      { induction m as [|m IH]; [left; intros; lia|]. destruct IH as [IH|]; auto.
        destruct (rem st (Z.of_nat m)) as [|o l] eqn:Q.
        - left. intros r Hr. destruct (Z.eq_dec r (Z.of_nat m)) as [->|]; auto. apply IH. lia.
        - right. exists (Z.of_nat m). congruence. }
      destruct (D (Z.to_nat n)) as [Q|(r & Q)].
      - left. intros r. destruct (Z_le_dec 0 r); [destruct (Z_lt_dec r n)|].
        + apply Q. lia.
        + apply X2. lia.
        + apply X2. lia.
      - right. intros F. apply Q, F. }
    induction q as [|q IH]; intros k st H Hq; destruct (inv_reach _ _ H) as (E & I);
    (destruct (FD _ _ I) as [F|NF]; [exists k, st; auto|]); destruct (progress _ _ H NF) as (st' & HS);
    pose proof (steps_S _ _ _ _ _ H HS) as H'; pose proof (run_length _ _ H').
    - lia.
    - apply (IH (S k) st' H'). lia. }
  apply (K (2 * total_ops)%nat 0%nat (start lay n tags calls m0)); [constructor|lia].
Qed.
End Halo.

(** ** statements in terms of coordinates *)
Section Closing.
Context {V : Type} (g : geom) (sten : list site) (lay : Z -> layout) (tags : list (list Z)).
Context (Hg : valid_geom g).
Context (Hlay : forall r, 0 <= r < number_processors g -> initialize g sten (number_processors g) r = Ok (lay r)).
Context (calls : list call) (m0 : Z -> nat -> Z -> V).
Let st0 := start lay (number_processors g) tags calls m0.

Lemma halo_final k st f r o s : steps_n lay k st0 st -> finished st ->
  (exists A B, calls = A ++ Communicate f :: B /\ In (Wait f) B) ->
  in_box g s -> mirrors g sten r s -> owned_by g o s ->
  mem st r f (local_index (lay r) (gidx g s)) = m0 o f (local_index (lay o) (gidx g s)).
Proof.
  intros H Hf Hc Hs Hm Ho. pose proof (mirrors_range g sten r s Hg Hm) as Hr.
  apply (exchange_mirrors g sten r s Hg Hs) in Hm.
  pose proof (gidx_range g s (valid_pos g Hg)) as Hi.
  rewrite (final_halo g sten Hg lay Hlay tags calls m0 k st f r (gidx g s)); auto.
  apply (proc_at_owned g o s Hg Hs) in Ho. now rewrite Ho.
Qed.

Lemma halo_summary :
  (exists B, forall k st, steps_n lay k st0 st -> (k <= B)%nat) /\
  (forall k st, steps_n lay k st0 st ->
    (~ finished st -> exists st', step lay st st') /\
    trunc st = false /\
    (forall r f x, ~ (llocalsize (lay r) <= x < lcompletesize (lay r)) -> 0 <= r < number_processors g -> mem st r f x = m0 r f x) /\
    (forall r f x, ~ In (Communicate f) calls -> mem st r f x = m0 r f x) /\
    (forall f r o s, finished st -> (exists A B, calls = A ++ Communicate f :: B /\ In (Wait f) B) ->
       in_box g s -> mirrors g sten r s -> owned_by g o s ->
       mem st r f (local_index (lay r) (gidx g s)) = m0 o f (local_index (lay o) (gidx g s)))).
Proof.
  split.
  - exists (2 * total_ops g lay tags calls)%nat. intros k st H. eapply run_length; eauto.
  - intros k st H. split; [|split; [|split; [|split]]].
    + intros Hf. eapply progress; eauto.
    + eapply never_truncated; eauto.
    + intros r f x Hx Hr. destruct (inv_reach g sten Hg lay Hlay tags calls m0 k st H) as (E & I).
      apply (i_own _ _ _ _ _ _ _ I). rewrite (L_localsize g sten r (lay r) Hg Hr (Hlay r Hr)) in Hx. exact Hx.
    + intros r f x Hf. eapply not_communicated; eauto.
    + intros f r o s Hf Hc Hs Hm Ho. eapply halo_final; eauto.
Qed.
End Closing.

(** ** conversion between layouts *)
Section Convert.
Context {V : Type} (g : geom) (stenL stenM : list site) (layL layM : Z -> layout) (tags : list (list Z)).
Context (Hg : valid_geom g).
Context (HL : forall r, 0 <= r < number_processors g -> initialize g stenL (number_processors g) r = Ok (layL r)).
Context (HM : forall r, 0 <= r < number_processors g -> initialize g stenM (number_processors g) r = Ok (layM r)).

Lemma map_index_owned r s : 0 <= r < number_processors g -> in_box g s -> owned_by g r s ->
  map_index (layL r) (layM r) (local_index (layL r) (gidx g s)) = local_index (layM r) (gidx g s).
Proof.
  intros Hr Hs Ho. pose proof (proj1 (owned_local g stenL r (layL r) Hg Hr (HL r Hr) s Hs) Ho) as Hl.
  unfold map_index. rewrite (L_geom g stenL r (layL r) Hg Hr (HL r Hr)).
  destruct (find _ _) as [i|] eqn:F.
  - apply find_some in F as [_ F]. f_equal. apply (li_inj g stenL r (layL r) Hg Hr (HL r Hr)); lia.
  - exfalso. pose proof (find_none _ _ F (gidx g s)) as K. cbn in K.
    assert (In (gidx g s) (zrange (global_volume g))) by (apply in_zrange, gidx_range, valid_pos, Hg).
    specialize (K H). lia.
Qed.

Lemma convert_spec r (old cur : Z -> V) : 0 <= r < number_processors g ->
  exists new, convert_owned (layL r) (layM r) old cur = Ok new /\
    forall s, in_box g s -> owned_by g r s ->
      new (local_index (layL r) (gidx g s)) = old (local_index (layM r) (gidx g s)).
Proof.
  intros Hr. unfold convert_owned.
  destruct (forallb _ _) eqn:F.
  - eexists. split; [reflexivity|]. intros s Hs Ho. cbn.
    pose proof (proj1 (owned_local g stenL r (layL r) Hg Hr (HL r Hr) s Hs) Ho) as Hl.
    rewrite (proj2 (Z.leb_le _ _)), (proj2 (Z.ltb_lt _ _)) by lia. cbn. now rewrite map_index_owned.
  - exfalso. rewrite <- not_true_iff_false in F. apply F. apply forallb_forall. intros l Hl. apply in_zrange in Hl.
    pose proof (sizes_ordered g stenL r (layL r) Hg Hr (HL r Hr)).
    destruct (coordinate_of g stenL r (layL r) Hg Hr (HL r Hr) l) as (s & _ & Hs & <-); [lia|].
    pose proof (proj2 (owned_local g stenL r (layL r) Hg Hr (HL r Hr) s Hs) Hl) as Ho.
    rewrite map_index_owned by auto.
    pose proof (proj1 (owned_local g stenM r (layM r) Hg Hr (HM r Hr) s Hs) Ho) as Hl'.
    pose proof (sizes_ordered g stenM r (layM r) Hg Hr (HM r Hr)). lia.
Qed.

Lemma convert_update (old cur new : Z -> Z -> V) (m0 : Z -> nat -> Z -> V) f k st :
  (forall r, 0 <= r < number_processors g -> convert_owned (layL r) (layM r) (old r) (cur r) = Ok (new r)) ->
  (forall r, 0 <= r < number_processors g -> m0 r f = new r) ->
  steps_n layL k (start layL (number_processors g) tags [Communicate f; Wait f] m0) st -> finished st ->
  forall r o s, in_box g s -> owned_by g o s -> (r = o \/ mirrors g stenL r s) ->
    mem st r f (local_index (layL r) (gidx g s)) = old o (local_index (layM o) (gidx g s)).
Proof.
  intros Hnew Hm Hst Hf r o s Hs Ho Hro. pose proof (owned_range g o s Hg Ho) as Ro.
  destruct (convert_spec o (old o) (cur o) Ro) as (nw & Enw & Hval). rewrite Hnew in Enw by auto. injection Enw as <-.
  rewrite <- Hval by auto. rewrite <- Hm by auto.
  pose proof (proj1 (owned_local g stenL o (layL o) Hg Ro (HL o Ro) s Hs) Ho) as Hl.
  destruct Hro as [->|Hmir].
  - rewrite (L_localsize g stenL o (layL o) Hg Ro (HL o Ro)) in Hl.
    exact (always_owned g stenL Hg layL HL tags _ m0 k st f o _ Hst Hl).
  - eapply (halo_final g stenL layL tags); eauto. exists [], [Wait f]. split; auto. left; auto.
Qed.
End Convert.

Lemma one_update {V} (g : geom) (sten : list site) (lay : Z -> layout) (tags : list (list Z)) (f : nat)
    (m0 : Z -> nat -> Z -> V) :
  valid_geom g ->
  (forall r, 0 <= r < number_processors g -> initialize g sten (number_processors g) r = Ok (lay r)) ->
  let st0 := start lay (number_processors g) tags [Communicate f; Wait f] m0 in
  (exists B, forall k st, steps_n lay k st0 st -> (k <= B)%nat) /\
  (forall k st, steps_n lay k st0 st ->
    (~ finished st -> exists st', step lay st st') /\
    trunc st = false /\
    (forall r h x, 0 <= r < number_processors g -> ~ (h = f /\ llocalsize (lay r) <= x < lcompletesize (lay r)) ->
       mem st r h x = m0 r h x) /\
    (finished st -> forall r o s, in_box g s -> mirrors g sten r s -> owned_by g o s ->
       mem st r f (local_index (lay r) (gidx g s)) = m0 o f (local_index (lay o) (gidx g s)))).
Proof.
  intros Hg HL st0. destruct (halo_summary g sten lay tags Hg HL [Communicate f; Wait f] m0) as (B & K).
  split; auto. intros k st H. destruct (K k st H) as (P & T & O & U & D). split; [|split; [|split]]; auto.
  - intros r h x Hr Hx. destruct (Nat.eq_dec h f) as [->|Hne].
    + apply O; auto.
    + apply U. cbn. intros [E|[E|[]]]; congruence.
  - intros F r o s. apply D; auto. exists [], [Wait f]. cbn. auto.
Qed.

Lemma conversion {V} (g : geom) (stenL stenM : list site) (layL layM : Z -> layout) (tags : list (list Z)) (f : nat)
    (old cur : Z -> Z -> V) :
  valid_geom g ->
  (forall r, 0 <= r < number_processors g -> initialize g stenL (number_processors g) r = Ok (layL r)) ->
  (forall r, 0 <= r < number_processors g -> initialize g stenM (number_processors g) r = Ok (layM r)) ->
  exists new, (forall r, 0 <= r < number_processors g -> convert_owned (layL r) (layM r) (old r) (cur r) = Ok (new r)) /\
   forall m0 k st, (forall r, 0 <= r < number_processors g -> m0 r f = new r) ->
    steps_n layL k (start layL (number_processors g) tags [Communicate f; Wait f] m0) st -> finished st ->
    forall r o s, in_box g s -> owned_by g o s -> (r = o \/ mirrors g stenL r s) ->
      mem st r f (local_index (layL r) (gidx g s)) = old o (local_index (layM o) (gidx g s)).
Proof.
  intros Hg HL HM.
  exists (fun r => match convert_owned (layL r) (layM r) (old r) (cur r) with Ok n => n | _ => cur r end).
  assert (E : forall r, 0 <= r < number_processors g -> convert_owned (layL r) (layM r) (old r) (cur r) =
     Ok (match convert_owned (layL r) (layM r) (old r) (cur r) with Ok n => n | _ => cur r end)).
  { intros r Hr. destruct (convert_spec g stenL stenM layL layM Hg HL HM r (old r) (cur r) Hr) as (n & En & _). now rewrite En. }
  split; auto. intros m0 k st Hm H F.
  exact (convert_update g stenL stenM layL layM tags Hg HL HM old cur _ m0 f k st E Hm H F).
Qed.
