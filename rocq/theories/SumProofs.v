(** Proofs about global sums. *)
From Coq Require Import ZArith List Bool Lia Permutation ZifyBool ZifyNat.
From Verif Require Import Base ListFacts LayoutModel LayoutSpec LayoutProofs LayoutFacts SumModel.
Open Scope Z_scope.

Section Sums.
Context {V : Type} (add : V -> V -> V) (zero : V).
Context (addA : forall a b c, add a (add b c) = add (add a b) c) (addC : forall a b, add a b = add b a)
        (add0 : forall a, add zero a = a).

Fixpoint total (l : list V) : V := match l with [] => zero | a :: l => add a (total l) end.
Lemma total_app l m : total (l ++ m) = add (total l) (total m).
Proof. induction l as [|a l IH]; cbn; [now rewrite add0|]. now rewrite IH, addA. Qed.
Lemma total_perm l m : Permutation l m -> total l = total m.
Proof. induction 1; cbn; congruence || (rewrite !addA; f_equal; apply addC). Qed.
Lemma fold_left_total {A} (f : A -> V) l acc : fold_left (fun a i => add a (f i)) l acc = add acc (total (map f l)).
Proof. revert acc. induction l as [|a l IH]; intros acc; cbn; [rewrite addC; now rewrite add0|]. now rewrite IH, addA. Qed.
Lemma total_concat ls : total (concat ls) = total (map total ls).
Proof. induction ls as [|l ls IH]; cbn; auto. now rewrite total_app, IH. Qed.
Lemma total_add {A} (f h : A -> V) l : total (map (fun x => add (f x) (h x)) l) = add (total (map f l)) (total (map h l)).
Proof.
  induction l as [|a l IH]; cbn; [now rewrite add0|]. rewrite IH. rewrite <- !addA. f_equal. rewrite !addA. f_equal. apply addC.
Qed.

Lemma threads_total T : forall events data, (forall e, In e events -> (fst e < T)%nat) ->
  total (map (fold_left (add_event add) events data) (seq 0 T)) = add (total (map data (seq 0 T))) (total (map snd events)).
Proof.
  induction events as [|e events IH]; intros data H; cbn.
  - now rewrite addC, add0.
  - rewrite IH by (intros; apply H; right; auto).
    rewrite addA. f_equal.
    assert (K : forall l, NoDup l -> In (fst e) l -> total (map (add_event add data e) l) = add (total (map data l)) (snd e)).
    { induction l as [|a l IHl]; [contradiction|]. intros HN [->|Hin]; inversion HN; subst; cbn.
      - unfold add_event at 1. rewrite Nat.eqb_refl.
        assert (Q : map (add_event add data e) l = map data l).
        { apply map_ext_in. intros b Hb. unfold add_event. destruct (Nat.eqb_spec b (fst e)) as [->|]; auto. contradiction. }
        rewrite Q, <- !addA. f_equal. apply addC.
      - rewrite IHl by auto. unfold add_event at 1. destruct (Nat.eqb_spec a (fst e)) as [->|]; [contradiction|]. now rewrite addA. }
    apply K; [apply seq_NoDup|]. apply in_seq. specialize (H e (or_introl eq_refl)). lia.
Qed.

Lemma rank_total T events : (forall e, In e events -> (fst e < T)%nat) ->
  thread_total add zero T (run_adds add zero events) = total (map snd events).
Proof.
  intros H. unfold thread_total, run_adds. rewrite fold_left_total, add0, threads_total by auto.
  assert (K : total (map (fun _ : nat => zero) (seq 0 T)) = zero).
  { induction (seq 0 T); cbn; auto. now rewrite add0. } now rewrite K, add0.
Qed.

Lemma reduce_total t v : reduce add t v = total (map v (leaves t)).
Proof.
  induction t as [r|a IHa b IHb]; cbn; [now rewrite addC, add0|]. now rewrite map_app, total_app, IHa, IHb.
Qed.

(** The sum over the sites owned by the ranks is the sum over the lattice. *)
Context (g : geom) (sten : list site) (lay : Z -> layout) (Hg : valid_geom g).
Context (Hlay : forall r, 0 <= r < number_processors g -> initialize g sten (number_processors g) r = Ok (lay r)).

Lemma owned_sites_perm r : 0 <= r < number_processors g ->
  Permutation (map (fun i => local_index (lay r) i) (filter (fun i => proc_at g i =? r) (zrange (global_volume g)))) (zrange (llocalsize (lay r))).
Proof.
  intros Hr. apply NoDup_Permutation.
  - apply NoDup_map_inj; [|apply NoDup_filter', NoDup_zrange].
    intros i j Hi Hj E. apply filter_In in Hi as [Hi1 Hi2]. apply in_zrange in Hi1.
    apply (li_inj g sten r (lay r) Hg Hr (Hlay r Hr)); auto.
    pose proof (proj2 (li_owned_iff g sten r (lay r) Hg Hr (Hlay r Hr) i)). lia.
  - apply NoDup_zrange.
  - intros l. rewrite in_zrange, in_map_iff. split.
    + intros (i & <- & Hi). apply filter_In in Hi as [Hi1 Hi2]. apply in_zrange in Hi1.
      apply (li_owned_iff g sten r (lay r) Hg Hr (Hlay r Hr)). lia.
    + intros Hl. pose proof (sizes_ordered g sten r (lay r) Hg Hr (Hlay r Hr)).
      destruct (li_surj g sten r (lay r) Hg Hr (Hlay r Hr) l) as (i & Hi & <-); [lia|].
      exists i. split; auto. apply filter_In. rewrite in_zrange. split; auto.
      apply (li_owned_iff g sten r (lay r) Hg Hr (Hlay r Hr)) in Hl. lia.
Qed.

Lemma total_partition (F : Z -> V) (p : Z -> Z) n l : (forall i, In i l -> 0 <= p i < n) ->
  total (map (fun r => total (map F (filter (fun i => p i =? r) l))) (zrange n)) = total (map F l).
Proof.
  induction l as [|a l IH]; intros H.
  - cbn. induction (zrange n); cbn; auto. now rewrite add0.
  - cbn [map total]. rewrite <- IH by (intros; apply H; right; auto).
    specialize (H a (or_introl eq_refl)).
    assert (K : forall rs, NoDup rs -> In (p a) rs ->
      total (map (fun r => total (map F (filter (fun i => p i =? r) (a :: l)))) rs) =
      add (F a) (total (map (fun r => total (map F (filter (fun i => p i =? r) l))) rs))).
    { induction rs as [|r rs IHr]; [contradiction|]. intros HN [->|Hin]; inversion HN; subst; cbn [map total fold_right].
      - cbn [filter]. rewrite Z.eqb_refl. cbn [map total fold_right]. rewrite <- addA. f_equal. f_equal.
        f_equal. apply map_ext_in. intros r Hr. destruct (Z.eqb_spec (p a) r) as [E|]; auto. exfalso. apply H2. now rewrite E.
      - cbn [filter] in *. destruct (Z.eqb_spec (p a) r) as [E|]; [exfalso; apply H2; now rewrite <- E|].
        rewrite IHr by auto.
        rewrite !addA. f_equal. apply addC. }
    apply K; [apply NoDup_zrange|]. now apply in_zrange.
Qed.

Lemma sum_over_ranks (F : site -> V) (m : Z -> Z -> V) T events t :
  (forall r s, 0 <= r < number_processors g -> in_box g s -> owned_by g r s -> m r (local_index (lay r) (gidx g s)) = F s) ->
  (forall r, 0 <= r < number_processors g -> (forall e, In e (events r) -> (fst e < T)%nat) /\
      Permutation (map snd (events r)) (map (m r) (zrange (llocalsize (lay r))))) ->
  Permutation (leaves t) (zrange (number_processors g)) ->
  global_sum add zero T events t = total (map F (all_sites g)).
Proof.
  intros Hm He Ht. unfold global_sum. rewrite reduce_total.
  rewrite (total_perm _ _ (Permutation_map _ Ht)).
  rewrite <- (map_site_at g (valid_pos g Hg)), map_map.
  rewrite <- (total_partition (fun i => F (site_at g i)) (proc_at g) (number_processors g)).
  - f_equal. apply map_ext_in. intros r Hr. apply in_zrange in Hr. destruct (He r Hr) as [He1 He2].
    rewrite rank_total by auto. rewrite (total_perm _ _ He2).
    rewrite <- (total_perm _ _ (Permutation_map (m r) (owned_sites_perm r Hr))). rewrite map_map. f_equal.
    apply map_ext_in. intros i Hi. apply filter_In in Hi as [Hi1 Hi2]. apply in_zrange in Hi1.
    pose proof (gidx_site_at g i (valid_pos g Hg) Hi1) as Q. rewrite <- Q at 1. apply Hm; auto.
    + now apply site_at_in_box; [apply valid_pos|].
    + apply proc_at_owned; auto; [now apply site_at_in_box; [apply valid_pos|]|]. rewrite Q. lia.
  - intros i Hi. apply in_zrange in Hi. now apply proc_at_range.
Qed.
End Sums.

Lemma total_fold {V} (add : V -> V -> V) zero l : total add zero l = fold_right add zero l.
Proof. induction l; cbn; congruence. Qed.

Lemma global_sum_spec {V} (add : V -> V -> V) (zero : V) :
  (forall a b c, add a (add b c) = add (add a b) c) -> (forall a b, add a b = add b a) -> (forall a, add zero a = a) ->
  forall (g : geom) (sten : list site) (lay : Z -> layout), valid_geom g ->
  (forall r, 0 <= r < number_processors g -> initialize g sten (number_processors g) r = Ok (lay r)) ->
  forall (F : site -> V) (m : Z -> Z -> V) (T : nat) (events : Z -> list (nat * V)) (t : tree) (sites : list site),
  (forall r s, 0 <= r < number_processors g -> in_box g s -> owned_by g r s -> m r (local_index (lay r) (gidx g s)) = F s) ->
  (forall r, 0 <= r < number_processors g -> (forall e, In e (events r) -> (fst e < T)%nat) /\
      Permutation (map snd (events r)) (map (m r) (zrange (llocalsize (lay r))))) ->
  Permutation (leaves t) (zrange (number_processors g)) ->
  NoDup sites -> (forall s, In s sites <-> in_box g s) ->
  global_sum add zero T events t = fold_right add zero (map F sites).
Proof.
  intros A C Z0 g sten lay Hg Hlay F m T events t sites Hm He Ht HN Hs.
  rewrite (sum_over_ranks add zero A C Z0 g sten lay Hg Hlay F m T events t Hm He Ht).
  rewrite <- total_fold. apply total_perm; auto. apply Permutation_map. apply NoDup_Permutation; auto.
  - rewrite <- (map_site_at g (valid_pos g Hg)). apply NoDup_map_inj; [|apply NoDup_zrange].
    intros i j Hi Hj E. apply in_zrange in Hi, Hj.
    rewrite <- (gidx_site_at g i (valid_pos g Hg) Hi), <- (gidx_site_at g j (valid_pos g Hg) Hj). now rewrite E.
  - intros s. rewrite in_all_sites, Hs. tauto.
Qed.
