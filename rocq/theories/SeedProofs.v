From Coq Require Import ZArith List Bool Lia.
From Verif Require Import Base ListFacts SeedModel.
Import ListNotations.
Open Scope Z_scope.

(** RandomSeed.cpp 8: the range of the distribution. *)
Definition drawn (d : Z) : Prop := -1000000000 <= d <= 1000000000.

Lemma nth_bound (l : list Z) (m : Z) : forallb (fun x => (0 <=? x) && (x <=? m)) l = true -> 0 <= m ->
  forall i, 0 <= nth i l 0 <= m.
Proof.
  intros H Hm i. rewrite forallb_forall in H. destruct (Nat.lt_ge_cases i (length l)) as [L|L].
  - pose proof (H _ (nth_In l 0 L)) as K. apply andb_prop in K as (K1 & K2).
    apply Z.leb_le in K1. apply Z.leb_le in K2. lia.
  - rewrite nth_overflow by lia. lia.
Qed.
Lemma seed_bound i : 0 <= nth i seed 0 <= 500000.
Proof. apply nth_bound; [vm_compute; reflexivity|lia]. Qed.
Lemma mpiseed_bound i : 0 <= nth i mpiseed 0 <= 500000.
Proof. apply nth_bound; [vm_compute; reflexivity|lia]. Qed.

Lemma to_int_inj a b : Z.abs (a - b) < 2 ^ 32 -> to_int a = to_int b -> a = b.
Proof.
  unfold to_int. intros H E. assert (F : (a + 2 ^ 31) mod 2 ^ 32 = (b + 2 ^ 31) mod 2 ^ 32) by lia.
  assert (P : 0 < 2 ^ 32) by (vm_compute; reflexivity).
  pose proof (Z.div_mod (a + 2 ^ 31) (2 ^ 32) ltac:(lia)) as Da.
  pose proof (Z.div_mod (b + 2 ^ 31) (2 ^ 32) ltac:(lia)) as Db. rewrite F in Da.
  set (qa := (a + 2 ^ 31) / 2 ^ 32) in *. set (qb := (b + 2 ^ 31) / 2 ^ 32) in *.
  set (m := (b + 2 ^ 31) mod 2 ^ 32) in *. set (P31 := 2 ^ 31) in *. set (P32 := 2 ^ 32) in *.
  clearbody qa qb m P31 P32. assert (qa = qb) by nia. subst. lia.
Qed.

Lemma nth_seeds b inputs : forall c i time draw, nth_error inputs i = Some (time, draw) ->
  nth_error (seeds_from b c inputs) i = Some (to_int (Z.abs (seed_sum b (c + 1 + Z.of_nat i) time draw))).
Proof.
  induction inputs as [|(t, d) rest IH]; intros c i time draw E; [destruct i; discriminate|].
  destruct i as [|i]; cbn in E.
  - injection E as -> ->. cbn. do 4 f_equal. lia.
  - cbn [seeds_from random_seed fst snd nth_error]. rewrite (IH (c + 1) i time draw E). do 4 f_equal. lia.
Qed.

Lemma nth_seeds0 b inputs i time draw : nth_error inputs i = Some (time, draw) ->
  nth_error (seeds b inputs) i = Some (to_int (Z.abs (seed_sum b (Z.of_nat i) time draw))).
Proof. intros E. unfold seeds. rewrite (nth_seeds b inputs (-1) i time draw E). do 4 f_equal. Qed.

(** What a rank adds. *)
Definition offset (r : Z) : Z := nth (Z.to_nat (r mod 512)) mpiseed 0 + ((12 * r + 13) mod (512 - 1)).
Definition ranks (n : nat) : list Z := map Z.of_nat (seq 0 n).
Fixpoint distinct (l : list Z) : bool :=
  match l with [] => true | x :: r => forallb (fun y => negb (x =? y)) r && distinct r end.
Lemma distinct_NoDup l : distinct l = true -> NoDup l.
Proof.
  induction l as [|x l IH]; intros H; [constructor|]. cbn in H. apply andb_prop in H as (H1 & H2).
  constructor; auto. intros I. rewrite forallb_forall in H1. specialize (H1 x I). now rewrite Z.eqb_refl in H1.
Qed.
Lemma distinct_offsets : distinct (map offset (ranks 534)) = true.
Proof. vm_compute. reflexivity. Qed.
Lemma offset_inj a b : 0 <= a < 534 -> 0 <= b < 534 -> offset a = offset b -> a = b.
Proof.
  intros Ha Hb E. pose proof (distinct_NoDup _ distinct_offsets) as N.
  assert (K : forall r, 0 <= r < 534 -> nth_error (map offset (ranks 534)) (Z.to_nat r) = Some (offset r)).
  { intros r Hr. apply map_nth_error. unfold ranks.
    rewrite <- (Z2Nat.id r) at 2 by lia. apply map_nth_error.
    rewrite (nth_error_nth' _ 0%nat) by (rewrite seq_length; lia). rewrite seq_nth by lia. reflexivity. }
  apply Z2Nat.inj; [lia|lia|]. rewrite NoDup_nth_error in N. apply N.
  - apply nth_error_Some. rewrite K by auto. discriminate.
  - rewrite !K by auto. congruence.
Qed.

Lemma sum_mpi r c t d : seed_sum (Mpi r) c t d = nth (Z.to_nat (c mod 128)) seed 0 + offset r + t + d.
Proof. unfold seed_sum, offset. lia. Qed.
Lemma offset_bound r : 0 <= offset r <= 501000.
Proof.
  unfold offset. pose proof (mpiseed_bound (Z.to_nat (r mod 512))).
  pose proof (Z.mod_pos_bound (12 * r + 13) (512 - 1) ltac:(lia)). lia.
Qed.

(** Two ranks that make their calls in step. *)
Lemma rank_seeds (inputs : list (Z * Z)) (a b : Z) (i : nat) (time draw : Z) :
  nth_error inputs i = Some (time, draw) -> 1000000000 <= time -> drawn draw ->
  0 <= a < 534 -> 0 <= b < 534 -> a <> b ->
  exists s s', nth_error (seeds (Mpi a) inputs) i = Some s /\ nth_error (seeds (Mpi b) inputs) i = Some s' /\ s <> s'.
Proof.
  intros E Ht Hd Ha Hb N. eexists; eexists. split; [apply nth_seeds0; eauto|]. split; [apply nth_seeds0; eauto|].
  rewrite !sum_mpi. pose proof (offset_bound a). pose proof (offset_bound b).
  pose proof (seed_bound (Z.to_nat (Z.of_nat i mod 128))) as S.
  set (s := nth _ seed 0) in *. clearbody s. unfold drawn in Hd. rewrite !Z.abs_eq by lia.
  intros K. apply N. apply offset_inj; auto. apply to_int_inj in K; [lia|]. 
  replace (2 ^ 32) with 4294967296 by reflexivity. lia.
Qed.

Lemma rank_collision (inputs : list (Z * Z)) : seeds (Mpi 294) inputs = seeds (Mpi 534) inputs.
Proof.
  unfold seeds. generalize (-1) as c. induction inputs as [|(t, d) rest IH]; intros c; [reflexivity|].
  cbn [seeds_from]. unfold random_seed. cbn [fst snd]. rewrite !sum_mpi, IH.
  replace (offset 534) with (offset 294) by (vm_compute; reflexivity). reflexivity.
Qed.

(** One process: exactly when two of its generators get the same seed. *)
Lemma process_seeds (inputs : list (Z * Z)) (i j : nat) (t d t' d' : Z) :
  nth_error inputs i = Some (t, d) -> nth_error inputs j = Some (t', d') ->
  1000000000 <= t -> 1000000000 <= t' -> Z.abs (t - t') <= 2000000000 -> drawn d -> drawn d' ->
  (nth_error (seeds Serial inputs) i = nth_error (seeds Serial inputs) j <->
   nth (i mod 23) seed 0 + t + d = nth (j mod 23) seed 0 + t' + d').
Proof.
  intros Ei Ej Ht Ht' Hc Hd Hd'. rewrite (nth_seeds0 _ _ _ _ _ Ei), (nth_seeds0 _ _ _ _ _ Ej). cbn [seed_sum].
  assert (M : forall n, Z.to_nat (Z.of_nat n mod 23) = (n mod 23)%nat).
  { intros n. change 23 with (Z.of_nat 23). rewrite <- Nat2Z.inj_mod. apply Nat2Z.id. }
  rewrite !M. pose proof (seed_bound (i mod 23)). pose proof (seed_bound (j mod 23)).
  set (s := nth (i mod 23) seed 0) in *. set (s' := nth (j mod 23) seed 0) in *. unfold drawn in *. clearbody s s'.
  rewrite !Z.abs_eq by lia. split.
  - intros [= K]. apply to_int_inj in K; auto. replace (2 ^ 32) with 4294967296 by reflexivity. lia.
  - congruence.
Qed.

Lemma thread_collision (t : Z) : exists d d', drawn d /\ drawn d' /\ exists s, seeds Serial [(t, d); (t, d')] = [s; s].
Proof.
  exists 0, 324655. split; [unfold drawn; lia|]. split; [unfold drawn; lia|].
  exists (to_int (Z.abs (373957 + t + 0))). unfold seeds. cbn [seeds_from random_seed fst snd].
  assert (E1 : seed_sum Serial (-1 + 1) t 0 = 373957 + t + 0) by reflexivity.
  assert (E2 : seed_sum Serial (-1 + 1 + 1) t 324655 = 373957 + t + 0).
  { change (49302 + t + 324655 = 373957 + t + 0). lia. }
  unfold random_seed. cbn [fst snd]. now rewrite E1, E2.
Qed.
