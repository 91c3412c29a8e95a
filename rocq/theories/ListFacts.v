(** General lemmas about lists, ranges and array updates (no model content). *)
From Coq Require Import ZArith List Bool Lia Permutation ZifyBool ZifyNat.
From Verif Require Import Base.
Ltac Zify.zify_post_hook ::= Z.div_mod_to_equations.
Open Scope Z_scope.

Lemma in_zrange n i : In i (zrange n) <-> 0 <= i < n.
Proof.
  unfold zrange. rewrite in_map_iff. split.
  - intros (k & <- & Hk). apply in_seq in Hk. lia.
  - intros H. exists (Z.to_nat i). split; [lia|]. apply in_seq. lia.
Qed.

Lemma NoDup_map_inj {A B} (f : A -> B) l :
  (forall x y, In x l -> In y l -> f x = f y -> x = y) -> NoDup l -> NoDup (map f l).
Proof.
  induction l as [|a l IH]; intros Hinj Hnd; cbn; [constructor|].
  inversion Hnd as [|? ? Hni Hnd']; subst. constructor.
  - rewrite in_map_iff. intros (y & Hy & Hin). apply Hni.
    rewrite <- (Hinj y a); auto. right; auto. left; auto.
  - apply IH; auto. intros x y Hx Hy. apply Hinj; right; auto.
Qed.

Lemma NoDup_zrange n : NoDup (zrange n).
Proof. apply NoDup_map_inj; [intros; lia | apply seq_NoDup]. Qed.

Lemma length_zrange n : length (zrange n) = Z.to_nat n.
Proof. unfold zrange. now rewrite map_length, seq_length. Qed.

Lemma zrange_nonpos n : n <= 0 -> zrange n = [].
Proof. intros H. unfold zrange. replace (Z.to_nat n) with 0%nat by lia. reflexivity. Qed.

Lemma nth_error_zrange n k : (k < Z.to_nat n)%nat -> nth_error (zrange n) k = Some (Z.of_nat k).
Proof.
  intros H. unfold zrange. rewrite nth_error_map.
  rewrite nth_error_nth' with (d := 0%nat); [|now rewrite seq_length].
  rewrite seq_nth; auto.
Qed.

Lemma zrange_S n : 0 <= n -> zrange (n + 1) = zrange n ++ [n].
Proof.
  intros H. unfold zrange. replace (Z.to_nat (n + 1)) with (S (Z.to_nat n)) by lia.
  rewrite seq_S, map_app. cbn. f_equal. f_equal. lia.
Qed.

Lemma zrange_app n m : 0 <= n -> 0 <= m -> zrange (n + m) = zrange n ++ map (Z.add n) (zrange m).
Proof.
  intros Hn Hm. unfold zrange. rewrite map_map.
  replace (Z.to_nat (n + m)) with (Z.to_nat n + Z.to_nat m)%nat by lia.
  rewrite seq_app, map_app. f_equal. cbn.
  replace (Z.to_nat n) with (Z.to_nat n + 0)%nat at 1 by lia.
  generalize 0%nat. induction (Z.to_nat m) as [|k IH]; intros o; cbn; auto.
  f_equal; [lia|]. rewrite <- IH. f_equal. f_equal. lia.
Qed.

Lemma zrange_cons n : 0 < n -> zrange n = 0 :: map (Z.add 1) (zrange (n - 1)).
Proof. intros H. replace n with (1 + (n - 1)) at 1 by lia. rewrite zrange_app by lia. reflexivity. Qed.

(** Blocks of constant length. *)
Lemma length_flat_map_const {A B} (f : A -> list B) m l :
  (forall a, In a l -> length (f a) = m) -> length (flat_map f l) = (length l * m)%nat.
Proof.
  induction l as [|a l IH]; intros H; cbn; auto.
  rewrite app_length, IH, H; auto; [left; auto | intros; apply H; right; auto].
Qed.

Lemma nth_flat_map_const {A B} (f : A -> list B) m l k d da :
  (forall a, In a l -> length (f a) = m) -> (k < length l * m)%nat ->
  nth k (flat_map f l) d = nth (k mod m) (f (nth (k / m) l da)) d.
Proof.
  revert k. induction l as [|a l IH]; intros k H Hk; cbn in Hk; [lia|].
  assert (Hm : m <> 0%nat) by (intros ->; rewrite Nat.mul_0_r in Hk; lia).
  cbn [flat_map]. destruct (Nat.ltb_spec k m) as [Hlt|Hge].
  - rewrite app_nth1 by (rewrite H; auto; left; auto).
    rewrite Nat.mod_small, Nat.div_small by auto. reflexivity.
  - rewrite app_nth2; rewrite H by (left; auto); auto.
    rewrite IH by (intros; try apply H; try right; auto; lia).
    replace k with ((k - m) + 1 * m)%nat at 3 4 by lia.
    rewrite Nat.mod_add, Nat.div_add by auto.
    replace ((k - m) / m + 1)%nat with (S ((k - m) / m)) by lia. reflexivity.
Qed.

Lemma nth_zrange n k d : (k < Z.to_nat n)%nat -> nth k (zrange n) d = Z.of_nat k.
Proof. intros H. apply nth_error_nth. now apply nth_error_zrange. Qed.

Lemma nth_flat_map_zrange {B} (f : Z -> list B) n m i d :
  0 <= m -> (forall a, 0 <= a < n -> length (f a) = Z.to_nat m) -> 0 <= i < n * m ->
  nth (Z.to_nat i) (flat_map f (zrange n)) d = nth (Z.to_nat (i mod m)) (f (i / m)) d.
Proof.
  intros Hm H Hi. assert (m <> 0) by (intros ->; lia).
  rewrite nth_flat_map_const with (m := Z.to_nat m) (da := 0).
  - rewrite nth_zrange.
    + replace (Z.of_nat (Z.to_nat i / Z.to_nat m)) with (i / m).
      2:{ rewrite Nat2Z.inj_div, !Z2Nat.id by lia. reflexivity. }
      f_equal. rewrite Z2Nat.inj_mod by lia. reflexivity.
    + rewrite <- Z2Nat.inj_div by lia.
      apply Z2Nat.inj_lt; try lia. apply Z.div_pos; lia.
      apply Z.div_lt_upper_bound; lia.
  - intros a Ha. apply H. now apply in_zrange.
  - rewrite length_zrange. rewrite <- Z2Nat.inj_mul by lia. apply Z2Nat.inj_lt; lia.
Qed.

Lemma length_flat_map_zrange {B} (f : Z -> list B) n m :
  0 <= m -> 0 <= n -> (forall a, 0 <= a < n -> length (f a) = Z.to_nat m) ->
  length (flat_map f (zrange n)) = Z.to_nat (n * m).
Proof.
  intros Hm Hn H. rewrite length_flat_map_const with (m := Z.to_nat m).
  - rewrite length_zrange, Z2Nat.inj_mul; lia.
  - intros a Ha. apply H. now apply in_zrange.
Qed.

(** Filters and maps. *)
Lemma filter_map_comm {A B} (f : A -> B) p l : filter p (map f l) = map f (filter (fun a => p (f a)) l).
Proof. induction l as [|a l IH]; cbn; auto. rewrite IH. now destruct (p (f a)). Qed.

Lemma filter_flat_map {A B} (f : A -> list B) p l :
  filter p (flat_map f l) = flat_map (fun a => filter p (f a)) l.
Proof. induction l as [|a l IH]; cbn; auto. now rewrite filter_app, IH. Qed.

Lemma flat_map_map {A B C} (f : B -> list C) (h : A -> B) l : flat_map f (map h l) = flat_map (fun a => f (h a)) l.
Proof. induction l as [|a l IH]; cbn; auto. now rewrite IH. Qed.

Lemma filter_ext_in' {A} (p q : A -> bool) l : (forall a, In a l -> p a = q a) -> filter p l = filter q l.
Proof. apply filter_ext_in. Qed.

Lemma filter_true {A} (p : A -> bool) l : (forall a, In a l -> p a = true) -> filter p l = l.
Proof.
  induction l as [|a l IH]; cbn; intros H; auto.
  rewrite H by auto. rewrite IH; auto.
Qed.
Lemma filter_false {A} (p : A -> bool) l : (forall a, In a l -> p a = false) -> filter p l = [].
Proof.
  induction l as [|a l IH]; cbn; intros H; auto.
  rewrite H by auto. rewrite IH; auto.
Qed.

(** A block of the range filtered by its quotient. *)
Lemma filter_div_zrange n l r :
  0 < l -> 0 <= r < n -> filter (fun x => x / l =? r) (zrange (n * l)) = map (Z.add (r * l)) (zrange l).
Proof.
  intros Hl Hr.
  replace (n * l) with (r * l + (l + (n - r - 1) * l)) by ring.
  rewrite zrange_app by nia. rewrite zrange_app by nia.
  rewrite !map_app, !filter_app.
  rewrite (filter_false _ (zrange (r * l))).
  2:{ intros a Ha. apply in_zrange in Ha. apply Z.eqb_neq. intros He.
      assert (l * r <= a) by (rewrite <- He; apply Z.mul_div_le; lia). nia. }
  rewrite filter_true.
  2:{ intros a Ha. apply in_map_iff in Ha as (b & <- & Hb). apply in_zrange in Hb.
      apply Z.eqb_eq. rewrite Z.add_comm, Z.div_add by lia. rewrite Z.div_small; lia. }
  rewrite filter_false.
  2:{ intros a Ha. apply in_map_iff in Ha as (b & <- & Hb).
      apply in_map_iff in Hb as (c & <- & Hc). apply in_zrange in Hc.
      apply Z.eqb_neq. replace (r * l + (l + c)) with (c + (r + 1) * l) by ring.
      rewrite Z.div_add by lia. assert (0 <= c / l) by (apply Z.div_pos; lia). lia. }
  now rewrite app_nil_r.
Qed.

Lemma length_filter_div n l r :
  0 < l -> 0 <= r < n -> length (filter (fun x => x / l =? r) (zrange (n * l))) = Z.to_nat l.
Proof. intros. rewrite filter_div_zrange by auto. now rewrite map_length, length_zrange. Qed.

(** NoDup of concatenations. *)
Lemma NoDup_app {A} (l1 l2 : list A) :
  NoDup l1 -> NoDup l2 -> (forall x, In x l1 -> In x l2 -> False) -> NoDup (l1 ++ l2).
Proof.
  induction l1 as [|a l1 IH]; intros H1 H2 H; cbn; auto.
  inversion H1; subst. constructor.
  - rewrite in_app_iff. intros [Hi|Hi]; auto. eapply H; eauto. left; auto.
  - apply IH; auto. intros x Hx Hy. eapply H; eauto. right; auto.
Qed.

Lemma NoDup_flat_map {A B} (f : A -> list B) l :
  NoDup l -> (forall a, In a l -> NoDup (f a)) ->
  (forall a b x, In a l -> In b l -> In x (f a) -> In x (f b) -> a = b) -> NoDup (flat_map f l).
Proof.
  induction l as [|a l IH]; intros Hnd Hf Hd; cbn; [constructor|].
  inversion Hnd; subst. apply NoDup_app.
  - apply Hf; left; auto.
  - apply IH; auto. intros b Hb. apply Hf; right; auto.
    intros b c x Hb Hc. apply Hd; right; auto.
  - intros x Hx Hy. apply in_flat_map in Hy as (b & Hb & Hxb).
    assert (a = b) by (eapply Hd; eauto; [left|right]; auto). subst. contradiction.
Qed.

Lemma NoDup_filter' {A} (p : A -> bool) l : NoDup l -> NoDup (filter p l).
Proof. apply NoDup_filter. Qed.

(** Index of an element. *)
Fixpoint index_of (x : Z) (l : list Z) : option nat :=
  match l with
  | [] => None
  | y :: r => if y =? x then Some 0%nat else option_map S (index_of x r)
  end.

Lemma index_of_Some x l k : NoDup l -> (index_of x l = Some k <-> nth_error l k = Some x).
Proof.
  revert k. induction l as [|y l IH]; intros k Hnd; cbn.
  - split; [discriminate|]. destruct k; discriminate.
  - inversion Hnd as [|? ? Hni Hnd']; subst. destruct (Z.eqb_spec y x) as [->|Hne].
    + split; intros H.
      * injection H as <-. reflexivity.
      * destruct k; auto. cbn in H. apply nth_error_In in H. contradiction.
    + destruct k; cbn.
      * split; intros H; [|congruence]. destruct (index_of x l); discriminate.
      * rewrite <- IH by auto. destruct (index_of x l); cbn; split; congruence.
Qed.

Lemma index_of_None x l : index_of x l = None <-> ~ In x l.
Proof.
  induction l as [|y l IH]; cbn; [tauto|].
  destruct (Z.eqb_spec y x) as [->|Hne].
  - split; [discriminate|]. intros H. exfalso; auto.
  - destruct (index_of x l) as [k|]; cbn.
    + split; [discriminate|]. intros H. exfalso. apply H. right.
      destruct (in_dec Z.eq_dec x l) as [Hi|Hi]; auto. apply IH in Hi. discriminate.
    + split; [|auto]. intros _ [->|Hi]; [congruence|]. now apply IH.
Qed.

Lemma index_of_app x l1 l2 :
  index_of x (l1 ++ l2) = match index_of x l1 with
                          | Some k => Some k
                          | None => option_map (Nat.add (length l1)) (index_of x l2) end.
Proof.
  induction l1 as [|y l1 IH]; cbn.
  - now destruct (index_of x l2).
  - destruct (y =? x); auto. rewrite IH. destruct (index_of x l1); auto.
    now destruct (index_of x l2).
Qed.

Lemma index_of_lt x l k : index_of x l = Some k -> (k < length l)%nat.
Proof.
  revert k. induction l as [|y l IH]; cbn; [discriminate|]. intros k.
  destruct (y =? x); [intros [= <-]; lia|].
  destruct (index_of x l); cbn; [|discriminate]. intros [= <-].
  specialize (IH _ eq_refl). lia.
Qed.

Lemma index_of_In x l : In x l -> exists k, index_of x l = Some k.
Proof.
  intros H. destruct (index_of x l) eqn:E; eauto. apply index_of_None in E. contradiction.
Qed.

Lemma fold_left_filter {A B} (f : A -> B -> A) (p : B -> bool) l a :
  fold_left (fun a b => if p b then f a b else a) l a = fold_left f (filter p l) a.
Proof. revert a. induction l as [|b l IH]; intros a; cbn; auto. destruct (p b); cbn; apply IH. Qed.

Lemma fold_left_flat_map {A B C} (f : A -> C -> A) (h : B -> list C) l a :
  fold_left (fun a b => fold_left f (h b) a) l a = fold_left f (flat_map h l) a.
Proof. revert a. induction l as [|b l IH]; intros a; cbn; auto. now rewrite fold_left_app, IH. Qed.

Lemma fold_left_ext {A B} (f h : A -> B -> A) l a :
  (forall a b, f a b = h a b) -> fold_left f l a = fold_left h l a.
Proof. intros H. revert a. induction l as [|b l IH]; intros a; cbn; auto. now rewrite H. Qed.

Lemma filter_eq_NoDup r l : NoDup l ->
  filter (fun x => x =? r) l = if in_dec Z.eq_dec r l then [r] else [].
Proof.
  intros Hnd. destruct (in_dec Z.eq_dec r l) as [Hi|Hi].
  - induction l as [|y l IH]; [contradiction|]. inversion Hnd as [|? ? Hni Hnd']; subst. cbn.
    destruct (Z.eqb_spec y r) as [->|Hne].
    + f_equal. apply filter_false. intros a Ha. apply Z.eqb_neq. intros ->. contradiction.
    + apply IH; auto. destruct Hi; congruence.
  - apply filter_false. intros a Ha. apply Z.eqb_neq. intros ->. contradiction.
Qed.

Lemma find_some_iff {A} (p : A -> bool) l x :
  (forall y, In y l -> p y = true -> y = x) -> In x l -> p x = true -> find p l = Some x.
Proof.
  induction l as [|a l IH]; cbn; intros H Hin Hp; [contradiction|].
  destruct (p a) eqn:E.
  - f_equal. apply H; auto.
  - apply IH; auto. destruct Hin as [->|]; auto. congruence.
Qed.

Lemma last_In {A} (l : list A) d : l <> [] -> In (last l d) l.
Proof.
  induction l as [|a l IH]; [congruence|]. intros _. destruct l as [|b l]; [left; auto|].
  right. apply IH. discriminate.
Qed.
