(** Proofs about the link colouring. *)
From Coq Require Import ZArith List Bool Lia Permutation Sorted ZifyBool ZifyNat.
From Verif Require Import Base ListFacts LayoutModel LayoutSpec LayoutProofs LayoutFacts LayoutFacts2 ColourModel ColourSpec.
Import ListNotations.
Open Scope Z_scope.

Lemma link_eqb_spec a b : reflect (a = b) (link_eqb a b).
Proof.
  destruct a as [s m], b as [s' m']. unfold link_eqb. cbn [fst snd].
  destruct (Z.eqb_spec s s'), (Nat.eqb_spec m m'); cbn; constructor; congruence.
Qed.
Lemma lupd_same {A} (f : link -> A) a v : lupd f a v a = v.
Proof. unfold lupd. now destruct (link_eqb_spec a a). Qed.
Lemma lupd_other {A} (f : link -> A) a v b : b <> a -> lupd f a v b = f b.
Proof. unfold lupd. now destruct (link_eqb_spec b a). Qed.

(** *** Lists of forbidden colours: strictly increasing lists of numbers that are not negative. *)
Inductive incr : Z -> list Z -> Prop :=
| incr_nil lo : incr lo []
| incr_cons lo x l : lo <= x -> incr (x + 1) l -> incr lo (x :: l).
Lemma incr_weaken lo lo' l : lo' <= lo -> incr lo l -> incr lo' l.
Proof. intros H K. destruct K; constructor; try lia; auto. Qed.
Lemma incr_ge lo l x : incr lo l -> In x l -> lo <= x.
Proof.
  induction 1 as [|lo y l H1 H2 IH]; [contradiction|]. intros [->|K]; [lia|]. specialize (IH K). lia.
Qed.
Lemma add_value_incr lo l v : incr lo l -> lo <= v -> incr lo (add_value l v).
Proof.
  induction 1 as [lo|lo y l H1 H2 IH]; intros Hv; cbn [add_value].
  - constructor; [exact Hv|constructor].
  - destruct (Z.eqb_spec y v) as [->|]; [constructor; auto|].
    rewrite Z.gtb_ltb. destruct (Z.ltb_spec v y).
    + constructor; [exact Hv|]. constructor; [lia|auto].
    + constructor; [exact H1|]. apply IH. lia.
Qed.
Lemma add_value_in l v x : In x (add_value l v) <-> x = v \/ In x l.
Proof.
  induction l as [|y l IH]; cbn [add_value].
  - cbn. intuition.
  - destruct (Z.eqb_spec y v) as [->|]; [cbn; intuition|].
    destruct (y >? v); cbn [In]; [intuition|]. rewrite IH. intuition.
Qed.
Lemma get_value_from_spec l : forall tmp, incr tmp l ->
  let v := get_value_from tmp l in tmp <= v /\ ~ In v l /\ forall x, tmp <= x < v -> In x l.
Proof.
  induction l as [|y l IH]; intros tmp H; cbn [get_value_from].
  - split; [lia|]. split; [tauto|]. intros x Hx. lia.
  - inversion H as [|? ? ? H1 H2]; subst. destruct (Z.eqb_spec tmp y) as [->|Hne]; cbn [negb].
    + destruct (IH (y + 1) H2) as (A & B & C). split; [lia|]. split.
      * intros [K|K]; [lia|contradiction].
      * intros x Hx. destruct (Z.eq_dec x y) as [->|]; [now left|]. right. apply C. lia.
    + split; [lia|]. split.
      * intros [K|K]; [lia|]. apply (incr_ge _ _ _ H2) in K. lia.
      * intros x Hx. lia.
Qed.
Lemma get_value_spec l : incr 0 l -> 0 <= get_value l /\ ~ In (get_value l) l /\ forall x, 0 <= x < get_value l -> In x l.
Proof. exact (get_value_from_spec l 0). Qed.

(** *** One turn. *)
Definition sane (st : cstate) : Prop := (forall l, incr 0 (forbidden st l)) /\ (forall l, 0 <= colour st l).

Lemma compare_other_colour a st b x : x <> a -> colour (compare_links a st b) x = colour st x.
Proof.
  intros H. unfold compare_links. destruct (colour st a =? colour st b); [|reflexivity]. cbn [colour].
  now apply lupd_other.
Qed.
Lemma compare_forbidden a st b x v : In v (forbidden (compare_links a st b) x) ->
  In v (forbidden st x) \/ v = colour st b \/ v = colour (compare_links a st b) a.
Proof.
  unfold compare_links. destruct (Z.eqb_spec (colour st a) (colour st b)) as [E|E]; cbn [forbidden colour].
  - rewrite (lupd_same (colour st)). set (f1 := lupd (forbidden st) a (add_value (forbidden st a) (colour st b))).
    assert (F : forall y w, In w (f1 y) -> In w (forbidden st y) \/ w = colour st b).
    { intros y w. unfold f1. destruct (link_eqb_spec y a) as [->|N].
      - rewrite lupd_same, add_value_in. tauto.
      - rewrite lupd_other by exact N. tauto. }
    destruct (link_eqb_spec x b) as [->|N].
    + rewrite lupd_same, add_value_in. intros [->|H]; [tauto|]. apply F in H. tauto.
    + rewrite lupd_other by exact N. intros H. apply F in H. tauto.
  - set (f1 := lupd (forbidden st) b (add_value (forbidden st b) (colour st a))).
    assert (F : forall y w, In w (f1 y) -> In w (forbidden st y) \/ w = colour st a).
    { intros y w. unfold f1. destruct (link_eqb_spec y b) as [->|N].
      - rewrite lupd_same, add_value_in. tauto.
      - rewrite lupd_other by exact N. tauto. }
    destruct (link_eqb_spec x a) as [->|N].
    + rewrite lupd_same, add_value_in. intros [->|H]; [tauto|]. apply F in H. tauto.
    + rewrite lupd_other by exact N. intros H. apply F in H. tauto.
Qed.
(** Forbidden colours are never removed. *)
Lemma compare_keeps a st b x v : In v (forbidden st x) -> In v (forbidden (compare_links a st b) x).
Proof.
  intros H. unfold compare_links.
  assert (K : forall f (y : link) w, In v (f x) -> In v (lupd f y (add_value (f y) w) x)).
  { intros f y w Hf. destruct (link_eqb_spec x y) as [->|N]; [rewrite lupd_same, add_value_in; tauto|now rewrite lupd_other]. }
  destruct (colour st a =? colour st b); cbn [forbidden]; apply K; apply K; exact H.
Qed.
Lemma compare_sane a st b : sane st -> sane (compare_links a st b).
Proof.
  intros (H1 & H2).
  assert (K : forall f (y : link) w, (forall l, incr 0 (f l)) -> 0 <= w -> forall l, incr 0 (lupd f y (add_value (f y) w) l)).
  { intros f y w Hf Hw l. destruct (link_eqb_spec l y) as [->|N]; [rewrite lupd_same; now apply add_value_incr|now rewrite lupd_other]. }
  unfold compare_links. destruct (colour st a =? colour st b); split; cbn [forbidden colour].
  - apply K; [apply K; auto|]. rewrite lupd_same. rewrite lupd_same.
    apply get_value_spec. now apply add_value_incr.
  - intro l. destruct (link_eqb_spec l a) as [->|N]; [|now rewrite lupd_other].
    rewrite lupd_same. rewrite lupd_same. apply get_value_spec. now apply add_value_incr.
  - apply K; auto.
  - exact H2.
Qed.
(** After a comparison with a different link the colours differ and the other colour is forbidden. *)
Lemma compare_differs a st b : sane st -> b <> a ->
  let st' := compare_links a st b in colour st' a <> colour st' b /\ In (colour st' b) (forbidden st' a) /\
   (colour st' a = colour st a \/ (colour st a = colour st b /\ ~ In (colour st' a) (forbidden st' a) /\
      forall v, 0 <= v < colour st' a -> In v (forbidden st a) \/ v = colour st b)).
Proof.
  intros (H1 & H2) Hne. cbv zeta. unfold compare_links.
  destruct (Z.eqb_spec (colour st a) (colour st b)) as [E|E]; cbn [forbidden colour].
  - rewrite !lupd_same. rewrite (lupd_other (colour st) a _ b) by exact Hne.
    rewrite (lupd_other _ b _ a) by congruence. rewrite lupd_same.
    destruct (get_value_spec (add_value (forbidden st a) (colour st b))) as (A & B & C); [now apply add_value_incr|].
    split; [intro K; apply B; rewrite K, add_value_in; tauto|]. split; [rewrite add_value_in; tauto|].
    right. split; [exact E|]. split; [exact B|]. intros v Hv. apply C in Hv. rewrite add_value_in in Hv. tauto.
  - split; [exact E|]. split; [|now left]. rewrite lupd_same, add_value_in. tauto.
Qed.

(** A link's turn. *)
Lemma turn_ind (P : list link -> cstate -> Prop) a st bs :
  P [] st -> (forall done b st', In b bs -> P done st' -> P (done ++ [b]) (compare_links a st' b)) ->
  P bs (fold_left (compare_links a) bs st).
Proof.
  intros H0 HS.
  assert (G : forall rest done st', (forall b, In b rest -> In b bs) -> P done st' -> P (done ++ rest) (fold_left (compare_links a) rest st')).
  { induction rest as [|b rest IH]; intros done st' Hin Hp; cbn [fold_left].
    - now rewrite app_nil_r.
    - replace (done ++ b :: rest) with ((done ++ [b]) ++ rest) by now rewrite <- app_assoc.
      apply IH; [intros; apply Hin; now right|]. apply HS; auto. apply Hin. now left. }
  exact (G bs [] st (fun _ H => H) H0).
Qed.

Lemma turn_correct a st bs : sane st -> (forall b, In b bs -> b <> a) ->
  let st' := fold_left (compare_links a) bs st in
  sane st' /\ (forall x, x <> a -> colour st' x = colour st x) /\
  (forall b, In b bs -> colour st' a <> colour st' b).
Proof.
  intros Hs Hn.
  assert (G : sane (fold_left (compare_links a) bs st) /\
     (forall x, x <> a -> colour (fold_left (compare_links a) bs st) x = colour st x) /\
     (forall b, In b bs -> colour (fold_left (compare_links a) bs st) a <> colour st b /\
        In (colour st b) (forbidden (fold_left (compare_links a) bs st) a))).
  { apply (turn_ind (fun done s => sane s /\ (forall x, x <> a -> colour s x = colour st x) /\
       (forall b, In b done -> colour s a <> colour st b /\ In (colour st b) (forbidden s a)))).
    - split; [exact Hs|]. split; [reflexivity|]. intros b [].
    - intros done b s Hb (I1 & I2 & I3). pose proof (Hn b Hb) as Hba.
      destruct (compare_differs a s b I1 Hba) as (D1 & D2 & D3).
      split; [now apply compare_sane|]. split.
      { intros x Hx. rewrite compare_other_colour by exact Hx. now apply I2. }
      intros b' Hb'. apply in_app_iff in Hb'. destruct Hb' as [Hb'|[<-|[]]].
      + destruct (I3 b' Hb') as (J1 & J2). apply (compare_keeps a s b) in J2 as J2'. split; [|exact J2'].
        destruct D3 as [D3|(_ & D3 & _)]; [congruence|]. intro K. apply D3. now rewrite K.
      + rewrite (compare_other_colour a s b b Hba), (I2 b Hba) in *. auto. }
  destruct G as (G1 & G2 & G3). split; [exact G1|]. split; [exact G2|].
  intros b Hb. rewrite (G2 b (Hn b Hb)). now apply G3.
Qed.

(** Extra facts in the first round: what is forbidden is used. *)
Lemma turn_contiguous a st bs (Q : list link) : sane st -> ~ In a Q ->
  (forall b, In b bs -> b <> a) ->
  (forall x, ~ In x Q -> colour st x = 0) ->
  (forall x v, In v (forbidden st x) -> v = 0 \/ exists y, In y Q /\ colour st y = v) ->
  let st' := fold_left (compare_links a) bs st in
  (forall x v, In v (forbidden st' x) -> v = 0 \/ exists y, In y (a :: Q) /\ colour st' y = v) /\
  (forall v, 0 < v < colour st' a -> exists y, In y Q /\ colour st' y = v) /\
  ((forall b, In b bs -> colour st b <> 0) -> colour st' a = 0).
Proof.
  intros Hs HaQ Hn H0 Hf. cbv zeta.
  assert (G : let s := fold_left (compare_links a) bs st in
     sane s /\ (forall x, x <> a -> colour s x = colour st x) /\
     (forall x v, In v (forbidden s x) -> v = 0 \/ v = colour s a \/ exists y, In y Q /\ colour st y = v) /\
     (forall v, 0 < v < colour s a -> exists y, In y Q /\ colour st y = v) /\
     ((forall b, In b bs -> colour st b <> 0) -> colour s a = 0)).
  { cbv zeta.
    apply (turn_ind (fun done s => sane s /\ (forall x, x <> a -> colour s x = colour st x) /\
     (forall x v, In v (forbidden s x) -> v = 0 \/ v = colour s a \/ exists y, In y Q /\ colour st y = v) /\
     (forall v, 0 < v < colour s a -> exists y, In y Q /\ colour st y = v) /\
     ((forall b, In b bs -> colour st b <> 0) -> colour s a = 0))).
    - split; [exact Hs|]. split; [reflexivity|]. split; [intros x v Hv; apply Hf in Hv; tauto|].
      rewrite (H0 a HaQ). split; [intros; lia|reflexivity].
    - intros done b s Hb (I1 & I2 & I3 & I4 & I5). pose proof (Hn b Hb) as Hba.
      destruct (compare_differs a s b I1 Hba) as (D1 & D2 & D3).
      (* the colour of b is zero or already used *)
      assert (Ub : colour s b = 0 \/ exists y, In y Q /\ colour st y = colour s b).
      { rewrite (I2 b Hba). destruct (in_dec (fun x y => reflect_dec _ _ (link_eqb_spec x y)) b Q) as [Hq|Hq].
        - right. eauto.
        - left. now apply H0. }
      assert (Ua : colour (compare_links a s b) a = colour s a \/ colour s a = 0 \/ exists y, In y Q /\ colour st y = colour s a).
      { destruct D3 as [D3|(D3 & _)]; [now left|right]. rewrite D3. exact Ub. }
      split; [now apply compare_sane|]. split.
      { intros x Hx. rewrite compare_other_colour by exact Hx. now apply I2. }
      split.
      { intros x v Hv. apply compare_forbidden in Hv. destruct Hv as [Hv|[->| ->]]; [|tauto|tauto].
        apply I3 in Hv. destruct Hv as [Hv|[->|Hv]]; [tauto| |tauto].
        destruct Ua as [Ua|[Ua|Ua]]; rewrite ?Ua; tauto. }
      split.
      { intros v Hv. destruct D3 as [D3|(D3 & D4 & D5)]; [apply I4; lia|].
        destruct (D5 v ltac:(lia)) as [K| ->].
        - apply I3 in K. destruct K as [K|[->|K]]; [lia| |exact K]. rewrite D3 in *.
          destruct Ub as [Ub|Ub]; [lia|exact Ub].
        - destruct Ub as [Ub|Ub]; [lia|exact Ub]. }
      { intros Hz. specialize (I5 Hz). destruct D3 as [D3|(D3 & _)]; [congruence|].
        exfalso. apply (Hz b Hb). rewrite <- (I2 b Hba). congruence. } }
  destruct G as (G1 & G2 & G3 & G4 & G5).
  assert (GQ : forall y, In y Q -> colour (fold_left (compare_links a) bs st) y = colour st y).
  { intros y Hy. apply G2. congruence. }
  split; [|split].
  - intros x v Hv. apply G3 in Hv. destruct Hv as [Hv|[->|(y & Hy & E)]]; [now left|right|right].
    + exists a. split; [now left|reflexivity].
    + exists y. split; [now right|]. rewrite GQ by exact Hy. exact E.
  - intros v Hv. destruct (G4 v Hv) as (y & Hy & E). exists y. split; [exact Hy|]. now rewrite GQ.
  - exact G5.
Qed.

(** *** A round. *)
Section Round.
Variable N : link -> list link.
Notation turnN := (fun s a => fold_left (compare_links a) (N a) s).
Variable order : list link.
Hypothesis Hnd : NoDup order.
Hypothesis Hirr : forall a, In a order -> ~ In a (N a).
Hypothesis Hsym : forall a b, In a order -> In b (N a) -> In a (N b).
Hypothesis Hclosed : forall a b, In a order -> In b (N a) -> In b order.

Lemma N_neq a b : In a order -> In b (N a) -> b <> a.
Proof. intros Ha Hb ->. now apply (Hirr a). Qed.

Lemma prefix_correct st : sane st -> forall n,
  let Q := firstn n order in let st' := fold_left turnN Q st in
  sane st' /\ (forall x, ~ In x Q -> colour st' x = colour st x) /\
  (forall a b, In a Q -> In b Q -> In b (N a) -> colour st' a <> colour st' b).
Proof.
  intros Hs n. cbv zeta. induction n as [|n IH].
  - cbn. repeat split; try apply Hs; auto.
  - destruct (nth_error order n) as [a|] eqn:E.
    + assert (EQ : firstn (S n) order = firstn n order ++ [a]).
      { clear -E. revert n E. induction order as [|x o IHo]; intros [|n] E; try discriminate; cbn in *.
        - now injection E as ->.
        - now rewrite IHo. }
      pose proof (nth_error_In _ _ E) as Ha.
      rewrite EQ, fold_left_app. cbn [fold_left]. set (s := fold_left turnN (firstn n order) st) in *.
      destruct IH as (I1 & I2 & I3).
      assert (HaQ : ~ In a (firstn n order)).
      { intro K. rewrite <- (firstn_skipn (S n) order) in Hnd. rewrite EQ, <- app_assoc in Hnd.
        apply NoDup_remove_2 in Hnd. apply Hnd. apply in_or_app. now left. }
      destruct (turn_correct a s (N a) I1 (fun b => N_neq a b Ha)) as (T1 & T2 & T3).
      split; [exact T1|]. split.
      * intros x Hx. rewrite T2; [apply I2|]; intro K; apply Hx; apply in_or_app; [now left|right; now left].
      * intros x y Hx Hy Hxy. apply in_app_iff in Hx. apply in_app_iff in Hy.
        destruct Hx as [Hx|[<-|[]]].
        -- destruct Hy as [Hy|[<-|[]]].
           ++ rewrite !T2 by congruence. now apply I3.
           ++ apply not_eq_sym. apply T3. apply Hsym; auto.
              rewrite <- (firstn_skipn n order). apply in_or_app. now left.
        -- now apply T3.
    + apply nth_error_None in E. rewrite !firstn_all2 in * by lia. exact IH.
Qed.
Lemma round_proper st : sane st -> let st' := fold_left turnN order st in
  sane st' /\ forall a b, In a order -> In b (N a) -> colour st' a <> colour st' b.
Proof.
  intros Hs. pose proof (prefix_correct st Hs (length order)) as H. cbv zeta in H. rewrite firstn_all in H.
  cbv zeta. destruct H as (H1 & _ & H3). split; [exact H1|]. intros a b Ha Hb. apply H3; eauto.
Qed.

Lemma prefix_contiguous : forall n,
  let Q := firstn n order in let st' := fold_left turnN Q cinit in
  sane st' /\ (forall x, ~ In x Q -> colour st' x = 0) /\
  (forall x v, In v (forbidden st' x) -> v = 0 \/ exists y, In y Q /\ colour st' y = v) /\
  (forall x v, In x Q -> 0 < v < colour st' x -> exists y, In y Q /\ colour st' y = v) /\
  (n = length order -> order <> [] -> exists y, In y order /\ colour st' y = 0).
Proof.
  induction n as [|n IH]; cbv zeta in *.
  - cbn. split; [|split; [reflexivity|split; [|split]]].
    + split; intro l; cbn; [constructor; [lia|constructor]|lia].
    + intros x v [<-|[]]. now left.
    + intros x v [].
    + intros E Hne. destruct order; [congruence|discriminate].
  - destruct (nth_error order n) as [a|] eqn:E.
    + assert (EQ : firstn (S n) order = firstn n order ++ [a]).
      { clear -E. revert n E. induction order as [|x o IHo]; intros [|n] E; try discriminate; cbn in *.
        - now injection E as ->.
        - now rewrite IHo. }
      pose proof (nth_error_In _ _ E) as Ha.
      rewrite EQ, fold_left_app. cbn [fold_left]. set (s := fold_left turnN (firstn n order) cinit) in *.
      destruct IH as (I1 & I2 & I3 & I4 & _).
      assert (HaQ : ~ In a (firstn n order)).
      { intro K. rewrite <- (firstn_skipn (S n) order) in Hnd. rewrite EQ, <- app_assoc in Hnd.
        apply NoDup_remove_2 in Hnd. apply Hnd. apply in_or_app. now left. }
      destruct (turn_correct a s (N a) I1 (fun b => N_neq a b Ha)) as (T1 & T2 & T3).
      destruct (turn_contiguous a s (N a) (firstn n order) I1 HaQ (fun b => N_neq a b Ha) I2 I3) as (C1 & C2 & C3).
      set (s' := fold_left (compare_links a) (N a) s) in *.
      split; [exact T1|]. split; [|split; [|split]].
      * intros x Hx. rewrite T2; [apply I2|]; intro K; apply Hx; apply in_or_app; [now left|right; now left].
      * intros x v Hv. destruct (C1 x v Hv) as [|(y & Hy & Ey)]; [now left|right]. exists y. split; [|exact Ey].
        apply in_or_app. destruct Hy as [<-|Hy]; [right; now left|now left].
      * intros x v Hx Hv. apply in_app_iff in Hx. destruct Hx as [Hx|[<-|[]]].
        -- rewrite T2 in Hv by congruence. destruct (I4 x v Hx Hv) as (y & Hy & Ey). exists y.
           split; [apply in_or_app; now left|]. rewrite T2 by congruence. exact Ey.
        -- destruct (C2 v Hv) as (y & Hy & Ey). exists y. split; [apply in_or_app; now left|exact Ey].
      * intros El _.
        assert (EO : order = firstn n order ++ [a]). { rewrite <- EQ, El. now rewrite firstn_all. }
        destruct (existsb (fun b => colour s b =? 0) (firstn n order)) eqn:X.
        -- apply existsb_exists in X as (y & Hy & Ey). apply Z.eqb_eq in Ey. exists y. split.
           ++ rewrite EO. apply in_or_app. now left.
           ++ rewrite T2 by congruence. exact Ey.
        -- exists a. split; [exact Ha|]. apply C3. intros b Hb Eb.
           assert (Hbq : In b (firstn n order)).
           { pose proof (Hclosed a b Ha Hb) as K. rewrite EO in K. apply in_app_iff in K. destruct K as [K|[<-|[]]]; [exact K|].
             exfalso. exact (N_neq a a Ha Hb eq_refl). }
           assert (existsb (fun b => colour s b =? 0) (firstn n order) = true); [|congruence].
           apply existsb_exists. exists b. split; [exact Hbq|]. now apply Z.eqb_eq.
    + apply nth_error_None in E. rewrite !firstn_all2 in * by lia.
      destruct IH as (I1 & I2 & I3 & I4 & I5). repeat split; try apply I1; auto.
      intros El Hne. exfalso. lia.
Qed.
Lemma round_contiguous : order <> [] -> let st' := fold_left turnN order cinit in
  forall a v, In a order -> 0 <= v <= colour st' a -> exists b, In b order /\ colour st' b = v.
Proof.
  intros Hne. pose proof (prefix_contiguous (length order)) as H. cbv zeta in *. rewrite firstn_all in H.
  destruct H as (_ & _ & _ & H4 & H5). specialize (H5 eq_refl Hne). intros a v Ha Hv.
  destruct (Z.eq_dec v 0) as [->|]; [exact H5|].
  destruct (Z.eq_dec v (colour (fold_left turnN order cinit) a)) as [E|]; [exists a; auto|].
  apply (H4 a v Ha). lia.
Qed.
End Round.

(** *** Geometry of the comparisons. *)
Definition mv (g : geom) (i : Z) (d : site) : Z := gidx g (site_add (site_at g i) d).
Lemma mv_mv g i d e : positive_extents g -> mv g (mv g i d) e = mv g i (site_add d e).
Proof. intros Hg. unfold mv. rewrite gidx_move by exact Hg. now rewrite site_add_assoc. Qed.
Lemma mv_sup g i mu : global_sup g i mu = mv g i (steps mu 1).
Proof. unfold mv, global_sup. now rewrite steps_plus. Qed.
Lemma mv_down g i mu : global_down g i mu = mv g i (steps mu (-1)).
Proof. unfold mv, global_down. now rewrite steps_minus. Qed.
Lemma mv_range g i d : positive_extents g -> 0 <= mv g i d < global_volume g.
Proof. intros. now apply gidx_range. Qed.
Definition off (mu nu : nat) (a b : Z) : site := site_add (steps mu a) (steps nu b).
Lemma mv_off0 g i mu nu : positive_extents g -> 0 <= i < global_volume g -> mv g i (off mu nu 0 0) = i.
Proof.
  intros Hg Hi. unfold mv, off. rewrite <- site_add_assoc, !site_add_0. now apply gidx_site_at.
Qed.

(** The comparisons as displacements: (a, b, direction nu?). *)
Definition entries : list (Z * Z * bool) :=
  [(0,0,true); (-1,0,false); (-1,0,true); (1,0,false); (1,0,true); (2,0,true); (0,-2,false); (0,-2,true); (1,-2,true);
   (0,-1,false); (0,-1,true); (-1,-1,false); (-1,-1,true); (1,-1,false); (1,-1,true); (2,-1,true); (0,1,false); (0,1,true);
   (-1,1,false); (1,1,false); (1,1,true); (0,2,false)].
Definition entry (g : geom) (s : Z) (mu nu : nat) (e : Z * Z * bool) : link :=
  let '(a, b, n) := e in (mv g s (off mu nu a b), if n then nu else mu).
Lemma compared_entries g s mu nu : positive_extents g -> 0 <= s < global_volume g ->
  compared g s mu nu = map (entry g s mu nu) entries.
Proof.
  intros Hg Hs. unfold compared, entries. cbn [map entry].
  rewrite !mv_sup, !mv_down, !mv_mv by exact Hg.
  rewrite mv_off0 by auto.
  destruct mu as [|[|[|mu]]], nu as [|[|[|nu]]]; reflexivity.
Qed.
Lemma in_others mu nu : In nu (others mu) <-> (nu < 4)%nat /\ nu <> mu.
Proof.
  unfold others. rewrite filter_In, in_seq. split.
  - intros (H1 & H2). destruct (Nat.eqb_spec nu mu); [discriminate|]. lia.
  - intros (H1 & H2). split; [lia|]. now destruct (Nat.eqb_spec nu mu).
Qed.
Lemma in_all_links g l : In l (all_links g) <-> is_link g l.
Proof.
  unfold all_links, is_link. rewrite in_flat_map. split.
  - intros (s & Hs & Hm). apply in_map_iff in Hm as (mu & <- & Hmu). apply in_zrange in Hs. apply in_seq in Hmu. cbn. lia.
  - intros (Hs & Hm). exists (fst l). split; [now apply in_zrange|]. apply in_map_iff. exists (snd l).
    split; [now destruct l|]. apply in_seq. lia.
Qed.
Lemma NoDup_all_links g : NoDup (all_links g).
Proof.
  unfold all_links. apply NoDup_flat_map.
  - apply NoDup_zrange.
  - intros s _. apply NoDup_map_inj; [|apply seq_NoDup]. intros a b _ _ E. congruence.
  - intros a b x Ha Hb H1 H2. apply in_map_iff in H1 as (? & <- & _). apply in_map_iff in H2 as (? & E & _). congruence.
Qed.
Lemma in_neighbours g l l' : positive_extents g -> is_link g l ->
  (In l' (neighbours g l) <-> exists nu e, (nu < 4)%nat /\ nu <> snd l /\ In e entries /\ l' = entry g (fst l) (snd l) nu e).
Proof.
  intros Hg (Hs & Hm). unfold neighbours. rewrite in_flat_map. split.
  - intros (nu & Hnu & H). apply in_others in Hnu as (H1 & H2). rewrite compared_entries in H by auto.
    apply in_map_iff in H as (e & <- & He). exists nu, e. auto.
  - intros (nu & e & H1 & H2 & He & ->). exists nu. split; [now apply in_others|]. rewrite compared_entries by auto. now apply in_map.
Qed.
Lemma neighbours_closed g l l' : positive_extents g -> is_link g l -> In l' (neighbours g l) -> is_link g l'.
Proof.
  intros Hg Hl H. apply (in_neighbours g l l' Hg Hl) in H as (nu & ((a, b), n) & H1 & H2 & He & ->).
  cbn [entry]. split; cbn [fst snd]; [now apply mv_range|]. destruct n; [exact H1|apply Hl].
Qed.
Definition inverse (e : Z * Z * bool) : Z * Z * bool :=
  let '(a, b, n) := e in if n then (- b, - a, true) else (- a, - b, false).
Lemma inverse_in e : In e entries -> In (inverse e) entries.
Proof. intros H. repeat (destruct H as [<-|H]; [cbn; tauto|]). destruct H. Qed.
Lemma off_cancel mu nu a b : site_add (off mu nu a b) (off mu nu (- a) (- b)) = off mu nu 0 0.
Proof. destruct mu as [|[|[|mu]]], nu as [|[|[|nu]]]; unfold off, site_add; cbn; f_equal; lia. Qed.
Lemma off_swap mu nu a b : off mu nu a b = off nu mu b a.
Proof. unfold off. apply site_add_comm. Qed.
Lemma neighbours_sym g l l' : positive_extents g -> is_link g l -> In l' (neighbours g l) -> In l (neighbours g l').
Proof.
  intros Hg Hl H. pose proof (neighbours_closed g l l' Hg Hl H) as Hl'.
  apply (in_neighbours g l l' Hg Hl) in H as (nu & ((a, b), n) & H1 & H2 & He & E).
  apply (in_neighbours g l' l Hg Hl'). destruct l as [s mu]. cbn [fst snd] in *. cbn [entry] in E.
  pose proof (inverse_in _ He) as Hi. cbn [inverse] in Hi. destruct Hl as (Hs & Hmu). cbn [fst snd] in *.
  destruct n; subst l'; cbn [fst snd].
  - exists mu, (-b, -a, true). split; [exact Hmu|]. split; [congruence|]. split; [exact Hi|].
    cbn [entry]. rewrite mv_mv by exact Hg. rewrite (off_swap nu mu), off_cancel, mv_off0 by auto. reflexivity.
  - exists nu, (-a, -b, false). split; [exact H1|]. split; [exact H2|]. split; [exact Hi|].
    cbn [entry]. rewrite mv_mv by exact Hg. rewrite off_cancel, mv_off0 by auto. reflexivity.
Qed.
Lemma neighbours_irrefl g l : extents_at_least_3 g -> is_link g l -> ~ In l (neighbours g l).
Proof.
  intros H3 Hl H. assert (Hg : positive_extents g) by (destruct H3 as (? & ? & ? & ?); repeat split; lia).
  apply (in_neighbours g l l Hg Hl) in H as (nu & ((a, b), n) & H1 & H2 & He & E).
  destruct l as [s mu]. cbn [fst snd entry] in *. destruct Hl as (Hs & Hmu). cbn [fst snd] in *.
  destruct n; [congruence|]. assert (E' : mv g s (off mu nu a b) = s) by congruence.
  rewrite <- (mv_off0 g s mu nu Hg Hs) in E' at 2. unfold mv in E'.
  apply gidx_same_image in E'; [|exact Hg]. rewrite same_image_comp in E'.
  pose proof (E' mu Hmu) as D1. pose proof (E' nu H1) as D2. rewrite !comp_add in D1, D2. unfold off in D1, D2.
  rewrite !comp_add, !comp_steps in D1, D2 by assumption. rewrite Nat.eqb_refl in D1, D2.
  destruct (Nat.eqb_spec mu nu); [congruence|]. destruct (Nat.eqb_spec nu mu); [congruence|].
  assert (X : forall m, (m < 4)%nat -> 3 <= extent g m).
  { intros m Hm. destruct H3 as (? & ? & ? & ?). destruct m as [|[|[|[|m]]]]; cbn; lia. }
  pose proof (X mu Hmu) as Xm. pose proof (X nu H1) as Xn.
  assert (Z0 : forall n k c, (n | c + (k + 0) - (c + (0 + 0))) \/ (n | c + (0 + k) - (c + (0 + 0))) -> 3 <= n -> -2 <= k <= 2 -> k = 0).
  { clear. intros n k c H Hn Hk. assert (Dv : (n | k)) by (destruct H as [(q & H)|(q & H)]; exists q; lia).
    destruct Dv as (q & Hq). destruct (Z.eq_dec q 0) as [->|]; [lia|]. nia. }
  assert (B : -2 <= a <= 2 /\ -2 <= b <= 2 /\ ~ (a = 0 /\ b = 0)).
  { clear -He. repeat (destruct He as [He|He]; [injection He as <- <-; try discriminate; lia|]). destruct He. }
  destruct B as (Ba & Bb & Bn). apply Bn. split.
  - apply (Z0 (extent g mu) a (comp (site_at g s) mu)); auto.
  - apply (Z0 (extent g nu) b (comp (site_at g s) nu)); auto.
Qed.
Lemma reads_neighbours improved g l l' : In l' (staple_reads improved g l) -> In l' (neighbours g l).
Proof.
  unfold staple_reads, neighbours. rewrite !in_flat_map. intros (nu & Hnu & H). exists nu. split; [exact Hnu|].
  destruct improved; unfold improved_reads, wilson_reads, compared in *; cbn [app In] in *; tauto.
Qed.
(** A link of a common plaquette or rectangle is compared, unless it is the same link. *)
Lemma loops_neighbours g l l' : positive_extents g -> is_link g l -> shares_loop g l l' -> l' = l \/ In l' (neighbours g l).
Proof.
  intros Hg Hl (nu & a & b & w & h & H1 & H2 & Hwh & Ha & Hb & i & Hi).
  assert (M : forall x y (d : bool), (x = 0 /\ y = 0 /\ d = false) \/ In (x, y, d) entries ->
     (displaced g (fst l) (snd l) x nu y, if d then nu else snd l) = l \/
     In (displaced g (fst l) (snd l) x nu y, if d then nu else snd l) (neighbours g l)).
  { intros x y d [(-> & -> & ->)|He].
    - left. destruct l as [s mu]. cbn [fst snd] in *. f_equal. apply (mv_off0 g s mu nu Hg). apply Hl.
    - right. apply (in_neighbours g l _ Hg Hl). exists nu, (x, y, d). auto. }
  assert (K : exists (x y : Z) (d : bool), l' = (displaced g (fst l) (snd l) x nu y, if d then nu else snd l) /\
                ((x = 0 /\ y = 0 /\ d = false) \/ In (x, y, d) entries)).
  { destruct Hi as [(Hi & [->| ->])|(Hi & [->| ->])].
    - exists (a + i), b, false. split; [reflexivity|].
      assert (C : forall x, -1 <= x <= 1 -> x = -1 \/ x = 0 \/ x = 1) by lia.
      destruct Hwh as [(-> & ->)|[(-> & ->)|(-> & ->)]]; destruct Hb as [->| ->];
      destruct (C (a + i) ltac:(lia)) as [E|[E|E]]; rewrite E; try lia; cbn; tauto.
    - exists (a + i), (b + h), false. split; [reflexivity|].
      assert (C : forall x, -1 <= x <= 1 -> x = -1 \/ x = 0 \/ x = 1) by lia.
      destruct Hwh as [(-> & ->)|[(-> & ->)|(-> & ->)]]; destruct Hb as [->| ->];
      destruct (C (a + i) ltac:(lia)) as [E|[E|E]]; rewrite E; try lia; cbn; tauto.
    - exists a, (b + i), true. split; [reflexivity|].
      assert (C : forall x, -1 <= x <= 0 -> x = -1 \/ x = 0) by lia.
      assert (C' : forall x, 0 <= x < 2 -> x = 0 \/ x = 1) by lia.
      destruct Hwh as [(-> & ->)|[(-> & ->)|(-> & ->)]]; destruct Hb as [->| ->];
      destruct (C a ltac:(lia)) as [-> | ->]; destruct (C' i ltac:(lia)) as [-> | ->]; try lia; cbn; tauto.
    - exists (a + w), (b + i), true. split; [reflexivity|].
      assert (C : forall x, -1 <= x <= 0 -> x = -1 \/ x = 0) by lia.
      assert (C' : forall x, 0 <= x < 2 -> x = 0 \/ x = 1) by lia.
      destruct Hwh as [(-> & ->)|[(-> & ->)|(-> & ->)]]; destruct Hb as [->| ->];
      destruct (C a ltac:(lia)) as [-> | ->]; destruct (C' i ltac:(lia)) as [-> | ->]; try lia; cbn; tauto. }
  destruct K as (x & y & d & -> & K). now apply M.
Qed.

(** *** The constructor. *)
Lemma pos_of_3 g : extents_at_least_3 g -> positive_extents g.
Proof. intros (? & ? & ? & ?). repeat split; lia. Qed.
Lemma all_links_nonempty g : positive_extents g -> all_links g <> [].
Proof.
  intros Hg E. assert (K : In (mv g 0 (Site 0 0 0 0), 0%nat) (all_links g)).
  { apply in_all_links. split; cbn [fst snd]; [now apply mv_range|lia]. }
  rewrite E in K. contradiction.
Qed.
Lemma round_unfold g st : round g st = fold_left (fun s a => fold_left (compare_links a) (neighbours g a) s) (all_links g) st.
Proof. reflexivity. Qed.
Lemma check_zero g colour : check_correctness g colour = 0 <->
  forall a b, In a (all_links g) -> In b (neighbours g a) -> colour a <> colour b.
Proof.
  unfold check_correctness. split.
  - intros H a b Ha Hb E.
    destruct (filter _ _) as [|x l] eqn:F in H; [|cbn [length] in H; lia].
    assert (K : In (a, b) []); [|contradiction]. rewrite <- F. apply filter_In. cbn [fst snd]. split; [|now apply Z.eqb_eq].
    apply in_flat_map. exists a. split; [exact Ha|]. now apply in_map.
  - intros H. rewrite filter_false; [reflexivity|]. intros (a, b) K. apply in_flat_map in K as (a' & Ha & K).
    apply in_map_iff in K as (b' & E & Hb). assert (a' = a) by congruence. assert (b' = b) by congruence. subst a' b'.
    cbn [fst snd]. apply Z.eqb_neq. now apply H.
Qed.
Lemma sane_cinit : sane cinit.
Proof. split; intro l; cbn; [constructor; [lia|constructor]|lia]. Qed.

Section Large.
Variable g : geom.
Hypothesis H3 : extents_at_least_3 g.
Let Hg : positive_extents g := pos_of_3 g H3.
Lemma irr a : In a (all_links g) -> ~ In a (neighbours g a).
Proof. intros Ha. apply neighbours_irrefl; [exact H3|]. now apply in_all_links. Qed.
Lemma sym a b : In a (all_links g) -> In b (neighbours g a) -> In a (neighbours g b).
Proof. intros Ha. apply neighbours_sym; [exact Hg|]. now apply in_all_links. Qed.
Lemma closed a b : In a (all_links g) -> In b (neighbours g a) -> In b (all_links g).
Proof. intros Ha Hb. apply in_all_links. apply (neighbours_closed g a b Hg); [now apply in_all_links|exact Hb]. Qed.

Lemma first_round : check_correctness g (colour (round g cinit)) = 0.
Proof.
  apply check_zero. rewrite round_unfold.
  exact (proj2 (round_proper (neighbours g) (all_links g) (NoDup_all_links g) irr sym closed cinit sane_cinit)).
Qed.
Lemma initial_wrong : check_correctness g (colour cinit) <> 0.
Proof.
  intro K. rewrite check_zero in K. cbn [cinit colour] in K.
  set (s := mv g 0 (Site 0 0 0 0)). assert (Hs : is_link g (s, 0%nat)) by (split; cbn [fst snd]; [now apply mv_range|lia]).
  apply (K (s, 0%nat) (s, 1%nat)); [now apply in_all_links| |reflexivity].
  unfold neighbours. apply in_flat_map. exists 1%nat. cbn [fst snd]. split; [apply in_others; lia|]. now left.
Qed.
Lemma build_is_round : build g = colour (round g cinit).
Proof.
  unfold build, rounds. destruct (Z.eqb_spec (check_correctness g (colour cinit)) 0) as [E|_]; [now apply initial_wrong in E|].
  now rewrite first_round, Z.eqb_refl.
Qed.
Lemma build_accepted : check_correctness g (build g) = 0.
Proof. rewrite build_is_round. exact first_round. Qed.
Lemma build_nonneg l : 0 <= build g l.
Proof.
  rewrite build_is_round, round_unfold.
  apply (proj1 (round_proper (neighbours g) (all_links g) (NoDup_all_links g) irr sym closed cinit sane_cinit)).
Qed.
Lemma build_contiguous l v : is_link g l -> 0 <= v <= build g l -> exists l', is_link g l' /\ build g l' = v.
Proof.
  rewrite build_is_round, round_unfold. intros Hl Hv.
  destruct (round_contiguous (neighbours g) (all_links g) (NoDup_all_links g) irr sym closed (all_links_nonempty g Hg) l v) as (l' & H1 & H2).
  - now apply in_all_links.
  - exact Hv.
  - exists l'. split; [now apply in_all_links|exact H2].
Qed.
End Large.

(** *** Statistics. *)
Lemma distinct_spec l : forall seen, NoDup seen -> NoDup (distinct seen l) /\ forall c, In c (distinct seen l) <-> In c seen \/ In c l.
Proof.
  induction l as [|c l IH]; intros seen Hn; cbn [distinct].
  - split; [exact Hn|]. intro c. cbn. tauto.
  - destruct (existsb (Z.eqb c) seen) eqn:E.
    + apply existsb_exists in E as (x & Hx & Ex). apply Z.eqb_eq in Ex. subst x.
      destruct (IH seen Hn) as (A & B). split; [exact A|]. intro d. rewrite B. cbn. intuition. subst. now left.
    + assert (Hc : ~ In c seen).
      { intro K. assert (existsb (Z.eqb c) seen = true); [|congruence]. apply existsb_exists. exists c. split; [exact K|apply Z.eqb_refl]. }
      assert (Hn' : NoDup (seen ++ [c])).
      { apply NoDup_app; [exact Hn|constructor; [tauto|constructor]|]. intros x Hx [<-|[]]. contradiction. }
      destruct (IH _ Hn') as (A & B). split; [exact A|]. intro d. rewrite B, in_app_iff. cbn. intuition.
Qed.
Lemma number_loops_bound g colour : (forall l, is_link g l -> 0 <= colour l) ->
  (forall l v, is_link g l -> 0 <= v <= colour l -> exists l', is_link g l' /\ colour l' = v) ->
  forall l, is_link g l -> colour l < number_loops g colour.
Proof.
  intros Hp Hc l Hl. unfold number_loops. destruct (distinct_spec (map colour (all_links g)) [] (NoDup_nil _)) as (A & B).
  assert (K : (length (zrange (colour l + 1)) <= length (distinct [] (map colour (all_links g))))%nat).
  { apply NoDup_incl_length; [apply NoDup_zrange|]. intros v Hv. apply in_zrange in Hv. apply B. right.
    destruct (Hc l v Hl ltac:(lia)) as (l' & Hl' & <-). apply in_map. now apply in_all_links. }
  rewrite length_zrange in K. pose proof (Hp l Hl). lia.
Qed.
Lemma number_loops_used g colour : (forall l, is_link g l -> 0 <= colour l < number_loops g colour) ->
  forall c, 0 <= c < number_loops g colour -> exists l, is_link g l /\ colour l = c.
Proof.
  intros H c Hc. destruct (distinct_spec (map colour (all_links g)) [] (NoDup_nil _)) as (A & B).
  set (d := distinct [] (map colour (all_links g))) in *.
  assert (I : incl d (zrange (number_loops g colour))).
  { intros x Hx. apply B in Hx. destruct Hx as [[]|Hx]. apply in_map_iff in Hx as (l & <- & Hl). apply in_zrange.
    apply H. now apply in_all_links. }
  assert (J : incl (zrange (number_loops g colour)) d).
  { apply NoDup_length_incl; [exact A| |exact I]. rewrite length_zrange. unfold number_loops. fold d. lia. }
  assert (K : In c d) by (apply J; now apply in_zrange). apply B in K. destruct K as [[]|K].
  apply in_map_iff in K as (l & <- & Hl). exists l. split; [now apply in_all_links|reflexivity].
Qed.
Lemma sweep_permutation g colour : (forall l, is_link g l -> 0 <= colour l < number_loops g colour) ->
  Permutation (sweep_links g colour) (all_links g).
Proof.
  intros H. apply NoDup_Permutation.
  - unfold sweep_links. apply NoDup_flat_map; [apply NoDup_zrange| |].
    + intros c _. apply NoDup_filter'. apply NoDup_all_links.
    + intros a b x _ _ Ha Hb. apply filter_In in Ha as (_ & Ha). apply filter_In in Hb as (_ & Hb). lia.
  - apply NoDup_all_links.
  - intro l. unfold sweep_links. rewrite in_flat_map. split.
    + intros (c & _ & K). now apply filter_In in K.
    + intros Hl. exists (colour l). split; [apply in_zrange; apply H; now apply in_all_links|].
      apply filter_In. split; [exact Hl|apply Z.eqb_refl].
Qed.

(** *** Updates of one colour. *)
Section Concurrent.
Variables (V : Type) (f : link -> V -> list V -> V) (reads : link -> list link).
Variable ls : list link.
Hypothesis Hnd : NoDup ls.
Hypothesis Hind : forall l l', In l ls -> In l' ls -> ~ In l (reads l').
Variable u0 : link -> V.
Definition lin (l : link) (k : list link) : bool := existsb (link_eqb l) k.
Lemma lin_spec l k : reflect (In l k) (lin l k).
Proof.
  unfold lin. destruct (existsb (link_eqb l) k) eqn:E; constructor.
  - apply existsb_exists in E as (x & Hx & Ex). destruct (link_eqb_spec l x); [now subst|discriminate].
  - intro K. assert (existsb (link_eqb l) k = true); [|congruence]. apply existsb_exists. exists l. split; [exact K|].
    now destruct (link_eqb_spec l l).
Qed.
(** All updated at once from the old values. *)
Definition at_once (done : list link) (l : link) : V := if lin l done then f l (u0 l) (map u0 (reads l)) else u0 l.

Lemma map_at_once l done : incl done ls -> In l ls -> map (at_once done) (reads l) = map u0 (reads l).
Proof.
  intros Hi Hl. apply map_ext_in. intros a Ha. unfold at_once. destruct (lin_spec a done) as [K|]; [|reflexivity].
  exfalso. exact (Hind a l (Hi a K) Hl Ha).
Qed.
Lemma sequential_at_once order : Permutation order ls -> forall l, update_links V f reads order u0 l = at_once ls l.
Proof.
  intros Hp.
  assert (G : forall rest done u, NoDup (done ++ rest) -> incl (done ++ rest) ls -> (forall l, u l = at_once done l) ->
     forall l, update_links V f reads rest u l = at_once (done ++ rest) l).
  { induction rest as [|a rest IH]; intros done u Hn Hi Hu l; cbn [update_links fold_left].
    - rewrite app_nil_r. apply Hu.
    - replace (done ++ a :: rest) with ((done ++ [a]) ++ rest) in * by now rewrite <- app_assoc.
      apply IH; [exact Hn|exact Hi|]. intro x. unfold update_link.
      assert (Ha : In a ls). { apply Hi. apply in_or_app. left. apply in_or_app. right. now left. }
      assert (Hd : incl done ls). { intros y Hy. apply Hi. apply in_or_app. left. apply in_or_app. now left. }
      assert (Had : ~ In a done).
      { rewrite <- app_assoc in Hn. cbn in Hn. apply NoDup_remove_2 in Hn. intro K. apply Hn. apply in_or_app. now left. }
      unfold at_once at 1. destruct (link_eqb_spec x a) as [->|N].
      + rewrite lupd_same. destruct (lin_spec a (done ++ [a])) as [_|K]; [|exfalso; apply K; apply in_or_app; right; now left].
        rewrite (map_ext u (at_once done)) by exact Hu. rewrite map_at_once by assumption.
        rewrite Hu. unfold at_once. now destruct (lin_spec a done).
      + rewrite lupd_other by exact N. rewrite Hu. unfold at_once.
        destruct (lin_spec x done), (lin_spec x (done ++ [a])) as [K|K]; try reflexivity.
        * exfalso. apply K. apply in_or_app. now left.
        * apply in_app_iff in K. destruct K as [K|[K|[]]]; [contradiction|congruence]. }
  intros l. rewrite (G order [] u0).
  - cbn [app]. unfold at_once. destruct (lin_spec l order) as [K|K], (lin_spec l ls) as [K'|K']; try reflexivity; exfalso.
    + apply K'. now apply (Permutation_in _ Hp).
    + apply K. apply Permutation_sym in Hp. now apply (Permutation_in _ Hp).
  - cbn. apply Permutation_sym in Hp. now apply (Permutation_NoDup Hp).
  - cbn. intros x Hx. now apply (Permutation_in _ Hp).
  - reflexivity.
Qed.

(** Invariant of the interleaved run. *)
Definition good_job (j : job V) : Prop :=
  In (jlink V j) ls /\ exists done, jlink V j :: reads (jlink V j) = done ++ jleft V j /\ jgot V j = map u0 done.
Definition jinv (s : (link -> V) * list (job V)) : Prop :=
  let '(u, js) := s in NoDup (map (jlink V) js) /\ Forall good_job js /\
  forall l, u l = at_once (filter (fun l => negb (lin l (map (jlink V) js))) ls) l.
Definition remaining (js : list (job V)) := filter (fun l => negb (lin l (map (jlink V) js))) ls.
Lemma jinv_start : jinv (u0, map (start_job V reads) ls).
Proof.
  cbn. rewrite map_map. cbn. rewrite map_id. split; [exact Hnd|]. split.
  - apply Forall_forall. intros j Hj. apply in_map_iff in Hj as (l & <- & Hl). split; [exact Hl|].
    exists []. split; reflexivity.
  - intro l. rewrite filter_false; [reflexivity|]. intros x Hx. destruct (lin_spec x ls); [reflexivity|contradiction].
Qed.
Lemma jinv_step s t : jinv s -> jstep V f s t -> jinv t.
Proof.
  intros H St. destruct St as [u j1 j2 l got a left|u j1 j2 l got v0]; destruct H as (I1 & I2 & I3).
  - cbn. assert (EM : map (jlink V) (j1 ++ Job V l (got ++ [u a]) left :: j2) = map (jlink V) (j1 ++ Job V l got (a :: left) :: j2)) by (rewrite !map_app; reflexivity).
    rewrite EM. split; [exact I1|]. split; [|exact I3].
    apply Forall_app in I2 as (I2 & I4). pose proof (Forall_inv I4) as (Hl & done & E1 & E2). apply Forall_inv_tail in I4.
    cbn [jlink jleft jgot] in *. apply Forall_app. split; [exact I2|]. constructor; [|exact I4].
    split; cbn [jlink jleft jgot]; [exact Hl|]. exists (done ++ [a]). split; [rewrite <- app_assoc; exact E1|].
    rewrite map_app, <- E2. cbn [map]. f_equal. f_equal. rewrite I3. unfold at_once.
    destruct (lin_spec a (filter (fun l0 => negb (lin l0 (map (jlink V) (j1 ++ Job V l got (a :: left) :: j2)))) ls)) as [K|]; [|reflexivity].
    exfalso. apply filter_In in K as (K1 & K2).
    assert (Ka : In a (l :: reads l)). { rewrite E1. apply in_or_app. right. now left. }
    destruct Ka as [<-|Ka]; [|exact (Hind a l K1 Hl Ka)].
    destruct (lin_spec l (map (jlink V) (j1 ++ Job V l got (l :: left) :: j2))) as [_|K]; [discriminate|].
    apply K. rewrite map_app. apply in_or_app. right. now left.
  - cbn. assert (EM : map (jlink V) (j1 ++ Job V l (v0 :: got) [] :: j2) = map (jlink V) j1 ++ l :: map (jlink V) j2) by (now rewrite map_app).
    rewrite EM in *. rewrite map_app.
    apply Forall_app in I2 as (I2 & I4). pose proof (Forall_inv I4) as (Hl & done & E1 & E2). apply Forall_inv_tail in I4.
    cbn [jlink jleft jgot] in *. rewrite app_nil_r in E1. subst done. cbn [map] in E2.
    assert (Hv : v0 = u0 l) by congruence. assert (Hgot : got = map u0 (reads l)) by congruence.
    split; [now apply NoDup_remove_1 in I1|]. split; [now apply Forall_app|].
    pose proof (NoDup_remove_2 _ _ _ I1) as Hnl.
    intro x. destruct (link_eqb_spec x l) as [->|N].
    + rewrite lupd_same. unfold at_once. rewrite <- Hv, <- Hgot.
      destruct (lin_spec l (filter (fun l0 => negb (lin l0 (map (jlink V) j1 ++ map (jlink V) j2))) ls)) as [_|K]; [reflexivity|].
      exfalso. apply K. apply filter_In. split; [exact Hl|].
      destruct (lin_spec l (map (jlink V) j1 ++ map (jlink V) j2)); [contradiction|reflexivity].
    + rewrite lupd_other by exact N. rewrite I3. unfold at_once.
      assert (EF : lin x (filter (fun l0 => negb (lin l0 (map (jlink V) j1 ++ l :: map (jlink V) j2))) ls) =
                   lin x (filter (fun l0 => negb (lin l0 (map (jlink V) j1 ++ map (jlink V) j2))) ls)); [|now rewrite EF].
      assert (EE : lin x (map (jlink V) j1 ++ l :: map (jlink V) j2) = lin x (map (jlink V) j1 ++ map (jlink V) j2)).
      { destruct (lin_spec x (map (jlink V) j1 ++ l :: map (jlink V) j2)) as [K|K], (lin_spec x (map (jlink V) j1 ++ map (jlink V) j2)) as [K'|K']; try reflexivity; exfalso.
        - apply K'. apply in_app_iff in K. apply in_or_app. destruct K as [K|[K|K]]; auto. congruence.
        - apply K. apply in_app_iff in K'. apply in_or_app. destruct K' as [K'|K']; auto. right. now right. }
      destruct (lin_spec x (filter (fun l0 => negb (lin l0 (map (jlink V) j1 ++ l :: map (jlink V) j2))) ls)) as [K|K];
      destruct (lin_spec x (filter (fun l0 => negb (lin l0 (map (jlink V) j1 ++ map (jlink V) j2))) ls)) as [K'|K']; try reflexivity; exfalso.
      * apply K'. apply filter_In in K as (K1 & K2). apply filter_In. split; [exact K1|]. now rewrite <- EE.
      * apply K. apply filter_In in K' as (K1 & K2). apply filter_In. split; [exact K1|]. now rewrite EE.
Qed.
Lemma jinv_steps s t : jsteps V f s t -> jinv s -> jinv t.
Proof. induction 1 as [|s t r H1 H2 IH]; [auto|]. intros H. apply IH. now apply (jinv_step s). Qed.

(** A finished run has the same result as the sequential sweep. *)
Lemma concurrent_at_once u : jsteps V f (u0, map (start_job V reads) ls) (u, []) -> forall l, u l = at_once ls l.
Proof.
  intros H. pose proof (jinv_steps _ _ H jinv_start) as (_ & _ & K). intro l. rewrite K. cbn [map].
  rewrite filter_true; [reflexivity|]. intros x _. reflexivity.
Qed.
(** Every run can be finished, and only finitely many steps are possible. *)
Definition work (js : list (job V)) : nat := fold_right (fun j n => S (length (jleft V j) + n))%nat 0%nat js.
Lemma work_app a b : work (a ++ b) = (work a + work b)%nat.
Proof. induction a as [|j a IH]; [reflexivity|]. cbn [app]. unfold work in *. cbn [fold_right]. rewrite IH. lia. Qed.
Lemma step_work s t : jstep V f s t -> (work (snd t) < work (snd s))%nat.
Proof.
  destruct 1; cbn [snd]; rewrite !work_app; unfold work; cbn [fold_right jleft length]; lia.
Qed.
Lemma progress u js : jinv (u, js) -> js <> [] -> exists t, jstep V f (u, js) t.
Proof.
  intros (_ & I & _) Hne. destruct js as [|[l got left] js]; [congruence|].
  destruct left as [|a left].
  - pose proof (Forall_inv I) as (_ & done & E1 & E2). cbn [jlink jleft jgot] in *. rewrite app_nil_r in E1. subst done.
    cbn [map] in E2. subst got. eexists. exact (JWrite V f u [] js l _ _).
  - eexists. exact (JRead V f u [] js l got a left).
Qed.
Lemma can_finish n : forall u js, (work js <= n)%nat -> jinv (u, js) -> exists u', jsteps V f (u, js) (u', []).
Proof.
  induction n as [|n IH]; intros u js Hw Hi.
  - destruct js as [|j js]; [exists u; apply JRefl|]. cbn in Hw. lia.
  - destruct js as [|j js]; [exists u; apply JRefl|].
    destruct (progress u (j :: js) Hi ltac:(discriminate)) as ((u1 & js1) & St).
    pose proof (step_work _ _ St) as W. cbn [snd] in W.
    destruct (IH u1 js1) as (u' & R); [lia|now apply (jinv_step _ _ Hi)|].
    exists u'. exact (JTrans V f _ _ _ St R).
Qed.
End Concurrent.
