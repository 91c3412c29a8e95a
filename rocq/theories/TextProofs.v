(** Proofs about configuration lines, list options and schedules. *)
From Coq Require Import ZArith List Bool Ascii String Lia ZifyBool ZifyNat.
From Verif Require Import Base TextModel TextSpec.
Import ListNotations.
Open Scope Z_scope.

Lemma str_eqb_spec a : forall b, str_eqb a b = true <-> a = b.
Proof.
  induction a as [|x a IH]; intros [|y b]; cbn; split; intros H; try congruence; auto.
  - apply andb_true_iff in H as [H1 H2]. apply Ascii.eqb_eq in H1 as ->. apply IH in H2 as ->. auto.
  - injection H as -> ->. rewrite Ascii.eqb_refl. cbn. now apply IH.
Qed.
Lemma str_eqb_refl a : str_eqb a a = true.
Proof. now apply str_eqb_spec. Qed.

Lemma word_char_spec c : word_char c = true <-> field_char c.
Proof.
  split.
  - destruct c as [[] [] [] [] [] [] [] []]; vm_compute; intros H; try discriminate H;
      repeat (first [left; reflexivity | right]).
  - intros H. repeat (destruct H as [<-|H]; [reflexivity|]). destruct H.
Qed.

(** ** lines *)
Lemma unspaced_spec l b : unspaced l b <-> remove_spaces l = b.
Proof.
  split.
  - induction 1 as [|l b H IH|c l b Hc H IH]; cbn; auto.
    destruct (Ascii.eqb_spec c " "); [congruence|]. cbn. now rewrite <- IH.
  - intros <-. induction l as [|c l IH]; cbn; [constructor|]. destruct (Ascii.eqb_spec c " ") as [->|]; cbn; constructor; auto.
Qed.
Lemma remove_spaces_word w : word w -> remove_spaces w = w.
Proof.
  intros [_ H]. unfold remove_spaces. induction w as [|c w IH]; cbn; auto.
  destruct (Ascii.eqb_spec c " ") as [->|]; cbn.
  - destruct (H " "%char); [left; auto|congruence].
  - rewrite IH; auto. intros d Hd. apply H. right; auto.
Qed.
Lemma remove_spaces_none l c : In c (remove_spaces l) -> c <> " "%char.
Proof. intros H. apply filter_In in H as [_ H]. destruct (Ascii.eqb_spec c " "); [discriminate|auto]. Qed.

Lemma runs_word w : forall cur l, (forall c, In c w -> field_char c) -> runs_from cur (w ++ l) = runs_from (cur ++ w) l.
Proof.
  induction w as [|c w IH]; intros cur l H; cbn; [now rewrite app_nil_r|].
  rewrite (proj2 (word_char_spec c)) by (apply H; left; auto).
  rewrite IH by (intros; apply H; right; auto). now rewrite <- app_assoc.
Qed.
Lemma runs_gap s : forall l, gap s -> runs_from [] (s ++ l) = runs_from [] l.
Proof.
  induction s as [|c s IH]; intros l H; cbn; auto.
  destruct (word_char c) eqn:E.
  - exfalso. apply (H c); [left; auto|]. now apply word_char_spec.
  - cbn. apply IH. intros d Hd. apply H. right; auto.
Qed.
Lemma runs_break s : forall cur l, gap s -> s <> [] -> runs_from cur (s ++ l) = emit cur ++ runs_from [] l.
Proof.
  intros cur l H Hne. destruct s as [|c s]; [congruence|]. cbn. destruct (word_char c) eqn:E.
  - exfalso. apply (H c); [left; auto|]. now apply word_char_spec.
  - f_equal. apply runs_gap. intros d Hd. apply H. right; auto.
Qed.
Lemma emit_word w : w <> [] -> emit w = [w].
Proof. destruct w; [congruence|reflexivity]. Qed.

Lemma runs_tail w s : w <> [] -> gap s -> runs_from w s = [w].
Proof.
  intros Hw Hs. destruct s as [|c s]; [now apply emit_word|].
  pose proof (runs_break (c :: s) w [] Hs) as K. rewrite app_nil_r in K. rewrite K by congruence.
  now rewrite emit_word.
Qed.

(** Reading the runs off a text. *)
Lemma runs_inv b : forall cur r rs, (forall c, In c cur -> field_char c) -> runs_from cur b = r :: rs ->
  exists s t, cur ++ b = s ++ r ++ t /\ gap s /\ r <> [] /\ (forall c, In c r -> field_char c) /\ runs_from [] t = rs /\
    (t = [] \/ exists c t', t = c :: t' /\ ~ field_char c).
Proof.
  induction b as [|c b IH]; intros cur r rs Hcur H; cbn in H.
  - destruct cur as [|x cur]; cbn in H; [discriminate|]. injection H as <- <-.
    exists [], []. rewrite !app_nil_r. repeat split; auto; try congruence. intros d [].
  - destruct (word_char c) eqn:E.
    + apply IH in H as (s & t & Q & R).
      * exists s, t. rewrite <- app_assoc in Q. auto.
      * intros d Hd. apply in_app_iff in Hd as [Hd|[<-|[]]]; auto. now apply word_char_spec.
    + assert (Hc : ~ field_char c) by (intros F; apply word_char_spec in F; congruence).
      destruct cur as [|x cur]; cbn [emit app] in H.
      * apply IH in H as (s & t & Q & Hs & R); [|intros d []]. cbn in Q. exists (c :: s), t. cbn. rewrite Q.
        split; auto. split; auto. intros d [<-|Hd]; auto.
      * injection H as <- <-. exists [], (c :: b). cbn. repeat split; auto; try congruence.
        -- intros d [].
        -- cbn. rewrite E. reflexivity.
        -- right. eauto.
Qed.
Lemma runs_nil b : forall cur, runs_from cur b = [] -> cur = [] /\ gap b.
Proof.
  induction b as [|c b IH]; intros cur H; cbn in H.
  - destruct cur; [split; auto; intros d []|discriminate].
  - destruct (word_char c) eqn:E.
    + apply IH in H as [H _]. destruct cur; discriminate.
    + destruct cur; [|discriminate]. cbn in H. apply IH in H as [_ H]. split; auto.
      intros d [<-|Hd]; auto. intros F. apply word_char_spec in F. congruence.
Qed.

Definition no_space (l : str) : Prop := forall c, In c l -> c <> " "%char.
Lemma word_of_run b s r t : no_space b -> b = s ++ r ++ t -> r <> [] -> (forall c, In c r -> field_char c) -> word r.
Proof.
  intros H -> Hr Hf. split; auto. intros c Hc. split; auto. apply H. rewrite !in_app_iff. auto.
Qed.

Lemma clean_line_spec l : clean_line l = [] <-> comment l \/ blank l.
Proof.
  unfold clean_line, comment, blank. split.
  - destruct l as [|c l]; [intros _; right; intros d []|]. destruct (Ascii.eqb_spec c "#") as [->|Hc].
    + intros _. left. eauto.
    + intros H. right. intros d Hd. destruct (Ascii.eqb_spec d " ") as [|Hn]; auto. exfalso.
      assert (In d (remove_spaces (c :: l))). { apply filter_In. split; auto. now destruct (Ascii.eqb_spec d " "). }
      rewrite H in H0. contradiction.
  - intros [(r & ->)|H]; auto. destruct l as [|c l]; auto. destruct (Ascii.eqb_spec c "#"); auto.
    assert (K : forall l, (forall d, In d l -> d = " "%char) -> remove_spaces l = []).
    { clear. intros l H. unfold remove_spaces. induction l as [|d l IH]; cbn; auto. rewrite (H d) by (left; auto). cbn. apply IH. intros; apply H; right; auto. }
    now apply K.
Qed.
Lemma clean_line_other l : ~ comment l -> clean_line l = remove_spaces l.
Proof.
  intros H. destruct l as [|c l]; auto. unfold clean_line. destruct (Ascii.eqb_spec c "#") as [->|]; auto. exfalso. apply H. eexists; eauto.
Qed.

Lemma parse_assigns l n v : ~ comment l -> (assigns l n v <-> parse_parameter (remove_spaces l) = Ok (n, v)).
Proof.
  intros Hc. pose proof (remove_spaces_none l) as Hns. unfold assigns, parse_parameter. split.
  - intros (_ & b & Hb & Hn & HH). apply unspaced_spec in Hb as ->.
    destruct HH as [(-> & s1 & s2 & E & G1 & G2)|(Hv & s1 & s2 & s3 & E & G1 & G2 & N2 & G3)]; rewrite E.
    + rewrite runs_gap by auto. rewrite runs_word by apply Hn. cbn [app].
      rewrite runs_tail by (auto; apply Hn). cbn. now rewrite remove_spaces_word.
    + rewrite runs_gap by auto. rewrite runs_word by apply Hn. cbn [app]. rewrite runs_break by auto.
      rewrite emit_word by apply Hn. rewrite runs_word by apply Hv. cbn [app].
      rewrite runs_tail by (auto; apply Hv). cbn. now rewrite !remove_spaces_word.
  - destruct (runs_from [] (remove_spaces l)) as [|a [|b [|c r]]] eqn:R; cbn; try discriminate.
    + intros H. injection H as <- <-. apply runs_inv in R as (s & t & Q & Hs & Ha & Fa & R' & Ht); [|intros ? []]. cbn in Q.
      apply runs_nil in R' as [_ R'].
      assert (Wa : word a) by (eapply word_of_run; eauto).
      rewrite remove_spaces_word by auto. split; auto. exists (remove_spaces l). split; [now apply unspaced_spec|].
      split; auto. left. split; auto. exists s, t. auto.
    + intros H. injection H as <- <-. apply runs_inv in R as (s & t & Q & Hs & Ha & Fa & R' & Ht); [|intros ? []]. cbn in Q.
      apply runs_inv in R' as (s' & t' & Q' & Hs' & Hb & Fb & R'' & Ht'); [|intros ? []]. cbn in Q'.
      apply runs_nil in R'' as [_ R''].
      assert (Wa : word a) by (eapply word_of_run; eauto).
      assert (Wb : word b). { eapply (word_of_run (remove_spaces l) (s ++ a ++ s') b t'); eauto. rewrite Q, Q'. now rewrite !app_assoc. }
      rewrite !remove_spaces_word by auto. split; auto. exists (remove_spaces l). split; [now apply unspaced_spec|].
      split; auto. right. split; auto. exists s, s', t'. rewrite Q, Q'. repeat split; auto; try apply Wb.
      intros ->. cbn in Q'. destruct Ht as [->|(c & t'' & -> & Hc')].
      * destruct b; [congruence|discriminate].
      * destruct b as [|x b]; [congruence|]. cbn in Q'. injection Q' as -> _. apply Hc'. apply Fb. left; auto.
Qed.

Definition known (d : table) (n : str) : Prop := d n <> None.

Lemma assigns_not_blank l n v : assigns l n v -> ~ blank l.
Proof.
  intros (Hc & b & Hb & [Wn Wf] & HH) Hbl. apply unspaced_spec in Hb. 
  assert (clean_line l = []) by (apply clean_line_spec; auto). rewrite clean_line_other in H by auto. rewrite H in Hb. subst b.
  destruct n as [|c n]; [congruence|].
  destruct HH as [(_ & s1 & s2 & E & _)|(_ & s1 & s2 & s3 & E & _)]; destruct s1; discriminate.
Qed.

Lemma assigns_functional l n v n' v' : assigns l n v -> assigns l n' v' -> n = n' /\ v = v'.
Proof.
  intros H H'. pose proof (proj1 H) as Hc. apply parse_assigns in H; auto. apply parse_assigns in H'; auto.
  rewrite H in H'. injection H' as <- <-. auto.
Qed.

Lemma line_nothing d l : comment l \/ blank l -> read_line d l = Ok d.
Proof. intros H. unfold read_line. apply clean_line_spec in H. now rewrite H. Qed.

Lemma line_sets d l n v : assigns l n v ->
  read_line d l = Ok (match d n with Some _ => set_option d n v | None => d end).
Proof.
  intros H. pose proof (assigns_not_blank l n v H) as Hb. pose proof (proj1 H) as Hc.
  unfold read_line. destruct (clean_line l) as [|c r] eqn:E.
  - exfalso. apply clean_line_spec in E as [E|E]; auto.
  - rewrite <- E, clean_line_other by auto. apply parse_assigns in H; auto. rewrite H. cbn. now destruct (d n).
Qed.

Lemma line_stops d l : ~ comment l -> ~ blank l -> (forall n v, ~ assigns l n v) -> read_line d l = Exit 77.
Proof.
  intros Hc Hb Ha. unfold read_line. destruct (clean_line l) as [|c r] eqn:E.
  - exfalso. apply clean_line_spec in E as [E|E]; auto.
  - rewrite <- E, clean_line_other by auto. destruct (parse_parameter (remove_spaces l)) as [[n v]|k|] eqn:P.
    + exfalso. apply (Ha n v). now apply parse_assigns.
    + unfold parse_parameter in P. destruct (map remove_spaces (runs_from [] (remove_spaces l))) as [|a [|b [|q s]]]; inversion P; reflexivity.
    + unfold parse_parameter in P. destruct (map remove_spaces (runs_from [] (remove_spaces l))) as [|a [|b [|q s]]]; inversion P.
Qed.

(** Every line falls in one of the cases. *)
Lemma line_cases l : (comment l \/ blank l) \/ (exists n v, assigns l n v) \/ (~ comment l /\ ~ blank l /\ forall n v, ~ assigns l n v).
Proof.
  destruct (clean_line l) as [|c r] eqn:E.
  - left. now apply clean_line_spec.
  - assert (Hc : ~ comment l) by (intros H; assert (clean_line l = []) by (apply clean_line_spec; auto); congruence).
    assert (Hb : ~ blank l) by (intros H; assert (clean_line l = []) by (apply clean_line_spec; auto); congruence).
    right. destruct (parse_parameter (remove_spaces l)) as [[n v]|k|] eqn:P.
    + left. exists n, v. now apply parse_assigns.
    + right. repeat split; auto. intros n v H. apply parse_assigns in H; auto. congruence.
    + right. repeat split; auto. intros n v H. apply parse_assigns in H; auto. congruence.
Qed.

Lemma config_line (d : table) (l : text) :
  (comment l \/ blank l -> read_line d l = Ok d) /\
  (forall n v, assigns l n v -> exists d', read_line d l = Ok d' /\ d' n = (match d n with Some _ => Some v | None => None end) /\
      (forall m, m <> n -> d' m = d m)) /\
  (~ comment l -> ~ blank l -> (forall n v, ~ assigns l n v) -> read_line d l = Exit 77).
Proof.
  split; [apply line_nothing|]. split; [|apply line_stops].
  intros n v H. rewrite (line_sets d l n v H). eexists. split; [reflexivity|]. destruct (d n) as [u|] eqn:E.
  - split; [unfold set_option; now rewrite str_eqb_refl|]. intros m Hm. unfold set_option.
    destruct (str_eqb m n) eqn:Q; auto. apply str_eqb_spec in Q. contradiction.
  - split; auto.
Qed.

Lemma read_line_known d l d' n : read_line d l = Ok d' -> (d' n = None <-> d n = None).
Proof.
  intros H. destruct (line_cases l) as [C|[(m & v & C)|(C1 & C2 & C3)]].
  - rewrite line_nothing in H by auto. injection H as <-. tauto.
  - rewrite (line_sets d l m v C) in H. injection H as <-. destruct (d m) as [u|] eqn:E; [|tauto].
    unfold set_option. destruct (str_eqb n m) eqn:Q; [|tauto]. apply str_eqb_spec in Q as ->. split; congruence.
  - rewrite line_stops in H by auto. discriminate.
Qed.
Lemma read_line_other d l d' n : read_line d l = Ok d' -> (forall v, ~ assigns l n v) -> d' n = d n.
Proof.
  intros H Hn. destruct (line_cases l) as [C|[(m & v & C)|(C1 & C2 & C3)]].
  - rewrite line_nothing in H by auto. now injection H as <-.
  - destruct (config_line d l) as (_ & K & _). destruct (K m v C) as (d'' & E & _ & O). rewrite E in H. injection H as <-.
    apply O. intros ->. now apply (Hn v).
  - rewrite line_stops in H by auto. discriminate.
Qed.

Lemma config_file (d : table) (ls : list text) :
  ((exists d', read_lines d ls = Ok d') <-> (forall l, In l ls -> comment l \/ blank l \/ exists n v, assigns l n v)) /\
  (~ (exists d', read_lines d ls = Ok d') -> read_lines d ls = Exit 77) /\
  (forall d' n, read_lines d ls = Ok d' ->
     (d n = None -> d' n = None) /\
     ((forall l v, In l ls -> ~ assigns l n v) -> d' n = d n) /\
     (forall l1 l l2 v, ls = l1 ++ l :: l2 -> assigns l n v -> (forall l' v', In l' l2 -> ~ assigns l' n v') ->
        d n <> None -> d' n = Some v)).
Proof.
  revert d. induction ls as [|l ls IH]; intros d.
  - split; [|split].
    + split; [intros _ l []|]. intros _. cbn. eauto.
    + cbn. intros H. exfalso. eauto.
    + cbn. intros d' n H. injection H as <-. split; auto. split; auto.
      intros l1 l l2 v E. destruct l1; discriminate.
  - cbn. destruct (line_cases l) as [C|[(n & v & C)|(C1 & C2 & C3)]].
    + rewrite line_nothing by auto. cbn. destruct (IH d) as (I1 & I2 & I3). split; [|split]; auto.
      * rewrite I1. split; intros H l'; [intros [<-|Hl]; auto; tauto|]. intros Hl. apply H. auto.
      * intros d' n H. destruct (I3 d' n H) as (J1 & J2 & J3). split; auto. split.
        -- intros Hn. apply J2. intros l' v Hl. apply Hn. right; auto.
        -- intros l1 l0 l2 v E A N K. destruct l1 as [|x l1]; cbn in E; injection E as E1 E2.
           ++ subst. exfalso. destruct C as [C|C]; [now apply (proj1 A)|now apply (assigns_not_blank _ _ _ A)].
           ++ subst. eapply J3; eauto.
    + rewrite (line_sets d l n v C). cbn. set (d1 := match d n with Some _ => set_option d n v | None => d end).
      assert (R : read_line d l = Ok d1) by now apply line_sets.
      destruct (IH d1) as (I1 & I2 & I3). split; [|split]; auto.
      * rewrite I1. split; intros H l'; [intros [<-|Hl]; auto; right; right; eauto|]. intros Hl. apply H. auto.
      * intros d' m H. destruct (I3 d' m H) as (J1 & J2 & J3). split; [|split].
        -- intros Hd. apply J1. now apply (read_line_known d l d1 m R).
        -- intros Hn. rewrite J2; [|intros l' w Hl; apply Hn; auto]. apply (read_line_other d l d1 m R). intros w. apply Hn. auto.
        -- intros l1 l0 l2 w E A N K. destruct l1 as [|x l1]; cbn in E; injection E as E1 E2.
           ++ subst. rewrite J2; [|intros l' w' Hl; now apply N].
              destruct (config_line d l0) as (_ & KK & _). destruct (KK m w A) as (d'' & E & E' & _). rewrite E in R. injection R as ->.
              rewrite E'. destruct (d m); congruence.
           ++ subst. eapply J3; eauto. intros Q. apply K. now apply (read_line_known d x d1 m R).
    + rewrite line_stops by auto. cbn. split; [|split]; auto.
      * split; [intros (d' & H); discriminate|]. intros H. exfalso. destruct (H l (or_introl eq_refl)) as [?|[?|(n & v & A)]]; auto. now apply (C3 n v).
      * intros d' n H. discriminate.
Qed.

(** Spaces do not matter. *)
Lemma spaces_irrelevant d l l' b : ~ comment l -> ~ comment l' -> unspaced l b -> unspaced l' b -> read_line d l = read_line d l'.
Proof.
  intros H H' U U'. apply unspaced_spec in U, U'. unfold read_line. now rewrite !clean_line_other, U, U' by auto.
Qed.

(** Lines of a file. *)
Lemma getlines_joined ls : (forall l, In l ls -> ~ In (ascii_of_nat 10) l) ->
  getlines (flat_map (fun l => l ++ [ascii_of_nat 10]) ls) = ls.
Proof.
  unfold getlines. assert (K : forall l cur rest, ~ In (ascii_of_nat 10) l ->
    getlines_from cur (l ++ ascii_of_nat 10 :: rest) = (cur ++ l) :: getlines_from [] rest).
  { induction l as [|c l IH]; intros cur rest H; cbn [app getlines_from].
    - rewrite Ascii.eqb_refl, app_nil_r. reflexivity.
    - destruct (Ascii.eqb_spec c (chr 10)) as [->|]; [exfalso; apply H; left; auto|].
      rewrite IH by (intros Q; apply H; right; auto). now rewrite <- app_assoc. }
  induction ls as [|l ls IH]; intros H; cbn [flat_map]; auto. rewrite <- app_assoc. cbn [app].
  rewrite K by (apply H; left; auto). cbn [app]. f_equal. apply IH. intros l' Hl. apply H. right; auto.
Qed.

(** ** lists *)
Lemma opening_eqb c : (Ascii.eqb c "{" || Ascii.eqb c "(") = true <-> opening c.
Proof. unfold opening. rewrite orb_true_iff, !Ascii.eqb_eq. tauto. Qed.

Lemma list_loop_balanced comma e : balanced comma e -> forall s tmp ris l, (comma -> s <> O) ->
  list_loop (S s) tmp ris (e ++ l) = list_loop (S s) (tmp ++ e) ris l.
Proof.
  induction 1 as [cm|cm c e Ho Hc Hcm He IH|cm o c a e Ho Hc Ha IHa He IHe]; intros s tmp ris l Hs.
  - cbn [app]. now rewrite app_nil_r.
  - cbn [app list_loop].
    destruct (Ascii.eqb c "{" || Ascii.eqb c "(") eqn:E1; [apply opening_eqb in E1; contradiction|].
    destruct (Ascii.eqb_spec c "}") as [->|]; [exfalso; apply Hc; left; auto|].
    destruct (Ascii.eqb_spec c ",") as [->|].
    + destruct s as [|s]; [exfalso; now apply (Hs (Hcm eq_refl))|].
      rewrite IH by auto. now rewrite <- app_assoc.
    + destruct (Ascii.eqb_spec c ")") as [->|]; [exfalso; apply Hc; right; auto|].
      rewrite IH by auto. now rewrite <- app_assoc.
  - change ((o :: a ++ c :: e) ++ l) with (o :: ((a ++ c :: e) ++ l)). cbn [list_loop].
    rewrite (proj2 (opening_eqb o) Ho). rewrite <- app_assoc. cbn [app].
    rewrite IHa by auto. cbn [list_loop].
    assert (K : list_loop (S s) (((tmp ++ [o]) ++ a) ++ [c]) ris (e ++ l) = list_loop (S s) (tmp ++ o :: a ++ c :: e) ris l).
    { rewrite IHe by auto. f_equal. rewrite <- !app_assoc. reflexivity. }
    destruct Hc as [->| ->]; cbn [Ascii.eqb Bool.eqb orb andb]; exact K.
Qed.

Lemma parse_elements es : es <> [] -> (forall e, In e es -> element e) ->
  forall ris rest, list_loop 1 [] ris (joined es ++ "}"%char :: rest) = ris ++ es.
Proof.
  induction es as [|e es IH]; intros Hne He ris rest; [congruence|].
  destruct es as [|e' es].
  - cbn [joined]. rewrite (list_loop_balanced False) by (auto; apply He; left; auto). reflexivity.
  - cbn [joined]. rewrite <- app_assoc. rewrite (list_loop_balanced False) by (auto; apply He; left; auto).
    cbn [app list_loop Ascii.eqb Bool.eqb orb andb]. change (list_loop 1 [] (ris ++ [e]) (joined (e' :: es) ++ "}"%char :: rest) = ris ++ e :: e' :: es).
    rewrite IH; [|congruence|intros; apply He; right; auto]. now rewrite <- app_assoc.
Qed.
Lemma parse_unclosed es last : (forall e, In e (es ++ [last]) -> element e) ->
  forall ris, list_loop 1 [] ris (joined (es ++ [last])) = ris ++ es.
Proof.
  induction es as [|e es IH]; intros He ris.
  - cbn [app joined]. rewrite <- (app_nil_r last). rewrite (list_loop_balanced False) by (auto; apply He; left; auto).
    cbn. now rewrite app_nil_r.
  - assert (E : joined ((e :: es) ++ [last]) = e ++ ","%char :: joined (es ++ [last])).
    { cbn [app joined]. destruct (es ++ [last]) eqn:Q; auto. destruct es; discriminate. }
    rewrite E. rewrite (list_loop_balanced False) by (auto; apply He; left; auto).
    cbn [app list_loop Ascii.eqb Bool.eqb orb andb]. rewrite IH by (intros; apply He; right; auto).
    now rewrite <- app_assoc.
Qed.

Lemma skip_to_spec ch p l : ~ In ch p -> skip_to ch (p ++ ch :: l) = Some l.
Proof.
  induction p as [|c p IH]; intros H; cbn.
  - now rewrite Ascii.eqb_refl.
  - destruct (Ascii.eqb_spec c ch) as [->|]; [exfalso; apply H; left; auto|]. apply IH. intros Q; apply H; right; auto.
Qed.
Lemma skip_to_none ch l : skip_to ch l = None <-> ~ In ch l.
Proof.
  induction l as [|c l IH]; cbn; [tauto|]. destruct (Ascii.eqb_spec c ch) as [->|].
  - split; [discriminate|]. intros H. exfalso. auto.
  - rewrite IH. split; [intros H [Q|Q]; congruence|]. auto.
Qed.

Lemma list_option :
  (forall p es rest, ~ In "{"%char p -> es <> [] -> (forall e, In e es -> element e) ->
     parse_list (p ++ "{"%char :: joined es ++ "}"%char :: rest) = Ok es) /\
  (forall v, (~ In "{"%char v <-> parse_list v = Exit 1)) /\
  (forall p es last, ~ In "{"%char p -> (forall e, In e (es ++ [last]) -> element e) -> joined (es ++ [last]) <> [] ->
     parse_list (p ++ "{"%char :: joined (es ++ [last])) = Ok es) /\
  (forall p, ~ In "{"%char p -> parse_list (p ++ ["{"%char]) = UB).
Proof.
  unfold parse_list. split; [|split; [|split]].
  - intros p es rest Hp Hne He. rewrite skip_to_spec by auto. destruct (joined es ++ "}"%char :: rest) as [|c l] eqn:E.
    + destruct (joined es); discriminate.
    + rewrite <- E. now rewrite (parse_elements es Hne He).
  - intros v. rewrite <- skip_to_none. destruct (skip_to "{" v) as [[|c l]|]; split; congruence.
  - intros p es last Hp He Hne. rewrite skip_to_spec by auto. destruct (joined (es ++ [last])) as [|c l] eqn:E; [congruence|].
    rewrite <- E. now rewrite (parse_unclosed es last He).
  - intros p Hp. now rewrite skip_to_spec by auto.
Qed.

(** ** numbers and schedules *)
Lemma digit_spec c : is_digit c -> digit c = Some (Z.of_nat (nat_of_ascii c) - 48).
Proof. intros H. repeat (destruct H as [<-|H]; [reflexivity|]). destruct H. Qed.
Lemma digit_range c : is_digit c -> 0 <= Z.of_nat (nat_of_ascii c) - 48 <= 9.
Proof. intros H. repeat (destruct H as [<-|H]; [vm_compute; split; discriminate|]). destruct H. Qed.
Lemma digits_value_spec l : (forall c, In c l -> is_digit c) -> forall acc,
  digits_value acc l = acc * 10 ^ Z.of_nat (length l) + numeral_value l.
Proof.
  induction l as [|c l IH]; intros H acc; cbn [digits_value numeral_value length].
  - cbn. lia.
  - rewrite digit_spec by (apply H; left; auto). rewrite IH by (intros; apply H; right; auto).
    rewrite Nat2Z.inj_succ, Z.pow_succ_r by lia. lia.
Qed.
Lemma numeral_nonneg l : (forall c, In c l -> is_digit c) -> 0 <= numeral_value l.
Proof.
  induction l as [|c l IH]; intros H; cbn; [lia|].
  pose proof (digit_range c (H c (or_introl eq_refl))). assert (0 <= numeral_value l) by (apply IH; intros; apply H; right; auto).
  assert (0 <= 10 ^ Z.of_nat (length l)) by (apply Z.pow_nonneg; lia). nia.
Qed.
Lemma from_int_numeral l : numeral l -> numeral_value l < 2 ^ 31 -> to_unsigned (from_int l) = numeral_value l.
Proof.
  intros [Hne Hd] Hlt. pose proof (numeral_nonneg l Hd). pose proof (digits_value_spec l Hd 0) as E.
  unfold from_int, to_unsigned. destruct l as [|c l]; [congruence|].
  assert (Hc : is_digit c) by (apply Hd; left; auto).
  destruct (Ascii.eqb_spec c "-") as [->|]; [exfalso; repeat (destruct Hc as [Q|Hc]; [discriminate|]); destruct Hc|].
  destruct (Ascii.eqb_spec c "+") as [->|]; [exfalso; repeat (destruct Hc as [Q|Hc]; [discriminate|]); destruct Hc|].
  rewrite E. rewrite Z.min_r by lia. rewrite Z.mod_small by lia. lia.
Qed.

Lemma take_to_spec ch a l : ~ In ch a -> take_to ch (a ++ ch :: l) = Some (a, l).
Proof.
  induction a as [|c a IH]; intros H; cbn.
  - now rewrite Ascii.eqb_refl.
  - destruct (Ascii.eqb_spec c ch) as [->|]; [exfalso; apply H; left; auto|]. rewrite IH by (intros Q; apply H; right; auto). auto.
Qed.

Lemma numeral_plain l : numeral l -> plain l.
Proof.
  intros [_ H] c Hc. specialize (H c Hc). unfold opening, closing.
  repeat (destruct H as [<-|H]; [repeat split; try (intros [|]); discriminate|]). destruct H.
Qed.
Lemma plain_not_in l c : plain l -> (opening c \/ closing c \/ c = ","%char) -> ~ In c l.
Proof. intros H Hc Hi. destruct (H c Hi) as (A & B & C). tauto. Qed.

Lemma read_sweep_spec name steps calls : plain name -> In name (map txt sweep_names) -> numeral steps -> numeral calls ->
  numeral_value steps < 2 ^ 31 -> numeral_value calls < 2 ^ 31 ->
  read_sweep (spec_text name steps calls) = Ok (Sweep name (numeral_value steps) (numeral_value calls)).
Proof.
  intros Hp Hk Hs Hc Ls Lc. unfold read_sweep, spec_text. cbn [skip_to Ascii.eqb Bool.eqb].
  change (skip_to "{" ("{"%char :: ?x)) with (Some x).
  rewrite take_to_spec by (apply plain_not_in; auto).
  rewrite take_to_spec by (apply plain_not_in; auto; now apply numeral_plain).
  rewrite take_to_spec by (apply plain_not_in; [now apply numeral_plain|right; left; left; auto]).
  assert (K : known_sweep name = true).
  { unfold known_sweep. apply existsb_exists. apply in_map_iff in Hk as (s & <- & Hi). exists s. split; auto. apply str_eqb_refl. }
  rewrite K, !from_int_numeral by auto. reflexivity.
Qed.

Lemma balanced_plain comma l : plain l -> balanced comma l.
Proof.
  induction l as [|c l IH]; intros H; constructor.
  - apply (H c (or_introl eq_refl)).
  - apply (H c (or_introl eq_refl)).
  - intros E. exfalso. now apply (H c (or_introl eq_refl)).
  - apply IH. intros d Hd. apply H. right; auto.
Qed.
Lemma balanced_app comma a b : balanced comma a -> balanced comma b -> balanced comma (a ++ b).
Proof.
  induction 1 as [cm|cm c e Ho Hc Hcm He IH|cm o c a e Ho Hc Ha IHa He IHe]; intros Hb; cbn; auto.
  - constructor; auto.
  - rewrite <- app_assoc. cbn. apply bal_group; auto.
Qed.
Lemma element_spec_text name steps calls : plain name -> numeral steps -> numeral calls -> element (spec_text name steps calls).
Proof.
  intros Hn Hs Hc. unfold element, spec_text.
  replace (name ++ ","%char :: steps ++ ","%char :: calls ++ ["}"%char])
    with ((name ++ ","%char :: steps ++ ","%char :: calls) ++ "}"%char :: []) by (rewrite <- !app_assoc; cbn; now rewrite <- app_assoc).
  apply bal_group; [left; auto|left; auto| |constructor].
  apply balanced_app; [now apply balanced_plain|]. constructor; try (unfold opening, closing; intros [|]; discriminate); auto.
  apply balanced_app; [now apply balanced_plain, numeral_plain|]. constructor; try (unfold opening, closing; intros [|]; discriminate); auto.
  now apply balanced_plain, numeral_plain.
Qed.

Definition item_sweep (i : spec_item) : sweep := Sweep (it_name i) (numeral_value (it_steps i)) (numeral_value (it_calls i)).

Lemma read_sweeps_spec items : (forall i, In i items -> good_item sweep_names i) -> read_sweeps (map item_text items) = Ok (map item_sweep items).
Proof.
  induction items as [|i items IH]; intros H; cbn [map read_sweeps]; auto.
  destruct (H i (or_introl eq_refl)) as (A & B & C & D & F & G).
  unfold item_text at 1. rewrite read_sweep_spec by auto. cbn [obind]. rewrite IH by (intros; apply H; right; auto). reflexivity.
Qed.

Lemma load_spec items rest : items <> [] -> (forall i, In i items -> good_item sweep_names i) ->
  load_sweeps ("{"%char :: joined (map item_text items) ++ "}"%char :: rest) = Ok (map item_sweep items).
Proof.
  intros Hne H. unfold load_sweeps. destruct list_option as (P & _).
  pose proof (P [] (map item_text items) rest) as P'. cbn [app] in P'. rewrite P'.
  - cbn. now apply read_sweeps_spec.
  - intros [].
  - destruct items; cbn; congruence.
  - intros e He. apply in_map_iff in He as (i & <- & Hi). destruct (H i Hi) as (A & B & C & D & _). now apply element_spec_text.
Qed.

(** Counting executions. *)
Definition times (j : nat) (l : list nat) : Z := Z.of_nat (count_occ Nat.eq_dec l j).
Lemma times_app j a b : times j (a ++ b) = times j a + times j b.
Proof. unfold times. rewrite count_occ_app. lia. Qed.
Lemma times_repeat j i n : times j (repeat i n) = if Nat.eqb i j then Z.of_nat n else 0.
Proof.
  unfold times. destruct (Nat.eqb_spec i j) as [->|Hne].
  - f_equal. induction n; cbn; auto. destruct (Nat.eq_dec j j); congruence.
  - induction n; cbn; auto. destruct (Nat.eq_dec i j); congruence.
Qed.

Lemma call_all_ok s sws : (forall sw, In sw sws -> sw_jump sw <> 0) -> forall j0,
  exists tr, call_all s j0 sws = Ok tr /\
   forall j, times j tr = match nth_error sws (j - j0) with
      | Some sw => if (Nat.leb j0 j) && (s mod sw_jump sw =? 0) then Z.max 0 (sw_times sw) else 0
      | None => 0 end.
Proof.
  induction sws as [|sw sws IH]; intros H j0; cbn.
  - exists []. split; auto. intros j. now destruct (j - j0)%nat.
  - unfold call_sweep. destruct (Z.eqb_spec (sw_jump sw) 0) as [E|_]; [exfalso; apply (H sw); [left; auto|auto]|]. cbn.
    destruct (IH (fun w Hw => H w (or_intror Hw)) (S j0)) as (tr & -> & K). cbn.
    eexists. split; [reflexivity|]. intros j. rewrite times_app, K.
    assert (Q : times j (if s mod sw_jump sw =? 0 then repeat j0 (Z.to_nat (sw_times sw)) else []) =
       if Nat.eqb j0 j && (s mod sw_jump sw =? 0) then Z.max 0 (sw_times sw) else 0).
    { destruct (s mod sw_jump sw =? 0); [|rewrite andb_false_r; reflexivity]. rewrite times_repeat, andb_true_r. destruct (Nat.eqb j0 j); lia. }
    rewrite Q. destruct (Nat.eqb_spec j0 j) as [->|Hne].
    + rewrite Nat.sub_diag. cbn [nth_error]. rewrite Nat.leb_refl. cbn [andb].
      replace (j - S j)%nat with 0%nat by lia. destruct (nth_error sws 0) as [w|]; [|lia].
      destruct (Nat.leb_spec (S j) j); [lia|]. cbn. lia.
    + cbn [andb]. destruct (Nat.leb_spec j0 j) as [Hle|Hgt].
      * replace (j - j0)%nat with (S (j - S j0)) by lia. cbn [nth_error].
        destruct (nth_error sws (j - S j0)) as [w|]; [|lia]. destruct (Nat.leb_spec (S j0) j); [|lia]. cbn. lia.
      * replace (j - j0)%nat with 0%nat by lia. cbn [nth_error andb].
        destruct (Nat.leb_spec (S j0) j); [lia|]. destruct (nth_error sws (j - S j0)); cbn; lia.
Qed.

Lemma ceil_div_step a d n : 0 < d -> 0 <= a ->
  ceil_div (a + 1 + n) d - ceil_div a d = (if a mod d =? 0 then 1 else 0) + (ceil_div (a + 1 + n) d - ceil_div (a + 1) d).
Proof.
  intros Hd Ha. unfold ceil_div.
  assert (K : (a + 1 + d - 1) / d = (a + d - 1) / d + (if a mod d =? 0 then 1 else 0)).
  { pose proof (Z.div_mod a d ltac:(lia)) as E. pose proof (Z.mod_pos_bound a d Hd) as B. set (q := a / d) in *. set (m := a mod d) in *.
    destruct (Z.eqb_spec m 0) as [Em|Em].
    - rewrite <- (Z.div_unique (a + 1 + d - 1) d (q + 1) 0) by lia.
      rewrite <- (Z.div_unique (a + d - 1) d q (d - 1)) by lia. lia.
    - rewrite <- (Z.div_unique (a + 1 + d - 1) d (q + 1) m) by lia.
      rewrite <- (Z.div_unique (a + d - 1) d (q + 1) (m - 1)) by lia. lia. }
  lia.
Qed.

Lemma run_cycles_ok sws n : (forall sw, In sw sws -> 0 < sw_jump sw) -> forall s, 0 <= s ->
  exists tr, run_cycles n s sws = Ok tr /\
   forall j sw, nth_error sws j = Some sw ->
     times j tr = Z.max 0 (sw_times sw) * (ceil_div (s + Z.of_nat n) (sw_jump sw) - ceil_div s (sw_jump sw)).
Proof.
  intros H. induction n as [|n IH]; intros s Hs.
  - exists []. split; auto. intros j sw E. cbn. rewrite Z.add_0_r, Z.sub_diag. unfold times. cbn. lia.
  - cbn [run_cycles]. destruct (call_all_ok s sws) with (j0 := 0%nat) as (a & -> & Ka). { intros sw Hw. specialize (H sw Hw). lia. }
    cbn [obind]. destruct (IH (s + 1)) as (b & -> & Kb); [lia|]. cbn [obind]. eexists. split; [reflexivity|].
    intros j sw E. rewrite times_app, Ka, (Kb j sw E), Nat.sub_0_r, E. cbn [Nat.leb andb].
    assert (0 < sw_jump sw) by (apply H; eapply nth_error_In; eauto).
    pose proof (ceil_div_step s (sw_jump sw) (Z.of_nat n) ltac:(auto) Hs) as C.
    replace (s + Z.of_nat (S n)) with (s + 1 + Z.of_nat n) by lia. rewrite C. destruct (s mod sw_jump sw =? 0); lia.
Qed.

Lemma schedule items rest n : items <> [] -> (forall i, In i items -> good_item sweep_names i /\ numeral_value (it_steps i) <> 0) ->
  exists sws tr, load_sweeps ("{"%char :: joined (map item_text items) ++ "}"%char :: rest) = Ok sws /\
    simulate n sws = Ok tr /\
    forall j i, nth_error items j = Some i ->
      Z.of_nat (count_occ Nat.eq_dec tr j) = numeral_value (it_calls i) * ceil_div (Z.of_nat n) (numeral_value (it_steps i)).
Proof.
  intros Hne H. exists (map item_sweep items).
  destruct (run_cycles_ok (map item_sweep items) n) with (s := 0) as (tr & E & K); [|lia|].
  { intros sw Hw. apply in_map_iff in Hw as (i & <- & Hi). cbn. destruct (H i Hi) as [(_ & _ & [_ Hd] & _) Hz]. pose proof (numeral_nonneg _ Hd). lia. }
  exists tr. split; [apply load_spec; auto; intros; now apply H|]. split; auto.
  intros j i Hj. specialize (K j (item_sweep i)). rewrite nth_error_map, Hj in K. specialize (K eq_refl). unfold times in K. rewrite K. cbn.
  destruct (H i (nth_error_In _ _ Hj)) as [(_ & _ & [_ Hd'] & [_ Hd] & _) Hz]. pose proof (numeral_nonneg _ Hd). pose proof (numeral_nonneg _ Hd').
  rewrite Z.max_r by lia. f_equal. unfold ceil_div. rewrite (Z.div_small (numeral_value (it_steps i) - 1)) by lia. lia.
Qed.

(** A zero step is undefined as soon as one cycle runs. *)
Lemma zero_step sws n : (0 < n)%nat -> (exists sw, In sw sws /\ sw_jump sw = 0) -> simulate n sws = UB.
Proof.
  intros Hn (sw & Hin & Hz). destruct n as [|n]; [lia|]. unfold simulate. cbn [run_cycles].
  assert (K : forall j, call_all 0 j sws = UB).
  { induction sws as [|w sws IH]; [contradiction|]. intros j. cbn. destruct Hin as [->|Hin].
    - unfold call_sweep. rewrite Hz. reflexivity.
    - unfold call_sweep. destruct (sw_jump w =? 0); cbn; auto. now rewrite IH. }
  now rewrite K.
Qed.

(** Which sweep number runs what. *)
Lemma one_cycle sws s : (forall sw, In sw sws -> sw_jump sw <> 0) ->
  call_all s 0 sws = Ok (flat_map (fun p => if s mod sw_jump (snd p) =? 0 then repeat (fst p) (Z.to_nat (sw_times (snd p))) else [])
                         (combine (seq 0 (length sws)) sws)).
Proof.
  intros H. assert (K : forall j, call_all s j sws = Ok (flat_map (fun p => if s mod sw_jump (snd p) =? 0 then repeat (fst p) (Z.to_nat (sw_times (snd p))) else [])
                         (combine (seq j (length sws)) sws))); [|apply K].
  induction sws as [|sw sws IH]; intros j; cbn; auto. unfold call_sweep.
  destruct (Z.eqb_spec (sw_jump sw) 0) as [E|_]; [exfalso; apply (H sw); [left|]; auto|]. cbn.
  rewrite IH by (intros; apply H; right; auto). reflexivity.
Qed.

(** ** reading configurations *)
Lemma retry_spec readable step n : forall c,
  (forall k, (0 < k < n)%nat -> readable (c + Z.of_nat k * step) = true -> (forall k', (0 < k' < k)%nat -> readable (c + Z.of_nat k' * step) = false) ->
     retry readable step n c = Ok (c + Z.of_nat k * step)) /\
  ((forall k, (0 < k < n)%nat -> readable (c + Z.of_nat k * step) = false) -> retry readable step n c = Exit 73).
Proof.
  induction n as [|n IH]; intros c.
  - split; [intros; lia|]. reflexivity.
  - cbn [retry]. destruct n as [|n].
    + split; [intros; lia|]. reflexivity.
    + destruct (IH (c + step)) as [I1 I2]. split.
      * intros k Hk Hr Hf. destruct (Nat.eq_dec k 1) as [->|Hne].
        -- replace (c + Z.of_nat 1 * step) with (c + step) in * by lia. now rewrite Hr.
        -- pose proof (Hf 1%nat ltac:(lia)) as F. replace (c + Z.of_nat 1 * step) with (c + step) in F by lia. rewrite F.
           rewrite (I1 (k - 1)%nat); [f_equal; lia|lia| |].
           ++ rewrite <- Hr. f_equal. lia.
           ++ intros k' Hk'. rewrite <- (Hf (S k')) by lia. f_equal. lia.
      * intros Hf. pose proof (Hf 1%nat ltac:(lia)) as F. replace (c + Z.of_nat 1 * step) with (c + step) in F by lia. rewrite F.
        apply I2. intros k Hk. rewrite <- (Hf (S k)) by lia. f_equal. lia.
Qed.

Lemma read_next_spec readable step c :
  (forall k, (k < 99)%nat -> readable (c + Z.of_nat k * step) = true -> (forall k', (k' < k)%nat -> readable (c + Z.of_nat k' * step) = false) ->
     read_next readable step c = Ok (c + Z.of_nat k * step, c + Z.of_nat (S k) * step)) /\
  ((forall k, (k < 99)%nat -> readable (c + Z.of_nat k * step) = false) -> read_next readable step c = Exit 73).
Proof.
  destruct (retry_spec readable step 99 c) as [R1 R2]. unfold read_next. split.
  - intros k Hk Hr Hf. destruct k as [|k].
    + replace (c + Z.of_nat 0 * step) with c in * by lia. rewrite Hr. cbn [obind]. do 2 f_equal. lia.
    + pose proof (Hf 0%nat ltac:(lia)) as F. replace (c + Z.of_nat 0 * step) with c in F by lia. rewrite F.
      rewrite (R1 (S k)); auto; [|lia|intros; apply Hf; lia]. cbn [obind]. do 2 f_equal. lia.
  - intros Hf. pose proof (Hf 0%nat ltac:(lia)) as F. replace (c + Z.of_nat 0 * step) with c in F by lia. rewrite F.
    rewrite R2 by (intros; apply Hf; lia). reflexivity.
Qed.

(** Successive reads visit the readable members of the progression in order: what is skipped is not readable. *)
Lemma read_many_spec readable step n : forall c out, read_many readable step n c = Ok out ->
  length out = n /\
  exists ks, length ks = n /\ out = map (fun k => c + Z.of_nat k * step) ks /\
    (forall k, In k ks -> readable (c + Z.of_nat k * step) = true) /\
    (forall i j a b, (i < j)%nat -> nth_error ks i = Some a -> nth_error ks j = Some b -> (a < b)%nat) /\
    (forall k, ~ In k ks -> (exists m, In m ks /\ (k < m)%nat) -> readable (c + Z.of_nat k * step) = false).
Proof.
  induction n as [|n IH]; intros c out H; cbn in H.
  - injection H as <-. split; auto. exists []. split; [auto|]. split; [auto|]. split; [intros ? []|]. split.
    + intros i j a b _ E. destruct i; discriminate.
    + intros k _ (m & [] & _).
  - destruct (read_next readable step c) as [[v c']|code|] eqn:E; cbn in H; try discriminate.
    destruct (read_many readable step n c') as [r|code|] eqn:E'; cbn in H; try discriminate. injection H as <-.
    destruct (IH c' r E') as (L & ks & Lk & -> & HR & HO & HS). clear IH.
    (* the first success *)
    assert (Q : exists k, (k < 99)%nat /\ readable (c + Z.of_nat k * step) = true /\ (forall k', (k' < k)%nat -> readable (c + Z.of_nat k' * step) = false)).
    { assert (D : forall m, (exists k, (k < m)%nat /\ readable (c + Z.of_nat k * step) = true /\ (forall k', (k' < k)%nat -> readable (c + Z.of_nat k' * step) = false)) \/
        (forall k, (k < m)%nat -> readable (c + Z.of_nat k * step) = false)).
      { induction m as [|m IHm]; [right; intros; lia|]. destruct IHm as [(k & K)|K]; [left; exists k; intuition lia|].
        destruct (readable (c + Z.of_nat m * step)) eqn:R.
        - left. exists m. repeat split; auto.
        - right. intros k Hk. destruct (Nat.eq_dec k m) as [->|]; auto. apply K. lia. }
      destruct (D 99%nat) as [|D']; auto. exfalso. destruct (read_next_spec readable step c) as [_ R2]. rewrite R2 in E by auto. discriminate. }
    destruct Q as (k0 & K1 & K2 & K3). destruct (read_next_spec readable step c) as [R1 _]. rewrite (R1 k0 K1 K2 K3) in E.
    assert (Ev : v = c + Z.of_nat k0 * step) by congruence. assert (Ec : c' = c + Z.of_nat (S k0) * step) by congruence. clear E R1. subst v c'.
    split; [cbn [length]; f_equal; exact L|]. exists (k0 :: map (fun k => S k0 + k)%nat ks). cbn [length map]. rewrite map_length. split; [lia|]. split.
    { f_equal. rewrite map_map. apply map_ext. intros k. lia. }
    split. { intros k [<-|Hk]; auto. apply in_map_iff in Hk as (k' & <- & Hk'). rewrite <- (HR k' Hk'). f_equal. lia. }
    split.
    { intros i j a b Hij Ha Hb. destruct j as [|j]; [lia|]. cbn in Hb. rewrite nth_error_map in Hb.
      destruct (nth_error ks j) as [b'|] eqn:Eb; [|discriminate]. injection Hb as <-. destruct i as [|i]; cbn in Ha.
      - injection Ha as <-. lia.
      - rewrite nth_error_map in Ha. destruct (nth_error ks i) as [a'|] eqn:Ea; [|discriminate]. injection Ha as <-.
        pose proof (HO i j a' b' ltac:(lia) Ea Eb). lia. }
    intros k Hn (m & Hm & Hlt). destruct (Nat.lt_ge_cases k k0) as [Hl|Hg]; [now apply K3|].
    assert (Hk0 : k <> k0) by (intros ->; apply Hn; left; auto).
    rewrite <- (HS (k - S k0)%nat).
    + f_equal. rewrite Nat2Z.inj_sub by lia. lia.
    + intros Hi. apply Hn. right. apply in_map_iff. exists (k - S k0)%nat. split; auto. lia.
    + destruct Hm as [<-|Hm]; [lia|]. apply in_map_iff in Hm as (m' & <- & Hm'). exists m'. split; auto. lia.
Qed.

Lemma word_head w : word w -> exists c r, w = c :: r /\ field_char c.
Proof. intros [Hne H]. destruct w as [|c r]; [congruence|]. exists c, r. split; auto. apply H. left; auto. Qed.
Lemma hash_not_field : ~ field_char "#".
Proof. rewrite <- word_char_spec. discriminate. Qed.
Lemma gap_single c : word_char c = false -> gap [c].
Proof. intros H d [<-|[]] F. apply word_char_spec in F. congruence. Qed.
Lemma remove_spaces_app a b : remove_spaces (a ++ b) = remove_spaces a ++ remove_spaces b.
Proof. apply filter_app. Qed.
Lemma inline_comment d n v w : word n -> word v -> word w -> read_line d (n ++ txt " = " ++ v ++ txt " # " ++ w) = Exit 77.
Proof.
  intros Hn Hv Hw. set (l := n ++ _).
  assert (Hc : ~ comment l).
  { intros [r E]. destruct (word_head n Hn) as (c & q & -> & F). cbn in E. injection E as -> _. now apply hash_not_field. }
  assert (R : remove_spaces l = n ++ ["="%char] ++ v ++ ["#"%char] ++ w).
  { unfold l. rewrite !remove_spaces_app, (remove_spaces_word n), (remove_spaces_word v), (remove_spaces_word w) by auto. reflexivity. }
  unfold read_line. rewrite clean_line_other, R by auto.
  destruct (n ++ ["="%char] ++ v ++ ["#"%char] ++ w) as [|c q] eqn:E.
  { destruct (word_head n Hn) as (c & q & -> & F). discriminate. }
  rewrite <- E. unfold parse_parameter.
  rewrite runs_word by apply Hn. rewrite runs_break by (try discriminate; now apply gap_single).
  rewrite runs_word by apply Hv. rewrite runs_break by (try discriminate; now apply gap_single).
  rewrite <- (app_nil_r w), runs_word by apply Hw. cbn [app runs_from]. rewrite !emit_word by (try apply Hn; try apply Hv; try apply Hw).
  reflexivity.
Qed.
Lemma indented_comment d n : word n -> d n <> None -> exists d', read_line d (txt " #" ++ n) = Ok d' /\ d' n = Some [].
Proof.
  intros Hn Hd. assert (A : assigns (txt " #" ++ n) n []).
  { split; [intros [r E]; discriminate|]. exists ("#"%char :: n). split.
    - apply unspaced_spec. rewrite remove_spaces_app, (remove_spaces_word n) by auto. reflexivity.
    - split; auto. left. split; auto. exists ["#"%char], []. rewrite app_nil_r. repeat split; try (now apply gap_single). intros c []. }
  destruct (config_line d (txt " #" ++ n)) as (_ & K & _). destruct (K n [] A) as (d' & E & V & _). exists d'. split; auto.
  rewrite V. destruct (d n); congruence.
Qed.

Lemma stop_after_success step c : step <> 0 ->
  let readable n := n =? c + 99 * step in
  readable (c + 99 * step) = true /\ read_next readable step c = Exit 73.
Proof.
  intros Hs readable. unfold readable. split; [apply Z.eqb_refl|].
  apply (proj2 (read_next_spec readable step c)). intros k Hk. unfold readable. apply Z.eqb_neq. nia.
Qed.
