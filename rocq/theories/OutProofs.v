(** Proofs about the output documents. *)
From Coq Require Import ZArith List Bool Ascii String Lia.
From Verif Require Import Base TextModel TextSpec TextProofs OutModel OutSpec.
Import ListNotations.

Lemma str_eqb_sym a b : str_eqb a b = str_eqb b a.
Proof. destruct (str_eqb a b) eqn:E, (str_eqb b a) eqn:F; auto; [apply str_eqb_spec in E|apply str_eqb_spec in F]; subst; rewrite str_eqb_refl in *; congruence. Qed.
Lemma str_eqb_false a b : a <> b -> str_eqb a b = false.
Proof. intros H. destruct (str_eqb a b) eqn:E; auto. now apply str_eqb_spec in E. Qed.

Lemma find_put m n x k : find (put m n x) k = if str_eqb n k then Some x else find m k.
Proof.
  induction m as [|[j y] m IH]; cbn; auto. destruct (str_eqb j n) eqn:E; cbn.
  - apply str_eqb_spec in E as ->. destruct (str_eqb n k); auto.
  - destruct (str_eqb j k) eqn:F; auto. apply str_eqb_spec in F as ->. rewrite str_eqb_sym, E. auto.
Qed.
Lemma put_keys m n x k : In k (map fst (put m n x)) <-> k = n \/ In k (map fst m).
Proof.
  induction m as [|[j y] m IH]; cbn; [intuition|]. destruct (str_eqb j n) eqn:E; cbn.
  - apply str_eqb_spec in E as ->. intuition.
  - rewrite IH. intuition.
Qed.
Lemma put_NoDup m n x : NoDup (map fst m) -> NoDup (map fst (put m n x)).
Proof.
  induction m as [|[j y] m IH]; cbn; intros H; [constructor; [intros []|constructor]|].
  inversion H as [|? ? H1 H2]; subst. destruct (str_eqb j n) eqn:E; cbn; [constructor; auto|].
  constructor; auto. rewrite put_keys. intros [->|K]; auto. rewrite str_eqb_refl in E. discriminate.
Qed.
Lemma find_none m n : find m n = None <-> ~ In n (map fst m).
Proof.
  induction m as [|[j y] m IH]; cbn; [tauto|]. destruct (str_eqb j n) eqn:E.
  - apply str_eqb_spec in E as ->. split; [discriminate|]. intuition.
  - rewrite IH. split; [intros H [->|K]; auto; rewrite str_eqb_refl in E; discriminate|]. intuition.
Qed.

Lemma print_text_ok fm f s : file_ok fm f -> exists t, print_text fm f s = Ok t /\ file_ok fm (Some t).
Proof.
  destruct fm, f as [f|]; cbn [print_text file_ok]; intros H; try (eexists; split; [reflexivity|exact I]).
  - destruct (Nat.leb_spec 9 (List.length f)); [|lia]. eexists. split; [reflexivity|]. unfold xml_footer. rewrite !app_length. cbn [List.length lit nl list_ascii_of_string]. lia.
  - eexists. split; [reflexivity|]. unfold xml_footer. rewrite !app_length. cbn [List.length lit nl list_ascii_of_string]. lia.
Qed.

Lemma print_all_spec fm m : forall files, NoDup (map fst m) -> (forall n, file_ok fm (files n)) ->
  exists o, print_all fm m files = Ok o /\ map fst (ostreams o) = map fst m /\
    (forall n, find (ostreams o) n = match find m n with Some (s, st) => Some ([], st) | None => None end) /\
    (forall n, match find m n with Some (s, st) => exists t, print_text fm (files n) s = Ok t /\ ofiles o n = Some t | None => ofiles o n = files n end) /\
    (forall n, file_ok fm (ofiles o n)).
Proof.
  induction m as [|[n [s st]] m IH]; intros files Hd Hf; cbn.
  - eexists. split; [reflexivity|]. cbn. auto.
  - inversion Hd as [|? ? H1 H2]; subst. destruct (print_text_ok fm (files n) s (Hf n)) as (t & E & Ht). rewrite E. cbn.
    destruct (IH (fun k => if str_eqb k n then Some t else files k) H2) as (o & -> & K1 & K2 & K3 & K4).
    { intros k. destruct (str_eqb k n); auto. }
    cbn. eexists. split; [reflexivity|]. cbn. split; [now rewrite K1|]. split; [|split; auto].
    + intros k. destruct (str_eqb n k) eqn:F; auto.
    + intros k. specialize (K3 k). destruct (str_eqb n k) eqn:F.
      * apply str_eqb_spec in F as <-. exists t. split; auto.
        apply find_none in H1. rewrite H1 in K3. rewrite K3, str_eqb_refl. auto.
      * rewrite (str_eqb_sym k n), F in K3. exact K3.
Qed.

(** The text of a document if nothing were printed on the way. *)
Definition render1 (fm : format) (n : str) (x : option (str * bool)) (p : out_op) : option (str * bool) :=
  match p with
  | Push k => if str_eqb k n then Some (push_text fm n x) else x
  | Pop k => if str_eqb k n then (match pop_text fm n x with Ok y => Some y | _ => x end) else x
  | Write k v => if str_eqb k n then Some (write_text fm v x) else x
  | Print => x
  end.
Definition render fm n ops := fold_left (render1 fm n) ops None.
Lemma render_snoc fm n ops p : render fm n (ops ++ [p]) = render1 fm n (render fm n ops) p.
Proof. unfold render. now rewrite fold_left_app. Qed.
Lemma render_used fm n ops : render fm n ops <> None <-> used_before ops n.
Proof.
  induction ops as [|p ops IH] using rev_ind.
  - cbn. split; [congruence|]. intros (p & [] & _).
  - rewrite render_snoc. assert (U : used_before (ops ++ [p]) n <-> used_before ops n \/ (p = Push n \/ exists v, p = Write n v)).
    { unfold used_before. split.
      - intros (q & Hq & H). apply in_app_iff in Hq as [Hq|[<-|[]]]; eauto.
      - intros [(q & Hq & H)|H]; [exists q|exists p]; rewrite in_app_iff; cbn; auto. }
    rewrite U, <- IH. clear U IH. destruct p as [k|k|k v|]; cbn.
    + destruct (str_eqb k n) eqn:E; [apply str_eqb_spec in E as ->; split; auto; congruence|].
      split; auto. intros [H|[H|(v & H)]]; auto; [injection H as ->; rewrite str_eqb_refl in E|]; discriminate.
    + destruct (str_eqb k n).
      * destruct (render fm n ops) as [[s st]|]; cbn; destruct fm; (split; [intros Q; left; first [discriminate|exact Q]|]); intros [Q|[Q|(v & Q)]]; first [discriminate|exact Q].
      * split; auto. intros [H|[H|(v & H)]]; auto; discriminate.
    + destruct (str_eqb k n) eqn:E; [apply str_eqb_spec in E as ->; split; eauto; congruence|].
      split; auto. intros [H|[H|(w & H)]]; auto; [discriminate|injection H as -> _; rewrite str_eqb_refl in E; discriminate].
    + split; auto. intros [H|[H|(v & H)]]; auto; discriminate.
Qed.

(** ** success *)
Definition base_inv (fm : format) (o : out) (done : list out_op) : Prop :=
  NoDup (map fst (ostreams o)) /\ (forall n, file_ok fm (ofiles o n)) /\ (forall n, find (ostreams o) n <> None <-> used_before done n).

Lemma used_snoc ops p n : used_before (ops ++ [p]) n <-> used_before ops n \/ (p = Push n \/ exists v, p = Write n v).
Proof.
  unfold used_before. split.
  - intros (q & Hq & H). apply in_app_iff in Hq as [Hq|[<-|[]]]; eauto.
  - intros [(q & Hq & H)|H]; [exists q|exists p]; rewrite in_app_iff; cbn; auto.
Qed.

Lemma base_step fm o done p : base_inv fm o done -> (forall n, p = Pop n -> used_before done n) ->
  exists o', exec fm o p = Ok o' /\ base_inv fm o' (done ++ [p]).
Proof.
  intros (Hd & Hf & Hu) Hp.
  assert (P : forall n x, (p = Push n \/ (exists v, p = Write n v) \/ p = Pop n) -> base_inv fm (Out (put (ostreams o) n x) (ofiles o)) (done ++ [p])).
  { intros n x Hx. split; [now apply put_NoDup|]. split; auto. intros k. cbn. rewrite find_put, used_snoc. destruct (str_eqb n k) eqn:E.
    - apply str_eqb_spec in E as <-. split; [intros _|congruence]. destruct Hx as [H|[(v & H)|H]]; auto. right. eauto.
    - rewrite Hu. split; auto. intros [H|[H|(v & H)]]; auto; destruct Hx as [H'|[(v' & H')|H']]; rewrite H in H'; try discriminate;
        injection H' as ->; subst; rewrite str_eqb_refl in E; discriminate. }
  destruct p as [n|n|n v|]; cbn [exec].
  - eexists. split; [reflexivity|]. apply P. auto.
  - specialize (Hp n eq_refl). apply Hu in Hp. destruct (find (ostreams o) n) as [[s st]|]; [|congruence].
    destruct fm; cbn; (eexists; split; [reflexivity|]; apply P; auto).
  - eexists. split; [reflexivity|]. apply P. eauto.
  - destruct (print_all_spec fm (ostreams o) (ofiles o) Hd Hf) as (o' & -> & K1 & K2 & K3 & K4).
    eexists. split; [reflexivity|]. split; [now rewrite K1|]. split; auto. intros n. rewrite K2, used_snoc, <- Hu.
    destruct (find (ostreams o) n) as [[s st]|]; split; intros H; try congruence; auto; try (left; congruence).
    destruct H as [H|[H|(v & H)]]; congruence.
Qed.
Lemma early_pop fm o done n : base_inv fm o done -> ~ used_before done n -> exec fm o (Pop n) = Exit 1.
Proof.
  intros (Hd & Hf & Hu) H. cbn. destruct (find (ostreams o) n) eqn:E.
  - exfalso. apply H, Hu. congruence.
  - destruct fm; reflexivity.
Qed.
Lemma base_start fm files : (forall n, file_ok fm (files n)) -> base_inv fm (fresh files) [].
Proof.
  intros H. split; [constructor|]. split; auto. intros n. cbn. split; [congruence|]. intros (p & [] & _).
Qed.

Lemma used_dec ops n : used_before ops n \/ ~ used_before ops n.
Proof.
  destruct (render Txt n ops) eqn:E; [left|right]; rewrite <- (render_used Txt); congruence.
Qed.

Lemma exec_all_app fm l : forall l' o, exec_all fm o (l ++ l') = obind (exec_all fm o l) (fun o => exec_all fm o l').
Proof. induction l as [|p l IH]; intros l' o; cbn; auto. destruct (exec fm o p); cbn; auto. Qed.

Lemma exists_last_or_nil {A} (l : list A) : l = [] \/ exists l' x, l = l' ++ [x].
Proof. destruct l as [|a l]; auto. right. destruct (exists_last (l := a :: l)) as (l' & x & E); [congruence|eauto]. Qed.
Lemma never_early_snoc ops p : never_early (ops ++ [p]) <-> never_early ops /\ (forall n, p = Pop n -> used_before ops n).
Proof.
  split.
  - intros H. split; [intros a n b E; apply (H a n (b ++ [p])); rewrite E, <- app_assoc; reflexivity|].
    intros n ->. apply (H ops n []). reflexivity.
  - intros [H1 H2] a n b E. destruct (exists_last_or_nil b) as [->|(b' & q & ->)].
    + apply app_inj_tail in E as [-> ->]. auto.
    + rewrite app_comm_cons, app_assoc in E. apply app_inj_tail in E as [-> ->]. now apply (H1 a n b').
Qed.
Lemma never_early_dec ops : never_early ops \/ ~ never_early ops.
Proof.
  induction ops as [|p ops IH] using rev_ind.
  - left. intros a n b E. destruct a; discriminate.
  - rewrite never_early_snoc. destruct IH as [H|H]; [|tauto].
    destruct p as [n|n|n v|]; try (left; split; auto; intros; discriminate).
    destruct (used_dec ops n) as [U|U].
    + left. split; auto. intros m E. injection E as <-. auto.
    + right. intros [_ K]. apply U, K. reflexivity.
Qed.

Lemma base_run fm files ops : (forall n, file_ok fm (files n)) ->
  (never_early ops -> exists o, exec_all fm (fresh files) ops = Ok o /\ base_inv fm o ops) /\
  (~ never_early ops -> exec_all fm (fresh files) ops = Exit 1).
Proof.
  intros Hf. induction ops as [|p ops IH] using rev_ind.
  - split.
    + intros _. eexists. split; [reflexivity|]. now apply base_start.
    + intros H. exfalso. apply H. intros a n b E. destruct a; discriminate.
  - rewrite exec_all_app. destruct IH as [I1 I2].
    pose proof (never_early_snoc ops p) as A.
    split.
    + intros H. apply A in H as [H1 H2]. destruct (I1 H1) as (o & -> & K). cbn [obind exec_all].
      destruct (base_step fm o ops p K H2) as (o' & -> & K'). cbn. eauto.
    + intros H. destruct (never_early_dec ops) as [N|N].
      * destruct (I1 N) as (o & -> & K). cbn [obind exec_all]. 
        destruct p as [n|n|n v|]; try (exfalso; apply H, A; split; auto; intros; discriminate).
        assert (U : ~ used_before ops n). { intros U. apply H, A. split; auto. intros m E. injection E as <-. auto. }
        now rewrite (early_pop fm o ops n K U).
      * rewrite (I2 N). reflexivity.
Qed.

(** ** txt documents *)
Definition content (f : option str) : str := match f with Some f => f | None => [] end.
Definition txt_inv (files : str -> option str) (o : out) (done : list out_op) : Prop :=
  forall n, match find (ostreams o) n with
    | Some (s, st) => exists t, render Txt n done = Some (t, st) /\ content (ofiles o n) ++ s = content (files n) ++ t
    | None => render Txt n done = None /\ ofiles o n = files n end.

Lemma txt_step files o done p o' : base_inv Txt o done -> txt_inv files o done -> exec Txt o p = Ok o' -> txt_inv files o' (done ++ [p]).
Proof.
  intros (Hd & Hf & _) H E n. rewrite render_snoc. specialize (H n). destruct p as [k|k|k v|]; cbn [exec] in E.
  - injection E as <-. cbn [ostreams ofiles render1]. rewrite find_put. destruct (str_eqb k n) eqn:F; [|exact H].
    apply str_eqb_spec in F as ->. destruct (find (ostreams o) n) as [[s st]|].
    + destruct H as (t & -> & Q). cbn. eexists. split; [reflexivity|]. rewrite !app_assoc, Q. now rewrite <- !app_assoc.
    + destruct H as [-> ->]. cbn. eexists. split; reflexivity.
  - destruct (find (ostreams o) k) as [[s st]|] eqn:Ek; [|discriminate]. cbn [pop_text obind] in E. injection E as <-.
    cbn [ostreams ofiles render1]. rewrite find_put. destruct (str_eqb k n) eqn:F; [|exact H].
    apply str_eqb_spec in F as ->. rewrite Ek in H. destruct H as (t & -> & Q). cbn. eexists. split; [reflexivity|].
    rewrite !app_assoc, Q. now rewrite <- !app_assoc.
  - injection E as <-. cbn [ostreams ofiles render1]. rewrite find_put. destruct (str_eqb k n) eqn:F; [|exact H].
    apply str_eqb_spec in F as ->. destruct (find (ostreams o) n) as [[s st]|].
    + destruct H as (t & -> & Q). cbn [write_text]. eexists. split; [reflexivity|]. destruct st; rewrite !app_assoc, Q; now rewrite <- !app_assoc.
    + destruct H as [-> ->]. cbn. eexists. split; reflexivity.
  - destruct (print_all_spec Txt (ostreams o) (ofiles o) Hd Hf) as (o'' & E' & K1 & K2 & K3 & K4). rewrite E' in E. injection E as <-.
    cbn [render1]. rewrite K2. specialize (K3 n). destruct (find (ostreams o) n) as [[s st]|].
    + destruct H as (t & -> & Q). exists t. split; auto. destruct K3 as (f & Ef & ->). cbn [content]. rewrite app_nil_r, <- Q.
      destruct (ofiles o n); cbn in *; congruence.
    + destruct H as [-> H]. split; auto. congruence.
Qed.

Lemma txt_run files ops o : never_early ops -> exec_all Txt (fresh files) ops = Ok o -> base_inv Txt o ops /\ txt_inv files o ops.
Proof.
  revert o. induction ops as [|p ops IH] using rev_ind; intros o Hn E.
  - cbn in E. injection E as <-. split; [now apply base_start|]. intros n. cbn. auto.
  - apply never_early_snoc in Hn as [Hn Hp]. rewrite exec_all_app in E.
    destruct (exec_all Txt (fresh files) ops) as [o1|c|] eqn:E1; cbn [obind] in E; try discriminate.
    destruct (IH o1 Hn eq_refl) as [B T]. destruct (base_step Txt o1 ops p B Hp) as (o2 & E2 & B2). cbn [exec_all] in E.
    rewrite E2 in E. cbn in E. injection E as <-. split; auto. eapply txt_step; eauto.
Qed.

Lemma txt_final files ops : never_early ops -> exists o, exec_all Txt (fresh files) (ops ++ [Print]) = Ok o /\
  forall n, match render Txt n ops with
    | Some (t, _) => ofiles o n = Some (content (files n) ++ t)
    | None => ofiles o n = files n end.
Proof.
  intros Hn. assert (Hn' : never_early (ops ++ [Print])) by (apply never_early_snoc; split; auto; intros; discriminate).
  destruct (base_run Txt files ops) as [I1 _]; [intros; exact I|]. destruct (I1 Hn) as (o1 & E1 & B1).
  destruct (txt_run files ops o1 Hn E1) as [_ T]. rewrite exec_all_app, E1. cbn [obind exec_all exec].
  destruct (print_all_spec Txt (ostreams o1) (ofiles o1)) as (o & -> & K1 & K2 & K3 & K4); try apply B1.
  cbn [obind]. exists o. split; auto. intros n. specialize (T n). specialize (K3 n). destruct (find (ostreams o1) n) as [[s st]|].
  - destruct T as (t & -> & Q). destruct K3 as (f & Ef & ->). rewrite <- Q. destruct (ofiles o1 n); cbn [print_text content app] in *; injection Ef as <-; reflexivity.
  - destruct T as [-> <-]. auto.
Qed.

Lemma render_no_print fm n ops : render fm n ops = render fm n (filter (fun p => negb (is_print p)) ops).
Proof.
  unfold render. generalize (@None (str * bool)). induction ops as [|p ops IH]; intros x; cbn; auto.
  destruct p; cbn; auto.
Qed.

(** Reading a txt document. *)
Lemma flush_value v : txt_value v -> flush v = [Value v] /\ flush (v ++ [","%char]) = [Value v].
Proof.
  intros (Hne & Hc & Hl). unfold flush, drop_comma. rewrite rev_app_distr. cbn [rev app]. rewrite Ascii.eqb_refl, rev_involutive.
  destruct (exists_last Hne) as (r & c & ->). rewrite rev_app_distr. cbn [rev app]. rewrite last_last in Hl.
  destruct (Ascii.eqb_spec c ","); [contradiction|]. destruct (r ++ [c]) eqn:E; [destruct r; discriminate|]. auto.
Qed.
Lemma read_txt_word w : (forall c, In c w -> c <> "{"%char /\ c <> "}"%char /\ space c = false) ->
  forall cur b, read_txt cur (w ++ b) = read_txt (cur ++ w) b.
Proof.
  induction w as [|c w IH]; intros H cur b; cbn [app]; [now rewrite app_nil_r|]. cbn [read_txt].
  destruct (H c (or_introl eq_refl)) as (H1 & H2 & H3).
  destruct (Ascii.eqb_spec c "{"); [contradiction|]. destruct (Ascii.eqb_spec c "}"); [contradiction|]. rewrite H3.
  rewrite IH by (intros; apply H; right; auto). now rewrite <- app_assoc.
Qed.

Definition txt_tokens (t : str) (st : bool) (toks : list token) : Prop :=
  exists done cur, (forall b, read_txt [] (t ++ b) = done ++ read_txt cur b) /\ done ++ flush cur = toks /\
    (st = true -> txt_value cur) /\ (st = false -> cur = []).
Lemma str_eqb_dec {A} k n (a b : A) : (if str_eqb k n then a else b) = (if list_eq_dec ascii_dec k n then a else b).
Proof.
  destruct (list_eq_dec ascii_dec k n) as [->|H]; [now rewrite str_eqb_refl|]. now rewrite str_eqb_false.
Qed.

Lemma txt_render n ops : values_ok txt_value ops -> never_early ops ->
  match render Txt n ops with
  | Some (t, st) => txt_tokens t st (Begin [] :: meaning [] n ops)
  | None => meaning [] n ops = [] end.
Proof.
  induction ops as [|p ops IH] using rev_ind; intros Hv Hn; [reflexivity|].
  apply never_early_snoc in Hn as [Hn Hp].
  assert (Hv' : values_ok txt_value ops) by (intros k v Hk; apply (Hv k); apply in_app_iff; auto).
  specialize (IH Hv' Hn). rewrite render_snoc. unfold meaning in *. rewrite flat_map_app. cbn [flat_map]. rewrite app_nil_r.
  destruct p as [k|k|k v|]; cbn [render1 call_tokens].
  - rewrite str_eqb_dec. destruct (list_eq_dec ascii_dec k n) as [->|]; [|now rewrite app_nil_r].
    destruct (render Txt n ops) as [[t st]|]; cbn [push_text].
    + destruct IH as (dn & cur & R & F & _). exists (dn ++ flush cur ++ [Begin []]), []. split; [|split; [|split; [discriminate|auto]]].
      * intros b. rewrite <- app_assoc, R. unfold tab, lit. cbn. now rewrite <- !app_assoc.
      * rewrite app_assoc, F. cbn. now rewrite app_nil_r.
    + rewrite IH. exists [Begin []; Begin []], []. repeat split; try discriminate.
  - rewrite str_eqb_dec. destruct (list_eq_dec ascii_dec k n) as [->|]; [|now rewrite app_nil_r].
    destruct (render Txt n ops) as [[t st]|] eqn:ER; cbn [pop_text].
    + destruct IH as (dn & cur & R & F & _). exists (dn ++ flush cur ++ [End []]), []. split; [|split; [|split; [discriminate|auto]]].
      * intros b. rewrite <- app_assoc, R. unfold nl, lit. cbn. now rewrite <- !app_assoc.
      * rewrite app_assoc, F. cbn. now rewrite app_nil_r.
    + exfalso. apply (render_used Txt n ops) in Hp; auto.
  - rewrite str_eqb_dec. destruct (list_eq_dec ascii_dec k n) as [->|]; [|now rewrite app_nil_r].
    assert (Tv : txt_value v) by (apply (Hv n); apply in_app_iff; cbn; auto). destruct (flush_value v Tv) as [Fv _].
    destruct (render Txt n ops) as [[t st]|]; cbn [write_text].
    + destruct IH as (dn & cur & R & F & C1 & C2). destruct st.
      * destruct (flush_value cur (C1 eq_refl)) as [F1 F2]. exists (dn ++ flush cur), v. split; [|split; [|split; [auto|discriminate]]].
        -- intros b. rewrite <- !app_assoc, R. cbn. rewrite F1, F2. rewrite read_txt_word by apply Tv. reflexivity.
        -- rewrite F, Fv. reflexivity.
      * rewrite (C2 eq_refl) in *. exists dn, v. cbn in F. rewrite app_nil_r in F. split; [|split; [|split; [auto|discriminate]]].
        -- intros b. rewrite <- app_assoc, R. rewrite read_txt_word by apply Tv. reflexivity.
        -- rewrite F, Fv. reflexivity.
    + rewrite IH. exists [Begin []], v. split; [|split; [|split; [auto|discriminate]]].
      * intros b. cbn. now rewrite read_txt_word by apply Tv.
      * now rewrite Fv.
  - rewrite app_nil_r. exact IH.
Qed.

Lemma txt_document files ops n : values_ok txt_value ops -> never_early ops -> files n = None -> used_before ops n ->
  exists o f, exec_all Txt (fresh files) (ops ++ [Print]) = Ok o /\ ofiles o n = Some f /\
    read_txt [] f = Begin [] :: meaning [] n ops.
Proof.
  intros Hv Hn Hf Hu. destruct (txt_final files ops Hn) as (o & E & K). specialize (K n). pose proof (txt_render n ops Hv Hn) as R.
  apply (render_used Txt) in Hu. destruct (render Txt n ops) as [[t st]|]; [|congruence]. rewrite Hf in K. cbn in K.
  exists o, t. split; auto. split; auto. destruct R as (dn & cur & R & F & _). specialize (R []). rewrite app_nil_r in R. rewrite R. cbn. exact F.
Qed.

Lemma never_early_filter ops : never_early ops <-> never_early (filter (fun p => negb (is_print p)) ops).
Proof.
  assert (U : forall a n, used_before a n <-> used_before (filter (fun p => negb (is_print p)) a) n).
  { intros a n. unfold used_before. split; intros (p & Hp & H); exists p; rewrite filter_In in *; (split; [|exact H]); [split; [exact Hp|]|apply Hp].
    destruct H as [->|(v & ->)]; reflexivity. }
  induction ops as [|p ops IH] using rev_ind; [tauto|]. rewrite filter_app. cbn [filter]. rewrite never_early_snoc, IH.
  destruct p as [k|k|k v|]; cbn [is_print negb]; rewrite ?app_nil_r, ?never_early_snoc.
  - split; intros [A B]; split; auto; intros; discriminate.
  - split; intros [A B]; (split; [exact A|]); intros m E; [apply (proj1 (U ops m))|apply (proj2 (U ops m))]; now apply B.
  - split; intros [A B]; split; auto; intros; discriminate.
  - split; [tauto|]. intros A. split; auto. intros; discriminate.
Qed.

Lemma txt_portions files ops1 ops2 : never_early ops1 ->
  filter (fun p => negb (is_print p)) ops1 = filter (fun p => negb (is_print p)) ops2 ->
  exists o1 o2, exec_all Txt (fresh files) (ops1 ++ [Print]) = Ok o1 /\ exec_all Txt (fresh files) (ops2 ++ [Print]) = Ok o2 /\
    forall n, ofiles o1 n = ofiles o2 n.
Proof.
  intros Hn E. assert (Hn2 : never_early ops2) by (apply (proj2 (never_early_filter ops2)); rewrite <- E; exact (proj1 (never_early_filter ops1) Hn)).
  destruct (txt_final files ops1 Hn) as (o1 & E1 & K1). destruct (txt_final files ops2 Hn2) as (o2 & E2 & K2).
  exists o1, o2. split; auto. split; auto. intros n. specialize (K1 n). specialize (K2 n).
  rewrite render_no_print, E, <- render_no_print in K1. destruct (render Txt n ops2) as [[t st]|]; congruence.
Qed.

(** ** xml documents *)
Definition xml_tokens (t : str) (toks : list token) : Prop := forall b, read_xml false [] (t ++ b) = toks ++ read_xml false [] b.
Lemma xml_tokens_app a b x y : xml_tokens a x -> xml_tokens b y -> xml_tokens (a ++ b) (x ++ y).
Proof. intros H K c. rewrite <- app_assoc, H, K. now rewrite app_assoc. Qed.
Lemma read_xml_tag w : (forall c, In c w -> c <> ">"%char) -> forall cur b, read_xml true cur (w ++ b) = read_xml true (cur ++ w) b.
Proof.
  induction w as [|c w IH]; intros H cur b; cbn [app]; [now rewrite app_nil_r|]. cbn [read_xml].
  destruct (Ascii.eqb_spec c ">") as [->|]; [exfalso; apply (H ">"%char); [left|]; auto|].
  rewrite IH by (intros; apply H; right; auto). now rewrite <- app_assoc.
Qed.
Lemma read_xml_word w : (forall c, In c w -> c <> "<"%char /\ space c = false) -> forall cur b, read_xml false cur (w ++ b) = read_xml false (cur ++ w) b.
Proof.
  induction w as [|c w IH]; intros H cur b; cbn [app]; [now rewrite app_nil_r|]. cbn [read_xml].
  destruct (H c (or_introl eq_refl)) as [H1 H2]. destruct (Ascii.eqb_spec c "<"); [contradiction|]. rewrite H2.
  rewrite IH by (intros; apply H; right; auto). now rewrite <- app_assoc.
Qed.
Lemma xml_open n : xml_name n -> xml_tokens (open_tag n) [Begin n].
Proof.
  intros (H & H1 & H2) b. unfold open_tag, lit. cbn [app list_ascii_of_string]. rewrite <- app_assoc. cbn [read_xml Ascii.eqb Bool.eqb word_token app].
  rewrite read_xml_tag by auto. cbn [app]. destruct n as [|c n]; [reflexivity|]. cbn [hd] in *. cbn.
  destruct (Ascii.eqb_spec c "/"); [contradiction|]. destruct (Ascii.eqb_spec c "?"); [contradiction|]. reflexivity.
Qed.
Lemma xml_close n : xml_name n -> xml_tokens (close_tag n) [End n].
Proof.
  intros (H & H1 & H2) b. unfold close_tag, lit. cbn [app list_ascii_of_string]. rewrite <- app_assoc. cbn [read_xml Ascii.eqb Bool.eqb word_token app].
  rewrite read_xml_tag by auto. reflexivity.
Qed.
Lemma xml_word v : xml_value v -> xml_tokens (v ++ lit " ") [Value v].
Proof.
  intros [Hne H] b. rewrite <- app_assoc, read_xml_word by auto. cbn. unfold word_token. destruct v; [congruence|reflexivity].
Qed.
Lemma xml_blank s : forallb space s = true -> xml_tokens s [].
Proof.
  induction s as [|c s IH]; intros H b; [reflexivity|]. cbn [forallb] in H. apply andb_true_iff in H as [H1 H2]. cbn [app read_xml].
  destruct (Ascii.eqb_spec c "<") as [->|]; [discriminate|]. rewrite H1. cbn. now apply IH.
Qed.
Lemma xml_head : xml_tokens xml_header [Begin (lit "root")].
Proof. intros b. reflexivity. Qed.

(** What has been printed and what is in the stream; [q] tells whether the name has been printed. *)
Definition xml_inv (o : out) (done : list out_op) (n : str) : Prop :=
  match find (ostreams o) n with
  | Some (s, st) => exists past new, meaning n n done = past ++ new /\ xml_tokens s new /\
      match ofiles o n with
      | None => past = []
      | Some f => exists pre, f = pre ++ xml_footer /\ xml_tokens pre (Begin (lit "root") :: past) end
  | None => meaning n n done = [] /\ ofiles o n = None end.

Lemma firstn_footer pre : firstn (List.length (pre ++ xml_footer) - 9) (pre ++ xml_footer) = pre.
Proof.
  rewrite app_length. replace (List.length pre + List.length xml_footer - 9)%nat with (List.length pre).
  - rewrite firstn_app, Nat.sub_diag, firstn_all. cbn. apply app_nil_r.
  - unfold xml_footer. rewrite !app_length. cbn [List.length lit nl list_ascii_of_string]. lia.
Qed.

Lemma xml_step o done p o' n : xml_name n -> values_ok xml_value (done ++ [p]) -> base_inv Xml o done -> xml_inv o done n -> exec Xml o p = Ok o' ->
  xml_inv o' (done ++ [p]) n.
Proof.
  intros Nn Hv (Hd & Hf & _) H E. unfold xml_inv in *. unfold meaning in *. rewrite flat_map_app. cbn [flat_map]. rewrite app_nil_r.
  destruct p as [k|k|k v|]; cbn [exec call_tokens] in *.
  - injection E as <-. cbn [ostreams ofiles]. rewrite find_put, str_eqb_dec. destruct (list_eq_dec ascii_dec k n) as [->|]; [|now rewrite app_nil_r].
    destruct (find (ostreams o) n) as [[s st]|]; cbn [push_text].
    + destruct H as (past & new & M & T & F). exists past, (new ++ [Begin n]). rewrite M, <- app_assoc. split; auto. split; auto.
      apply xml_tokens_app; auto. now apply xml_open.
    + destruct H as [M F]. exists [], [Begin n]. rewrite M, F. split; auto. split; auto. now apply xml_open.
  - destruct (find (ostreams o) k) as [[s st]|] eqn:Ek; [|discriminate]. cbn [pop_text obind] in E. injection E as <-.
    cbn [ostreams ofiles]. rewrite find_put, str_eqb_dec. destruct (list_eq_dec ascii_dec k n) as [->|]; [|now rewrite app_nil_r].
    rewrite Ek in H. destruct H as (past & new & M & T & F). exists past, (new ++ [End n]). rewrite M, <- app_assoc. split; auto. split; auto.
    apply xml_tokens_app; auto. now apply xml_close.
  - injection E as <-. cbn [ostreams ofiles]. rewrite find_put, str_eqb_dec. destruct (list_eq_dec ascii_dec k n) as [->|]; [|now rewrite app_nil_r].
    assert (Xv : xml_value v) by (apply (Hv n); apply in_app_iff; cbn; auto).
    destruct (find (ostreams o) n) as [[s st]|]; cbn [write_text].
    + destruct H as (past & new & M & T & F). exists past, (new ++ [Value v]). rewrite M, <- app_assoc. split; auto. split; auto.
      apply xml_tokens_app; [|now apply xml_word]. destruct st; auto. rewrite <- (app_nil_r new). apply xml_tokens_app; auto. now apply xml_blank.
    + destruct H as [M F]. exists [], [Value v]. rewrite M, F. split; auto. split; auto. now apply xml_word.
  - rewrite app_nil_r. destruct (print_all_spec Xml (ostreams o) (ofiles o) Hd Hf) as (o'' & E' & K1 & K2 & K3 & K4). rewrite E' in E. injection E as <-.
    rewrite K2. specialize (K3 n). destruct (find (ostreams o) n) as [[s st]|].
    + destruct H as (past & new & M & T & F). destruct K3 as (f & Ef & ->). exists (past ++ new), []. rewrite app_nil_r. split; auto.
      split; [intros b; reflexivity|]. destruct (ofiles o n) as [g|] eqn:Eg.
      * destruct F as (pre & -> & P). cbn [print_text] in Ef. specialize (Hf n). rewrite Eg in Hf. cbn [file_ok] in Hf.
        destruct (Nat.leb_spec 9 (List.length (pre ++ xml_footer))); [|lia]. rewrite firstn_footer in Ef. injection Ef as <-.
        exists (pre ++ nl ++ nl ++ s). split; [now rewrite <- !app_assoc|]. 
        change (Begin (lit "root") :: past ++ new) with ((Begin (lit "root") :: past) ++ [] ++ [] ++ new).
        repeat apply xml_tokens_app; auto; now apply xml_blank.
      * subst past. cbn [print_text] in Ef. injection Ef as <-. exists (xml_header ++ s). split; [now rewrite <- app_assoc|].
        apply (xml_tokens_app xml_header s [Begin (lit "root")] new); auto. apply xml_head.
    + destruct H as [M F]. split; auto. congruence.
Qed.

Lemma xml_run files n ops : xml_name n -> (forall k, file_ok Xml (files k)) -> files n = None -> values_ok xml_value ops -> never_early ops ->
  exists o, exec_all Xml (fresh files) ops = Ok o /\ base_inv Xml o ops /\ xml_inv o ops n.
Proof.
  intros Nn Hf Hn. induction ops as [|p ops IH] using rev_ind; intros Hv He.
  - eexists. split; [reflexivity|]. split; [now apply base_start|]. unfold xml_inv. cbn. auto.
  - apply never_early_snoc in He as [He Hp].
    destruct IH as (o & E & B & X); auto. { intros k v Hk. apply (Hv k). apply in_app_iff; auto. }
    destruct (base_step Xml o ops p B Hp) as (o' & E' & B'). exists o'. rewrite exec_all_app, E. cbn [obind exec_all]. rewrite E'.
    split; auto. split; auto. eapply xml_step; eauto.
Qed.

Lemma xml_document files ops n : values_ok xml_value ops -> never_early ops -> xml_name n -> (forall k, file_ok Xml (files k)) ->
  files n = None -> used_before ops n ->
  exists o f, exec_all Xml (fresh files) (ops ++ [Print]) = Ok o /\ ofiles o n = Some f /\
    read_xml false [] f = Begin (lit "root") :: meaning n n ops ++ [End (lit "root")].
Proof.
  intros Hv He Nn Hf Hn Hu. destruct (xml_run files n (ops ++ [Print])) as (o & E & (_ & _ & B) & X); auto.
  { intros k v Hk. apply in_app_iff in Hk as [Hk|[Hk|[]]]; [now apply (Hv k)|discriminate]. }
  { apply never_early_snoc. split; auto. intros; discriminate. }
  exists o. unfold xml_inv in X. assert (U : used_before (ops ++ [Print]) n) by (apply used_snoc; auto). apply B in U.
  unfold meaning in *. rewrite flat_map_app in X. cbn [flat_map call_tokens app] in X. rewrite app_nil_r in X.
  (* the last operation was a print *)
  destruct (xml_run files n ops) as (o1 & E1 & B1 & X1); auto.
  rewrite exec_all_app, E1 in E. cbn [obind exec_all exec] in E.
  destruct (print_all_spec Xml (ostreams o1) (ofiles o1)) as (o2 & E2 & K1 & K2 & K3 & K4); try apply B1. rewrite E2 in E. cbn in E. injection E as <-.
  rewrite K2 in X, U. specialize (K3 n). destruct (find (ostreams o1) n) as [[s st]|]; [|congruence].
  destruct K3 as (f & Ef & Q). rewrite Q in X. destruct X as (past & new & M & T & pre & -> & P). exists (pre ++ xml_footer).
  split; [now rewrite exec_all_app, E1; cbn [obind exec_all exec]; rewrite E2|]. split; auto. rewrite P. rewrite M. specialize (T []). cbn in T.
  assert (new = []) as -> by (destruct new; [auto|destruct new; discriminate]). rewrite app_nil_r. reflexivity.
Qed.

(** ** nesting *)
Fixpoint depth (l : list token) : Z :=
  match l with [] => 0 | Begin _ :: l => 1 + depth l | End _ :: l => -1 + depth l | Value _ :: l => depth l end%Z.
Lemma depth_app a b : depth (a ++ b) = (depth a + depth b)%Z.
Proof. induction a as [|[]]; cbn [app depth]; lia. Qed.
Lemma nested_depth l : nested l -> depth l = 0%Z.
Proof. induction 1; cbn [depth]; rewrite ?depth_app; cbn [depth]; lia. Qed.
Lemma nested_prefix l : nested l -> forall a n b, l = a ++ End n :: b -> exists m, In (Begin m) a.
Proof.
  induction 1 as [|v l H IH|k x l Hx IHx H IH]; intros a n b E.
  - destruct a; discriminate.
  - destruct a as [|t a]; [discriminate|]. injection E as <- E. destruct (IH a n b E) as (m & Hm). exists m. right; auto.
  - destruct a as [|t a]; [discriminate|]. injection E as <- E. exists k. left; auto.
Qed.
Lemma meaning_push tag n a m : In (Begin m) (meaning tag n a) -> used_before a n.
Proof.
  intros H. apply in_flat_map in H as (p & Hp & H). exists p. split; auto. left.
  destruct p as [k|k|k v|]; cbn in H; try destruct (list_eq_dec ascii_dec k n) as [->|]; cbn in H; try tauto; destruct H as [H|[]]; congruence.
Qed.
Lemma nested_never_early tag ops : (forall n, nested (meaning (tag n) n ops)) -> never_early ops.
Proof.
  intros H a n b E. specialize (H n).
  assert (M : meaning (tag n) n ops = meaning (tag n) n a ++ End (tag n) :: meaning (tag n) n b).
  { subst ops. unfold meaning. rewrite flat_map_app. cbn [flat_map call_tokens]. destruct (list_eq_dec ascii_dec n n); [reflexivity|congruence]. }
  destruct (nested_prefix _ H _ _ _ M) as (m & Hm). eapply meaning_push; eauto.
Qed.

Lemma txt_balanced files ops : values_ok txt_value ops -> (forall n, nested (meaning [] n ops)) ->
  exists o, exec_all Txt (fresh files) (ops ++ [Print]) = Ok o /\
   forall n, files n = None -> used_before ops n -> exists f, ofiles o n = Some f /\
     read_txt [] f = Begin [] :: meaning [] n ops /\ ~ nested (read_txt [] f).
Proof.
  intros Hv Hn. pose proof (nested_never_early (fun _ => []) ops Hn) as He.
  destruct (txt_final files ops He) as (o & E & _). exists o. split; auto. intros n Hf Hu.
  destruct (txt_document files ops n Hv He Hf Hu) as (o' & f & E' & F & R). rewrite E in E'. injection E' as <-.
  exists f. split; auto. split; auto. rewrite R. intros N. apply nested_depth in N. cbn [depth] in N.
  rewrite (nested_depth _ (Hn n)) in N. lia.
Qed.
Lemma xml_balanced files ops : values_ok xml_value ops -> (forall n, nested (meaning n n ops)) -> (forall k, file_ok Xml (files k)) ->
  exists o, exec_all Xml (fresh files) (ops ++ [Print]) = Ok o /\
   forall n, xml_name n -> files n = None -> used_before ops n -> exists f, ofiles o n = Some f /\
     read_xml false [] f = Begin (lit "root") :: meaning n n ops ++ [End (lit "root")] /\ nested (read_xml false [] f).
Proof.
  intros Hv Hn Hk. pose proof (nested_never_early (fun n => n) ops Hn) as He.
  destruct (base_run Xml files (ops ++ [Print]) Hk) as [B _]. destruct B as (o & E & _).
  { apply never_early_snoc. split; auto. intros; discriminate. }
  exists o. split; auto. intros n Nn Hf Hu.
  destruct (xml_document files ops n Hv He Nn Hk Hf Hu) as (o' & f & E' & F & R). rewrite E in E'. injection E' as <-.
  exists f. split; auto. split; auto. rewrite R. apply (nested_group (lit "root") (meaning n n ops) []); auto. constructor.
Qed.

Lemma xml_portions files ops1 ops2 n : values_ok xml_value ops1 -> never_early ops1 -> xml_name n -> (forall k, file_ok Xml (files k)) ->
  files n = None -> used_before ops1 n ->
  filter (fun p => negb (is_print p)) ops1 = filter (fun p => negb (is_print p)) ops2 ->
  exists o1 o2 f1 f2, exec_all Xml (fresh files) (ops1 ++ [Print]) = Ok o1 /\ exec_all Xml (fresh files) (ops2 ++ [Print]) = Ok o2 /\
    ofiles o1 n = Some f1 /\ ofiles o2 n = Some f2 /\ read_xml false [] f1 = read_xml false [] f2.
Proof.
  intros Hv He Nn Hk Hf Hu E. destruct (xml_document files ops1 n) as (o1 & f1 & E1 & F1 & R1); auto.
  assert (I : forall p, is_print p = false -> (In p ops1 <-> In p ops2)).
  { intros p Hp. assert (In p (filter (fun p => negb (is_print p)) ops1) <-> In p (filter (fun p => negb (is_print p)) ops2)) by (rewrite E; tauto).
    rewrite !filter_In, Hp in H. cbn in H. tauto. }
  assert (Hm : forall ops, meaning n n ops = meaning n n (filter (fun p => negb (is_print p)) ops)).
  { unfold meaning. induction ops as [|p ops IH]; cbn [flat_map filter]; auto. destruct p; cbn [is_print negb flat_map]; rewrite IH; reflexivity. }
  destruct (xml_document files ops2 n) as (o2 & f2 & E2 & F2 & R2); auto.
  - intros k v Hw. apply (Hv k). now apply I.
  - apply (proj2 (never_early_filter ops2)); rewrite <- E; exact (proj1 (never_early_filter ops1) He).
  - destruct Hu as (p & Hp & H). exists p. split; auto. apply I; auto. destruct H as [->|(v & ->)]; reflexivity.
  - exists o1, o2, f1, f2. repeat split; auto. rewrite R1, R2, (Hm ops1), E, <- Hm. reflexivity.
Qed.

Lemma stop_iff fm files ops : (forall n, file_ok fm (files n)) ->
  ((exists o, exec_all fm (fresh files) ops = Ok o) <-> never_early ops) /\ (~ never_early ops -> exec_all fm (fresh files) ops = Exit 1).
Proof.
  intros H. destruct (base_run fm files ops H) as [A B]. split; auto. split.
  - intros (o & E). destruct (never_early_dec ops) as [N|N]; auto. rewrite (B N) in E. discriminate.
  - intros N. destruct (A N) as (o & E & _). eauto.
Qed.
