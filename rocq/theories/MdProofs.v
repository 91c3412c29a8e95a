(** Proofs about the integrators: each run is a palindromic word of kicks and drifts. *)
From mathcomp Require Import all_ssreflect all_algebra.
From Verif Require Import GaugeModel GaugeSpec GaugeProofs GaugeProofs2 GaugeProofs3 ExpModel ExpSpec ExpProofs MdModel MdSpec.
Import Order.TTheory GRing.Theory Num.Theory.
Set Implicit Arguments.
Unset Strict Implicit.
Unset Printing Implicit Defensive.
Local Open Scope ring_scope.

Section Words.
Variable C : numClosedFieldType.
Variable n : nat.
Notation GaugeGroup := 'M[C]_n.
Variable L : lattice.
Notation gauge := (gauge C n L).
Notation force := (force C n L).
Notation state := (state C n L).
Notation levels := (levels C n L).
Variable lexp : C -> GaugeGroup -> GaugeGroup.

Inductive op := Kick (f : force) (e : C) | Drift (e : C).
Definition run_op (o : op) (s : state) : state :=
  match o with Kick f e => update_momenta e (update_force f s) | Drift e => update_links lexp e s end.
Definition run (w : seq op) (s : state) : state := foldl (fun s o => run_op o s) s w.
Lemma run_cat w w' s : run (w ++ w') s = run w' (run w s).
Proof. by rewrite /run foldl_cat. Qed.
Lemma run_nseq m w s : run (flatten (nseq m w)) s = iter m (run w) s.
Proof. by elim: m s => //= m IH s; rewrite run_cat IH -iterSr. Qed.

Definition leapfrog_word_body f k h (N : C -> seq op) : seq op :=
  Kick f (h / 2%:R) :: (flatten (nseq k.-1 (N h ++ [:: Kick f h])) ++ N h) ++ [:: Kick f (h / 2%:R)].
Definition omelyan_word_body l f k h (N : C -> seq op) : seq op :=
  let B := N (h / 2%:R) ++ Kick f ((1 - 2%:R * l) * h) :: N (h / 2%:R) in
  Kick f (l * h) :: (B ++ flatten (nseq k.-1 ([:: Kick f (2%:R * l * h)] ++ B))) ++ [:: Kick f (l * h)].
Definition fourth_omelyan_word_body th rh mu l f k h (N : C -> seq op) : seq op :=
  let c := (1 - 2%:R * (l + th)) * h / 2%:R in
  flatten (nseq k
   (N (th * h) ++ Kick f (rh * h) :: N (l * h) ++ Kick f (mu * h) :: N c ++ Kick f ((1 - 2%:R * (mu + rh)) * h) ::
    N c ++ Kick f (mu * h) :: N (l * h) ++ Kick f (rh * h) :: N (th * h))).
Lemma iter_ext (T : Type) (f g : T -> T) m x : (forall y, f y = g y) -> iter m f x = iter m g x.
Proof. by move=> E; elim: m => //= m ->. Qed.
Lemma leapfrog_bodyE f k h N N' s : (forall t s, N t s = run (N' t) s) ->
  leapfrog_body f k h N s = run (leapfrog_word_body f k h N') s.
Proof.
move=> E; rewrite /leapfrog_body /leapfrog_word_body -cat1s !run_cat run_nseq E.
rewrite -[run [:: _] (run _ _)]/(update_momenta _ (update_force _ (run _ _))); congr (update_momenta _ (update_force _ (run _ _))).
by apply: iter_ext => y; rewrite run_cat E.
Qed.
Lemma omelyan_bodyE l f k h N N' s : (forall t s, N t s = run (N' t) s) ->
  omelyan_body l f k h N s = run (omelyan_word_body l f k h N') s.
Proof.
move=> E; rewrite /omelyan_body /omelyan_word_body -cat1s !run_cat run_nseq -cat1s !run_cat !E.
rewrite -[run [:: _] (iter _ _ _)]/(update_momenta _ (update_force _ (iter _ _ _))); congr (update_momenta _ (update_force _ _)).
by apply: iter_ext => y; rewrite !E !run_cat.
Qed.
Lemma fourth_omelyan_bodyE th rh mu l f k h N N' s : (forall t s, N t s = run (N' t) s) ->
  fourth_omelyan_body th rh mu l f k h N s = run (fourth_omelyan_word_body th rh mu l f k h N') s.
Proof.
move=> E; rewrite /fourth_omelyan_body /fourth_omelyan_word_body run_nseq.
apply: iter_ext => y; rewrite !E.
by do 5 rewrite run_cat -cat1s run_cat.
Qed.
Fixpoint leapfrog_word (lv : levels) t : seq op :=
  if lv is (f, k) :: rest then leapfrog_word_body f k (t / k%:R) (leapfrog_word rest) else [:: Drift t].
Fixpoint omelyan_word l (lv : levels) t : seq op :=
  if lv is (f, k) :: rest then omelyan_word_body l f k (t / k%:R) (omelyan_word l rest) else [:: Drift t].
Fixpoint fourth_omelyan_word th rh mu l (lv : levels) t : seq op :=
  if lv is (f, k) :: rest then fourth_omelyan_word_body th rh mu l f k (t / k%:R) (fourth_omelyan_word th rh mu l rest) else [:: Drift t].
Definition fourth_order_word r (lv : levels) t : seq op :=
  leapfrog_word lv (1 / (2%:R - r) * t) ++ leapfrog_word lv (- r / (2%:R - r) * t) ++ leapfrog_word lv (1 / (2%:R - r) * t).
Definition sixth_order_word r q (lv : levels) t : seq op :=
  fourth_order_word r lv (1 / (2%:R - q) * t) ++ fourth_order_word r lv (- q / (2%:R - q) * t) ++ fourth_order_word r lv (1 / (2%:R - q) * t).
Definition word (i : integrator C) : levels -> C -> seq op :=
  match i with
  | SecondOrder => leapfrog_word
  | FourthOrder r => fourth_order_word r
  | SixthOrder r q => sixth_order_word r q
  | Omelyan l => omelyan_word l
  | FourthOmelyan th rh mu l => fourth_omelyan_word th rh mu l
  end.
Lemma leapfrog_wordE lv t s : leapfrog_from lexp lv t s = run (leapfrog_word lv t) s.
Proof. by elim: lv t s => // [[f k]] rest IH t s; exact: leapfrog_bodyE. Qed.
Lemma fourth_order_wordE r lv t s : fourth_order_from lexp r lv t s = run (fourth_order_word r lv t) s.
Proof. by rewrite /fourth_order_from /fourth_order_word !run_cat !leapfrog_wordE. Qed.
Lemma wordE i lv t s : integrate_from lexp i lv t s = run (word i lv t) s.
Proof.
case: i => [|r|r q|l|th rh mu l] /=.
- exact: leapfrog_wordE.
- exact: fourth_order_wordE.
- by rewrite /sixth_order_word !(run_cat (fourth_order_word r lv _)) -!fourth_order_wordE.
- by elim: lv t s => // [[f k]] rest IH t s; exact: omelyan_bodyE.
- by elim: lv t s => // [[f k]] rest IH t s; exact: fourth_omelyan_bodyE.
Qed.

(** Palindromes. *)
Definition pal (w : seq op) : Prop := rev w = w.
Lemma pal_wrap a w : pal w -> pal (a :: w ++ [:: a]).
Proof. by rewrite /pal => p; rewrite -cat1s !rev_cat p. Qed.
Lemma pal_mid A w : pal A -> pal w -> pal (A ++ w ++ A).
Proof. by rewrite /pal => p q; rewrite !rev_cat p q catA. Qed.
Lemma nseq_shift (A B : seq op) m : flatten (nseq m (A ++ B)) ++ A = A ++ flatten (nseq m (B ++ A)).
Proof. by elim: m => [|m IH] /=; rewrite ?cats0 // -catA IH !catA. Qed.
Lemma rev_nseq (A : seq op) m : pal A -> rev (flatten (nseq m A)) = flatten (nseq m A).
Proof.
move=> p; elim: m => //= m IH; rewrite rev_cat IH p.
by have := nseq_shift A [::] m; rewrite cats0 /= => ->.
Qed.
Lemma rev_nseq2 (A B : seq op) m : pal A -> pal B -> rev (flatten (nseq m (A ++ B))) = flatten (nseq m (B ++ A)).
Proof.
move=> p q; elim: m => //= m IH; rewrite rev_cat IH rev_cat p q.
by have := nseq_shift (B ++ A) [::] m; rewrite cats0 /= => ->.
Qed.
Lemma pal_chain A B m : pal A -> pal B -> pal (flatten (nseq m (A ++ B)) ++ A).
Proof. by move=> p q; rewrite /pal rev_cat rev_nseq2 // p nseq_shift. Qed.
Lemma pal1 o : pal [:: o]. Proof. by []. Qed.
Lemma pal_leapfrog lv t : pal (leapfrog_word lv t).
Proof.
elim: lv t => // [[f k]] rest IH t /=; apply: pal_wrap; apply: pal_chain => //; exact: IH.
Qed.
Lemma pal_fourth_order r lv t : pal (fourth_order_word r lv t).
Proof. by apply: pal_mid; exact: pal_leapfrog. Qed.
Lemma pal_word i lv t : pal (word i lv t).
Proof.
case: i => [|r|r q|l|th rh mu l] /=.
- exact: pal_leapfrog.
- exact: pal_fourth_order.
- by apply: pal_mid; exact: pal_fourth_order.
- elim: lv t => // [[f k]] rest IH t /=; apply: pal_wrap.
  rewrite -nseq_shift; apply: pal_chain => //.
  by rewrite -cat1s; apply: pal_mid => //; exact: IH.
- elim: lv t => // [[f k]] rest IH t /=; apply: rev_nseq.
  set a := t / k%:R; set N := fourth_omelyan_word _ _ _ _ _.
  have P A o w : pal A -> pal w -> pal (A ++ o :: w ++ o :: A).
    move=> pA pw; have -> : A ++ o :: w ++ o :: A = A ++ (o :: w ++ [:: o]) ++ A by rewrite /= -catA.
    by apply: pal_mid => //; exact: pal_wrap.
  rewrite (_ : N _ ++ _ = N (th * a) ++ Kick f (rh * a) :: (N (l * a) ++ Kick f (mu * a) ::
     (N ((1 - 2%:R * (l + th)) * a / 2%:R) ++ Kick f ((1 - 2%:R * (mu + rh)) * a) :: N ((1 - 2%:R * (l + th)) * a / 2%:R))
     ++ Kick f (mu * a) :: N (l * a)) ++ Kick f (rh * a) :: N (th * a)); last by rewrite /= -!catA /= -!catA /= -!catA.
  apply: (P); first exact: IH.
  apply: (P); first exact: IH.
  by rewrite -cat1s; apply: pal_mid => //; exact: IH.
Qed.

(** Reversing the time negates every step. *)
Definition neg (o : op) : op := match o with Kick f e => Kick f (- e) | Drift e => Drift (- e) end.
Lemma map_nseq (w : seq op) m : map neg (flatten (nseq m w)) = flatten (nseq m (map neg w)).
Proof. by elim: m => //= m IH; rewrite map_cat IH. Qed.
Lemma neg_leapfrog lv t : leapfrog_word lv (- t) = map neg (leapfrog_word lv t).
Proof.
elim: lv t => // [[f k]] rest IH t /=; rewrite /leapfrog_word_body /= !map_cat map_nseq map_cat /=.
by rewrite !mulNr !IH.
Qed.
Lemma neg_fourth_order r lv t : fourth_order_word r lv (- t) = map neg (fourth_order_word r lv t).
Proof. by rewrite /fourth_order_word !map_cat !mulrN !neg_leapfrog. Qed.
Lemma neg_word i lv t : word i lv (- t) = map neg (word i lv t).
Proof.
case: i => [|r|r q|l|th rh mu l] /=.
- exact: neg_leapfrog.
- exact: neg_fourth_order.
- by rewrite /sixth_order_word !mulrN !neg_fourth_order -!map_cat.
- elim: lv t => // [[f k]] rest IH t /=; rewrite /omelyan_word_body /= !map_cat map_nseq /= map_cat /=.
  by rewrite !mulNr !mulrN !IH.
- elim: lv t => // [[f k]] rest IH t /=; rewrite /fourth_omelyan_word_body /= map_nseq.
  rewrite !mulNr !mulrN !mulNr; congr (flatten (nseq _ _)).
  by rewrite !IH !(map_cat, map_cons).
Qed.
End Words.

Section Reversible.
Variable C : numClosedFieldType.
Variable n : nat.
Notation GaugeGroup := 'M[C]_n.
Variable L : lattice.
Notation gauge := (gauge C n L).
Notation force := (force C n L).
Notation state := (state C n L).
Notation levels := (levels C n L).
Variable cexp : C -> C.
Variable eig : GaugeGroup -> GaugeGroup * 'rV[C]_n.
Hypothesis Hc : good_cexp cexp.
Hypothesis He : good_eig eig.
Notation lexp := (link_exp cexp eig).
Notation op := (op C n L).
Implicit Types (s : state).

Lemma same_refl s : same s s. Proof. by []. Qed.
Lemma same_trans s s' s'' : same s s' -> same s' s'' -> same s s''.
Proof. by move=> h h' x mu; have [-> ->] := h x mu. Qed.
Lemma same_sym s s' : same s s' -> same s' s.
Proof. by move=> h x mu; have [-> ->] := h x mu. Qed.
Definition good_op (o : op) : Prop := match o with Kick f e => good_force f /\ e \is Num.real | Drift e => e \is Num.real end.
Fixpoint good_word (w : seq op) : Prop := if w is o :: w' then good_op o /\ good_word w' else True.
Lemma good_word_cat w w' : good_word (w ++ w') <-> good_word w /\ good_word w'.
Proof.
elim: w => [|o w IH] /=; first by split=> [|[]].
by rewrite IH; split=> [[? []]|[[]]].
Qed.
Lemma good_word_nseq m w : good_word w -> good_word (flatten (nseq m w)).
Proof. by move=> g; elim: m => //= m IH; apply/good_word_cat. Qed.
Lemma run_op_same o s s' : good_op o -> same s s' -> same (run_op lexp o s) (run_op lexp o s').
Proof.
case: o => [f e [[fx _] _]|e _] h x mu /=; have [hl hm] := h x mu; split=> //.
- by rewrite hm (fx _ (links s')) // => y nu; case: (h y nu).
- by rewrite hl hm.
Qed.
Lemma run_same w s s' : good_word w -> same s s' -> same (run lexp w s) (run lexp w s').
Proof. by elim: w s s' => //= o w IH s s' [go gw] h; apply: IH => //; exact: run_op_same. Qed.
Lemma run_op_good o s : good_op o -> good_state s -> good_state (run_op lexp o s).
Proof.
case: o => [f e [[_ fa] eR]|e eR] //= g x mu /=; have [a t] := g x mu; have [a' t'] := fa (links s) x mu.
by rewrite -scaleNr; split; [apply: anti_add => //; apply: anti_scale => //; rewrite rpredN|apply: traceless_add => //; apply: traceless_scale].
Qed.
Lemma run_good w s : good_word w -> good_state s -> good_state (run lexp w s).
Proof. by elim: w s => //= o w IH s [go gw] g; apply: IH => //; exact: run_op_good. Qed.
Lemma run_op_inv o s : good_op o -> good_state s -> same (run_op lexp (neg o) (run_op lexp o s)) s.
Proof.
case: o => [f e _|e eR] g x mu /=; split=> //.
- by rewrite scaleNr opprK subrK.
- by have [a _] := g x mu; rewrite mulmxA link_exp_add // addNr link_exp_0 // mul1mx.
Qed.
Lemma neg_good o : good_op o -> good_op (neg o).
Proof. by case: o => [f e [gf eR]|e eR] /=; rewrite rpredN. Qed.
Lemma neg_word_good w : good_word w -> good_word (rev (map (@neg C n L) w)).
Proof.
elim: w => //= o w IH [go gw]; rewrite rev_cons -cats1; apply/good_word_cat; split; first exact: IH.
by split=> //; exact: neg_good.
Qed.
Lemma run_inv w s : good_word w -> good_state s -> same (run lexp (rev (map (@neg C n L) w)) (run lexp w s)) s.
Proof.
elim: w s => [|o w IH] s; first by [].
move=> [go gw] g; rewrite /= rev_cons -cats1 run_cat.
apply: same_trans (run_op_inv go g); apply: (run_op_same (neg_good go)).
by apply: IH => //; exact: run_op_good.
Qed.
Lemma pal_inv w s : pal w -> good_word w -> good_state s -> same (run lexp (map (@neg C n L) w) (run lexp w s)) s.
Proof. by move=> p gw g; have := run_inv gw g; rewrite -map_rev p. Qed.
Lemma flip_op o s : good_state s -> same (run_op lexp o (flip s)) (flip (run_op lexp (neg o) s)).
Proof.
case: o => [f e|e] g x mu /=; split=> //.
- by rewrite scaleNr opprK opprD.
- by have [a _] := g x mu; rewrite link_exp_opp.
Qed.
Lemma flip_same s s' : same s s' -> same (flip s) (flip s').
Proof. by move=> h x mu; have [/= -> ->] := h x mu. Qed.
Lemma flip_run w s : good_word w -> good_state s -> same (run lexp w (flip s)) (flip (run lexp (map (@neg C n L) w) s)).
Proof.
elim: w s => //= o w IH s [go gw] g.
apply: (same_trans (run_same gw (flip_op o g))); apply: IH => //; apply: run_op_good => //; exact: neg_good.
Qed.

(** The words of the integrators are good. *)
Lemma good_leapfrog lv t : good_levels lv -> t \is Num.real -> good_word (leapfrog_word lv t).
Proof.
elim: lv t => [|[f k] rest IH] t g tR /=; first by [].
have gf : good_force f by apply: (g (f, k)); left.
have hR : t / k%:R \is Num.real by rewrite rpred_div // realn.
have h2 : t / k%:R / 2%:R \is Num.real by rewrite rpred_div // realn.
have gr (s : C) : s \is Num.real -> good_word (leapfrog_word rest s) by apply: IH => l il; apply: g; right.
split=> //; apply/good_word_cat; split=> //; apply/good_word_cat; split; last exact: gr.
by apply: good_word_nseq; apply/good_word_cat; split=> //; exact: gr.
Qed.
Lemma good_fourth_order r lv t : good_levels lv -> r \is Num.real -> t \is Num.real -> good_word (fourth_order_word r lv t).
Proof.
move=> g rR tR; have dR : 2%:R - r \is Num.real by rewrite rpredB // realn.
have b1 : 1 / (2%:R - r) * t \is Num.real by rewrite rpredM // rpred_div ?rpred1.
have b2 : - r / (2%:R - r) * t \is Num.real by rewrite rpredM // rpred_div // rpredN.
by rewrite /fourth_order_word; do 2 (apply/good_word_cat; split; [exact: good_leapfrog|]); exact: good_leapfrog.
Qed.
Lemma good_words i lv t : good_integrator i -> good_levels lv -> t \is Num.real -> good_word (word i lv t).
Proof.
have R2 : (2%:R : C) \is Num.real by exact: realn.
case: i => [|r|r q|l|th rh mu l] /= gi g tR.
- exact: good_leapfrog.
- exact: good_fourth_order.
- case: gi => rR qR; have dR : 2%:R - q \is Num.real by rewrite rpredB.
  have b1 : 1 / (2%:R - q) * t \is Num.real by rewrite rpredM // rpred_div ?rpred1.
  have b2 : - q / (2%:R - q) * t \is Num.real by rewrite rpredM // rpred_div // rpredN.
  by rewrite /sixth_order_word; do 2 (apply/good_word_cat; split; [exact: good_fourth_order|]); exact: good_fourth_order.
- elim: lv t g tR => [|[f k] rest IH] t g tR /=; first by [].
  have gf : good_force f by apply: (g (f, k)); left.
  have hR : t / k%:R \is Num.real by rewrite rpred_div // realn.
  have h2 : t / k%:R / 2%:R \is Num.real by rewrite rpred_div.
  have gr (s : C) : s \is Num.real -> good_word (omelyan_word l rest s) by apply: IH => l' il; apply: g; right.
  have mR : (1 - 2%:R * l) * (t / k%:R) \is Num.real by rewrite rpredM // rpredB // ?rpred1 // rpredM.
  have gB : good_word (omelyan_word l rest (t / k%:R / 2%:R) ++ Kick f ((1 - 2%:R * l) * (t / k%:R)) :: omelyan_word l rest (t / k%:R / 2%:R)).
    by apply/good_word_cat; split; [exact: gr|split=> //; exact: gr].
  split; first by split=> //; rewrite rpredM.
  apply/good_word_cat; split; last by split=> //; split=> //; rewrite rpredM.
  apply/good_word_cat; split=> //; apply: good_word_nseq; split=> //.
  by split=> //; rewrite rpredM // rpredM.
- case: gi => thR rhR muR lR.
  elim: lv t g tR => [|[f k] rest IH] t g tR /=; first by [].
  have gf : good_force f by apply: (g (f, k)); left.
  have hR : t / k%:R \is Num.real by rewrite rpred_div // realn.
  have gr (s : C) : s \is Num.real -> good_word (fourth_omelyan_word th rh mu l rest s) by apply: IH => l' il; apply: g; right.
  have cR : (1 - 2%:R * (l + th)) * (t / k%:R) / 2%:R \is Num.real.
    by rewrite rpred_div // rpredM // rpredB // ?rpred1 // rpredM // rpredD.
  have dR : (1 - 2%:R * (mu + rh)) * (t / k%:R) \is Num.real.
    by rewrite rpredM // rpredB // ?rpred1 // rpredM // rpredD.
  have e1 : th * (t / k%:R) \is Num.real by rewrite rpredM.
  have e2 : rh * (t / k%:R) \is Num.real by rewrite rpredM.
  have e3 : mu * (t / k%:R) \is Num.real by rewrite rpredM.
  have e4 : l * (t / k%:R) \is Num.real by rewrite rpredM.
  apply: good_word_nseq.
  do 5 (apply/good_word_cat; split; [exact: gr|split; first by []]).
  exact: gr.
Qed.

(** The links stay in the group. *)
Lemma run_su w s : good_word w -> good_state s -> (forall x mu, special_unitary (links s x mu)) ->
  forall x mu, special_unitary (links (run lexp w s) x mu).
Proof.
elim: w s => //= o w IH s [go gw] g u; apply: IH => //; first exact: run_op_good.
case: o go => [f e _|e eR] x mu //=; apply: suM => //.
by have [a t] := g x mu; exact: link_exp_su.
Qed.

(** Total times. *)
Section Sums.
Variable V : lmodType C.
Variable d : V.
Variable g : force -> V.
Definition weight (o : op) : V := match o with Kick f e => e *: g f | Drift e => e *: d end.
Definition total (w : seq op) : V := \sum_(o <- w) weight o.
Lemma total_cat w w' : total (w ++ w') = total w + total w'.
Proof. exact: big_cat. Qed.
Lemma total_cons o w : total (o :: w) = weight o + total w.
Proof. by rewrite /total big_cons. Qed.
Lemma total_nil : total [::] = 0.
Proof. by rewrite /total big_nil. Qed.
Lemma total_nseq m w : total (flatten (nseq m w)) = total w *+ m.
Proof. by elim: m => [|m IH] /=; rewrite ?total_nil ?mulr0n // total_cat IH mulrS. Qed.
Definition whole (lv : levels) : V := d + \sum_(l <- lv) g l.1.
Add Ring Cring3 : (Crth C).
Definition lin (a b : V) (p q : C) : V := p *: a + q *: b.
Lemma lin_add a b p q p' q' : lin a b p q + lin a b p' q' = lin a b (p + p') (q + q').
Proof. by rewrite /lin addrACA -!scalerDl. Qed.
Lemma lin_a a b p : p *: a = lin a b p 0.
Proof. by rewrite /lin scale0r addr0. Qed.
Lemma lin_b a b q : q *: b = lin a b 0 q.
Proof. by rewrite /lin scale0r add0r. Qed.
Lemma lin_sum a b p : p *: (a + b) = lin a b p p.
Proof. by rewrite /lin scalerDr. Qed.
Lemma lin_nat a b p q m : lin a b p q *+ m = lin a b (p *+ m) (q *+ m).
Proof. by rewrite /lin mulrnDl !scalerMnl. Qed.
Lemma halfK (h : C) : h = h / 2%:R + h / 2%:R.
Proof. by rewrite -mulr2n -mulr_natr divfK // pnatr_eq0. Qed.
Lemma stepK (t : C) k : (0 < k)%N -> t / k%:R *+ k = t.
Proof. by move=> k0; rewrite -mulr_natr divfK // pnatr_eq0 -lt0n. Qed.
Lemma whole_cons f k rest : whole ((f, k) :: rest) = g f + whole rest.
Proof. by rewrite /whole big_cons /= addrCA. Qed.
Lemma total_leapfrog lv t : all (fun l => 0 < l.2)%N lv -> total (leapfrog_word lv t) = t *: whole lv.
Proof.
elim: lv t => [|[f k] rest IH] t /=; first by rewrite total_cons total_nil /whole big_nil !addr0.
move=> /andP[k0 p]; rewrite /leapfrog_word_body total_cons !total_cat total_nseq total_cat !total_cons !total_nil !IH //= !addr0.
rewrite whole_cons; move: (g f) (whole rest) => a b; rewrite (lin_a a b (t / k%:R / 2%:R)) (lin_a a b (t / k%:R)) !(lin_b a b).
rewrite lin_sum !lin_add lin_nat !lin_add -[in RHS](stepK t k0); move: k0 (t / k%:R) => k0 h.
rewrite -(prednK k0) /= (mulrS h) !addr0 !add0r; congr (lin _ _ _ _); move: (h *+ k.-1) (halfK h); move: (h / 2%:R) => q m E.
- by rewrite [in RHS]E; cring_fold C; ring.
- by cring_fold C; ring.
Qed.
Lemma total_omelyan l lv t : all (fun l => 0 < l.2)%N lv -> total (omelyan_word l lv t) = t *: whole lv.
Proof.
elim: lv t => [|[f k] rest IH] t /=; first by rewrite total_cons total_nil /whole big_nil !addr0.
move=> /andP[k0 p]; rewrite /omelyan_word_body.
set B := omelyan_word l rest _ ++ _ :: omelyan_word l rest _; have BE : total B = lin (g f) (whole rest) ((1 - 2%:R * l) * (t / k%:R)) (t / k%:R).
  rewrite /B total_cat total_cons !IH //=; move: (g f) (whole rest) (t / k%:R) => a b h.
  rewrite (lin_a a b) !(lin_b a b) !lin_add !addr0 !add0r; congr (lin _ _ _ _).
  by rewrite [RHS]halfK.
move: B BE => B BE; rewrite total_cons !total_cat total_nseq total_cat !total_cons !total_nil BE /= !addr0.
rewrite whole_cons; move: (g f) (whole rest) => a b; rewrite !(lin_a a b (_ * _)).
rewrite lin_sum !lin_add lin_nat !lin_add -[in RHS](stepK t k0); move: k0 (t / k%:R) => k0 h.
have -> : 2%:R * l * h + (1 - 2%:R * l) * h = h by cring_fold C; ring.
rewrite -(prednK k0) /= (mulrS h) !addr0 !add0r; congr (lin _ _ _ _); move: (h *+ k.-1) => m.
by rewrite mulr2n; cring_fold C; ring.
Qed.
Lemma total_fourth_omelyan th rh mu l lv t : all (fun l => 0 < l.2)%N lv -> total (fourth_omelyan_word th rh mu l lv t) = t *: whole lv.
Proof.
elim: lv t => [|[f k] rest IH] t /=; first by rewrite total_cons total_nil /whole big_nil !addr0.
move=> /andP[k0 p]; rewrite /fourth_omelyan_word_body total_nseq -[in RHS](stepK t k0) -scalerMnl; congr (_ *+ _).
do 5 rewrite total_cat total_cons; rewrite !IH //= whole_cons.
move: (g f) (whole rest) (t / k%:R) => a b h; rewrite lin_sum.
rewrite !(lin_b a b ((1 - 2%:R * (l + th)) * h / 2%:R)) (lin_b a b (th * h)) (lin_b a b (l * h)) !(lin_a a b).
rewrite !lin_add !addr0 !add0r; congr (lin _ _ _ _).
- by rewrite mulr2n; cring_fold C; ring.
- have := halfK ((1 - 2%:R * (l + th)) * h); move: (_ / 2%:R) => q E.
  have -> : th * h + (l * h + (q + (q + (l * h + th * h)))) = th * h + (l * h + ((q + q) + (l * h + th * h))) by rewrite !addrA.
  by rewrite -E mulr2n; cring_fold C; ring.
Qed.
Lemma total_compose (r t : C) : 2%:R - r != 0 -> 1 / (2%:R - r) * t + (- r / (2%:R - r) * t + 1 / (2%:R - r) * t) = t.
Proof.
move=> r0; rewrite -!mulrDl; have -> : 1 + (- r + 1) = 2%:R - r by rewrite mulr2n; cring_fold C; ring.
by rewrite divff // mul1r.
Qed.
Lemma total_fourth_order r lv t : all (fun l => 0 < l.2)%N lv -> 2%:R - r != 0 -> total (fourth_order_word r lv t) = t *: whole lv.
Proof.
by move=> p r0; rewrite /fourth_order_word !total_cat !total_leapfrog // -!scalerDl total_compose.
Qed.
Lemma root_ne (r : C) m : (1 < m)%N -> r ^+ m = 2%:R -> 2%:R - r != 0.
Proof.
move=> m1 E; rewrite subr_eq0; apply/eqP => r2; move/eqP: E; rewrite -r2 -natrX eqr_nat.
by rewrite -{2}(expn1 2) eqn_exp2l // => /eqP me; rewrite me in m1.
Qed.
Lemma total_word i lv t : all (fun l => 0 < l.2)%N lv -> nonsingular i -> total (word i lv t) = t *: whole lv.
Proof.
move=> p; case: i => [|r|r q|l|th rh mu l] /= h.
- exact: total_leapfrog.
- by apply: total_fourth_order => //; exact: (root_ne (m := 3)).
- case: h => h3 h5; rewrite /sixth_order_word.
  rewrite !(total_cat (fourth_order_word r lv _)) !total_fourth_order //; try exact: (root_ne (m := 3)).
  by rewrite -!scalerDl total_compose //; exact: (root_ne (m := 5)).
- exact: total_omelyan.
- exact: total_fourth_omelyan.
Qed.
End Sums.

(** The forces of a word come from the levels. *)
Section Forces.
Variable Q : force -> Prop.
Definition opQ (o : op) : Prop := if o is Kick f _ then Q f else True.
Fixpoint allQ (w : seq op) : Prop := if w is o :: w' then opQ o /\ allQ w' else True.
Lemma allQ_cat w w' : allQ w -> allQ w' -> allQ (w ++ w').
Proof. by elim: w => //= o w IH [qo qw] q; split=> //; exact: IH. Qed.
Lemma allQ_nseq m w : allQ w -> allQ (flatten (nseq m w)).
Proof. by move=> q; elim: m => //= m IH; exact: allQ_cat. Qed.
Definition levelsQ (lv : levels) : Prop := forall l, List.In l lv -> Q l.1.
Lemma allQ_leapfrog lv t : levelsQ lv -> allQ (leapfrog_word lv t).
Proof.
elim: lv t => [|[f k] rest IH] t q //=; have qf : Q f by apply: (q (f, k)); left.
have qr (s : C) : allQ (leapfrog_word rest s) by apply: IH => l il; apply: q; right.
by split=> //; apply: allQ_cat => //; apply: allQ_cat => //; apply: allQ_nseq; apply: allQ_cat.
Qed.
Lemma allQ_fourth_order r lv t : levelsQ lv -> allQ (fourth_order_word r lv t).
Proof. by move=> q; do 2 (apply: allQ_cat; first exact: allQ_leapfrog); exact: allQ_leapfrog. Qed.
Lemma allQ_word i lv t : levelsQ lv -> allQ (word i lv t).
Proof.
case: i => [|r|r q'|l|th rh mu l] /= q.
- exact: allQ_leapfrog.
- exact: allQ_fourth_order.
- by do 2 (apply: allQ_cat; first exact: allQ_fourth_order); exact: allQ_fourth_order.
- elim: lv t q => [|[f k] rest IH] t q //=; have qf : Q f by apply: (q (f, k)); left.
  have qr (s : C) : allQ (omelyan_word l rest s) by apply: IH => l' il; apply: q; right.
  split=> //; apply: allQ_cat => //; apply: allQ_cat; last apply: allQ_nseq; try split=> //; exact: allQ_cat.
- elim: lv t q => [|[f k] rest IH] t q //=; have qf : Q f by apply: (q (f, k)); left.
  have qr (s : C) : allQ (fourth_omelyan_word th rh mu l rest s) by apply: IH => l' il; apply: q; right.
  by apply: allQ_nseq; do 5 (apply: allQ_cat; [exact: qr|split; first exact: qf]); exact: qr.
Qed.
End Forces.
Lemma run_constant w s x mu (U0 : gauge) : allQ (fun f => forall U V y nu, f U y nu = f V y nu) w ->
  momenta (run lexp w s) x mu = momenta s x mu - total 0 (fun f => f U0 x mu) w.
Proof.
elim: w s => [|o w IH] s; first by rewrite total_nil subr0.
move=> [qo qw]; rewrite total_cons [run _ _ _]/= IH //; case: o qo => [f e|e] qo /=.
- by rewrite (qo _ U0) opprD addrA.
- by rewrite scaler0 add0r.
Qed.
Lemma run_free w s x mu : (forall y nu, anti_hermitian (momenta s y nu)) -> allQ (fun f => forall U y nu, f U y nu = 0) w ->
  momenta (run lexp w s) x mu = momenta s x mu /\
  links (run lexp w s) x mu = lexp (total (1 : C^o) (fun=> 0) w) (momenta s x mu) *m links s x mu.
Proof.
elim: w s => [|o w IH] s a; first by rewrite total_nil link_exp_0 // mul1mx.
move=> [qo qw]; rewrite total_cons [run _ _ _]/=; case: o qo => [f e|e] qo /=.
- have E y nu : momenta s y nu - e *: f (links s) y nu = momenta s y nu by rewrite qo scaler0 subr0.
  have [|//|-> ->] := IH (update_momenta e (update_force f s)); first by move=> y nu; rewrite /= E.
  by rewrite /= E scaler0 add0r.
- have [//|//|-> ->] := IH (update_links lexp e s); split; first by [].
  have -> : e *: (1 : C^o) = e by exact: mulr1.
  by move: (total _ _ _) => T; cbn [links momenta update_links]; rewrite mulmxA link_exp_add // addrC.
Qed.
End Reversible.
