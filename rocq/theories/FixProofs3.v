(** Gauge fixing gives a gauge copy with a larger functional. *)
From mathcomp Require Import all_ssreflect all_algebra.
From Verif Require Import GaugeModel GaugeSpec GaugeProofs GaugeProofs2 GaugeProofs3 ExpSpec ExpProofs FixModel FixSpec FixProofs FixProofs2.
Import Order.POrderTheory GRing.Theory Num.Theory.
Set Implicit Arguments.
Unset Strict Implicit.
Unset Printing Implicit Defensive.
Local Open Scope ring_scope.

(** The matrices the transformations consist of. *)
Definition fix_group (C : numClosedFieldType) (n : nat) (A : 'M[C]_n) : Prop := unitary A /\ (n = 2%N -> \det A = 1).
Lemma relax_ok (C : numClosedFieldType) (n : nat) (eig : 'M[C]_n -> 'M[C]_n * 'rV[C]_n) (L : lattice)
    (U : gauge C n L) x g : good_hermitian_eig eig -> (n = 2%N -> forall x mu, special_unitary (U x mu)) ->
  relax eig (fix_staple U x) = Some g -> fix_group g /\ retr (fix_staple U x) <= retr (g *m fix_staple U x).
Proof.
move=> He su; rewrite /relax; case: eqP => [e|ne].
  subst n; case: ifP => // nz [<-].
  have q : quat (fix_staple U x).
    apply: quat_sum => mu; apply: quatD; first by apply: quat_su; exact: su.
    by apply: quatH; apply: quat_su; exact: su.
  have {}nz : \det (fix_staple U x) != 0 by rewrite nz.
  split; last exact: g_trace.
  by split; [exact: g_unitary|move=> _; exact: g_det].
case e : (foldl _ _ _) => [[t s]|] //= [<-].
have [u [es le]] := pair_foldE He (@unitary1 C n) (esym (mul1mx _)) (lexx _) e.
by rewrite -es; split=> //; split.
Qed.

Section Main.
Variable C : numClosedFieldType.
Variable n : nat.
Notation GaugeGroup := 'M[C]_n.
Variable L : lattice.
Notation gauge := (gauge C n L).
Variable odd_site : L -> bool.
Variable gexp : GaugeGroup -> GaugeGroup.
Variable rexp : C -> C.
Variable eig : GaugeGroup -> GaugeGroup * 'rV[C]_n.
Hypothesis He : good_hermitian_eig eig.
Hypothesis Hx : good_exp gexp.
Implicit Types (U V W : gauge) (g : L -> GaugeGroup).
Local Notation G := (@fix_group C n).

Lemma landauE U : functional U = landau U.
Proof. by rewrite /landau raddf_sum; apply: eq_bigr => x _; rewrite raddf_sum. Qed.
Lemma functional_ext U V : (forall x mu, U x mu = V x mu) -> functional U = functional V.
Proof. by move=> h; apply: eq_bigr => x _; apply: eq_bigr => mu _; rewrite h. Qed.

Lemma G1 : G 1%:M.
Proof. by split; [exact: unitary1|move=> _; exact: det1]. Qed.
Lemma GM (A B : GaugeGroup) : G A -> G B -> G (A *m B).
Proof. by move=> [ua da] [ub db]; split; [exact: unitaryM|move=> e; rewrite det_mulmx da // db // mulr1]. Qed.
Lemma G_su (A : GaugeGroup) : special_unitary A -> G A.
Proof. by case=> u d; split. Qed.

Lemma copy_refl U : copy_of G U U.
Proof.
by exists (fun _ => 1%:M); split=> [x|x mu]; [exact: G1|rewrite mul1mx daggerE htrans1 mulmx1].
Qed.
Lemma copy_transform U V g : (forall x, G (g x)) -> copy_of G U V -> copy_of G U (gauge_transform g V).
Proof.
move=> Gg [h [Gh e]]; exists (fun x => g x *m h x); split=> [x|x mu]; first exact: GM.
by rewrite /gauge_transform e !daggerE htransM !mulmxA.
Qed.
Lemma copy_trans U V W : copy_of G U V -> copy_of G V W -> copy_of G U W.
Proof.
move=> [h [Gh e]] [g [Gg e']]; exists (fun x => g x *m h x); split=> [x|x mu]; first exact: GM.
by rewrite e' e !daggerE htransM !mulmxA.
Qed.
Lemma copy_su U V : copy_of G U V -> (n = 2%N -> forall x mu, special_unitary (U x mu)) ->
  n = 2%N -> forall x mu, special_unitary (V x mu).
Proof.
move=> [g [Gg e]] su n2 x mu; rewrite e daggerE; apply: suM; first apply: suM.
- by case: (Gg x) => u d; split=> //; exact: d.
- exact: su.
- by apply: suH; case: (Gg (sup mu x)) => u d; split=> //; exact: d.
Qed.

(** ** Relaxation *)
Lemma relaxation_ok U i g : (n = 2%N -> forall x mu, special_unitary (U x mu)) ->
  relaxation odd_site eig U i = Some g -> forall x, G (g x) /\
    (if odd_site x == odd i then retr (fix_staple U x) <= retr (g x *m fix_staple U x) else g x == 1%:M).
Proof.
move=> su; rewrite /relaxation; case: forallP => // h [<-] x; have := h x; rewrite /relax_site.
case: ifP => _; last by move=> _ /=; split=> //; exact: G1.
by case e : (relax _ _) => [t|] //= _; exact: relax_ok e.
Qed.

(** The functional after a transformation of the sites of one colour. *)
Lemma functional_local U g (act : L -> bool) : (forall mu x, act (sup mu x) = ~~ act x) ->
  (forall x, ~~ act x -> g x = 1%:M) -> functional (gauge_transform g U) = \sum_(x | act x) retr (g x *m fix_staple U x).
Proof.
move=> bi g1; rewrite /functional exchange_big /=.
have -> : \sum_(x | act x) retr (g x *m fix_staple U x) =
    \sum_(mu < 4) \sum_(x | act x) (retr (g x *m U x mu) + retr (g x *m htrans (U (sdn mu x) mu))).
  rewrite exchange_big /=; apply: eq_bigr => x _; rewrite mulmx_sumr retr_sum; apply: eq_bigr => mu _.
  by rewrite mulmxDr retrD.
apply: eq_bigr => mu _; rewrite big_split /= (bigID act) /=; congr (_ + _).
  by apply: eq_bigr => x ax; rewrite /gauge_transform (g1 (sup mu x)) ?bi ?negbK // htrans1 mulmx1.
rewrite [RHS](reindex_inj (can_inj (@supK L mu))) /=; apply: eq_big => [x|x nx]; first by rewrite bi.
by rewrite /gauge_transform (g1 x nx) mul1mx supK -retr_htrans htransM htransK.
Qed.
Lemma relaxation_up U i g : bipartite odd_site -> (n = 2%N -> forall x mu, special_unitary (U x mu)) ->
  relaxation odd_site eig U i = Some g -> functional U <= functional (gauge_transform g U).
Proof.
move=> bi su e; have h := relaxation_ok su e.
have bi' mu x : (odd_site (sup mu x) == odd i) = ~~ (odd_site x == odd i).
  by rewrite bi; case: (odd_site x); case: (odd i).
rewrite (@functional_local U g (fun x => odd_site x == odd i)) //; last first.
  by move=> x nx; have [_] := h x; rewrite (negbTE nx) => /eqP.
have -> : functional U = functional (gauge_transform (fun _ => 1%:M) U).
  by apply: functional_ext => x mu; rewrite /gauge_transform mul1mx htrans1 mulmx1.
rewrite (@functional_local U _ (fun x => odd_site x == odd i)) //.
by apply: ler_sum => x ax; rewrite mul1mx; have [_] := h x; rewrite ax.
Qed.

(** ** The two phases *)
Definition good_chain U (c : chain C n L) : Prop := c.1 = functional c.2 /\ copy_of G U c.2.
Definition good_best U (c : chain C n L) : Prop := good_chain U c /\ functional U <= functional c.2.

Lemma random_su mt eps (w : L -> normals C n) g x : eps \is Num.real -> (forall x, real_normals (w x)) ->
  special_unitary (random_transformation gexp mt eps w g x).
Proof.
move=> er wr; have [r1 r2 r3] := wr x; rewrite /random_transformation.
have half (z : C) : z \is Num.real -> z / 2%:R \is Num.real by move=> h; rewrite rpredM // realV realn.
have [a t] := @random_momentum_algebra C n (fun i j => eps * n_re (w x) i j / 2%:R)
  (fun i j => eps * n_im (w x) i j / 2%:R) (fun i => (if mt then n_dg (w x) i else eps * n_dg (w x) i) / 2%:R)
  (fun i j => half _ (rpredM er (r1 i j))) (fun i j => half _ (rpredM er (r2 i j)))
  (fun i => half _ (match mt as b return (if b then n_dg (w x) i else eps * n_dg (w x) i) \is Num.real with
     | true => r3 i | false => rpredM er (r3 i) end)) (g x).
exact: Hx.
Qed.

Lemma trial_good U mt eps beta (w : L -> normals C n) u c top g : eps \is Num.real -> (forall x, real_normals (w x)) ->
  good_chain U c -> good_best U top ->
  good_chain U (trial gexp rexp mt eps beta w u c top g).1.1 /\ good_best U (trial gexp rexp mt eps beta w u c top g).1.2.
Proof.
move=> er wr gc gb; rewrite /trial /=; set g' := random_transformation _ _ _ _ _.
have gg x : G (g' x) by apply: G_su; exact: random_su.
have gt : good_chain U (functional (gauge_transform g' c.2), gauge_transform g' c.2).
  by split=> //=; apply: copy_transform => //; case: gc.
split; first by case: ifP.
case: ifP => // lt; split=> //=; case: gb => [[e _] le]; apply: le_trans le _.
by rewrite -e ltW.
Qed.

Definition good_state U (s : state C n L) : Prop :=
  [/\ good_chain U (ch1 s), good_chain U (ch2 s), good_chain U (ch3 s) & good_best U (best s)].
Lemma global_step_good U p s d : real_params p -> real_draws d -> good_state U s ->
  good_state U (global_step gexp rexp p s d).
Proof.
move=> [r1 r2 r3] rd [g1 g2 g3 gb]; rewrite /global_step.
have [] := @trial_good U (multithreading p) _ (beta1 p) _ (u1 d) _ _ (trans s) r1 (fun x => proj1 (rd x)) g1 gb.
case: (trial _ _ _ _ _ _ _ _ _ _) => [[c1 m1] t1]; cbn [fst snd]; move=> gc1 gm1.
have [] := @trial_good U (multithreading p) _ (beta2 p) _ (u2 d) _ _ t1 r2 (fun x => proj1 (proj2 (rd x))) g2 gm1.
case: (trial _ _ _ _ _ _ _ _ _ _) => [[c2 m2] t2]; cbn [fst snd]; move=> gc2 gm2.
have [] := @trial_good U (multithreading p) _ (beta3 p) _ (u3 d) _ _ t2 r3 (fun x => proj2 (proj2 (rd x))) g3 gm2.
case: (trial _ _ _ _ _ _ _ _ _ _) => [[c3 m3] t3]; cbn [fst snd]; move=> gc3 gm3.
by case: ifP => _; case: ifP => _; split.
Qed.
Lemma global_good U p ds s : real_params p -> (forall i d0, (i < size ds)%N -> real_draws (nth d0 ds i)) -> good_state U s ->
  good_state U (foldl (global_step gexp rexp p) s ds).
Proof.
move=> rp; elim: ds s => [//|d ds IH] s rd gs /=; apply: IH => [i d0 hi|]; first by have := rd i.+1 d0 hi.
by apply: global_step_good => //; exact: (rd 0%N d isT).
Qed.

Lemma local_good U ls os prec k i conv top c : (n = 2%N -> forall x mu, special_unitary (U x mu)) ->
  good_best U top -> local_phase odd_site eig ls os prec k i conv top = Some c -> good_best U c.
Proof.
move=> su; elim: k i conv top => [|k IH] i conv top gb /=; first by case=> <-.
case: ifP => // _; case: ifP => [_ [<-]//|_].
case e : (relaxation _ _ _ _) => [g|]; last exact: IH.
case: ifP => lt; last exact: IH.
apply: IH; have [[e1 cp] le] := gb.
have h := relaxation_ok (copy_su cp su) e.
split; first by split=> //=; apply: copy_transform => // x; case: (h x).
by apply: le_trans le _; rewrite -e1 /= -subr_ge0 ltW.
Qed.

Lemma gauge_fixing_good U p ls os ds g0 c : real_params p -> (forall i d0, (i < size ds)%N -> real_draws (nth d0 ds i)) ->
  (n = 2%N -> forall x mu, special_unitary (U x mu)) ->
  gauge_fixing odd_site gexp rexp eig p ls os ds g0 U = Some c -> good_best U c.
Proof.
move=> rp rd su; apply: local_good => //.
have gc : good_chain U (functional U, U) by split=> //; exact: copy_refl.
by have [] := @global_good U p ds (State (functional U, U) (functional U, U) (functional U, U) (functional U, U) g0) rp rd (And4 gc gc gc (conj gc (lexx _))).
Qed.

Lemma copies_good U p ls os dss g0 cs : real_params p ->
  (forall j i d0, (j < size dss)%N -> (i < size (nth [::] dss j))%N -> real_draws (nth d0 (nth [::] dss j) i)) ->
  (n = 2%N -> forall x mu, special_unitary (U x mu)) ->
  copies odd_site gexp rexp eig p ls os dss g0 U = Some cs -> size cs = size dss /\
  forall j c0, (j < size cs)%N -> good_best U (nth c0 cs j).
Proof.
move=> rp + su; elim: dss cs => [|ds dss IH] cs rd /=; first by case=> <-.
case e : (gauge_fixing _ _ _ _ _ _ _ _ _ _) => [c|] //=.
case e' : (copies _ _ _ _ _ _ _ _ _ _) => [cs'|] //= [<-].
have [sz h] := IH cs' (fun j i d0 hj hi => rd j.+1 i d0 hj hi) e'.
split=> [|[|j] c0 hj] /=; [by rewrite sz| |exact: h].
by apply: gauge_fixing_good e => //; move=> i d0; exact: (rd 0%N i d0 isT).
Qed.

Lemma execute_good U p ls fs os dss ds g0 V : real_params p ->
  (forall j i d0, (j < size dss)%N -> (i < size (nth [::] dss j))%N -> real_draws (nth d0 (nth [::] dss j) i)) ->
  (forall i d0, (i < size ds)%N -> real_draws (nth d0 ds i)) ->
  (n = 2%N -> forall x mu, special_unitary (U x mu)) ->
  execute odd_site gexp rexp eig p ls fs os dss ds g0 U = Some V -> copy_of G U V /\ functional U <= functional V.
Proof.
move=> rp rds rd su; rewrite /execute.
case e : (copies _ _ _ _ _ _ _ _ _ _) => [cs|] //=.
have [sz h] := copies_good rp rds su e.
case: cs e sz h => [//|c cs] e sz h.
set m := nth _ _ _.
have gm : copy_of G U m.2 /\ functional U <= functional m.2.
  rewrite /m; case: (ltnP (choose (unzip1 (c :: cs))) (size (c :: cs))) => hc.
    by case: (h _ (0, U) hc) => [[_ ?] ?].
  by rewrite nth_default //=; split=> //; exact: copy_refl.
case: gm => cp le; case e' : (gauge_fixing _ _ _ _ _ _ _ _ _ _) => [f|] //= [<-].
have [[_ cp'] le'] := gauge_fixing_good rp rd (copy_su cp su) e'.
by split; [exact: copy_trans cp cp'|exact: le_trans le le'].
Qed.
End Main.
