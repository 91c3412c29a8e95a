(** The Metropolis update refines the textbook one; half sweeps do not depend on the order of the sites. *)
From Coq Require Import ZArith.
From Verif Require Import Base.
From mathcomp Require Import all_ssreflect all_algebra.
From Verif Require Import GaugeModel GaugeSpec GaugeProofs LoopModel ScalarModel ScalarSpec ScalarProofs.
Import GRing.Theory Num.Theory.
Set Implicit Arguments.
Unset Strict Implicit.
Unset Printing Implicit Defensive.
Local Open Scope ring_scope.

Section Refine.
Variable C : numClosedFieldType.
Variables n m a f : nat.
Variable L : lattice.
Variable U : L -> 'I_4 -> 'M[C]_n.
Variable R : L -> 'I_4 -> 'M[C]_m.
Variable gens : seq 'M[C]_m.
Variable g : couplings C.
Notation state := (scalars C n m a f L).
Implicit Types (s : state) (st : state * nat).
Variable rexp : C -> C.
Variables padj uadj : L -> 'I_a -> nat -> 'I_m -> C.
Variables pfund ufund : L -> 'I_f -> nat -> 'I_n -> C.
Variable hits : nat.
Notation trial_adj := (trial_adj gens g rexp padj uadj).
Notation trial_fund := (trial_fund gens g rexp pfund ufund).
Notation trials_adj := (trials_adj R gens g rexp padj uadj hits).
Notation trials_fund := (trials_fund U gens g rexp pfund ufund hits).
Notation update_site := (update_site U R gens g rexp padj uadj pfund ufund hits).

Lemma scalars_eq s s' : (forall i x, adj s (i, x) = adj s' (i, x)) -> (forall i x, fund s (i, x) = fund s' (i, x)) -> s = s'.
Proof.
case: s => A F; case: s' => A' F' /= HA HF.
by congr Scalars; apply/ffunP; case=> i x; [exact: HA | exact: HF].
Qed.
Lemma proposed_adj s i x c p u : proposed s (OnAdj i x c p u) = add_adj s i x c p.
Proof.
apply: scalars_eq => [j y|//]; rewrite /= !ffunE; case: ((j, y) == (i, x)); apply/colP => d; rewrite !mxE /=.
  by case: (d == c); rewrite ?mulr1n ?mulr0n ?addr0.
by rewrite mulr0n addr0.
Qed.
Lemma proposed_fund s i x c p u : proposed s (OnFund i x c p u) = add_fund s i x c p.
Proof.
apply: scalars_eq => [//|j y]; rewrite /= !ffunE; case: ((j, y) == (i, x)); apply/colP => d; rewrite !mxE /=.
  by case: (d == c); rewrite ?mulr1n ?mulr0n ?addr0.
by rewrite mulr0n addr0.
Qed.
Lemma add_atK k (v : 'cV[C]_k) c p : add_at (add_at v c p) c (- p) = v.
Proof. by apply/colP => d; rewrite !mxE; case: (d == c); rewrite ?addrK. Qed.
Lemma add_adjK s i x c p : add_adj (add_adj s i x c p) i x c (- p) = s.
Proof.
apply: scalars_eq => [j y|//]; rewrite /= !ffunE; case: ((j, y) == (i, x)) => //; exact: add_atK.
Qed.
Lemma add_fundK s i x c p : add_fund (add_fund s i x c p) i x c (- p) = s.
Proof.
apply: scalars_eq => [//|j y]; rewrite /= !ffunE; case: ((j, y) == (i, x)) => //; exact: add_atK.
Qed.
Lemma add_adj_off s i x c p j y : y != x -> adj (add_adj s i x c p) (j, y) = adj s (j, y).
Proof. by move=> ne; rewrite ffunE xpair_eqE (negbTE ne) andbF. Qed.
Lemma add_fund_off s i x c p j y : y != x -> fund (add_fund s i x c p) (j, y) = fund s (j, y).
Proof. by move=> ne; rewrite ffunE xpair_eqE (negbTE ne) andbF. Qed.
Lemma add_adj_real s i x c p : p \is Num.real -> real_adjoint s -> real_adjoint (add_adj s i x c p).
Proof.
move=> Hp Hs j y d; rewrite ffunE; case: ifP => _; last exact: Hs.
by rewrite mxE; case: ifP => _; [apply: rpredD => //; exact: Hs | exact: Hs].
Qed.
Lemma add_adj_replace s i x c p : replace_adj s i x (add_at (adj s (i, x)) c p) (add_adj s i x c p).
Proof. by split=> [|]; [rewrite ffunE eqxx | split=> // j y ne; rewrite ffunE (negbTE ne)]. Qed.
Lemma add_fund_replace s i x c p : replace_fund s i x (add_at (fund s (i, x)) c p) (add_fund s i x c p).
Proof. by split=> [|]; [rewrite ffunE eqxx | split=> // j y ne; rewrite ffunE (negbTE ne)]. Qed.

Section Ref.
Hypothesis ext : extent2 L.
Hypothesis realR : forall x mu, real_matrix (R x mu).
Hypothesis realp : forall x i t c, padj x i t c \is Num.real.
Notation ref := (metropolis_step (energy U R gens g) rexp).
Lemma trial_adj_ref s k x i q : real_adjoint s ->
  trial_adj x i (kinetic R (fun y => adj s (i, y)) x) (s, k) q = ref (s, k) (OnAdj i x q.2 (padj x i q.1 q.2) (uadj x i q.1 q.2)).
Proof.
move=> Hs; rewrite /ScalarModel.trial_adj /metropolis_step proposed_adj /accept; cbn [fst snd uniform].
rewrite -(adj_change U gens g ext realR (add_adj_replace _ _ _ _ _) Hs); last first.
  move=> d; rewrite mxE; case: ifP => _; last exact: Hs.
  by apply: rpredD => //; exact: Hs.
by rewrite add_adjK; case: ifP.
Qed.
Lemma trial_fund_ref s k x i q : real_adjoint s ->
  trial_fund x i (kinetic U (fun y => fund s (i, y)) x) (s, k) q = ref (s, k) (OnFund i x q.2 (pfund x i q.1 q.2) (ufund x i q.1 q.2)).
Proof.
move=> Hs; rewrite /ScalarModel.trial_fund /metropolis_step proposed_fund /accept; cbn [fst snd uniform].
rewrite -(fund_change U gens g ext realR (add_fund_replace _ _ _ _ _) Hs).
by rewrite add_fundK; case: ifP.
Qed.
Lemma trials_adj_ref st x i : real_adjoint st.1 ->
  trials_adj x st i = foldl ref st [seq OnAdj i x q.2 (padj x i q.1 q.2) (uadj x i q.1 q.2) | q <- [seq (t, c) | t <- iota 0 hits, c <- enum 'I_m]]
  /\ real_adjoint (trials_adj x st i).1.
Proof.
rewrite /ScalarModel.trials_adj; move: [seq (t, c) | t <- _, c <- _] => qs; set K := kinetic _ _ _ => H.
suff X : forall qs st, real_adjoint st.1 -> kinetic R (fun y => adj st.1 (i, y)) x = K ->
  foldl (trial_adj x i K) st qs = foldl ref st [seq OnAdj i x q.2 (padj x i q.1 q.2) (uadj x i q.1 q.2) | q <- qs]
  /\ real_adjoint (foldl (trial_adj x i K) st qs).1 by apply: X.
elim=> [|q qq IH] [s k] Hs HK; first by [].
have E := trial_adj_ref k x i q Hs; rewrite HK in E; cbn [foldl map]; rewrite E; apply: IH.
  rewrite /metropolis_step; case: ifP => // _; rewrite proposed_adj; exact: add_adj_real.
rewrite /metropolis_step; case: ifP => // _; rewrite proposed_adj /= -HK.
by apply: kinetic_off => // y ne; rewrite add_adj_off.
Qed.
Lemma trials_fund_ref st x i : real_adjoint st.1 ->
  trials_fund x st i = foldl ref st [seq OnFund i x q.2 (pfund x i q.1 q.2) (ufund x i q.1 q.2) | q <- [seq (t, c) | t <- iota 0 hits, c <- enum 'I_n]]
  /\ real_adjoint (trials_fund x st i).1.
Proof.
rewrite /ScalarModel.trials_fund; move: [seq (t, c) | t <- _, c <- _] => qs; set K := kinetic _ _ _ => H.
suff X : forall qs st, real_adjoint st.1 -> kinetic U (fun y => fund st.1 (i, y)) x = K ->
  foldl (trial_fund x i K) st qs = foldl ref st [seq OnFund i x q.2 (pfund x i q.1 q.2) (ufund x i q.1 q.2) | q <- qs]
  /\ real_adjoint (foldl (trial_fund x i K) st qs).1 by apply: X.
elim=> [|q qq IH] [s k] Hs HK; first by [].
have E := trial_fund_ref k x i q Hs; rewrite HK in E; cbn [foldl map]; rewrite E; apply: IH.
  by rewrite /metropolis_step; case: ifP.
rewrite /metropolis_step; case: ifP => // _; rewrite proposed_fund /= -HK.
by apply: kinetic_off => // y ne; rewrite add_fund_off.
Qed.
Lemma update_site_ref st x : real_adjoint st.1 ->
  update_site st x = foldl ref st (site_proposals padj uadj pfund ufund hits x) /\ real_adjoint (update_site st x).1.
Proof.
move=> H; rewrite /ScalarModel.update_site /site_proposals foldl_cat.
have A : forall l st, real_adjoint st.1 -> foldl (trials_adj x) st l
   = foldl ref st (flatten [seq [seq OnAdj i x q.2 (padj x i q.1 q.2) (uadj x i q.1 q.2) | q <- [seq (t, c) | t <- iota 0 hits, c <- enum 'I_m]] | i <- l])
   /\ real_adjoint (foldl (trials_adj x) st l).1.
  elim=> [|i l IH] t Ht //=; rewrite foldl_cat.
  have [e r] := trials_adj_ref x i Ht; rewrite -e; exact: IH.
have B : forall l st, real_adjoint st.1 -> foldl (trials_fund x) st l
   = foldl ref st (flatten [seq [seq OnFund i x q.2 (pfund x i q.1 q.2) (ufund x i q.1 q.2) | q <- [seq (t, c) | t <- iota 0 hits, c <- enum 'I_n]] | i <- l])
   /\ real_adjoint (foldl (trials_fund x) st l).1.
  elim=> [|i l IH] t Ht //=; rewrite foldl_cat.
  have [e r] := trials_fund_ref x i Ht; rewrite -e; exact: IH.
have [e r] := A (enum 'I_a) st H; rewrite -e; exact: B.
Qed.
Lemma sites_ref l st : real_adjoint st.1 ->
  foldl update_site st l = foldl ref st (flatten [seq site_proposals padj uadj pfund ufund hits x | x <- l])
  /\ real_adjoint (foldl update_site st l).1.
Proof.
elim: l st => [|x l IH] st H //=; rewrite foldl_cat.
have [e r] := update_site_ref x H; rewrite -e; exact: IH.
Qed.
End Ref.

(** Locality of the update of one site. *)
Definition here x s s' := (forall i, adj s (i, x) = adj s' (i, x)) /\ (forall i, fund s (i, x) = fund s' (i, x)).
Definition off x s s' := forall y, y != x -> here y s s'.
(** The same values at [x], the same number of further acceptances. *)
Definition sim x b b' (st st' : state * nat) := here x st.1 st'.1 /\ exists d, st.2 = (b + d)%N /\ st'.2 = (b' + d)%N.
Lemma add_adj_here x s s' i c p : here x s s' -> here x (add_adj s i x c p) (add_adj s' i x c p).
Proof. by move=> [A F]; split=> // j; rewrite !ffunE A. Qed.
Lemma add_fund_here x s s' i c p : here x s s' -> here x (add_fund s i x c p) (add_fund s' i x c p).
Proof. by move=> [A F]; split=> // j; rewrite !ffunE F. Qed.
Lemma potential_sim x s s' : here x s s' -> potential gens g s x = potential gens g s' x.
Proof. by move=> [A F]; apply: potential_here. Qed.
Lemma energy_adj_sim x s s' i K : here x s s' -> energy_adjoint gens g s x K i = energy_adjoint gens g s' x K i.
Proof. by move=> H; rewrite /energy_adjoint (potential_sim H) (proj1 H). Qed.
Lemma energy_fund_sim x s s' i K : here x s s' -> energy_fundamental gens g s x K i = energy_fundamental gens g s' x K i.
Proof. by move=> H; rewrite /energy_fundamental (potential_sim H) (proj2 H). Qed.
Lemma trial_adj_sim x b b' i K st st' q : sim x b b' st st' -> sim x b b' (trial_adj x i K st q) (trial_adj x i K st' q).
Proof.
case: st => s k; case: st' => s' k' [/= H [d [e e']]]; rewrite /ScalarModel.trial_adj.
rewrite (energy_adj_sim i K H) (energy_adj_sim i K (add_adj_here i q.2 (padj x i q.1 q.2) H)).
case: ifP => _; last by split; [do 2! apply: add_adj_here | exists d].
by split; [apply: add_adj_here | exists d.+1; rewrite /= e e' !addnS].
Qed.
Lemma trial_fund_sim x b b' i K st st' q : sim x b b' st st' -> sim x b b' (trial_fund x i K st q) (trial_fund x i K st' q).
Proof.
case: st => s k; case: st' => s' k' [/= H [d [e e']]]; rewrite /ScalarModel.trial_fund.
rewrite (energy_fund_sim i K H) (energy_fund_sim i K (add_fund_here i q.2 (pfund x i q.1 q.2) H)).
case: ifP => _; last by split; [do 2! apply: add_fund_here | exists d].
by split; [apply: add_fund_here | exists d.+1; rewrite /= e e' !addnS].
Qed.
Lemma trial_adj_off x i K st q : off x (trial_adj x i K st q).1 st.1.
Proof.
case: st => s k y ne; rewrite /ScalarModel.trial_adj; case: ifP => _; cbn [fst]; rewrite ?add_adjK; split=> // j.
by rewrite add_adj_off.
Qed.
Lemma trial_fund_off x i K st q : off x (trial_fund x i K st q).1 st.1.
Proof.
case: st => s k y ne; rewrite /ScalarModel.trial_fund; case: ifP => _; cbn [fst]; rewrite ?add_fundK; split=> // j.
by rewrite add_fund_off.
Qed.
Lemma off_trans x s1 s2 s3 : off x s1 s2 -> off x s2 s3 -> off x s1 s3.
Proof. by move=> A B y ne; case: (A y ne) => a1 f1; case: (B y ne) => a2 f2; split=> i; rewrite ?a1 ?f1. Qed.
Lemma foldl_off T x (step : state * nat -> T -> state * nat) : (forall st q, off x (step st q).1 st.1) ->
  forall l st, off x (foldl step st l).1 st.1.
Proof.
move=> H; elim=> [|q l IH] st /=; first by move=> y _; split.
exact: off_trans (IH _) (H _ _).
Qed.
Lemma foldl_sim T x b b' (step step' : state * nat -> T -> state * nat) :
  (forall st st' q, sim x b b' st st' -> sim x b b' (step st q) (step' st' q)) ->
  forall l st st', sim x b b' st st' -> sim x b b' (foldl step st l) (foldl step' st' l).
Proof. by move=> H; elim=> [|q l IH] st st' S //=; apply: IH; apply: H. Qed.
Lemma trials_adj_off x st i : off x (trials_adj x st i).1 st.1.
Proof. by apply: foldl_off => t q; exact: trial_adj_off. Qed.
Lemma trials_fund_off x st i : off x (trials_fund x st i).1 st.1.
Proof. by apply: foldl_off => t q; exact: trial_fund_off. Qed.
Lemma update_site_off x st : off x (update_site st x).1 st.1.
Proof.
by apply: off_trans; apply: foldl_off => t i; [exact: trials_fund_off | exact: trials_adj_off].
Qed.
(** The same values at [x] and at its neighbours. *)
Definition near x s s' := forall y, y = x \/ neighbours x y -> here y s s'.
Definition simn x b b' (st st' : state * nat) := sim x b b' st st' /\ near x st.1 st'.1.
Lemma kin_near_adj x s s' i : near x s s' -> kinetic R (fun y => adj s (i, y)) x = kinetic R (fun y => adj s' (i, y)) x.
Proof.
move=> H; apply: eq_bigr => mu _; rewrite (proj1 (H (sup mu x) _)); last by right; exists mu; left.
by rewrite (proj1 (H (sdn mu x) _)) //; right; exists mu; right.
Qed.
Lemma kin_near_fund x s s' i : near x s s' -> kinetic U (fun y => fund s (i, y)) x = kinetic U (fun y => fund s' (i, y)) x.
Proof.
move=> H; apply: eq_bigr => mu _; rewrite (proj2 (H (sup mu x) _)); last by right; exists mu; left.
by rewrite (proj2 (H (sdn mu x) _)) //; right; exists mu; right.
Qed.
Lemma near_off x s s' t t' : near x s s' -> off x t s -> off x t' s' -> here x t t' -> near x t t'.
Proof.
move=> H O O' Hx y Hy; case: (altP (y =P x)) => [-> //|ne].
case: (H y Hy) => a1 f1; case: (O y ne) => a2 f2; case: (O' y ne) => a3 f3.
by split=> i; rewrite ?a2 ?f2 ?a3 ?f3.
Qed.
Lemma trials_adj_simn x b b' st st' i : simn x b b' st st' -> simn x b b' (trials_adj x st i) (trials_adj x st' i).
Proof.
move=> [S N].
have S' : sim x b b' (trials_adj x st i) (trials_adj x st' i).
  rewrite /ScalarModel.trials_adj (kin_near_adj i N).
  by apply: foldl_sim => // t t' q; exact: trial_adj_sim.
by split=> //; apply: (near_off N) (proj1 S'); exact: trials_adj_off.
Qed.
Lemma trials_fund_simn x b b' st st' i : simn x b b' st st' -> simn x b b' (trials_fund x st i) (trials_fund x st' i).
Proof.
move=> [S N].
have S' : sim x b b' (trials_fund x st i) (trials_fund x st' i).
  rewrite /ScalarModel.trials_fund (kin_near_fund i N).
  by apply: foldl_sim => // t t' q; exact: trial_fund_sim.
by split=> //; apply: (near_off N) (proj1 S'); exact: trials_fund_off.
Qed.
Lemma update_site_sim x st st' : near x st.1 st'.1 ->
  sim x st.2 st'.2 (update_site st x) (update_site st' x).
Proof.
move=> N; suff : simn x st.2 st'.2 (update_site st x) (update_site st' x) by case.
have H0 : simn x st.2 st'.2 st st' by split=> //; split; [apply: N; left | exists 0%N; rewrite !addn0].
have F : forall l st0 st0', simn x st.2 st'.2 st0 st0' -> simn x st.2 st'.2 (foldl (trials_adj x) st0 l) (foldl (trials_adj x) st0' l).
  by elim=> [|i l IH] u u' S //=; apply: IH; apply: trials_adj_simn.
have F' : forall l st0 st0', simn x st.2 st'.2 st0 st0' -> simn x st.2 st'.2 (foldl (trials_fund x) st0 l) (foldl (trials_fund x) st0' l).
  by elim=> [|i l IH] u u' S //=; apply: IH; apply: trials_fund_simn.
by apply: F'; apply: F.
Qed.
Lemma update_site_count x st : exists d, forall st', near x st.1 st'.1 -> (update_site st' x).2 = (st'.2 + d)%N.
Proof.
have [_ [d [e _]]] := @update_site_sim x st st (fun y _ => conj (fun=> erefl) (fun=> erefl)).
exists d => st' N; have [_ [d' [e1 e2]]] := update_site_sim N.
by rewrite e2; congr (_ + _)%N; apply/eqP; rewrite -(eqn_add2l st.2) -e -e1.
Qed.
Lemma nbrC x y : neighbours (L := L) x y -> neighbours y x.
Proof. by case=> mu [->|->]; exists mu; [right; rewrite supK | left; rewrite sdnK]. Qed.
Lemma near_of_off x y s s' : x <> y -> ~ neighbours x y -> off y s s' -> near x s s'.
Proof.
move=> ne nn O z Hz; apply: O; apply/eqP => e; subst z; case: Hz => [e|//]; exact: ne.
Qed.
Lemma update_commute x y st : ~ neighbours x y -> update_site (update_site st x) y = update_site (update_site st y) x.
Proof.
move=> nn; case: (altP (x =P y)) => [-> //|/eqP ne].
have Nx : near x st.1 (update_site st y).1.
  by apply: (near_of_off ne nn) => z nz; have [A F] := @update_site_off y st z nz; split=> i; rewrite ?A ?F.
have Ny : near y st.1 (update_site st x).1.
  apply: (@near_of_off y x); [by move=> e; apply: ne | by move/nbrC | ].
  by move=> z nz; have [A F] := @update_site_off x st z nz; split=> i; rewrite ?A ?F.
have [Hx [dx [ex ex']]] := update_site_sim Nx.
have [Hy [dy [ey ey']]] := update_site_sim Ny.
have S : (update_site (update_site st x) y).1 = (update_site (update_site st y) x).1.
  apply: scalars_eq => i z.
  - case: (altP (z =P x)) => [->|nx].
      rewrite (proj1 (update_site_off (x := y) _ _)); last by apply/eqP.
      exact: (proj1 Hx).
    rewrite [RHS](proj1 (update_site_off (x := x) _ _)) //.
    case: (altP (z =P y)) => [->|ny]; first by rewrite (proj1 Hy).
    by rewrite !(proj1 (update_site_off _ _)).
  - case: (altP (z =P x)) => [->|nx].
      rewrite (proj2 (update_site_off (x := y) _ _)); last by apply/eqP.
      exact: (proj2 Hx).
    rewrite [RHS](proj2 (update_site_off (x := x) _ _)) //.
    case: (altP (z =P y)) => [->|ny]; first by rewrite (proj2 Hy).
    by rewrite !(proj2 (update_site_off _ _)).
rewrite [LHS]surjective_pairing [RHS]surjective_pairing S ey' ex' ex ey.
by congr (_, _); rewrite addnAC.
Qed.
End Refine.

(** Folding commuting steps over permuted lists. *)
Lemma foldl_front (T : eqType) St (step : St -> T -> St) (P : T -> Prop) :
  (forall x y st, P x -> P y -> step (step st x) y = step (step st y) x) ->
  forall l x st, P x -> (forall y, y \in l -> P y) -> foldl step st (rcons l x) = foldl step (step st x) l.
Proof.
move=> H; elim=> [|y l IH] x st Px Pl //=.
rewrite IH //; last by move=> z Hz; apply: Pl; rewrite inE Hz orbT.
by rewrite H //; apply: Pl; rewrite inE eqxx.
Qed.
Lemma foldl_perm (T : eqType) St (step : St -> T -> St) (P : T -> Prop) :
  (forall x y st, P x -> P y -> step (step st x) y = step (step st y) x) ->
  forall l l' st, perm_eq l l' -> (forall y, y \in l -> P y) -> foldl step st l = foldl step st l'.
Proof.
move=> H; elim=> [|x l IH] l' st E Pl; first by move: E => /perm_size; case: l'.
have xl' : x \in l' by rewrite -(perm_mem E) inE eqxx.
move: E; case/splitPr: xl' => l1 l2 E.
have E' : perm_eq l (l1 ++ l2).
  by rewrite -(perm_cons x); apply: (perm_trans E); rewrite -cat1s perm_catCA.
rewrite -cat_rcons foldl_cat (foldl_front H); first last.
- by move=> y Hy; apply: Pl; rewrite (perm_mem E) mem_cat Hy.
- by apply: Pl; rewrite inE eqxx.
rewrite -foldl_cat /=; apply: IH => // y Hy; apply: Pl.
by rewrite inE Hy orbT.
Qed.

Section Parity.
Variable G : grid.
Lemma parityE (x : G) : parity x = odd_site x :> nat.
Proof. by rewrite /parity /odd_site modn2. Qed.
Lemma odd_sup (x : G) mu : ~~ odd (ext G mu) -> odd_site (sup mu x) = ~~ odd_site x.
Proof.
move=> ev; rewrite /odd_site (bigD1 mu) //= [in RHS](bigD1 mu) //= coord_up.
rewrite (eq_bigr (fun i => coord x i)); last by move=> i ne; rewrite coord_other.
rewrite !oddD -addNb; congr (_ (+) _); rewrite odd_mod //=.
exact: negbTE.
Qed.
Lemma odd_sup_wrap (x : G) mu : odd (ext G mu) -> (coord x mu).+1 = ext G mu -> odd_site (sup mu x) = odd_site x.
Proof.
move=> od e; rewrite /odd_site (bigD1 mu) //= [in RHS](bigD1 mu) //= coord_up e modnn add0n.
rewrite (eq_bigr (fun i => coord x i)); last by move=> i ne; rewrite coord_other.
by rewrite oddD; move: od; rewrite -e /= => /negbTE ->.
Qed.
Lemma parity_neighbours (x y : G) : (forall mu, ~~ odd (ext G mu)) -> neighbours x y -> parity x <> parity y.
Proof.
move=> ev; rewrite !parityE => -[mu [->|->]].
  by rewrite odd_sup //; case: odd_site.
by rewrite -{1}(sdnK mu x) odd_sup //; case: odd_site.
Qed.
Lemma coord_iter (x : G) mu k : coord (iter k (sup mu) x) mu = ((coord x mu + k) %% ext G mu)%N.
Proof.
elim: k => [|k IH]; first by rewrite addn0 modn_small // coord_lt.
by rewrite iterS coord_up IH -addn1 modnDml addn1 addnS.
Qed.
Lemma reach (x : G) mu k : (k < ext G mu)%N -> exists y : G, coord y mu = k.
Proof.
move=> h; exists (iter (k + (ext G mu - coord x mu)) (sup mu) x); rewrite coord_iter addnCA subnKC; last exact: ltnW (coord_lt _ _).
by rewrite modnDr modn_small.
Qed.
Lemma odd_neighbours (x0 : G) mu : odd (ext G mu) -> (1 < ext G mu)%N ->
  exists x y : G, [/\ x <> y, neighbours x y & parity x = parity y].
Proof.
move=> od h; have [x e] : exists x : G, coord x mu = (ext G mu).-1 by apply: (reach x0); rewrite prednK // ltnW.
have e1 : (coord x mu).+1 = ext G mu by rewrite e prednK // ltnW.
exists x, (sup mu x); split; [|by exists mu; left|by rewrite !parityE odd_sup_wrap].
move=> q; have : coord x mu = 0%N by rewrite q coord_up e1 modnn.
by rewrite e; move: h; case: (ext G mu) => [|[]].
Qed.
End Parity.
