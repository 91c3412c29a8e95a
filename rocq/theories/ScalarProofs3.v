(** Lower bounds of the scalar action. *)
From mathcomp Require Import all_ssreflect all_algebra.
From Verif Require Import GaugeModel GaugeSpec GaugeProofs LoopModel ScalarModel ScalarSpec ScalarProofs.
Import GRing.Theory Num.Theory.
Set Implicit Arguments.
Unset Strict Implicit.
Unset Printing Implicit Defensive.
Local Open Scope ring_scope.

Section Bound.
Variable C : numClosedFieldType.
Add Ring CringB : (Crth C).
Lemma vdotDr k (u v w : 'cV[C]_k) : vdot u (v + w) = vdot u v + vdot u w.
Proof. by rewrite !vdotE mulmxDr mxE. Qed.
Lemma vdot_ge0 k (v : 'cV[C]_k) : 0 <= vdot v v.
Proof. by apply: sumr_ge0 => i _; rewrite mulrC -normCK exprn_ge0. Qed.
Lemma vdot_self_real k (v : 'cV[C]_k) : 'Re (vdot v v) = vdot v v.
Proof. by rewrite Re_real // ger0_real // vdot_ge0. Qed.
Lemma vdot_unitary k (A : 'M[C]_k) (v : 'cV[C]_k) : unitary A -> vdot (A *m v) (A *m v) = vdot v v.
Proof. by rewrite /unitary daggerE => /mulmx1C H; rewrite -{1}(htransK A) vdot_ht mulmxA H mul1mx. Qed.
Lemma half_dot k (A : 'M[C]_k) (v w : 'cV[C]_k) : unitary A ->
  - (vdot v v + vdot w w) / 2%:R <= 'Re (vdot v (A *m w)).
Proof.
move=> HA; have := vdot_ge0 (v + A *m w); rewrite vdotDl !vdotDr vdot_unitary //.
have -> : vdot (A *m w) v = (vdot v (A *m w))^* by rewrite vdotC.
have -> : vdot v v + vdot v (A *m w) + ((vdot v (A *m w))^* + vdot w w) = (vdot v v + vdot w w) + (vdot v (A *m w) + (vdot v (A *m w))^*).
  by rewrite [(_^* + _)]addrC addrACA.
have -> : vdot v (A *m w) + (vdot v (A *m w))^* = 'Re (vdot v (A *m w)) * 2%:R by rewrite ReE mulfVK // pnatr_eq0.
by move=> H; rewrite ler_pdivr_mulr ?ltr0n // -subr_ge0 opprK addrC.
Qed.
Variable L : lattice.
Lemma hopping_bound k (V : L -> 'I_4 -> 'M[C]_k) phi : (forall x mu, unitary (V x mu)) ->
  - (4%:R * \sum_(x : L) vdot (phi x) (phi x)) <= hopping V phi.
Proof.
move=> H; rewrite /hopping.
have -> : - (4%:R * \sum_(x : L) vdot (phi x) (phi x)) = \sum_(mu < 4) - \sum_(x : L) vdot (phi x) (phi x) :> C.
  by rewrite sumr_const card_ord mulNrn mulr_natl.
apply: ler_sum => mu _.
have -> : - (\sum_(x : L) vdot (phi x) (phi x)) = \sum_(x : L) - (vdot (phi x) (phi x) + vdot (phi (sup mu x)) (phi (sup mu x))) / 2%:R.
  rewrite -mulr_suml sumrN big_split /=.
  rewrite [X in _ + X](_ : _ = \sum_(x : L) vdot (phi x) (phi x)); last first.
    by rewrite [RHS](reindex (sup mu)) //; exists (sdn mu) => x _; [exact: supK | exact: sdnK].
  by rewrite -mulr2n -mulr_natr mulNr mulfK // pnatr_eq0.
by apply: ler_sum => x _; exact: half_dot.
Qed.

Variables n m a f : nat.
Variable U : L -> 'I_4 -> 'M[C]_n.
Variable R : L -> 'I_4 -> 'M[C]_m.
Variable gens : seq 'M[C]_m.
Variable g : couplings C.
Notation state := (scalars C n m a f L).
Lemma heavy (s : state) : (forall x mu, unitary (U x mu)) -> (forall x mu, unitary (R x mu)) -> (forall x mu, real_matrix (R x mu)) ->
  real_adjoint s -> 24%:R <= mass_adjoint g -> 24%:R <= mass_fundamental g ->
  0 <= lambda_fundamental g -> 0 <= lambda_adjoint g -> 0 <= lambda_mixed g -> 0 <= lambda_8 g ->
  0 <= energy U R gens g s.
Proof.
move=> HU HR rR rs ma mf lf la lm l8; rewrite energyE //.
set A := \sum_(i < a) \sum_(x : L) vdot (adj s (i, x)) (adj s (i, x)).
set F := \sum_(i < f) \sum_(x : L) vdot (fund s (i, x)) (fund s (i, x)).
have h1 : - (4%:R * A) <= \sum_(i < a) hopping R (fun x => adj s (i, x)).
  by rewrite /A mulr_sumr -sumrN; apply: ler_sum => i _; exact: hopping_bound.
have h2 : - (4%:R * F) <= \sum_(i < f) hopping U (fun x => fund s (i, x)).
  by rewrite /F mulr_sumr -sumrN; apply: ler_sum => i _; exact: hopping_bound.
have h3 : 4%:R * A + 4%:R * F <= \sum_(x : L) potential gens g s x.
  have -> : 4%:R * A + 4%:R * F = \sum_(x : L) (4%:R * square_adjoint s x + 4%:R * square_fundamental s x).
    rewrite big_split -!mulr_sumr; congr (_ * _ + _ * _); first by rewrite /A exchange_big.
    rewrite /F exchange_big; apply: eq_bigr => x _; apply: eq_bigr => i _; exact/esym/vdot_self_real.
  apply: ler_sum => x _; rewrite /potential.
  have pa : 0 <= square_adjoint s x by apply: sumr_ge0 => i _; exact: vdot_ge0.
  have pf : 0 <= square_fundamental s x by apply: sumr_ge0 => i _; rewrite vdot_self_real vdot_ge0.
  have big k (M : C) : 24%:R <= M -> 0 <= k -> 4%:R * k <= (M / 2%:R - 8%:R) * k.
    move=> hM hk; apply: ler_wpmul2r => //; rewrite ler_subr_addr -natrD ler_pdivl_mulr ?ltr0n //.
    by rewrite -natrM.
  rewrite -!addrA; apply: ler_add; first exact: big.
  rewrite -[4%:R * _]addr0; apply: ler_add; first exact: big.
  have pos (l : C) : 0 <= l -> 0 <= l / 24%:R by move=> hl; rewrite divr_ge0 // ler0n.
  apply: addr_ge0.
    apply: sumr_ge0 => T _ /=; rewrite -mulrA; apply: mulr_ge0; first exact: pos.
    set t := \sum_(i < a) _; have rt : t \is Num.real by apply: rpred_sum => i _; exact: Creal_Re.
    by rewrite -expr2 -realEsqr.
  have tri (l u v : C) : 0 <= l -> 0 <= u -> 0 <= v -> 0 <= l / 24%:R * u * v by move=> hl hu hv; rewrite mulr_ge0 // mulr_ge0 // pos.
  by rewrite addr_ge0 ?addr_ge0 ?tri.
apply: Order.POrderTheory.le_trans (ler_add (ler_add h1 h2) h3).
rewrite (_ : _ + _ = 0) //; move: (4%:R * A) (4%:R * F) => p q; cring_fold C; ring.
Qed.
End Bound.

Section Light.
Variable C : numClosedFieldType.
Add Ring CringL : (Crth C).
Variable L : lattice.
Variables n m a f : nat.
Variable R : L -> 'I_4 -> 'M[C]_m.
Variable gens : seq 'M[C]_m.
(** The same vector on every site of the first fundamental field. *)
Definition constant (t : C) : scalars C n.+1 m a f.+1 L :=
  Scalars [ffun=> 0] [ffun q => if q.1 == ord0 then \col_c (if c == ord0 then t else 0) else 0].
Definition free_couplings (ma mf : C) : couplings C := Couplings ma mf 0 0 0 0.
Lemma vdot0 k (w : 'cV[C]_k) : vdot 0 w = 0.
Proof. by apply: big1 => i _; rewrite mxE conjC0 mul0r. Qed.
Lemma constant_energy t ma mf : 0 <= t ->
  energy (fun _ _ => 1%:M) R gens (free_couplings ma mf) (constant t) = #|L|%:R * t ^+ 2 * (mf / 2%:R - 4%:R).
Proof.
move=> ht; have ct : t^* = t by rewrite conj_Creal // ger0_real.
have F0 i x : fund (constant t) (i, x) = if i == ord0 then \col_c (if c == ord0 then t else 0) else 0 by rewrite ffunE.
have sq x : square_fundamental (constant t) x = t ^+ 2.
  rewrite /square_fundamental (bigD1 ord0) //= big1 => [|i ne]; last by rewrite F0 (negbTE ne) vdot0 raddf0.
  rewrite F0 eqxx addr0 /vdot (bigD1 ord0) //= big1 => [|c ne]; last by rewrite !mxE (negbTE ne) mulr0.
  by rewrite !mxE eqxx ct addr0 Re_real -?expr2 // rpredX // ger0_real.
have sa x : square_adjoint (constant t) x = 0 by apply: big1 => i _; rewrite ffunE vdot0.
have pot x : potential gens (free_couplings ma mf) (constant t) x = (mf / 2%:R - 8%:R) * t ^+ 2.
  rewrite /potential sa sq /= !(mul0r, mulr0, addr0) add0r big1 ?addr0 // => T _.
  by rewrite !mul0r.
rewrite /energy big1 => [|i _]; last first.
  by apply: big1 => mu _; apply: big1 => x _; apply: big1 => c _; rewrite ffunE mxE mul0r.
rewrite (eq_bigr _ (fun x _ => pot x)) sumr_const add0r (bigD1 ord0) //= [X in _ + X + _]big1 => [|i ne]; last first.
  by apply: big1 => mu _; apply: big1 => x _; apply: big1 => c _; rewrite F0 (negbTE ne) mxE conjC0 mul0r raddf0.
rewrite (eq_bigr (fun=> t ^+ 2 *+ #|L|)) => [|mu _]; last first.
  rewrite -sumr_const; apply: eq_bigr => x _; rewrite (bigD1 ord0) //= big1 => [|c ne]; last first.
    by rewrite F0 eqxx mxE (negbTE ne) conjC0 mul0r raddf0.
  by rewrite !F0 eqxx mul1mx !mxE eqxx addr0 ct Re_real -?expr2 // rpredX // ger0_real.
rewrite sumr_const card_ord addr0 -[X in _ + X]mulr_natl -(mulr_natl (t ^+ 2)) -[_ *+ 4]mulr_natl.
rewrite (_ : #|xpredT| = #|L|) //.
rewrite (_ : 8%:R = 4%:R + 4%:R :> C); last by rewrite -natrD.
move: (#|L|%:R) (4%:R : C) (mf / 2%:R) (t ^+ 2) => N q h u; cring_fold C; ring.
Qed.
Lemma light (ma mf B : C) : (0 < #|L|)%N -> mf < 8%:R -> B \is Num.real ->
  exists t, 0 <= t /\ energy (fun _ _ => 1%:M) R gens (free_couplings ma mf) (constant t) < B.
Proof.
move=> hL hm hB; set w := #|L|%:R * (4%:R - mf / 2%:R); have hw : 0 < w.
  rewrite mulr_gt0 ?ltr0n // subr_gt0 ltr_pdivr_mulr ?ltr0n // -natrM.
  exact: hm.
have hq : 0 <= (`|B| + 1) / w by rewrite divr_ge0 ?addr_ge0 ?ler01 // Order.POrderTheory.ltW.
exists (sqrtC ((`|B| + 1) / w)); split; first by rewrite sqrtC_ge0.
rewrite constant_energy ?sqrtC_ge0 // sqrtCK.
have -> : #|L|%:R * ((`|B| + 1) / w) * (mf / 2%:R - 4%:R) = - ((`|B| + 1) / w * w).
  rewrite {3}/w; move: ((`|B| + 1) / w) (#|L|%:R) (4%:R : C) (mf / 2%:R) => p q r t; cring_fold C; ring.
rewrite mulfVK ?gt_eqF // ?Order.POrderTheory.gt_eqF //.
rewrite opprD -ltr_sub_addr opprK; apply: (@Order.POrderTheory.le_lt_trans _ _ B).
  by rewrite ler_oppl -normrN real_ler_norm // rpredN.
by rewrite ltr_addl ltr01.
Qed.
End Light.
