(** The theorems about the even-odd operator and the preconditioned solver, and where they fail. *)
From Coq Require Import ZArith Field.
From mathcomp Require Import all_ssreflect all_algebra.
From Verif Require Import GaugeModel GaugeSpec GaugeProofs GaugeProofs2 GaugeProofs3 LoopModel LoopGrid GammaModel DiracModel DiracSpec.
From Verif Require Import DiracProofs DiracProofs2 DiracProofs3 CloverModel CloverSpec CloverProofs CloverProofs2 ScalarModel.
From Verif Require FForceProofs2.
From Verif Require Import ExpModel.
From Verif Require Import EvenOddModel EvenOddSpec EvenOddProofs EvenOddProofs2.
Import GRing.Theory Num.Theory Order.POrderTheory.
Set Implicit Arguments.
Unset Strict Implicit.
Unset Printing Implicit Defensive.
Local Open Scope ring_scope.

(** Hermiticity of what is left at the odd sites. *)
Section Hermitian.
Variables (C : numClosedFieldType) (n : nat) (G : grid).
Implicit Types (U : G -> 'I_4 -> 'M[C]_n) (v w p q : G -> 'I_4 -> 'I_n -> C).
Let odd_part v : G -> 'I_4 -> 'I_n -> C := restrict (fun x => ~~ even_site x) v.
Lemma inner_odd k cs U v w p : eliminated k cs U w p ->
  inner (odd_part v) (reduced_operator k cs true U w p) = inner (odd_part v) (g5 (clover_dirac k cs U p)).
Proof.
move=> [_ h]; apply: eq_bigr => x _; apply: eq_bigr => a _; apply: eq_bigr => c _.
by rewrite /odd_part /restrict /reduced_operator; case: (even_site x) => //=; rewrite conjC0 !mul0r.
Qed.
Lemma inner_fill k cs U v w p q : eliminated k cs U v q -> eliminated k cs U w p ->
  inner (odd_part v) (g5 (clover_dirac k cs U p)) = inner q (g5 (clover_dirac k cs U p)).
Proof.
move=> [hq _] [_ hp]; apply: eq_bigr => x _; apply: eq_bigr => a _; apply: eq_bigr => c _.
rewrite /odd_part /restrict; case ex: (even_site x) => /=; last by rewrite hq ?ex.
by rewrite g5E hp // !mulr0.
Qed.
Lemma reduced_herm k cs U v w p q : k \is Num.real -> cs \is Num.real -> eliminated k cs U v q -> eliminated k cs U w p ->
  inner (odd_part v) (reduced_operator k cs true U w p) = inner (reduced_operator k cs true U v q) (odd_part w).
Proof.
move=> kr cr hv hw; rewrite (inner_odd v hw) (inner_fill hv hw) (clover_dirac_herm U q p kr cr).
by rewrite -[RHS]conjCK inner_conj (inner_odd w hv) (inner_fill hw hv) inner_conj.
Qed.
End Hermitian.

Section Solve.
Variables (C : numClosedFieldType) (G : grid).
Variable inv : 'M[C]_(4 * 3) -> 'M[C]_(4 * 3).
Hypothesis invE : forall A, A \in unitmx -> inv A = invmx A.
Notation field := (G -> 'I_4 -> 'I_3 -> C) (only parsing).
Implicit Types (o d : improved C 3 G) (U : G -> 'I_4 -> 'M[C]_3) (v w y : field) (order : seq G).
Let iok : index_ok 3. Proof. by rewrite index_okE. Qed.
(** The operator after setLattice. *)
Lemma eo_multiply_ok adj (s0 : eo C 3 G) U g order v : even_extents G -> (forall x, x \in order) ->
  regular_diagonal (im_kappa (eo_op s0)) (im_csw (eo_op s0)) U ->
  exists s1 s2 out, [/\ eo_setting inv adj s0 (SetLattice U) = Some s1, eo_setting inv adj s1 (SetGamma5 _ _ _ g) = Some s2,
    eo_multiply adj s2 order v = Some out,
    exists w, eliminated (im_kappa (eo_op s0)) (im_csw (eo_op s0)) U v w &
    forall w, eliminated (im_kappa (eo_op s0)) (im_csw (eo_op s0)) U v w ->
      feq out (reduced_operator (im_kappa (eo_op s0)) (im_csw (eo_op s0)) g U v w)].
Proof.
move=> ev full reg; rewrite /eo_setting iok.
set o := set_lattice U (eo_op s0).
have ri' v' x a c : even_site x -> diagonal_part (im_kappa (set_gamma5 g o)) (im_csw (set_gamma5 g o)) (im_lattice (set_gamma5 g o))
    (even_even_inverse (calculate_inverse inv adj o) v') x a c = v' x a c.
  by move=> ex; exact: (right_inverse invE adj (o := o) v' a c (erefl _) reg ex).
eexists; eexists; eexists; split; [reflexivity | reflexivity | by rewrite /eo_multiply /= iok | |].
  by exists (fill (set_gamma5 g o) (calculate_inverse inv adj o) v); exact: (fill_eliminated (o := set_gamma5 g o) ev ri').
move=> w hw x a c; rewrite (@eo_coreE C 3 G adj (set_gamma5 g o) (calculate_inverse inv adj o) order (erefl _) ev full).
rewrite /reduced_operator; case: ifP => // _; rewrite !maybe5E; congr (sg5 _ _ _).
by apply: clover_dirac_ext => y b e; rewrite (eliminated_unique (o := set_gamma5 g o) ev ri' reg hw).
Qed.

(** The solver. *)
Variable bicg : (field -> field) -> field -> bool * field.
Definition inner_op d : improved C 3 G := Improved (im_lattice d) (update_field_strength (im_lattice d)) (im_kappa d) (im_csw d) true.
Lemma solve_unfold adj d order (s : field) o (W : G -> 'M[C]_(4 * 3)) : o = inner_op d -> W = calculate_inverse inv adj o ->
  exists res y, bicg (fun v => eo_core adj o W order (eo_core adj o W order v)) (eo_core adj o W order (odd_source_of o W order s)) = (res, y)
    /\ preconditioned_solve inv adj bicg d order s = Some (res, recombine o W s y).
Proof.
move=> -> ->; rewrite /preconditioned_solve /eo_of /eo_setting iok -/(inner_op d) /=.
set z := bicg _ _; exists z.1, z.2; split; first by case: z.
by case: z.
Qed.
Section Hyp.
Variables (adj : bool) (d : improved C 3 G) (order : seq G).
Hypothesis ev : even_extents G.
Hypothesis full : forall x, x \in order.
Let k := im_kappa d. Let cs := im_csw d. Let U := im_lattice d.
Hypothesis reg : regular_diagonal k cs U.
Let o := inner_op d.
Let W := calculate_inverse inv adj o.
Let ri v x a c : even_site x -> diagonal_part (im_kappa o) (im_csw o) (im_lattice o) (even_even_inverse W v) x a c = v x a c.
Proof. by apply: right_inverse. Qed.
Lemma solve_residual (s : field) : exists (Q : field -> field) (b y x : field) (res : bool),
  [/\ (forall v, exists2 w, eliminated k cs U v w & feq (Q v) (reduced_operator k cs true U v w)),
      bicg (fun v => Q (Q v)) b = (res, y), preconditioned_solve inv adj bicg d order s = Some (res, x),
      (forall z a c, even_site z -> clover_dirac k cs U x z a c = s z a c) &
      (forall z a c, ~~ even_site z ->
         Q (g5 (fun z a c => clover_dirac k cs U x z a c - s z a c)) z a c = Q (Q y) z a c - b z a c)].
Proof.
have [res [y [E H]]] := solve_unfold order s (erefl o) (erefl W).
exists (eo_core adj o W order), (eo_core adj o W order (odd_source_of o W order s)), y, (recombine o W s y), res; split=> //.
- move=> v; exists (fill o W v); first exact: fill_eliminated.
  exact: (@eo_coreE C 3 G adj o W order (erefl _) ev full).
- by move=> z a c ez; exact: (@recombine_even _ _ _ o W ev ri s y z a c ez).
- by move=> z a c ez; exact: (@recombine_residual _ _ _ adj o W order (erefl _) ev full (erefl _) ri reg s y z a c ez).
Qed.
Lemma solve_exact (s : field) : regular_operator k cs U -> (forall M b y, bicg M b = (true, y) -> feq (M y) b) ->
  forall x, preconditioned_solve inv adj bicg d order s = Some (true, x) -> feq (clover_dirac k cs U x) s.
Proof.
move=> rego ex x; have [res [y [E ->]]] := solve_unfold order s (erefl o) (erefl W); case=> Er <-; rewrite Er in E.
by apply: (@recombine_exact _ _ _ adj o W order (erefl _) ev full (erefl _) ri reg s y rego); exact: ex E.
Qed.
(** The flag of the operator is not looked at. *)
Lemma solve_gamma5 (s : field) old x : regular_operator k cs U -> (forall M b y, bicg M b = (true, y) -> feq (M y) b) ->
  coherent d -> im_gamma5 d = true -> ~ feq (g5 s) s ->
  preconditioned_solve inv adj bicg d order s = Some (true, x) -> ~ feq (improved_multiply adj d old x) s.
Proof.
move=> rego ex cd gd ns H; have Dx := solve_exact rego ex H => F; apply: ns => z a c.
by rewrite -[RHS]F (improved_correct adj old x cd) gd /= !g5E Dx.
Qed.
(** An old inverse is used after a change of kappa. *)
Lemma stale_kappa (s0 : eo C 3 G) k' v z a c : im_kappa (eo_op s0) = k -> im_csw (eo_op s0) = cs ->
  even_site z -> clover_term U v z a c != 0 -> cs != 0 -> k' != k ->
  exists s1 s2 W1, [/\ eo_setting inv adj s0 (SetLattice U) = Some s1, eo_setting inv adj s1 (SetKappa _ _ k') = Some s2,
    im_kappa (eo_op s2) = k', eo_inv s2 = Some W1 &
    exists u, diagonal_part k' cs U (even_even_inverse W1 u) z a c <> u z a c].
Proof.
move=> e1 e2 ez t0 c0 kk; rewrite /eo_setting iok; eexists; eexists; eexists; split; [reflexivity | reflexivity | by [] | by [] | ].
exists (diagonal_part k cs U v).
have -> : calculate_inverse inv adj (set_lattice U (eo_op s0)) = W by rewrite /W /calculate_inverse /= -/k -/cs e1 e2.
rewrite (diagonal_site k' cs U (w := v) (x := z)); last first.
  by move=> b e; apply: (@diagonal_inj _ _ _ o reg _ _ _ ez) => b' e'; rewrite ri.
rewrite /diagonal_part => /addrI /eqP; move: t0; move: (clover_term U v z a c) => t t0; rewrite -subr_eq0 -!mulrA -mulrBl !mulf_eq0 subr_eq0.
by rewrite (negbTE kk) (negbTE c0) (negbTE t0).
Qed.
End Hyp.
End Solve.

(** The stride for four and more colours. *)
Section Stride.
Variables (C : numClosedFieldType) (n : nat) (G : grid).
Variable inv : 'M[C]_(4 * n) -> 'M[C]_(4 * n).
Hypothesis invE : forall A, A \in unitmx -> inv A = invmx A.
Hypothesis n4 : (3 < n)%N.
Notation field := (G -> 'I_4 -> 'I_n -> C) (only parsing).
Implicit Types (o d : improved C n G) (U : G -> 'I_4 -> 'M[C]_n) (v w y : field) (order : seq G).
Lemma additions0 adj (k : C) F (x : G) i j u : u \in additions (n := n) adj k 0 F x i j -> u.2 = 0.
Proof.
rewrite /additions mulr0 !mul0r oppr0.
by case: adj; rewrite ?mul0r ?oppr0 !inE => /orP[/eqP->|] // /orP[/eqP->|] // /orP[/eqP->|] // /orP[/eqP->|] // /orP[/eqP->|] // /orP[/eqP->|] // /orP[/eqP->|] // /eqP->.
Qed.
Lemma matrix0 adj (k : C) F (x : G) : clover_matrix_of (n := n) adj k 0 F x = 1%:M.
Proof.
apply/matrixP => r s; rewrite /clover_matrix_of fold_entries big_seq_cond big1 ?addr0 // => u /andP[/flattenP[l]].
by move=> /mapP[i _ ->] /flattenP[l'] /mapP[j _ ->] /mapP[u' /additions0 h ->] _.
Qed.
Definition c_0 : 'I_n := Ordinal (leq_trans (isT : (0 < 4)%N) n4).
Definition c_3 : 'I_n := Ordinal n4.
Definition probe z : field := fun x a c => ((x == z) && (a == d1) && (c == c_0))%:R.
Lemma probe_inverse o adj z : im_csw o = 0 -> even_site z ->
  even_even_inverse (calculate_inverse inv adj o) (probe z) z d0 c_3 = 1.
Proof.
move=> c0 ez; rewrite /even_even_inverse parity_even ez /calculate_inverse c0 matrix0 invE ?unitmx1 // invmx1.
rewrite (bigD1 d1) //= (bigD1 c_0) //= [X in X + _ + _](_ : _ = 1); last first.
  rewrite /probe !eqxx mulr1 /entry; case: insubP => [r _ Er|]; last by rewrite /slot /= (ltn_trans n4) // ltn_Pmull // (leq_trans _ n4).
  by rewrite mxE eqxx.
rewrite !big1 ?addr0 // => [b b1|e e0].
  by rewrite big1 // => e _; rewrite /probe (negbTE b1) andbF mulr0.
by rewrite /probe (negbTE e0) andbF mulr0.
Qed.
Lemma stride_wrong adj d order (z : G) : even_extents G -> even_site z -> im_csw d = 0 ->
  regular_operator (im_kappa d) 0 (im_lattice d) ->
  exists s : field, forall bicg, exists res x, preconditioned_solve inv adj bicg d order s = Some (res, x)
    /\ ~ feq (clover_dirac (im_kappa d) 0 (im_lattice d) x) s.
Proof.
move=> ev ez c0 rego; pose D := clover_dirac (im_kappa d) 0 (im_lattice d).
exists (D (probe z)) => bicg.
have iok : index_ok n by rewrite index_okE (leq_trans _ n4) ?orbT.
pose o := Improved (im_lattice d) (update_field_strength (im_lattice d)) (im_kappa d) (im_csw d) true.
pose W := calculate_inverse inv adj o.
have [res [y [_ H]]] : exists res y, bicg (fun v => eo_core adj o W order (eo_core adj o W order v)) (eo_core adj o W order (odd_source_of o W order (D (probe z)))) = (res, y)
    /\ preconditioned_solve inv adj bicg d order (D (probe z)) = Some (res, recombine o W (D (probe z)) y).
  rewrite /preconditioned_solve /eo_of /eo_setting iok /=.
  set t := bicg _ _; exists t.1, t.2; split; first by case: t.
  by case: t.
exists res, (recombine o W (D (probe z)) y); split=> // F.
have E : feq (recombine o W (D (probe z)) y) (probe z).
  have := rego (combine (-1) (recombine o W (D (probe z)) y) (probe z)); rewrite /combine => R x a c.
  apply/eqP; rewrite -subr_eq0 -mulN1r; apply/eqP; apply: R => {x a c} x a c.
  have := clover_dirac_lin o (-1) (recombine o W (D (probe z)) y) (probe z) x a c; rewrite /combine /= c0 => ->.
  by rewrite F mulN1r subrr.
have yE x a c : ~~ even_site x -> y x a c = probe z x a c.
  by move=> ex; rewrite -E /recombine inverse_odd // parity_even (negbTE ex).
have := E z d0 c_3; rewrite [RHS]/probe andbF => /eqP.
suff -> : recombine o W (D (probe z)) y z d0 c_3 = even_even_inverse W (probe z) z d0 c_3.
  by rewrite probe_inverse ?oner_eq0.
rewrite /recombine /even_even_inverse parity_even ez; apply: eq_bigr => b _; apply: eq_bigr => e _; congr (_ * _).
rewrite /multiply_even_odd even_odd_siteE parity_even ez opprK /= /D clover_diracE.
rewrite (hopping_parity (v := y) (w := probe z) _ b e ev); last by move=> x a c; rewrite ez /= => ex; rewrite yE ?ex.
by rewrite addrNK /diagonal_part mulr0 mul0r addr0.
Qed.
End Stride.
Lemma few_colours (C : numClosedFieldType) n (G : grid) inv adj bicg (d : improved C n G) order s : (0 < n < 3)%N ->
  preconditioned_solve inv adj bicg d order s = None.
Proof. by move=> h; rewrite /preconditioned_solve /eo_of /eo_setting index_okE; case: n h d s inv bicg => [|[|[|m]]]. Qed.

(** The precision of the inner solver. *)
Definition is_solve (c : pb_call) : bool := if c is PbSolve then true else false.
Definition last_precision (p : Z) (l : seq pb_call) : Z := foldl (fun p c => if c is PbPrecision q then q else p) p l.
Definition last_steps (m : nat) (l : seq pb_call) : nat := foldl (fun m c => if c is PbSteps q then q else m) m l.
Lemma pb_before s l : ~~ has is_solve l -> foldl pb_step s l = Pbicg (last_precision (pb_precision s) l) (last_steps (pb_steps s) l) (pb_inner s).
Proof. by elim: l s => [|c l IH] [p m i] //=; case: c => //= q h; rewrite IH. Qed.
Lemma pb_after s l q : pb_inner s = Some q -> pb_inner (foldl pb_step s l) = Some q.
Proof. by elim: l s => [|c l IH] s //= h; apply: IH; case: c => //=; rewrite h. Qed.
Lemma pb_inner_first p m l l' : ~~ has is_solve l ->
  pb_inner (foldl pb_step (Pbicg p m None) (l ++ PbSolve :: l')) = Some (last_precision p l, last_steps m l).
Proof. by move=> h; rewrite foldl_cat (pb_before _ h) /=; apply: pb_after. Qed.

(** The smallest lattice with trivial links. *)
Section Small.
Variables (C : numClosedFieldType) (n : nat).
Notation B := (box_grid 1 1 1 1).
Definition ones (x : B) (mu : 'I_4) : 'M[C]_n := 1%:M.
Lemma box1_up mu (x : B) : sdn mu x = sup mu x :> B.
Proof.
have E (i : 'I_2) : cyc_down i = cyc_up i by rewrite /cyc_down /cyc_up addn1.
case: x => [[[x0 x1] x2] x3]; rewrite /= /box_sup /box_sdn /box_move /=.
by case: (nat_of_ord mu) => [|[|[|m]]]; rewrite E.
Qed.
Lemma ones_clover v x a c : clover_term ones v x a c = 0.
Proof.
rewrite /clover_term big1 ?mulr0 // => mu _; rewrite big1 // => nu _; rewrite big1 // => b _.
rewrite big1 ?mulr0 // => e _; rewrite (_ : field_strength ones x mu nu = 0) ?mxE ?mul0r //.
by rewrite strength_flow /flow_field /clover_leaves /ones !htrans1 !mulmx1 !htransD !htrans1 subrr scaler0.
Qed.
Lemma ones_hopping v x a c : hopping ones v x a c = \sum_(mu < 4) (v (sup mu x) a c + v (sup mu x) a c).
Proof.
rewrite hoppingE; apply: eq_bigr => mu _; rewrite /up /dn /ones htrans1 box1_up.
have E (f : 'I_n -> C) c' : mulv 1%:M f c' = f c'.
  by rewrite /mulv (bigD1 c') //= mxE eqxx mul1r big1 ?addr0 // => e ec; rewrite mxE eq_sym (negbTE ec) mul0r.
by rewrite !E addrACA addNr addr0.
Qed.
Lemma ones_regular cs : regular_operator 16%:R^-1 cs ones.
Proof.
move=> v h x a c; pose N := \sum_(x : B) `|v x a c|.
have E y : v y a c = 16%:R^-1 * \sum_(mu < 4) (v (sup mu y) a c + v (sup mu y) a c).
  have := h y a c; rewrite clover_diracE /diagonal_part ones_clover mulr0 addr0 ones_hopping => /eqP.
  by rewrite subr_eq0 => /eqP.
have N0 : 0 <= N by apply: sumr_ge0 => y _; exact: normr_ge0.
have : N <= 16%:R^-1 * (8%:R * N).
  rewrite {1}/N.
  apply: (@le_trans _ _ (\sum_(y : B) 16%:R^-1 * \sum_(mu < 4) (`|v (sup mu y) a c| + `|v (sup mu y) a c|))).
    apply: ler_sum => y _; rewrite {1}E normrM ger0_norm ?invr_ge0 ?ler0n // ler_wpmul2l ?invr_ge0 ?ler0n //.
    apply: le_trans (ler_norm_sum _ _ _) _; apply: ler_sum => mu _; exact: ler_norm_add.
  rewrite -mulr_sumr ler_wpmul2l ?invr_ge0 ?ler0n // exchange_big /=.
  rewrite (eq_bigr (fun _ => N + N)); last first.
    move=> mu _; rewrite big_split /= /N; congr (_ + _); by rewrite [RHS](reindex_inj (can_inj (supK (l := box 1 1 1 1) mu))).
  by rewrite sumr_const card_ord -mulr2n -mulrnA mulr_natl.
have p16 : 0 < 16%:R :> C by rewrite ltr0n.
rewrite -(ler_pmul2l p16) mulrA mulfV ?gt_eqF // mul1r -[16%N]/(8 + 8)%N natrD mulrDl ger_addl pmulr_rle0 ?ltr0n // => N1.
have /eqP : N = 0 by apply/eqP; rewrite eq_le N1.
rewrite psumr_eq0 => [|y _]; last exact: normr_ge0.
by move=> /allP /(_ x) /=; rewrite mem_index_enum normr_eq0 => /(_ isT) /eqP.
Qed.
End Small.
