(** Diagonal staples, and three colours: gauge fixing leaves the special unitary matrices. *)
From mathcomp Require Import all_ssreflect all_algebra.
From Verif Require Import GaugeModel GaugeSpec GaugeProofs GaugeProofs2 GaugeProofs3 ExpSpec ExpProofs FixModel FixSpec FixProofs FixProofs2 FixProofs3.
Import Order.POrderTheory GRing.Theory Num.Theory.
Set Implicit Arguments.
Unset Strict Implicit.
Unset Printing Implicit Defensive.
Local Open Scope ring_scope.

(** The parity of a site of a box. *)
Definition box_odd (a b c d : nat) (x : box a b c d) : bool := let: (x0, x1, x2, x3) := x in odd (x0 + x1 + x2 + x3).
Lemma odd_cyc k (i : 'I_k.+1) : odd k -> odd (cyc_up i) = ~~ odd i.
Proof. by move=> ok; rewrite /cyc_up inordK ?ltn_pmod // odd_mod /= ?ok. Qed.
Lemma box_bipartite a b c d : odd a -> odd b -> odd c -> odd d -> bipartite (L := box a b c d) (@box_odd a b c d).
Proof.
move=> oa ob oc od [[|[|[|[|//]]]] h] [[[x0 x1] x2] x3]; rewrite /= !oddD odd_cyc //;
  by case: (odd x0); case: (odd x1); case: (odd x2); case: (odd x3).
Qed.

Section Diagonal.
Variable C : numClosedFieldType.
Variable n : nat.
Notation GaugeGroup := 'M[C]_n.
Variable eig : GaugeGroup -> GaugeGroup * 'rV[C]_n.
Hypothesis He : good_hermitian_eig eig.

Definition ph (z : C) : C := z / `|z|.
Lemma ph_conj (z : C) : z != 0 -> (ph z)^* * z = `|z|.
Proof.
move=> nz; rewrite /ph rmorphM fmorphV /= conj_normC mulrAC [_^* * _]mulrC -normCK expr2 mulfK //.
by rewrite normr_eq0.
Qed.
Lemma ph_norm (z : C) : z != 0 -> ph `|z| = 1.
Proof. by move=> nz; rewrite /ph normr_id divff // normr_eq0. Qed.
Lemma ph1 : ph 1 = 1.
Proof. by rewrite /ph normr1 divr1. Qed.

Lemma polar_diag (q : 'rV[C]_n) : (forall i, q ord0 i != 0) -> polar eig (diag_mx q) = Some (diag_mx (map_mx ph q)).
Proof.
move=> nz; rewrite /polar.
set A := htrans (diag_mx q) *m diag_mx q.
have eA : A = diag_mx (\row_i (`|q ord0 i| ^+ 2)).
  by rewrite /A htrans_diag diag_mul; congr diag_mx; apply/rowP=> i; rewrite !mxE normCKC.
have := He (gram_hermitian (diag_mx q)); rewrite -/A; case: (eig A) => m lam /= d.
have dA : \det A = \prod_i lam ord0 i.
  rewrite (decomposes_rec d) !det_mulmx mulrC mulrA -det_mulmx; case: d => u _.
  by rewrite unitary_l // det1 mul1r det_diag.
have nzl i : lam ord0 i != 0.
  have : \det A != 0.
    rewrite eA det_diag; apply/prodf_neq0 => j _; rewrite !mxE expf_neq0 // normr_eq0; exact: nz.
  by rewrite dA => /prodf_neq0 /(_ i isT).
case: existsP => [[i]|_]; first by rewrite (negbTE (nzl i)).
have d1 : decomposes A 1%:M (\row_i (`|q ord0 i| ^+ 2)).
  by split; [exact: unitary1|rewrite mulmx1 mul1mx].
congr Some; rewrite -2!mulmxA (mulmxA m) (decomposes_unique (fun z => 1 / sqrtC z) d d1) mul1mx htrans1 mulmx1 diag_mul.
congr diag_mx; apply/rowP=> i; rewrite !mxE; by rewrite sqrCK ?normr_ge0 // mul1r.
Qed.

Definition touched (r : seq ('I_n * 'I_n)) (a : 'I_n) : bool := has (fun kl : 'I_n * 'I_n => (a == kl.1) || (a == kl.2)) r.
Variable q : 'rV[C]_n.
Hypothesis nz : forall i, q ord0 i != 0.
Definition t_of (T : 'I_n -> bool) : GaugeGroup := diag_mx (\row_a if T a then (ph (q ord0 a))^* else 1).
Definition s_of (T : 'I_n -> bool) : GaugeGroup := diag_mx (\row_a if T a then `|q ord0 a| else q ord0 a).
Lemma t_of_ext T T' : T =1 T' -> t_of T = t_of T'.
Proof. by move=> e; congr diag_mx; apply/rowP=> a; rewrite !mxE e. Qed.
Lemma s_of_ext T T' : T =1 T' -> s_of T = s_of T'.
Proof. by move=> e; congr diag_mx; apply/rowP=> a; rewrite !mxE e. Qed.

Lemma pair_diag T (k l : 'I_n) : pair_step eig (Some (t_of T, s_of T)) (k, l) =
  Some (t_of (fun a => T a || ((a == k) || (a == l))), s_of (fun a => T a || ((a == k) || (a == l)))).
Proof.
rewrite /=.
pose v : 'rV[C]_n := \row_a if (a == k) || (a == l) then (if T a then `|q ord0 a| else q ord0 a) else 1.
have eQ : sub_block (s_of T) k l = diag_mx v.
  apply/matrixP=> a b; rewrite !mxE; case: (altP (a =P b)) => [->|ne].
    by rewrite andbb; case: ifP; rewrite ?mulr1n.
  by rewrite !mulr0n; case: ifP.
have nv i : v ord0 i != 0.
  by rewrite mxE; case: ifP => _; rewrite ?oner_eq0 //; case: ifP => _; rewrite ?normr_eq0; exact: nz.
rewrite eQ polar_diag //=.
have hv : htrans (diag_mx (map_mx ph v)) *m diag_mx (map_mx ph v) = 1%:M :> GaugeGroup.
  rewrite htrans_diag diag_mul (_ : \row_i _ = const_mx 1) ?diag_const_mx //.
  apply/rowP=> i; rewrite !mxE -normCKC /ph; move: (nv i); rewrite mxE => h.
  by rewrite normrM normfV normr_id divff ?expr1n // normr_eq0.
rewrite hv mxtrace1 subrr normr0 lt_gtF ?invr_gt0 ?exprn_gt0 ?ltr0n //.
rewrite htrans_diag /t_of /s_of !diag_mul; congr (Some (diag_mx _, diag_mx _)); apply/rowP=> a; rewrite !mxE.
- case: (T a) => /=; case: ifP => _.
  + by rewrite ph_norm ?nz // rmorph1 mul1r.
  + by rewrite ph1 rmorph1 mul1r.
  + by rewrite mulr1.
  + by rewrite ph1 rmorph1 mul1r.
- case: (T a) => /=; case: ifP => _.
  + by rewrite ph_norm ?nz // rmorph1 mul1r.
  + by rewrite ph1 rmorph1 mul1r.
  + by rewrite ph_conj ?nz.
  + by rewrite ph1 rmorph1 mul1r.
Qed.
Lemma fold_diag r T : foldl (pair_step eig) (Some (t_of T, s_of T)) r =
  Some (t_of (fun a => T a || touched r a), s_of (fun a => T a || touched r a)).
Proof.
elim: r T => [|[k l] r IH] T.
  by congr (Some (_, _)); [apply: t_of_ext|apply: s_of_ext] => a; rewrite orbF.
rewrite -[foldl _ _ _]/(foldl (pair_step eig) (pair_step eig (Some (t_of T, s_of T)) (k, l)) r) pair_diag IH.
by congr (Some (_, _)); [apply: t_of_ext|apply: s_of_ext] => a; rewrite -orbA.
Qed.
Lemma touched_pairs (a : 'I_n) : (1 < n)%N -> touched (@pairs n) a.
Proof.
move=> n1; have [b nb] : exists b : 'I_n, b != a.
  case: (altP (a =P Ordinal n1)) => [->|ne]; last by exists (Ordinal n1); rewrite eq_sym.
  by exists (Ordinal (ltnW n1)).
apply/hasP; have mem (k l : 'I_n) : (k < l)%N -> (k, l) \in @pairs n.
  by move=> h; rewrite mem_filter h /=; apply/allpairsP; exists (k, l); split; rewrite ?mem_enum.
case: (ltngtP a b) => h; [exists (a, b)|exists (b, a)|]; rewrite /= ?eqxx ?orbT ?mem //.
by case/eqP: nb; exact: val_inj.
Qed.
Lemma relax_diag : (2 < n)%N -> relax eig (diag_mx q) = Some (diag_mx (map_mx (fun z => (ph z)^*) q)).
Proof.
move=> n2; rewrite /relax gtn_eqF //.
have e1 : 1%:M = t_of xpred0 :> GaugeGroup.
  by rewrite /t_of -diag_const_mx; congr diag_mx; apply/rowP=> a; rewrite !mxE.
have e2 : diag_mx q = s_of xpred0 by congr diag_mx; apply/rowP=> a; rewrite !mxE.
rewrite {1}e1 {1}e2 fold_diag /=; congr (Some (diag_mx _)); apply/rowP=> a; rewrite !mxE.
by rewrite touched_pairs // ltnW.
Qed.
End Diagonal.

Section Witness.
Variable C : numClosedFieldType.
Variable eig : 'M[C]_3 -> 'M[C]_3 * 'rV[C]_3.
Hypothesis He : good_hermitian_eig eig.
Let L := box 1 1 1 1.
Let par : L -> bool := @box_odd 1 1 1 1.
Local Notation i0 := (@Ordinal 3 0 isT).
Local Notation i1 := (@Ordinal 3 1 isT).
Local Notation i2 := (@Ordinal 3 2 isT).

(** A number of modulus one: (3 + 4i)/5. *)
Definition cc : C := (3%:R + 4%:R * 'i) / 5%:R.
Lemma cc_conj : cc^* = (3%:R - 4%:R * 'i) / 5%:R.
Proof. by rewrite /cc rmorphM fmorphV rmorphD rmorphM !rmorph_nat conjCi mulrN. Qed.
Lemma five : (5%:R : C) != 0. Proof. by rewrite pnatr_eq0. Qed.
Lemma cc_unit : cc * cc^* = 1.
Proof.
rewrite cc_conj /cc mulrACA -invfM [(_ + _) * _]mulrC -subr_sqr exprMn sqrCi mulrN1 opprK -!natrX -natrD -natrM divff // pnatr_eq0 //.
Qed.
Lemma cc_sum : cc + cc^* = 6%:R / 5%:R.
Proof. by rewrite cc_conj /cc -mulrDl addrACA subrr addr0 -natrD. Qed.
Lemma cc_norm : `|cc| = 1.
Proof. by apply/eqP; rewrite -(@eqr_expn2 _ 2) ?normr_ge0 ?ler01 // normCK cc_unit expr1n. Qed.
Lemma cc_re : 'Re cc = 3%:R / 5%:R.
Proof. by rewrite ReE cc_sum mulrAC (natrM _ 3 2) mulfK ?pnatr_eq0. Qed.
Definition dd : C := - (cc^* ^+ 2).
Lemma dd_conj : dd^* = - cc ^+ 2.
Proof. by rewrite /dd rmorphN rmorphX /= conjCK. Qed.
Lemma dd_unit : dd * dd^* = 1.
Proof. by rewrite dd_conj /dd mulrNN -exprMn mulrC cc_unit expr1n. Qed.
Lemma dd_sum : dd + dd^* = 14%:R / 25%:R.
Proof.
rewrite dd_conj /dd -opprD.
have -> : cc^* ^+ 2 + cc ^+ 2 = (cc + cc^*) ^+ 2 - 2%:R.
  by rewrite sqrrD cc_unit addrAC addrK addrC.
rewrite cc_sum opprB exprMn exprVn -!natrX.
have n25 : (25%:R : C) != 0 by rewrite pnatr_eq0.
by rewrite -[2%:R](mulfK n25) -mulrBl -natrM -natrB.
Qed.
Lemma dd_norm : `|dd| = 1.
Proof. by rewrite /dd normrN normrX norm_conjC cc_norm expr1n. Qed.

(** The links: the identity on even sites, B on odd ones. *)
Definition bv : 'rV[C]_3 := \row_i if i == i2 then (dd^*) ^+ 2 else (cc^*) ^+ 2.
Definition Uw : gauge C 3 L := fun x _ => if par x then diag_mx bv else 1%:M.
Definition qv : 'rV[C]_3 := \row_i if i == i2 then (56%:R / 25%:R) * dd else (24%:R / 5%:R) * cc.
Lemma sum3 (F : 'I_3 -> C) : \sum_i F i = F i0 + F i1 + F i2.
Proof.
rewrite !big_ord_recl big_ord0 addr0 addrA; congr (F _ + F _ + F _); exact: val_inj.
Qed.
Lemma prod3 (F : 'I_3 -> C) : \prod_i F i = F i0 * F i1 * F i2.
Proof.
rewrite !big_ord_recl big_ord0 mulr1 mulrA; congr (F _ * F _ * F _); exact: val_inj.
Qed.
Lemma Uw_su x mu : special_unitary (Uw x mu).
Proof.
rewrite /Uw; case: ifP => _; last exact: su1.
split.
  apply: unitary_of_l; rewrite htrans_diag diag_mul (_ : \row_i _ = const_mx 1) ?diag_const_mx //.
  apply/rowP=> i; rewrite !mxE; case: ifP => _; rewrite rmorphX /= conjCK -exprMn ?cc_unit ?dd_unit expr1n //.
rewrite det_diag prod3 !mxE /= dd_conj sqrrN -exprMn -!exprMn.
by rewrite -expr2 -exprMn mulrC cc_unit !expr1n.
Qed.
Lemma staple_w x : ~~ par x -> fix_staple Uw x = diag_mx qv.
Proof.
move=> ex.
have at_ mu : Uw x mu + htrans (Uw (sdn mu x) mu) = diag_mx (\row_i (1 + (bv ord0 i)^*)).
  rewrite /Uw (negbTE ex).
  have -> : par (sdn mu x).
    have := @box_bipartite 1 1 1 1 isT isT isT isT mu (sdn mu x).
    by rewrite sdnK -/par; move: ex; rewrite /par; case: (box_odd _) => //; case: (box_odd _).
  rewrite htrans_diag -diag_const_mx -raddfD; congr diag_mx; by apply/rowP=> i; rewrite !mxE.
rewrite /fix_staple (eq_bigr (fun _ => diag_mx (\row_i (1 + (bv ord0 i)^*)))) => [|mu _]; last exact: at_.
rewrite sumr_const card_ord -raddfMn; congr diag_mx; apply/rowP=> i; rewrite !mxE.
have g (z k : C) : z * z^* = 1 -> z + z^* = k -> 1 + z ^+ 2 = k * z.
  by move=> u <-; rewrite mulrDl [z^* * z]mulrC u addrC expr2.
case: ifP => _; rewrite rmorphX /= conjCK.
- by rewrite (g dd _ dd_unit dd_sum) -!mulrDl -!natrD.
- by rewrite (g cc _ cc_unit cc_sum) -!mulrDl -!natrD.
Qed.
Lemma ratio_gt0 (a b : nat) : (0 < a)%N -> (0 < b)%N -> 0 < (a%:R / b%:R : C).
Proof. by move=> ha hb; rewrite divr_gt0 ?ltr0n. Qed.
Lemma norm_ratio (a b : nat) (z : C) : (0 < a)%N -> (0 < b)%N -> `|z| = 1 -> `|a%:R / b%:R * z| = a%:R / b%:R.
Proof. by move=> ha hb h; rewrite normrM h mulr1 gtr0_norm // ratio_gt0. Qed.
Lemma qv_nz i : qv ord0 i != 0.
Proof.
rewrite mxE; case: ifP => _; rewrite -normr_gt0 norm_ratio ?ratio_gt0 //; [exact: dd_norm|exact: cc_norm].
Qed.
Definition gw : 'M[C]_3 := diag_mx (map_mx (fun z => (ph z)^*) qv).
Lemma gw_det : \det gw = -1.
Proof.
rewrite /gw det_diag prod3 !mxE /= /ph !norm_ratio ?cc_norm ?dd_norm //.
have k (a b : nat) (z : C) : (0 < a)%N -> (0 < b)%N -> (a%:R / b%:R * z) / (a%:R / b%:R) = z.
  by move=> ha hb; rewrite mulrC mulKf // lt0r_neq0 // ratio_gt0.
by rewrite !k // dd_conj mulrN -expr2 -exprMn mulrC cc_unit expr1n.
Qed.
Lemma relaxation_w : exists g, relaxation par eig Uw 0 = Some g /\ forall x, g x = if par x then 1%:M else gw.
Proof.
rewrite /relaxation.
have e x : relax_site par eig Uw 0 x = Some (if par x then 1%:M else gw).
  rewrite /relax_site; case px : (par x) => //=; rewrite staple_w ?px //.
  by rewrite (relax_diag He qv_nz).
case: forallP => [_|h]; last by case: h => x; rewrite e.
exists (fun x : L => odflt 1%:M (relax_site par eig Uw 0 x)); split=> // x; by rewrite e.
Qed.
Lemma gw_staple : gw *m diag_mx qv = diag_mx (map_mx (fun z => `|z|) qv).
Proof.
rewrite /gw diag_mul; congr diag_mx; apply/rowP=> i; rewrite [LHS]mxE [map_mx _ _ _ _]mxE [RHS]mxE ph_conj //.
exact: qv_nz.
Qed.
Lemma retr_lt : retr (diag_mx qv) < retr (gw *m diag_mx qv).
Proof.
rewrite gw_staple /retr !mxtrace_diag !raddf_sum /=; rewrite !sum3 !mxE /=.
rewrite !norm_ratio ?cc_norm ?dd_norm //.
have r (a b : nat) (z : C) : 'Re (a%:R / b%:R * z) = a%:R / b%:R * 'Re z.
  by rewrite ReMl // rpredM ?realV ?realn.
have r1 (a b : nat) : 'Re (a%:R / b%:R : C) = a%:R / b%:R by apply/Creal_ReP; rewrite rpredM ?realV ?realn.
rewrite !r !r1 ltr_le_add ?ltr_add //.
- by rewrite gtr_pmulr ?ratio_gt0 // cc_re ltr_pdivr_mulr ?ltr0n // mul1r ltr_nat.
- by rewrite gtr_pmulr ?ratio_gt0 // cc_re ltr_pdivr_mulr ?ltr0n // mul1r ltr_nat.
- by rewrite ger_pmulr ?ratio_gt0 // -dd_norm; exact: re_le_norm.
Qed.
Lemma functional_w g : (forall x, g x = if par x then 1%:M else gw) -> functional Uw < functional (gauge_transform g Uw).
Proof.
move=> eg.
have bi mu x : ~~ par (sup mu x) = ~~ ~~ par x.
  by rewrite /par (@box_bipartite 1 1 1 1 isT isT isT isT mu x).
have -> : functional Uw = functional (gauge_transform (fun _ => 1%:M) Uw).
  by apply: functional_ext => x mu; rewrite /gauge_transform mul1mx htrans1 mulmx1.
rewrite (@functional_local _ _ _ Uw g (fun x => ~~ par x)) //; last by move=> x; rewrite negbK eg => ->.
rewrite (@functional_local _ _ _ Uw _ (fun x => ~~ par x)) //.
rewrite (eq_bigr (fun _ => retr (diag_mx qv))) => [|x ex]; last by rewrite mul1mx staple_w.
rewrite [X in _ < X](eq_bigr (fun _ => retr (gw *m diag_mx qv))) => [|x ex]; last by rewrite eg (negbTE ex) staple_w.
rewrite !sumr_const ltr_pmuln2r ?retr_lt //; apply/card_gt0P; exists ((ord0, ord0, ord0, ord0) : L).
by [].
Qed.

Lemma execute_w gexp rexp p g0 : exists V,
  execute par gexp rexp eig p 1 0 1 [:: [::]] [::] g0 Uw = Some V /\ forall x mu, ~ special_unitary (V x mu).
Proof.
have [g [eg hg]] := relaxation_w; have lt := functional_w hg.
exists (gauge_transform g Uw); split.
  rewrite /execute /= /gauge_fixing /= eg subr_gt0 lt /= ltnn andbF /=.
  by rewrite /choose /=; case: ifP.
move=> x mu [_]; rewrite /gauge_transform !det_mulmx det_htrans (proj2 (Uw_su x mu)) mulr1 !hg.
have := @box_bipartite 1 1 1 1 isT isT isT isT mu x; rewrite -/par /= => ->.
have n1 : (-1 : C) != 1 by rewrite -subr_eq0 -opprD oppr_eq0 -[1 + 1]/(2%:R) pnatr_eq0.
case: (par x) => /=; rewrite gw_det det1 ?rmorphN ?rmorph1 ?mulr1 ?mul1r => e; by case/eqP: n1.
Qed.
End Witness.
