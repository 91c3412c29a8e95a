(** At a maximum of the Landau functional the divergence vanishes. *)
From Coq Require Import Ring.
From mathcomp Require Import all_ssreflect all_algebra.
From Verif Require Import GaugeModel GaugeSpec GaugeProofs GaugeProofs2 GaugeProofs3 FixModel FixSpec FixProofs3 LandauSpec UpdModel UpdProofs UpdProofs2 LandauProofs.
Import GRing.Theory Num.Theory Order.POrderTheory.
Set Implicit Arguments.
Unset Strict Implicit.
Unset Printing Implicit Defensive.
Local Open Scope ring_scope.

Section Maximum.
Variable C : numClosedFieldType.
Add Ring Clandau2 : (Crth C).
Variable n : nat.
Variable L : lattice.
Notation GG := 'M[C]_n.+1.
Implicit Types (U : gauge C n.+1 L) (A B M h W : GG).

Lemma stationary (X R : C) : X \is Num.real -> R \is Num.real -> (forall t, t \is Num.real -> t * X - t * t * R <= 0) -> X = 0.
Proof.
move=> rX rR H; have rm : `|R| + 1 \is Num.real by rewrite rpredD ?normr_real ?rpred1.
have m0 : 0 < `|R| + 1 by rewrite addrC ltr_spaddl ?ltr01.
have := H (X / (`|R| + 1)) (rpred_div rX rm).
have -> : X / (`|R| + 1) * X - X / (`|R| + 1) * (X / (`|R| + 1)) * R = (X ^+ 2) * ((`|R| + 1 - R) / (`|R| + 1) ^+ 2).
  rewrite expr2; have e : (`|R| + 1)^-1 = (`|R| + 1) / (`|R| + 1) ^+ 2 by rewrite expr2 invfM mulrA divff ?mul1r // lt0r_neq0.
  rewrite expr2 invfM.
  rewrite {1}e expr2 invfM; move: (`|R|) ((`|R| + 1)^-1) => a v; cring_fold C; ring.
have p : 0 < (`|R| + 1 - R) / (`|R| + 1) ^+ 2.
  rewrite divr_gt0 ?exprn_gt0 // addrAC ltr_spaddr ?ltr01 // subr_ge0; exact: real_ler_norm.
rewrite pmulr_lle0 // => le.
have : X ^+ 2 == 0 by rewrite eq_le le -realEsqr.
by rewrite expf_eq0 /= => /eqP.
Qed.

(** Turning the frame of one site. *)
Definition at_site (x0 : L) h : L -> GG := fun x => if x == x0 then h else 1%:M.
Definition around U x0 : GG := \sum_(mu < 4 | sup mu x0 != x0) (U x0 mu + htrans (U (sdn mu x0) mu)).
Lemma one_site U x0 h : unitary h -> landau (turned (at_site x0 h) U) = landau U + retr ((h - 1%:M) *m around U x0).
Proof.
move=> uh; rewrite -!landauE /functional exchange_big [X in _ = X + _]exchange_big /=.
rewrite /around mulmx_sumr retr_sum [X in _ = _ + X]big_mkcond -big_split; apply: eq_bigr => mu _ /=.
have inj := can_inj (supK (l:=L) mu).
case: eqP => [e|/eqP e].
  rewrite addr0; apply: eq_bigr => x _; rewrite /turned /at_site -{2}e (inj_eq inj) daggerE.
  by case: eqP => [_|_]; rewrite ?htrans1 ?mul1mx ?mulmx1 // retrC mulmxA unitary_l // mul1mx.
have e' : sdn mu x0 != x0 by apply: contra e => /eqP h'; rewrite -{1}h' sdnK.
rewrite (bigD1 x0) // (bigD1 (sdn mu x0)) //= [X in _ = X + _](bigD1 x0) // [X in _ = _ + X + _](bigD1 (sdn mu x0)) //=.
have -> : turned (at_site x0 h) U x0 mu = h *m U x0 mu by rewrite /turned /at_site eqxx (negbTE e) daggerE htrans1 mulmx1.
have -> : retr (turned (at_site x0 h) U (sdn mu x0) mu) = retr (h *m htrans (U (sdn mu x0) mu)).
  by rewrite /turned /at_site (negbTE e') sdnK eqxx mul1mx daggerE -retr_htrans htransM htransK.
have -> : \sum_(i | (i != x0) && (i != sdn mu x0)) retr (turned (at_site x0 h) U i mu) = \sum_(i | (i != x0) && (i != sdn mu x0)) retr (U i mu).
  apply: eq_bigr => i /andP [i1 i2]; rewrite /turned /at_site (negbTE i1).
  have -> : (sup mu i == x0) = false by apply/negbTE; apply: contra i2 => /eqP <-; rewrite supK.
  by rewrite mul1mx daggerE htrans1 mulmx1.
rewrite mulmxBl mul1mx retrB mulmxDr !retrD retr_htrans.
move: (\sum_(i | _) _) (retr (h *m U x0 mu)) (retr (h *m htrans _)) (retr (U x0 mu)) (retr (U (sdn mu x0) mu)) => a b c d f; cring_fold C; ring.
Qed.

Lemma tr_mix (k l : 'I_n.+1) s W : k != l ->
  \tr (mix k l s W) - \tr W = (s ord0 ord0 - 1) * W k k + s ord0 ord_max * W l k + s ord_max ord0 * W k l + (s ord_max ord_max - 1) * W l l.
Proof.
move=> kl; have lk : l != k by rewrite eq_sym.
rewrite /mxtrace (bigD1 k) // (bigD1 l) //= [X in _ - X](bigD1 k) // [X in _ - (_ + X)](bigD1 l) //= !mixE eqxx (negbTE lk) eqxx.
have -> : \sum_(i | (i != k) && (i != l)) mix k l s W i i = \sum_(i | (i != k) && (i != l)) W i i.
  by apply: eq_bigr => i /andP [i1 i2]; rewrite mixE (negbTE i1) (negbTE i2).
move: (\sum_(i | _) _) (W k k) (W l k) (W k l) (W l l) (s _ _) (s _ _) (s _ _) (s _ _) => *; cring_fold C; ring.
Qed.
Lemma copy_site U x0 h : special_unitary h -> copy_of (@special_unitary C n.+1) U (turned (at_site x0 h) U).
Proof. by move=> hh; exists (at_site x0 h); split=> // x; rewrite /at_site; case: eqP => _ //; exact: su1. Qed.

(** The three rotations of a pair of colours. *)
Lemma pair_bound U x0 (k l : 'I_n.+1) (d a b c : C) : k != l -> maximal U ->
  d \is Num.real -> a \is Num.real -> b \is Num.real -> c \is Num.real -> a * a + b * b + c * c + d * d = 1 ->
  forall W, W = around U x0 ->
  (d - 1) * ('Re (W k k) + 'Re (W l l)) - a * ('Im (W k k) - 'Im (W l l)) + c * ('Re (W l k) - 'Re (W k l)) - b * ('Im (W l k) + 'Im (W k l)) <= 0.
Proof.
move=> kl mx rd ra rb rc det W eW.
set s := mat2 (d + 'i * a) (c + 'i * b) (- c + 'i * b) (d - 'i * a).
have ss : special_unitary s by apply: quat_su; [exact: mat2_quat|rewrite mat2_det].
have hh : special_unitary (mix k l s 1%:M : GG) by apply: mix_su => //; exact: su1.
have := mx _ (copy_site U x0 hh); rewrite one_site; last by case: hh.
rewrite -eW ger_addl mulmxBl mul1mx mix_mul mul1mx retrB /retr -raddfB tr_mix //.
rewrite !mat2E !raddfD /=.
have -> : 'Re ((d + 'i * a - 1) * W k k) = (d - 1) * 'Re (W k k) - a * 'Im (W k k).
  have -> : d + 'i * a - 1 = (d - 1) + 'i * a by rewrite addrAC.
  by rewrite mulrDl raddfD /= ReMl ?rpredB ?rpred1 // -mulrA ReMil (ImMl ra).
have -> : 'Re ((d - 'i * a - 1) * W l l) = (d - 1) * 'Re (W l l) + a * 'Im (W l l).
  have -> : d - 'i * a - 1 = (d - 1) - 'i * a by rewrite addrAC.
  by rewrite mulrBl raddfB /= ReMl ?rpredB ?rpred1 // -mulrA ReMil (ImMl ra) opprK.
have -> : 'Re ((c + 'i * b) * W l k) = c * 'Re (W l k) - b * 'Im (W l k).
  by rewrite mulrDl raddfD /= ReMl // -mulrA ReMil (ImMl rb).
have -> : 'Re ((- c + 'i * b) * W k l) = - c * 'Re (W k l) - b * 'Im (W k l).
  by rewrite mulrDl raddfD /= ReMl ?rpredN // -mulrA ReMil (ImMl rb).
move=> le; congr (_ <= 0): le.
move: ('Re _) ('Re _) ('Re _) ('Re _) ('Im _) ('Im _) ('Im _) ('Im _) => *; cring_fold C; ring.
Qed.
Lemma circle (t : C) : t \is Num.real -> let u := (1 + t * t)^-1 in
  0 < u /\ ((1 - t * t) * u) * ((1 - t * t) * u) + ((t + t) * u) * ((t + t) * u) = 1 /\ (1 - t * t) * u - 1 = - (t * t + t * t) * u.
Proof.
move=> rt u; have q : 0 < 1 + t * t by rewrite ltr_spaddl ?ltr01 // -expr2 -realEsqr.
have e : u * (1 + t * t) = 1 by rewrite mulVf // lt0r_neq0.
split; first by rewrite invr_gt0.
split; last by rewrite -{2}e; cring_fold C; ring.
have -> : (1 - t * t) * u * ((1 - t * t) * u) + (t + t) * u * ((t + t) * u) = (u * (1 + t * t)) * (u * (1 + t * t)) by cring_fold C; ring.
by rewrite e mulr1.
Qed.
Lemma half_le (t u X R : C) : 0 < u -> - (t * t + t * t) * u * R + (t + t) * u * X <= 0 -> t * X - t * t * R <= 0.
Proof.
move=> u0; have -> : - (t * t + t * t) * u * R + (t + t) * u * X = (u + u) * (t * X - t * t * R) by cring_fold C; ring.
by rewrite pmulr_rle0 // addr_gt0.
Qed.
Lemma pair_stationary U x0 (k l : 'I_n.+1) : k != l -> maximal U ->
  let W := around U x0 in 'Im (W k k) = 'Im (W l l) /\ W k l = (W l k)^*.
Proof.
move=> kl mx W.
have rR : 'Re (W k k) + 'Re (W l l) \is Num.real by rewrite rpredD ?Creal_Re.
have r0 : (0 : C) \is Num.real by rewrite rpred0.
have ru (t : C) : t \is Num.real -> (1 + t * t)^-1 \is Num.real by move=> rt; rewrite rpredV rpredD ?rpred1 ?rpredM.
have rd (t : C) : t \is Num.real -> (1 - t * t) * (1 + t * t)^-1 \is Num.real by move=> rt; rewrite rpredM ?ru // rpredB ?rpred1 ?rpredM.
have rs (t : C) : t \is Num.real -> (t + t) * (1 + t * t)^-1 \is Num.real by move=> rt; rewrite rpredM ?ru // rpredD.
have X1 : - ('Im (W k k) - 'Im (W l l)) = 0.
  apply: (stationary _ rR); first by rewrite rpredN rpredB ?Creal_Im.
  move=> t rt; have [u0 [c1 c2]] := circle rt.
  have dt : (t + t) * (1 + t * t)^-1 * ((t + t) * (1 + t * t)^-1) + 0 * 0 + 0 * 0 + (1 - t * t) * (1 + t * t)^-1 * ((1 - t * t) * (1 + t * t)^-1) = 1.
    by rewrite !mulr0 !addr0 addrC.
  have := pair_bound kl mx (rd _ rt) (rs _ rt) r0 r0 dt (erefl W).
  rewrite !mul0r subr0 addr0 c2 => le; apply: (half_le u0); by rewrite mulrN.
have X2 : 'Re (W l k) - 'Re (W k l) = 0.
  apply: (stationary _ rR); first by rewrite rpredB ?Creal_Re.
  move=> t rt; have [u0 [c1 c2]] := circle rt.
  have dt : 0 * 0 + 0 * 0 + (t + t) * (1 + t * t)^-1 * ((t + t) * (1 + t * t)^-1) + (1 - t * t) * (1 + t * t)^-1 * ((1 - t * t) * (1 + t * t)^-1) = 1.
    by rewrite !mulr0 !add0r addrC.
  have := pair_bound kl mx (rd _ rt) r0 r0 (rs _ rt) dt (erefl W).
  by rewrite !mul0r !subr0 c2 => le; apply: (half_le u0).
have X3 : - ('Im (W l k) + 'Im (W k l)) = 0.
  apply: (stationary _ rR); first by rewrite rpredN rpredD ?Creal_Im.
  move=> t rt; have [u0 [c1 c2]] := circle rt.
  have dt : 0 * 0 + (t + t) * (1 + t * t)^-1 * ((t + t) * (1 + t * t)^-1) + 0 * 0 + (1 - t * t) * (1 + t * t)^-1 * ((1 - t * t) * (1 + t * t)^-1) = 1.
    by rewrite !mulr0 !add0r addr0 addrC.
  have := pair_bound kl mx (rd _ rt) r0 (rs _ rt) r0 dt (erefl W).
  by rewrite !mul0r subr0 addr0 c2 => le; apply: (half_le u0); rewrite mulrN.
split; first by apply/eqP; rewrite -subr_eq0 -oppr_eq0 X1.
rewrite [W k l]Crect [in RHS](Crect (W l k)) rmorphD rmorphM conjCi !(conj_Creal (Creal_Re _)) !(conj_Creal (Creal_Im _)).
have -> : 'Re (W l k) = 'Re (W k l) by apply/eqP; rewrite -subr_eq0 X2.
have -> : 'Im (W l k) = - 'Im (W k l) by apply/eqP; rewrite -addr_eq0 -oppr_eq0 X3.
by rewrite mulrNN.
Qed.
Lemma potD A B : potential (A + B) = potential A + potential B.
Proof.
rewrite !potE.
have -> : ('Im (\tr (A + B)) / n.+1%:R)%:M = ('Im (\tr A) / n.+1%:R)%:M + ('Im (\tr B) / n.+1%:R)%:M :> GG.
  by rewrite mxtraceD (raddfD (Im_additive C)) mulrDl raddfD.
by rewrite htransD opprD addrACA scalerDr [RHS]addrACA opprD.
Qed.
Lemma potHN A : potential (htrans A) = - potential A.
Proof.
rewrite !potE htransK tr_htrans Im_conj mulNr.
have -> : (- ('Im (\tr A) / n.+1%:R))%:M = - ('Im (\tr A) / n.+1%:R)%:M :> GG by rewrite raddfN.
by rewrite opprK opprD opprK -scalerN opprB.
Qed.
Lemma pot0 : potential (0 : GG) = 0.
Proof. by rewrite potE htrans0 subr0 scaler0 mxtrace0 raddf0 mul0r raddf0 subr0. Qed.
Lemma div_around U x0 : div U x0 = potential (around U x0).
Proof.
rewrite /around (big_morph _ potD pot0) big_mkcond; apply: eq_bigr => mu _; rewrite !lieE.
case: eqP => [e|_]; last by rewrite potD potHN.
have -> : sdn mu x0 = x0 by rewrite -{1}e supK.
by rewrite subrr.
Qed.
Lemma max_div U : maximal U -> forall x, div U x = 0.
Proof.
move=> mx x; rewrite div_around potE; set W := around U x.
have d k l : 'Im (W k k) = 'Im (W l l).
  by case: (boolP (k == l)) => [/eqP -> //|kl]; have [] := pair_stationary x kl mx.
have t : 'Im (\tr W) / n.+1%:R = 'Im (W ord0 ord0).
  rewrite /mxtrace raddf_sum /=; have -> : \sum_(i < n.+1) 'Im (W i i) = \sum_(i < n.+1) 'Im (W ord0 ord0) by apply: eq_bigr => i _; exact: d.
  by rewrite sumr_const card_ord -mulr_natr mulfK // pnatr_eq0.
apply/matrixP => k l; rewrite t !mxE.
case: (boolP (k == l)) => [/eqP <-|kl]; first by rewrite LandauProofs.ImV (d k ord0) mulr1n subrr.
by have [_ ->] := pair_stationary x kl mx; rewrite subrr mulr0 mulr0n subrr.
Qed.
End Maximum.
