From mathcomp Require Import all_ssreflect all_algebra.
From Verif Require Import MgModel MgSpec MgProofs.
Import GRing.Theory Num.Theory.
Set Implicit Arguments.
Unset Strict Implicit.
Unset Printing Implicit Defensive.
Local Open Scope ring_scope.

Section Mg.
Variable C : numClosedFieldType.
Variable n : nat.
Variables P S T : finType.
Variable nb : nat.
Variable d : nat.
Variable blk : P -> S -> 'I_nb.
Variable thr : P -> S -> T.
Local Notation X := (index n P S).
Local Notation field := (field C n P S).
Local Notation basis := (basis C n P S).
Local Notation coarse := (coarse C P).
Local Notation K := [eqType of P * 'I_nb].
Implicit Types (u v f : field) (b : basis) (c : coarse) (p : P).

Local Notation block_of := (block_of (n := n) blk).

Lemma sum_index (F : X -> C) : \sum_x F x = \sum_p \sum_s \sum_(mu < 4) \sum_(a < n) F (p, s, mu, a).
Proof.
symmetry; transitivity (\sum_p \sum_s \sum_(y : 'I_4 * 'I_n) F (p, s, y.1, y.2)).
  by apply: eq_bigr => p _; apply: eq_bigr => s _; rewrite pair_bigA.
rewrite pair_bigA /= pair_bigA /=.
rewrite (reindex (fun x : X => ((x.1.1.1, x.1.1.2), (x.1.2, x.2)))) /=; last first.
  by exists (fun y => (y.1.1, y.1.2, y.2.1, y.2.2)) => [[[[p s] mu] a] _|[[p s] [mu a]] _].
by apply: eq_bigr => -[[[p s] mu] a] _.
Qed.

Lemma dotE u v : dot u v = inner u v.
Proof. by rewrite /inner sum_index. Qed.

Lemma inner_onE u v p k : inner_on block_of (p, k) u v =
  \sum_(s | blk p s == k) \sum_(mu < 4) \sum_(a < n) (u (p, s, mu, a))^* * v (p, s, mu, a).
Proof.
rewrite /inner_on big_mkcond sum_index (bigD1 p) //= [X in _ + X]big1 => [|q nq]; last first.
  apply: big1 => s _; apply: big1 => mu _; apply: big1 => a _.
  by rewrite /block_of /= xpair_eqE (negbTE nq).
rewrite addr0 [RHS]big_mkcond /=; apply: eq_bigr => s _.
rewrite /block_of /= xpair_eqE eqxx /=; case: ifP => // _.
by rewrite big1 // => mu _; rewrite big1.
Qed.

Lemma sum_threads (F : S -> C) p (k : 'I_nb) :
  \sum_t \sum_(s | (blk p s == k) && (thr p s == t)) F s = \sum_(s | blk p s == k) F s.
Proof. by rewrite (partition_big (thr p) predT). Qed.

Lemma block_dotE u v p k : block_dot blk thr u v p k = inner_on block_of (p, k) u v.
Proof. by rewrite /block_dot /partial_dot sum_threads inner_onE. Qed.

Lemma partial_ge0 u p k t : 0 <= partial_dot blk thr u u p k t.
Proof.
apply: sumr_ge0 => s _; apply: sumr_ge0 => mu _; apply: sumr_ge0 => a _.
by rewrite mulrC mul_conjC_ge0.
Qed.
Lemma normE u p k : \sum_t 'Re (partial_dot blk thr u u p k t) = inner_on block_of (p, k) u u.
Proof.
rewrite -block_dotE; apply: eq_bigr => t _; apply/Creal_ReP.
exact: ger0_real (partial_ge0 u p k t).
Qed.
Lemma global_normE u : 'Re (dot u u) = inner u u.
Proof. by rewrite dotE; apply/Creal_ReP; apply: ger0_real; exact: inner_ge0. Qed.

(** ** Restriction and prolongation *)
Lemma restrictE b f p i (j : 'I_nb) : (i < d)%N ->
  restrict d blk thr b f p (i * nb + j)%N = inner_on block_of (p, j) (b i) f.
Proof.
move=> hi; rewrite /restrict (bigD1 (Ordinal hi)) //= [X in _ + X]big1 ?addr0 => [|l nl]; last first.
  apply: big1 => t _; apply: big1 => k _; case: eqP => // e; case/negP: nl; apply/eqP/val_inj => /=.
  have hb : (0 < nb)%N by case: (nb) j {e} => [[]|].
  have := congr1 (fun m => m %/ nb)%N e; rewrite !divnMDl // !divn_small ?addn0 //.
rewrite -block_dotE /block_dot; apply: eq_bigr => t _; rewrite (bigD1 j) //= eqxx big1 ?addr0 // => k nk.
by rewrite eqn_add2l; case: eqP => // e; case/eqP: nk; apply: val_inj; rewrite /= e.
Qed.

Lemma prolongE b c (x : X) : prolong d blk b c x = \sum_(i < d) c x.1.1.1 (nb * i + blk x.1.1.1 x.1.1.2)%N * b i x.
Proof. by rewrite ffunE; case: x => [[[p s] mu] a]. Qed.

Local Notation coarse_inner := (coarse_inner (C := C) nb d).

Lemma sum_flat (F : nat -> C) : \sum_(m < d * nb) F m = \sum_(i < d) \sum_(j < nb) F (i * nb + j)%N.
Proof.
elim: d => [|e IH]; first by rewrite mul0n !big_ord0.
rewrite big_ord_recr /= -IH.
transitivity (\sum_(m < e * nb + nb) F m); first by rewrite mulSnr.
rewrite big_split_ord /=; congr (_ + _).
Qed.

Lemma adjoint b c f : coarse_inner c (restrict d blk thr b f) = inner (prolong d blk b c) f.
Proof.
rewrite /coarse_inner /inner sum_index; apply: eq_bigr => p _; rewrite (sum_flat (fun m => (c p m)^* * restrict d blk thr b f p m)).
transitivity (\sum_(i < d) \sum_s (c p (i * nb + blk p s)%N)^* *
   \sum_(mu < 4) \sum_(a < n) (b i (p, s, mu, a))^* * f (p, s, mu, a)).
  apply: eq_bigr => i _; rewrite [RHS](partition_big (blk p) predT) //=; apply: eq_bigr => j _.
  rewrite restrictE // inner_onE mulr_sumr; apply: eq_bigr => s /eqP e; by rewrite e.
rewrite exchange_big /=; apply: eq_bigr => s _.
transitivity (\sum_(mu < 4) \sum_(a < n) \sum_(i < d) (c p (i * nb + blk p s)%N)^* * ((b i (p, s, mu, a))^* * f (p, s, mu, a))).
  transitivity (\sum_(i < d) \sum_(mu < 4) \sum_(a < n) (c p (i * nb + blk p s)%N)^* * ((b i (p, s, mu, a))^* * f (p, s, mu, a))).
    by apply: eq_bigr => i _; rewrite mulr_sumr; apply: eq_bigr => mu _; rewrite mulr_sumr.
  by rewrite exchange_big /=; apply: eq_bigr => mu _; rewrite exchange_big.
apply: eq_bigr => mu _; apply: eq_bigr => a _; rewrite prolongE /= rmorph_sum mulr_suml; apply: eq_bigr => i _.
by rewrite rmorphM mulrA mulnC.
Qed.

Lemma restrict_prolong b c p m : block_orthonormal block_of d (vecs b) -> (m < d * nb)%N ->
  restrict d blk thr b (prolong d blk b c) p m = c p m.
Proof.
move=> on hm; have hb : (0 < nb)%N by move: hm; case: (nb) => //; rewrite muln0.
have hi : (m %/ nb < d)%N by rewrite ltn_divLR.
pose j := Ordinal (ltn_pmod m hb).
have em : m = (m %/ nb * nb + j)%N by rewrite /= -divn_eq.
rewrite {1}em restrictE //.
transitivity (\sum_(i < d) c p (nb * i + j)%N * inner_on block_of (p, j) (b (m %/ nb)%N) (b i)).
  rewrite /inner_on; under [RHS]eq_bigr do rewrite mulr_sumr.
  rewrite exchange_big /=; apply: eq_bigr => x /eqP; rewrite /block_of => -[e1 e2].
  rewrite prolongE mulr_sumr; apply: eq_bigr => i _; rewrite e2 e1; by rewrite mulrCA.
rewrite (bigD1 (Ordinal hi)) //= (on (p, j) _ _ hi hi) eqxx mulr1 mulnC -em big1 ?addr0 // => i ni.
rewrite (on (p, j) _ _ hi (ltn_ord i)); case: eqP => [e|_]; last by rewrite mulr0.
by case/negP: ni; apply/eqP/val_inj.
Qed.
End Mg.
