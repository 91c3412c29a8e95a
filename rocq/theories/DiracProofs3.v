(** multiplyAdd of the block and twisted operators. *)
From Coq Require Import ZArith.
From mathcomp Require Import all_ssreflect all_algebra.
From Verif Require Import GaugeModel GaugeSpec GaugeProofs GaugeProofs2 GaugeProofs3 LoopModel LoopGrid GammaModel DiracModel DiracSpec.
From Verif Require Import DiracProofs DiracProofs2.
Import GRing.Theory Num.Theory.
Set Implicit Arguments.
Unset Strict Implicit.
Unset Printing Implicit Defensive.
Local Open Scope ring_scope.

Section Proofs.
Variable C : numClosedFieldType.
Add Ring Cring3 : (Crth C).
Variable n : nat.
Variable L : lattice.
Notation field := (L -> 'I_4 -> 'I_n -> C) (only parsing).
Implicit Types (U : L -> 'I_4 -> 'M[C]_n) (v w : field) (x : L).
Ltac cringi := cring_fold C; ring [(cii C)].

(** The unrolled hopping of the block multiplyAdd is gamma5 times the hopping term on all sites. *)
Lemma block_hoppingE U v x a c : block_hopping U v x a c = sgn C a * hopping U v x a c.
Proof.
rewrite hoppingE sum4E /block_hopping /block_hop_up /block_hop_dn /sgn.
have E mu nu : mulv (U x mu) (v (sup mu x) nu) c = up U v x mu nu c by [].
have F mu nu : mulv (htrans (U (sdn mu x) mu)) (v (sdn mu x) nu) c = dn U v x mu nu c by [].
move: a; apply: ord4P => /=; rewrite !E !F /gact /=; cringi.
Qed.
Lemma block_addE blk k t g U v w alpha : feq (block_multiply_add blk k t g U v w alpha)
  (combine alpha (maybe5 g (fun x a c => (if blk x then dirac k U v x a c else v x a c) + 'i * t * g5 v x a c)) w).
Proof.
move=> x a c; rewrite /combine maybe5E /block_multiply_add /block_output_add /block_outside_add /dirac g5E.
case: (blk x); rewrite ?block_hoppingE /sgn /sg5 /mkc; case: g; move: a; apply: ord4P => /=;
  rewrite ?block_hoppingE /sgn /=; cringi.
Qed.
Definition closed_block (blk : L -> bool) := forall x mu, blk x -> blk (sup mu x) && blk (sdn mu x).
Lemma hopping_closed blk U v x a c : closed_block blk -> blk x -> hopping U (restrict blk v) x a c = hopping U v x a c.
Proof.
move=> H Hx; rewrite !hoppingE'; apply: eq_bigr => mu _; apply: eq_bigr => b _.
by rewrite dirac_block dirac_block'; case/andP: (H _ mu Hx) => -> ->.
Qed.
Lemma block_add_closed blk k t g U : closed_block blk ->
  multiply_add_law (block_multiply blk k t g U) (block_multiply_add blk k t g U).
Proof.
move=> H v w alpha x a c; rewrite block_addE /combine block_correct !maybe5E; congr (sg5 g a (_ + _) + _).
case Hx: (blk x) => //; rewrite /dirac (hopping_closed _ _ _ _ H Hx).
by rewrite /restrict Hx.
Qed.
(** A field that lives outside the block and in the first spinor component. *)
Definition outside (blk : L -> bool) : field := fun x a c => if blk x then 0 else (a == d0)%:R.
Lemma hopping_outside blk x c : hopping (fun _ _ => 1%:M) (outside blk) x d0 c
  = (\sum_mu ((~~ blk (sup mu x)) + (~~ blk (sdn mu x)))%N)%N%:R :> C.
Proof.
have F (A : 'M[C]_n) f : A = 1%:M -> mulv A f c = f c.
  move=> ->; rewrite /mulv (bigD1 c) //= !mxE eqxx mul1r big1 ?addr0 // => b nb.
  by rewrite !mxE eq_sym (negbTE nb) mul0r.
rewrite natr_sum hoppingE; apply: eq_bigr => mu _.
have E b : up (fun _ _ => 1%:M) (outside blk) x mu b c = (~~ blk (sup mu x))%:R * (b == d0)%:R.
  by rewrite /up F // /outside; case: (blk _); rewrite ?mul0r ?mul1r.
have G b : dn (fun _ _ => 1%:M) (outside blk) x mu b c = (~~ blk (sdn mu x))%:R * (b == d0)%:R.
  by rewrite /dn F ?htrans1 // /outside; case: (blk _); rewrite ?mul0r ?mul1r.
move: mu E G; apply: ord4P => E G; rewrite !E !G /gact /= !E !G /= ?mulr0 ?mulr1 ?oppr0 ?addr0 ?subr0 natrD //.
Qed.
Lemma closedP (blk : L -> bool) : (forall x, blk x -> (\sum_(mu < 4) ((~~ blk (sup mu x)) + (~~ blk (sdn mu x)))%N)%N = 0%N) ->
  closed_block blk.
Proof.
move=> H x mu Hx; have := H x Hx; rewrite (bigD1 mu) //=; by case: (blk (sup mu x)); case: (blk (sdn mu x)).
Qed.
Lemma block_add_iff blk k t g : k != 0 -> (0 < n)%N ->
  (forall U, multiply_add_law (block_multiply blk k t g U) (block_multiply_add blk k t g U)) <-> closed_block blk.
Proof.
move=> k0 n0; split; last by move=> H U; exact: block_add_closed.
move=> H; apply: closedP => x Hx.
have := H (fun _ _ => 1%:M) (outside blk) (outside blk) 0 x d0 (Ordinal n0).
rewrite block_addE /combine block_correct !maybe5E /sg5 andbF !mul0r !addr0 Hx /dirac.
have -> : hopping (fun _ _ => 1%:M) (restrict blk (outside blk)) x d0 (Ordinal n0) = 0 :> C.
  rewrite hoppingE' big1 // => mu _; rewrite big1 // => b _; rewrite dirac_block dirac_block' /up /dn /mulv /outside.
  have Z (y : L) (A : 'M[C]_n) : (if blk y then \sum_b0 A (Ordinal n0) b0 * (if blk y then 0 else (b == d0)%:R) else 0) = 0 :> C.
    by case: (blk y) => //; rewrite big1 // => e _; rewrite mulr0.
  by rewrite !Z !mulr0 addr0.
rewrite hopping_outside mulr0 subr0 /restrict Hx => /addIr /eqP; rewrite -subr_eq0 addrAC subrr add0r oppr_eq0.
by rewrite mulf_eq0 (negbTE k0) /= pnatr_eq0 => /eqP.
Qed.

(** The squared twisted operator. *)
Lemma square_twisted_add_refuted mul (mad : field -> field -> C -> field) t (x : L) (c : 'I_n) : multiply_add_law mul mad ->
  t != 0 -> ~ multiply_add_law (square_twisted_multiply mul t) (square_twisted_multiply_add mad t).
Proof.
move=> H t0 /(_ (fun _ _ _ => 1) (fun _ _ _ => 0) 0 x d0 c).
rewrite /square_twisted_multiply_add H /combine /square_twisted_multiply !mulr0 !addr0 mulr1 => /eqP.
by rewrite -subr_eq0 opprD addrA subrr add0r oppr_eq0 (negbTE t0).
Qed.

(** The twisted operator. *)
Lemma twistedE mul t v : twist_active t ->
  feq (twisted_multiply mul t v) (fun x a c => mul v x a c + 'i * t * g5 v x a c).
Proof.
move=> H x a c; rewrite /twisted_multiply /add_twist H g5E /sgn mkc0; case: ifP => _; first by rewrite mul1r.
by rewrite mulN1r mulrN.
Qed.
Lemma twisted_off mul t v : ~~ twist_active t -> feq (twisted_multiply mul t v) (mul v).
Proof. by move=> H x a c; rewrite /twisted_multiply /add_twist (negbTE H). Qed.
Lemma twisted_gamma5_wrong k t U (x : L) (c : 'I_n) : twist_active t ->
  ~ (forall v, feq (twisted_multiply (basic_multiply k true U) t v) (g5 (twisted_multiply (basic_multiply k false U) t v))).
Proof.
move=> H /(_ (fun y b e => (b == d2)%:R) x d2 c).
rewrite [g5 (twisted_multiply _ _ _) _ _ _]g5E !twistedE // !basic_correct !maybe5E !g5E /sg5 /sgn /= mulr1 !mulN1r.
move: (dirac _ _ _ _ _ _) => z /eqP; rewrite -subr_eq0.
have -> : - z + 'i * t * -1 - - (z + 'i * t * -1) = - ('i * t + 'i * t) by cringi.
rewrite oppr_eq0 -mulr2n -mulr_natl !mulf_eq0 pnatr_eq0 /= (negbTE (neq0Ci C)) /= => /eqP E.
by move: H; rewrite /twist_active E normr0 Order.POrderTheory.le_gtF // invr_ge0 exprn_ge0 // ler0n.
Qed.
End Proofs.

(** The chequerboard of blocks of size 2 on the 4^4 lattice is not closed under neighbours. *)
Lemma mask_open : ~ closed_block (L := box 3 3 3 3) (block_mask (G := box_grid 3 3 3 3) (fun _ => 2%N) false).
Proof.
pose x : box 3 3 3 3 := (inord 1, ord0, ord0, ord0).
have X : coord (x : box_grid 3 3 3 3) d0 = 1%N by rewrite /= /box_coord /= inordK.
have O mu : mu != d0 -> coord (x : box_grid 3 3 3 3) mu = 0%N by move: mu; apply: ord4P => //= _.
move=> /(_ x d0) H; have : block_mask (G := box_grid 3 3 3 3) (fun _ => 2%N) false x.
  by rewrite /block_mask X !O.
move/H => /andP [] ; rewrite /block_mask coord_up X.
by rewrite !(coord_other (g := box_grid 3 3 3 3)) // !O.
Qed.
