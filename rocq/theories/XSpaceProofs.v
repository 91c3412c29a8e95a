(** Proofs: the translation of fields, the averages of products of four signs, the connected and disconnected parts. *)
From Coq Require Import ZArith Ring.
From mathcomp Require Import all_ssreflect all_algebra.
From Verif Require Import GaugeModel GaugeSpec GaugeProofs GaugeProofs2 GaugeProofs3 LoopModel LoopGrid GammaModel GammaSpec GammaProofs DiracModel DiracSpec DiracProofs DiracProofs2.
From Verif Require Import StochModel StochSpec StochProofs StochProofs2 StochProofs3 StochProofs4 MesonModel MesonSpec MesonProofs MesonProofs2 MesonProofs3 XSpaceModel XSpaceSpec.
Import GRing.Theory Num.Theory.
Set Implicit Arguments.
Unset Strict Implicit.
Unset Printing Implicit Defensive.
Local Open Scope ring_scope.

Section Translate.
Variable C : numClosedFieldType.
Variable n : nat.
Variable G : grid.
Notation field := (G -> 'I_4 -> 'I_n -> C) (only parsing).
Lemma steps_snd mu m (st : field * field) : (iter m (@step C n G mu) st).2 = fun x => st.2 (iter m (sup mu) x).
Proof. by elim: m st => [|m IH] // st; rewrite iterSr IH /=. Qed.
Lemma steps_fst mu m (st : field * field) : (iter m (@step C n G mu) st).1 = if m is 0 then st.1 else fun x => st.2 (iter m (sup mu) x).
Proof. by elim: m st => [|m IH] // st; rewrite iterSr IH; case: m {IH}. Qed.
Lemma translateE (old v : field) (k : displacement) x : translate_by old v k x = v (translation (fun mu => component k mu) x).
Proof.
move: k => [[[k0 k1] k2] k3]; rewrite /translate_by /translate /translation /steps /=.
have z (m : nat) : Z.eqb (Z.of_nat m) 0 = (m == 0)%N by case: m.
rewrite !z !Znat.Nat2Z.id.
case: eqP => [->|n0] /=; last first.
  rewrite steps_fst !steps_snd /=; case: k3 => [|k3] //; rewrite steps_fst !steps_snd; case: k2 => [|k2] //.
  by rewrite steps_fst !steps_snd; case: k1 => [|k1] //; rewrite steps_fst; move: n0; case: k0.
case: eqP => [->|n1] /=; last first.
  rewrite steps_fst !steps_snd /=; case: k3 => [|k3] //; rewrite steps_fst !steps_snd; case: k2 => [|k2] //.
  by rewrite steps_fst; move: n1; case: k1.
case: eqP => [->|n2] /=; last first.
  rewrite steps_fst !steps_snd /=; case: k3 => [|k3] //; rewrite steps_fst; by move: n2; case: k2.
case: eqP => [->|n3] //=; rewrite steps_fst; by move: n3; case: k3.
Qed.
Lemma translation_ne (k : displacement) (mu : 'I_4) (x : G) : (component k mu %% ext G mu)%N != 0%N ->
  translation (fun mu => component k mu) x != x.
Proof.
move=> h; apply/negP => /eqP e; have := coord_translation (fun mu => component k mu) x mu; rewrite e => h2.
move/eqP: h; apply; have lt := coord_lt x mu.
have : (coord x mu + component k mu = coord x mu + 0 %[mod ext G mu])%N by rewrite addn0 -h2 modn_small.
by move/eqP; rewrite eqn_modDl mod0n => /eqP.
Qed.
Lemma chroma_spin k : (k < 16)%N -> (0 < n)%N -> chroma C n k = spin C k.
Proof.
move=> k16 /ltP n0; apply/matrixP => a b; rewrite !mxE /of_gi -/(gc C _).
have := @copy_blocks_eq (List.nth k chroma_table nil) n 0 0 a b n0 n0 (elimT ltP (ltn_ord a)) (elimT ltP (ltn_ord b)).
rewrite /= /gamma_chroma => ->; congr (gc C _).
exact: (@chroma_eq k (elimT ltP k16) a b (elimT ltP (ltn_ord a)) (elimT ltP (ltn_ord b))).
Qed.
Lemma spin8 : spin C 8 = gamma C d3.
Proof. by apply/matrixP => a b; rewrite !mxE; move: a b; apply: ord4P; apply: ord4P. Qed.
Lemma bar_spin k : (k < 16)%N -> (0 < n)%N -> chroma_bar C n k = bar (spin C k).
Proof. by move=> k16 n0; rewrite /chroma_bar !chroma_spin // spin8. Qed.
Lemma g5_model (v : field) : feq (gamma5 v) (g5 v).
Proof. by move=> x a c; rewrite g5E /gamma5 /sgn; case: ifP => _; rewrite ?mul1r ?mulN1r. Qed.
End Translate.

Section Four.
Variable C : numClosedFieldType.
Variable n : nat.
Variable G : grid.
Add Ring CXs1 : (Crth C).
Notation field := (G -> 'I_4 -> 'I_n -> C) (only parsing).
Notation T := [finType of G * 'I_4 * 'I_n].
Notation average := (@average C _).
Variables D S : field -> field.
Hypothesis linD : linear_on D.
Hypothesis sol : solves D S.
Let linS := lin_solve linD sol.
Notation E := (element S).
Implicit Types (i j p q : T) (t : tape n G).
Lemma avg4' i j p q : i != j ->
  average (fun t : {ffun T -> bool} => (sg C t i * sg C t j) * (sg C t p * sg C t q)) = ((i == p) && (j == q))%:R + ((i == q) && (j == p))%:R.
Proof.
move=> ne; have [<-|npq] := altP (p =P q); last exact: avg4.
rewrite (@avg_ext _ _ _ (fun t => sg C t i * sg C t j)); last by move=> t; rewrite sg_sq mulr1.
rewrite avg2 (negPf ne); have [ip|_] := altP (i =P p) => /=; last by rewrite addr0.
by rewrite -ip eq_sym (negPf ne) addr0.
Qed.
Lemma avg_quad i j k l : i != j ->
  average (fun t : {ffun T -> bool} => sg C t i * sg C t j * (at_ (S (noise C t)) k * at_ (S (noise C t)) l)) = E k i * E l j + E k j * E l i.
Proof.
move=> ne.
rewrite (@avg_ext _ _ _ (fun t => \sum_p \sum_q E k p * E l q * ((sg C t i * sg C t j) * (sg C t p * sg C t q)))); last first.
  move=> t; rewrite !(op_expand _ _ linS) big_distrl /= big_distrr /=; apply: eq_bigr => p _.
  rewrite big_distrr /= big_distrr /=; apply: eq_bigr => q _; rewrite !noise_sg.
  move: (sg C t i) (sg C t j) (sg C t p) (sg C t q) (E k p) (E l q) => a1 a2 a3 a4 a5 a6; cring_fold C; ring.
rewrite avg_sum.
transitivity (\sum_p \sum_q E k p * E l q * (((i == p) && (j == q))%:R + ((i == q) && (j == p))%:R)).
  apply: eq_bigr => p _; rewrite avg_sum; apply: eq_bigr => q _; by rewrite avgZ avg4'.
transitivity (\sum_p (E k p * (i == p)%:R * E l j + E k p * (j == p)%:R * E l i)).
  apply: eq_bigr => p _.
  transitivity (\sum_q (E k p * (i == p)%:R * (E l q * (j == q)%:R) + E k p * (j == p)%:R * (E l q * (i == q)%:R))).
    apply: eq_bigr => q _; rewrite -!mulnb !natrM.
    move: ((i == p)%:R : C) ((j == q)%:R : C) ((i == q)%:R : C) ((j == p)%:R : C) (E k p) (E l q) => a1 a2 a3 a4 a5 a6; cring_fold C; ring.
  rewrite big_split /= -!mulr_sumr; congr (_ * _ + _ * _).
    by rewrite (bigD1 j) //= eqxx mulr1 big1 ?addr0 // => q /negPf h; rewrite eq_sym h mulr0.
  by rewrite (bigD1 i) //= eqxx mulr1 big1 ?addr0 // => q /negPf h; rewrite eq_sym h mulr0.
rewrite big_split /= -!mulr_suml; congr (_ * _ + _ * _).
  by rewrite (bigD1 i) //= eqxx mulr1 big1 ?addr0 // => q /negPf h; rewrite eq_sym h mulr0.
by rewrite (bigD1 j) //= eqxx mulr1 big1 ?addr0 // => q /negPf h; rewrite eq_sym h mulr0.
Qed.
(** The connected part. *)
Variable old : field.
Variable k : displacement.
Hypothesis moved : forall x : G, translation (fun mu => component k mu) x != x.
Notation tr x := (translation (fun mu => component k mu) x).
Lemma drop_zero (I : finType) (f g : I -> C) : (forall z : I, f z == 0 -> g z = 0) -> \sum_(z | f z != 0) g z = \sum_z g z.
Proof. by move=> h; rewrite big_mkcond; apply: eq_bigr => z _; case: ifP => // /negbT; rewrite negbK => /h ->. Qed.
Lemma exch4 (I : finType) (F : 'I_4 -> 'I_4 -> 'I_4 -> 'I_4 -> I -> C) :
  \sum_(mu < 4) \sum_(nu < 4) \sum_(al < 4) \sum_(be < 4) \sum_c F mu nu al be c = \sum_c \sum_(mu < 4) \sum_(nu < 4) \sum_(al < 4) \sum_(be < 4) F mu nu al be c.
Proof.
rewrite [RHS]exchange_big; apply: eq_bigr => mu _; rewrite [RHS]exchange_big; apply: eq_bigr => nu _.
rewrite [RHS]exchange_big; apply: eq_bigr => al _; by rewrite [RHS]exchange_big.
Qed.
Lemma tr2 (A B : 'M[C]_4) : \tr (A *m B) = \sum_(mu < 4) \sum_(nu < 4) A mu nu * B nu mu.
Proof. by apply: eq_bigr => mu _; rewrite mxE. Qed.
Lemma tr4 (A B A' B' : 'M[C]_4) : \tr (A *m B *m A' *m B') = \sum_(mu < 4) \sum_(nu < 4) \sum_(al < 4) \sum_(be < 4) A mu nu * A' al be * (B nu al * B' be mu).
Proof.
apply: eq_bigr => mu _; rewrite -mulmxA mxE.
transitivity (\sum_(al < 4) \sum_(nu < 4) \sum_(be < 4) A mu nu * A' al be * (B nu al * B' be mu)).
  apply: eq_bigr => al _; rewrite !mxE big_distrl /=; apply: eq_bigr => nu _; rewrite big_distrr /=; apply: eq_bigr => be _.
  by rewrite mulrACA.
by rewrite exchange_big.
Qed.
Lemma conn_average m : (m < 16)%N -> (0 < n)%N ->
  average (fun t : {ffun T -> bool} => connected S old m k t)
    = \sum_x (two_point S (spin C m) (bar (spin C m)) x (tr x) + quark_loop S (spin C m) x * quark_loop S (bar (spin C m)) (tr x)).
Proof.
move=> m16 n0; move: (bar_spin C m16 n0) (chroma_spin C m16 n0).
rewrite /connected; move: (chroma_bar C n m) (chroma C n m) => grh gr -> ->; move: (bar (spin C m)) => H; move: (spin C m) => M.
rewrite avg_sum; apply: eq_bigr => x _.
rewrite (@avg_ext _ _ _ (fun t => \sum_(mu < 4) \sum_(nu < 4) \sum_(al < 4) \sum_(be < 4) \sum_c1 \sum_c2
  M mu nu * H al be * (sg C t (tr x, al, c2) * sg C t (x, mu, c1) * (at_ (S (noise C t)) (x, nu, c1) * at_ (S (noise C t)) (tr x, be, c2))))); last first.
  move=> t; apply: eq_bigr => mu _; rewrite (drop_zero (f := M mu)); last first.
    by move=> nu /eqP ->; do 4! [apply: big1 => ? _]; rewrite !mul0r.
  apply: eq_bigr => nu _; apply: eq_bigr => al _; rewrite (drop_zero (f := H al)); last first.
    by move=> be /eqP ->; do 2! [apply: big1 => ? _]; rewrite mulr0 !mul0r.
  apply: eq_bigr => be _; apply: eq_bigr => c1 _; apply: eq_bigr => c2 _.
  rewrite !translateE -!noise_sg /at_ /= /noise /draw !(fun_if conjC) rmorphN conjC1 /=.
  move: (if _ then _ else _) (if _ then _ else _) (S _ _ _ _) (S _ _ _ _) (M mu nu) (H al be) => a1 a2 a3 a4 a5 a6; cring_fold C; ring.
rewrite avg_sum.
transitivity (\sum_(mu < 4) \sum_(nu < 4) \sum_(al < 4) \sum_(be < 4) \sum_c1 \sum_c2
  M mu nu * H al be * (E (x, nu, c1) (tr x, al, c2) * E (tr x, be, c2) (x, mu, c1) + E (x, nu, c1) (x, mu, c1) * E (tr x, be, c2) (tr x, al, c2))).
  apply: eq_bigr => mu _; rewrite avg_sum; apply: eq_bigr => nu _; rewrite avg_sum; apply: eq_bigr => al _.
  rewrite avg_sum; apply: eq_bigr => be _; rewrite avg_sum; apply: eq_bigr => c1 _; rewrite avg_sum; apply: eq_bigr => c2 _.
  by rewrite avgZ avg_quad // !xpair_eqE (negPf (moved x)).
transitivity (\sum_c1 \sum_c2 \sum_(mu < 4) \sum_(nu < 4) \sum_(al < 4) \sum_(be < 4)
  M mu nu * H al be * (E (x, nu, c1) (tr x, al, c2) * E (tr x, be, c2) (x, mu, c1) + E (x, nu, c1) (x, mu, c1) * E (tr x, be, c2) (tr x, al, c2))).
  by rewrite exch4; apply: eq_bigr => c1 _; rewrite exch4.
transitivity (\sum_c1 \sum_c2 (\tr (M *m prop S x (tr x) c1 c2 *m H *m prop S (tr x) x c2 c1)
    + \tr (M *m prop S x x c1 c1) * \tr (H *m prop S (tr x) (tr x) c2 c2))).
  apply: eq_bigr => c1 _; apply: eq_bigr => c2 _; rewrite tr4 !tr2 big_distrl -big_split /=; apply: eq_bigr => mu _.
  rewrite big_distrl -big_split /=; apply: eq_bigr => nu _; rewrite big_distrr -big_split /=; apply: eq_bigr => al _.
  rewrite big_distrr -big_split /=; apply: eq_bigr => be _; rewrite !mxE mulrDr; congr (_ + _); exact: mulrACA.
rewrite /two_point [X in _ = X + _]exchange_big /= /quark_loop big_distrl -big_split /=.
apply: eq_bigr => c1 _; by rewrite big_split /= big_distrr.
Qed.
(** The disconnected part. *)
Variable N : nat.
Hypothesis N0 : (0 < N)%N.
Notation runs := {ffun 'I_N -> tape n G}.
Lemma tape0 : (0 < #|[finType of tape n G]|)%N. Proof. exact: card_tape. Qed.
Definition one_component i t : C := sg C t i * at_ (S (noise C t)) i.
Lemma avg_component i : average (one_component i) = E i i.
Proof.
rewrite (@avg_ext _ _ _ (fun t => \sum_j E i j * (sg C t i * sg C t j))); last first.
  by move=> t; rewrite /one_component (op_expand _ _ linS) big_distrr; apply: eq_bigr => j _; rewrite noise_sg mulrCA.
rewrite avg_sum (bigD1 i) //= avgZ avg2 eqxx mulr1 big1 ?addr0 // => j /negPf ne; by rewrite avgZ avg2 eq_sym ne mulr0.
Qed.
Lemma avg_components i j : i != j -> average (fun s : runs => the_mean (one_component i) s * the_mean (one_component j) s)
  = E i i * E j j + N%:R^-1 * (E i j * E j i).
Proof.
move=> ne; have nz : N%:R != 0 :> C by rewrite pnatr_eq0 -lt0n.
have e (g : tape n G -> C) (s : runs) : the_mean g s = average g + total (centred g) s / N%:R.
  by rewrite -mean_centred // addrC subrK.
rewrite (@avg_ext _ _ _ (fun s => (E i i * E j j + (E i i / N%:R) * total (centred (one_component j)) s)
   + ((E j j / N%:R) * total (centred (one_component i)) s + (N%:R^-1 * N%:R^-1) * (total (centred (one_component i)) s * total (centred (one_component j)) s)))); last first.
  move=> s; rewrite !e !avg_component.
  move: (total _ _) (total _ _) (N%:R^-1) (E i i) (E j j) => a1 a2 a3 a4 a5; cring_fold C; ring.
rewrite !avgD avgK ?(runs0 tape0) // !avgZ !(avg_total tape0) !(avg_centred tape0) !mulr0 addr0 add0r.
rewrite (avg_totals tape0) ?(avg_centred tape0) // -mulrA mulKf //; congr (_ + _ * _).
rewrite (@avg_ext _ _ _ (fun t => one_component i t * one_component j t - (E j j * one_component i t + E i i * (one_component j t - E j j)))); last first.
  move=> t; rewrite /centred !avg_component; move: (one_component i t) (one_component j t) (E i i) (E j j) => a1 a2 a3 a4; cring_fold C; ring.
rewrite avgB avgD !avgZ (avgB (one_component j) (fun=> E j j)) avgK ?tape0 // !avg_component subrr mulr0 addr0.
rewrite (@avg_ext _ _ _ (fun t => sg C t i * sg C t j * (at_ (S (noise C t)) i * at_ (S (noise C t)) j))); last by move=> t; rewrite /one_component mulrACA.
by rewrite avg_quad // [E j j * _]mulrC addrAC subrr add0r.
Qed.
(** The weight of a spinor index: the sum of a column. *)
Definition column (M : 'M[C]_4) (nu : 'I_4) : C := \sum_(mu < 4) M mu nu.
Lemma trace_mean (ts : runs) x nu c : trace_inverse S ts x nu c = the_mean (one_component (x, nu, c)) ts.
Proof.
congr (_ / _); apply: eq_bigr => s _; rewrite /one_component -noise_sg /at_ /=; congr (_ * _).
by rewrite /noise /draw (fun_if conjC) rmorphN conjC1.
Qed.
Lemma gamma_column m (v : field) x : (m < 16)%N ->
  \sum_(mu < 4) \sum_c gamma_multiply m v x mu c = \sum_(nu < 4) \sum_c column (spin C m) nu * v x nu c.
Proof.
move=> m16; transitivity (\sum_(mu < 4) \sum_c \sum_(nu < 4) spin C m mu nu * v x nu c).
  by apply: eq_bigr => mu _; apply: eq_bigr => c _; rewrite gamma_spin //; apply: eq_bigr => nu _; rewrite mxE.
transitivity (\sum_(mu < 4) \sum_(nu < 4) \sum_c spin C m mu nu * v x nu c).
  by apply: eq_bigr => mu _; rewrite exchange_big.
rewrite exchange_big /=; apply: eq_bigr => nu _; rewrite exchange_big /=; apply: eq_bigr => c _; by rewrite -big_distrl.
Qed.
Lemma disc_average m : (m < 16)%N ->
  average (fun ts : runs => disconnected_product S old m k ts)
    = \sum_x ((\sum_(nu < 4) \sum_c column (spin C m) nu * E (x, nu, c) (x, nu, c))
                 * (\sum_(nu < 4) \sum_c column (spin C m) nu * E (tr x, nu, c) (tr x, nu, c))
        + N%:R^-1 * \sum_(mu < 4) \sum_c \sum_(nu < 4) \sum_d column (spin C m) mu * column (spin C m) nu
                 * (E (x, mu, c) (tr x, nu, d) * E (tr x, nu, d) (x, mu, c))).
Proof.
move=> m16; rewrite /disconnected_product.
rewrite avg_sum; apply: eq_bigr => x _; move: (gamma_column) => gcol.
rewrite (@avg_ext _ _ _ (fun ts : runs => \sum_(mu < 4) \sum_c \sum_(nu < 4) \sum_d column (spin C m) mu * column (spin C m) nu *
   (the_mean (one_component (x, mu, c)) ts * the_mean (one_component (tr x, nu, d)) ts))); last first.
  move=> ts; rewrite !gcol // big_distrl; apply: eq_bigr => mu _; rewrite big_distrl; apply: eq_bigr => c _.
  rewrite big_distrr; apply: eq_bigr => nu _; rewrite big_distrr; apply: eq_bigr => d _.
  by rewrite translateE !trace_mean /= mulrACA.
move: (column _) => w.
rewrite avg_sum; transitivity (\sum_(mu < 4) \sum_c \sum_(nu < 4) \sum_d w mu * w nu *
   (E (x, mu, c) (x, mu, c) * E (tr x, nu, d) (tr x, nu, d) + N%:R^-1 * (E (x, mu, c) (tr x, nu, d) * E (tr x, nu, d) (x, mu, c)))).
  apply: eq_bigr => mu _; rewrite avg_sum; apply: eq_bigr => c _; rewrite avg_sum; apply: eq_bigr => nu _; rewrite avg_sum; apply: eq_bigr => d _.
  by rewrite avgZ avg_components // !xpair_eqE eq_sym (negPf (moved x)).
rewrite big_distrl /= big_distrr /= -big_split /=; apply: eq_bigr => mu _.
rewrite big_distrl /= big_distrr /= -big_split /=; apply: eq_bigr => c _.
rewrite big_distrr /= big_distrr /= -big_split /=; apply: eq_bigr => nu _.
rewrite big_distrr /= big_distrr /= -big_split /=; apply: eq_bigr => d _.
rewrite mulrDr mulrACA; congr (_ + _); by rewrite mulrCA.
Qed.
End Four.
