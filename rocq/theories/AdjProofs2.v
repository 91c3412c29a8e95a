(** The loops produce a complete set of Hermitian matrices. *)
From mathcomp Require Import all_ssreflect all_algebra.
From Verif Require Import GaugeModel GaugeSpec GaugeProofs GaugeProofs2 AdjTables AdjModel AdjSpec AdjProofs.
Import GRing.Theory Num.Theory.
Set Implicit Arguments.
Unset Strict Implicit.
Unset Printing Implicit Defensive.
Local Open Scope ring_scope.

Section Loops.
Variable C : numClosedFieldType.
Variable N : nat.
Add Ring CringB : (Crth C).

Lemma size_pairs (T : Type) (f : nat -> nat -> T) k :
  (size [seq f i j | i <- index_iota 0 k, j <- index_iota 0 i]).*2 = (k * k - k)%N.
Proof.
elim: k => // k IH; rewrite /index_iota !subn0 in IH *.
rewrite -addn1 iotaD map_cat flatten_cat size_cat doubleD IH /= cats0 size_map size_iota subn0.
have E : (k * k - k + k = k * k)%N by case: k {IH} => // k; rewrite subnK // leq_pmull.
by rewrite addn1 mulnS addKn -addnn addnA E mulSn addnC.
Qed.
Lemma size_loops : size (loop_generators C N) = (N * N - 1)%N.
Proof.
rewrite size_map !size_cat addnA size_map size_iota.
have := size_pairs (symmetric C N) N; have := size_pairs (antisymmetric C N) N.
set a := size _ => Ea; set b := size _ => Eb.
have -> : (b + a = N * N - N)%N by apply: double_inj; rewrite doubleD Ea Eb addnn.
case: N => // k; rewrite addnBA // subnK // leq_pmull //.
Qed.

(** Sums over the index ranges of the loops. *)
Lemma pick1 k (a : nat) (f : nat -> C) : (a < k)%N -> \sum_(0 <= i < k) (i == a)%:R * f i = f a.
Proof.
move=> Ha; rewrite (bigD1_seq a) ?mem_index_iota ?iota_uniq //= eqxx mul1r big1 ?addr0 // => i /negbTE ->.
by rewrite mul0r.
Qed.
Lemma pick0 k (a : nat) (f : nat -> C) : (k <= a)%N -> \sum_(0 <= i < k) (i == a)%:R * f i = 0.
Proof.
move=> Ha; rewrite big_nat big1 // => i /andP [_ Hi].
by rewrite (ltn_eqF (leq_trans Hi Ha)) mul0r.
Qed.
Lemma pick2 (a b : nat) (x : C) : (a < N)%N -> \sum_(0 <= i < N) \sum_(0 <= j < i) (i == a)%:R * ((j == b)%:R * x) = (b < a)%:R * x.
Proof.
move=> Ha; transitivity (\sum_(0 <= i < N) (i == a)%:R * \sum_(0 <= j < i) (j == b)%:R * x).
  by apply: eq_bigr => i _; rewrite mulr_sumr.
rewrite pick1 //; case: ltnP => Hb; first by rewrite (pick1 (fun _ => x)) ?mul1r.
by rewrite (pick0 (fun _ => x)) ?mul0r.
Qed.
Lemma ifE (b : bool) (x : C) : (if b then x else 0) = b%:R * x.
Proof. by case: b; rewrite ?mul1r ?mul0r. Qed.
Lemma bool_mul (a b : bool) : (a && b)%:R = a%:R * b%:R :> C.
Proof. by case: a; rewrite ?mul1r ?mul0r. Qed.
Lemma bool_sq (b : bool) : b%:R * b%:R = b%:R :> C.
Proof. by case: b; rewrite ?mul1r ?mul0r. Qed.

Lemma sym_fierz (a b c e : 'I_N) (i j : nat) :
  symmetric C N i j a b * symmetric C N i j c e + antisymmetric C N i j a b * antisymmetric C N i j c e
  = 2%:R * ((i == a)%:R * ((j == b)%:R * ((a == e)%:R * (b == c)%:R)))
    + 2%:R * ((i == b)%:R * ((j == a)%:R * ((a == e)%:R * (b == c)%:R))).
Proof.
rewrite !mxE !ifE !bool_mul !mulr1.
have ii : 'i * 'i = - 1 :> C by rewrite -expr2 sqrCi.
transitivity (2%:R * (((i == a)%:R * (i == e)%:R) * ((j == b)%:R * (j == c)%:R)) + 2%:R * (((i == b)%:R * (i == c)%:R) * ((j == a)%:R * (j == e)%:R)) : C).
  rewrite mulr2n; move: (_ == _)%:R (_ == _)%:R (_ == _)%:R (_ == _)%:R (_ == _)%:R (_ == _)%:R (_ == _)%:R (_ == _)%:R 'i ii => p q r s t u v w z zz.
  have -> : (w * v * z - u * t * z) * (s * r * z - q * p * z) = (z * z) * ((w * v - u * t) * (s * r - q * p)) by cring_fold C; ring.
  by rewrite zz; cring_fold C; ring.
have E (x : nat) (y z : 'I_N) : (x == y :> nat)%:R * (x == z :> nat)%:R = (x == y :> nat)%:R * (y == z)%:R :> C.
  by case: eqP => [->|]; rewrite ?mul0r.
rewrite !E; congr (_ * _ + _ * _).
  by move: (_ == _)%:R (_ == _)%:R (_ == _)%:R (_ == _)%:R => p q r s; cring_fold C; ring.
by move: (_ == _)%:R (_ == _)%:R (_ == _)%:R (_ == _)%:R => p q r s; cring_fold C; ring.
Qed.

(** The weights of the diagonal generators. *)
Definition sg (i x : nat) : C := (x <= i)%N%:R - i.+1%:R * (x == i)%:R.
Lemma n0 k : k.+1%:R != 0 :> C. Proof. by rewrite pnatr_eq0. Qed.
Lemma telescope k : (0 < k)%N -> (k%:R^-1 - k.+1%:R^-1) * k%:R = k.+1%:R^-1 :> C.
Proof.
case: k => // k _; rewrite mulrBl mulVf ?n0 //; apply: (mulIf (n0 k.+1)).
rewrite mulrBl mul1r [_^-1 * _ * _]mulrAC !mulVf ?n0 // mul1r.
by rewrite [k.+2%:R]mulrS addrK.
Qed.
Lemma sg_lt i x : (x < i)%N -> sg i x = 1.
Proof. by move=> H; rewrite /sg (ltnW H) (ltn_eqF H) mulr0 subr0. Qed.
Lemma sg_gt i x : (i < x)%N -> sg i x = 0.
Proof. by move=> H; rewrite /sg leqNgt H /= (gtn_eqF H) mulr0 subr0. Qed.
Lemma sg_eq i : sg i i = - i%:R.
Proof. by rewrite /sg leqnn eqxx mulr1 mulrS opprD addrA subrr add0r. Qed.
Lemma diag_sum k (x y : nat) : (x < k)%N -> (y < k)%N ->
  \sum_(1 <= i < k) (i%:R^-1 - i.+1%:R^-1) * (sg i x * sg i y) = (x == y)%:R - k%:R^-1.
Proof.
elim: k x y => // k IH x y; case: (posnP k) => [->|Hk].
  by case: x => // _; case: y => // _; rewrite big_geq // eqxx invr1 subrr.
rewrite big_nat_recr //= ltnS leq_eqVlt => /orP Hx; rewrite ltnS leq_eqVlt => /orP Hy.
case: Hx => [/eqP ->|Hx]; case: Hy => [/eqP ->|Hy].
- rewrite eqxx sg_eq mulrNN big_nat big1 ?add0r; last first.
    by move=> i /andP [_ Hi]; rewrite (sg_gt Hi) mul0r mulr0.
  rewrite mulrA telescope //; apply: (mulIf (n0 k)).
  by rewrite mulrBl mul1r [_^-1 * _ * _]mulrAC mulVf ?n0 // mul1r [k.+1%:R]mulrS addrAC subrr add0r.
- rewrite (gtn_eqF Hy) sg_eq (sg_lt Hy) mulr1 mulrN telescope // big_nat big1 ?sub0r ?add0r //.
  by move=> i /andP [_ Hi]; rewrite (sg_gt Hi) mul0r mulr0.
- rewrite (ltn_eqF Hx) sg_eq (sg_lt Hx) mul1r mulrN telescope // big_nat big1 ?sub0r ?add0r //.
  by move=> i /andP [_ Hi]; rewrite (sg_gt Hi) mulr0 mulr0.
- by rewrite IH // !sg_lt // mulr1 mulr1 addrA subrK.
Qed.
Lemma weight i : (0 < i)%N -> sqrtC (2%:R / (i.+1 * i)%:R) * sqrtC (2%:R / (i.+1 * i)%:R) = 2%:R * (i%:R^-1 - i.+1%:R^-1) :> C.
Proof.
move=> Hi; rewrite -expr2 sqrtCK; congr (_ * _); case: i Hi => // i Hi.
by apply: (mulIf (n0 i)); rewrite telescope // natrM invfM -mulrA mulVf ?n0 // mulr1.
Qed.
Lemma diagE i (a b : 'I_N) : diagonal C N i a b = (a == b)%:R * (sqrtC (2%:R / (i.+1 * i)%:R) * sg i a).
Proof.
rewrite mxE !ifE !bool_mul /sg; move: (_ == _)%:R (_ <= _)%:R (_ == _)%:R (sqrtC _) (i.+1%:R) => p q r s t.
by cring_fold C; ring.
Qed.
Lemma diag_fierz (a b c e : 'I_N) :
  \sum_(1 <= i < N) diagonal C N i a b * diagonal C N i c e = 2%:R * ((a == b)%:R * (c == e)%:R * ((a == c)%:R - N%:R^-1)).
Proof.
have Ha := ltn_ord a; have Hc := ltn_ord c.
rewrite -(diag_sum Ha Hc) !mulr_sumr big_nat [RHS]big_nat; apply: eq_bigr => i /andP [Hi _].
rewrite !diagE mulrACA [_ * sg i a * _]mulrACA weight //.
by move: (a == b)%:R (c == e)%:R (_ - _) (sg _ _) (sg _ _) 2%:R => p q r s t u; cring_fold C; ring.
Qed.
Lemma loops_fierz (a b c e : 'I_N) : \sum_(T <- loop_generators C N) T a b * T c e
   = 2%:R^-1 * ((a == e)%:R * (b == c)%:R - (a == b)%:R * (c == e)%:R / N%:R).
Proof.
rewrite big_map !big_cat /= addrA.
have Q (T : 'M[C]_N) : (2%:R^-1 *: T) a b * (2%:R^-1 *: T) c e = 4%:R^-1 * (T a b * T c e).
  by rewrite !mxE mulrACA -invfM -natrM.
rewrite !big_allpairs_dep big_map /=.
rewrite -[X in X + _]big_split /=.
transitivity (4%:R^-1 * ((\sum_(0 <= i < N) \sum_(0 <= j < i)
   (symmetric C N i j a b * symmetric C N i j c e + antisymmetric C N i j a b * antisymmetric C N i j c e))
   + \sum_(1 <= i < N) diagonal C N i a b * diagonal C N i c e)).
  rewrite mulrDr !mulr_sumr; congr (_ + _); apply: eq_bigr => i _; last by rewrite Q.
  by rewrite -big_split /= mulr_sumr; apply: eq_bigr => j _; rewrite !Q mulrDr.
rewrite diag_fierz.
have -> : \sum_(0 <= i < N) \sum_(0 <= j < i) (symmetric C N i j a b * symmetric C N i j c e + antisymmetric C N i j a b * antisymmetric C N i j c e)
  = 2%:R * ((a != b)%:R * ((a == e)%:R * (b == c)%:R)).
  transitivity (2%:R * (\sum_(0 <= i < N) \sum_(0 <= j < i) (i == a)%:R * ((j == b)%:R * ((a == e)%:R * (b == c)%:R)))
     + 2%:R * (\sum_(0 <= i < N) \sum_(0 <= j < i) (i == b)%:R * ((j == a)%:R * ((a == e)%:R * (b == c)%:R))) : C).
    rewrite !mulr_sumr -big_split /=; apply: eq_bigr => i _; rewrite !mulr_sumr -big_split /=.
    by apply: eq_bigr => j _; rewrite sym_fierz.
  rewrite !pick2 // -mulrDr -mulrDl -natrD; congr (_ * (_%:R * _)).
  by rewrite -[a != b]/(val a != val b) neq_ltn; case: ltngtP.
have F : 4%:R^-1 * 2%:R = 2%:R^-1 :> C.
  by rewrite (natrM C 2 2) invfM -mulrA mulVf ?mulr1 // n0.
rewrite -[2%:R * _ + _]mulrDr [4%:R^-1 * _]mulrA F; congr (_ * _).
case: (altP (a =P b)) => [<-|_] /=; last by rewrite !mul0r addr0 subr0 mul1r.
rewrite mul0r add0r !mul1r mulrBr; congr (_ - _).
by rewrite mulrC; case: (altP (a =P c)) => [<-|_]; rewrite ?mul1r ?mul0r ?mulr1 ?mulr0.
Qed.
Lemma loops_herm T : T \in loop_generators C N -> hermitian T.
Proof.
have half (A : 'M[C]_N) : hermitian A -> hermitian (2%:R^-1 *: A).
  by move=> HA i j; rewrite !mxE HA rmorphM fmorphV rmorph_nat.
have real (b : bool) (x : C) : x^* = x -> (if b then x else 0)^* = if b then x else 0.
  by case: b => //; rewrite rmorph0.
case/mapP => A; rewrite !mem_cat => HA ->; apply: half.
case/or3P: HA => [/allpairsPdep [i [j [_ _ ->]]]|/allpairsPdep [i [j [_ _ ->]]]|/mapP [i Hi ->]] a b.
- rewrite !mxE rmorphD !real ?rmorph1 // addrC.
  by rewrite ![(_ == a :> nat) && _]andbC.
- rewrite !mxE rmorphB /= !ifE !rmorphM !rmorph_nat conjCi /= !mulrN opprK addrC.
  by rewrite ![(_ == a :> nat) && _]andbC.
- rewrite !diagE rmorphM rmorph_nat rmorphM eq_sym; case: (altP (b =P a)) => [->|_]; last by rewrite !mul0r.
  rewrite !mul1r; congr (_ * _).
    by apply/esym/CrealP; rewrite ger0_real // sqrtC_ge0 divr_ge0 ?ler0n.
  by rewrite /sg rmorphB rmorphM !rmorph_nat.
Qed.
End Loops.
