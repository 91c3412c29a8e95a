From mathcomp Require Import all_ssreflect all_algebra.
From Verif Require Import MgModel MgSpec MgProofs MgProofs2.
Import GRing.Theory Num.Theory.
Set Implicit Arguments.
Unset Strict Implicit.
Unset Printing Implicit Defensive.
Local Open Scope ring_scope.

Section Coarse.
Variable C : numClosedFieldType.
Variable n : nat.
Variables P S T : finType.
Variable nb : nat.
Variable d : nat.
Variable blk : P -> S -> 'I_nb.
Variable thr : P -> S -> T.
Local Notation X := (index n P S).
Local Notation field := (field C n P S).
Local Notation basis := (basis C n P S).
Local Notation coarse := (coarse C P).
Local Notation block_of := (block_of (n := n) blk).
Local Notation ci := (@coarse_inner C P nb d).
Local Notation restrict := (restrict d blk thr).
Local Notation prolong := (prolong d blk).
Implicit Types (b : basis) (c : coarse) (f g u v : field) (D : field -> field).

Lemma innerC u v : inner v u = (inner u v)^*.
Proof. by rewrite /inner rmorph_sum; apply: eq_bigr => x _; rewrite rmorphM /= conjCK mulrC. Qed.
Lemma ciC c c' : ci c' c = (ci c c')^*.
Proof.
rewrite /coarse_inner rmorph_sum; apply: eq_bigr => p _; rewrite rmorph_sum; apply: eq_bigr => m _.
by rewrite rmorphM /= conjCK mulrC.
Qed.
Lemma ci_ext c c1 c2 : (forall p m, (m < d * nb)%N -> c1 p m = c2 p m) -> ci c c1 = ci c c2.
Proof. by move=> h; apply: eq_bigr => p _; apply: eq_bigr => m _; rewrite h. Qed.

Lemma flat_lt i (j : 'I_nb) : (i < d)%N -> (i * nb + j < d * nb)%N.
Proof.
move=> hi; apply: (@leq_trans (i.+1 * nb)); first by rewrite mulSn addnC ltn_add2r.
by rewrite leq_mul2r hi orbT.
Qed.
Lemma flatP m : (m < d * nb)%N -> exists i (j : 'I_nb), (i < d)%N /\ m = (i * nb + j)%N.
Proof.
move=> hm; have nb0 : (0 < nb)%N by case: nb hm => [|//]; rewrite muln0.
exists (m %/ nb)%N, (Ordinal (ltn_pmod m nb0)); split; last exact: divn_eq.
by rewrite ltn_divLR.
Qed.

Lemma prolong_ext b c c' : (forall p m, (m < d * nb)%N -> c p m = c' p m) -> prolong b c = prolong b c'.
Proof.
move=> h; apply/ffunP=> x; rewrite !prolongE; apply: eq_bigr => i _; congr (_ * _); apply: h.
by rewrite mulnC flat_lt.
Qed.
Lemma prolongD b (a : C) c c' :
  prolong b (fun p m => a * c p m + c' p m) = [ffun x => a * prolong b c x + prolong b c' x].
Proof.
apply/ffunP=> x; rewrite [in RHS]ffunE !prolongE mulr_sumr -big_split; apply: eq_bigr => i _ /=.
by rewrite mulrDl mulrA.
Qed.
Lemma restrictD b (a : C) f g p m : (m < d * nb)%N ->
  restrict b [ffun x => a * f x + g x] p m = a * restrict b f p m + restrict b g p m.
Proof.
move/flatP=> [i [j [hi ->]]]; rewrite !restrictE // /inner_on mulr_sumr -big_split; apply: eq_bigr => x _ /=.
by rewrite ffunE mulrDr mulrCA.
Qed.

(** The coarse operator is P^dagger D P. *)
Lemma galerkin D b c c' : ci c' (coarse_multiply d blk thr D b c) = inner (prolong b c') (D (prolong b c)).
Proof. exact: adjoint. Qed.
Lemma coarse_hermitian D b c c' : hermitian_op D ->
  ci c' (coarse_multiply d blk thr D b c) = ci (coarse_multiply d blk thr D b c') c.
Proof. by move=> h; rewrite galerkin h innerC -galerkin -ciC. Qed.

Lemma prolong_nonzero b c p m : block_orthonormal block_of d (vecs b) -> (m < d * nb)%N -> c p m != 0 ->
  exists x, prolong b c x != 0.
Proof.
move=> on hm nz; apply/existsP; apply: contraNT nz; rewrite negb_exists => /forallP h.
rewrite -(restrict_prolong thr c p on hm) /=.
have [i [j [hi ->]]] := flatP hm; rewrite restrictE // /inner_on big1 // => x _.
by have := h x; rewrite negbK => /eqP ->; rewrite mulr0.
Qed.
Lemma coarse_positive D b c p m : block_orthonormal block_of d (vecs b) -> positive_op D ->
  (m < d * nb)%N -> c p m != 0 -> 0 < ci c (coarse_multiply d blk thr D b c).
Proof. by move=> on pos hm nz; rewrite galerkin; apply: pos; exact: prolong_nonzero on hm nz. Qed.

(** P R is the orthogonal projector on the range of P. *)
Lemma projector b c f : block_orthonormal block_of d (vecs b) ->
  inner (prolong b c) [ffun x => f x - prolong b (restrict b f) x] = 0.
Proof.
move=> on.
have -> : inner (prolong b c) [ffun x => f x - prolong b (restrict b f) x] =
    inner (prolong b c) f - inner (prolong b c) (prolong b (restrict b f)).
  by rewrite /inner -sumrB; apply: eq_bigr => x _; rewrite ffunE mulrBr.
rewrite -!(adjoint d blk thr) (ci_ext c (c1 := restrict b (prolong b (restrict b f))) (c2 := restrict b f)) ?subrr //.
by move=> p m hm; exact: restrict_prolong.
Qed.

(** The matrix on a single process. *)
Lemma multiplyD D b (a : C) c c' p m : additive_op D -> (m < d * nb)%N ->
  coarse_multiply d blk thr D b (fun p m => a * c p m + c' p m) p m =
  a * coarse_multiply d blk thr D b c p m + coarse_multiply d blk thr D b c' p m.
Proof. by move=> h hm; rewrite /coarse_multiply prolongD h restrictD. Qed.
Lemma multiply_zero D b p m : additive_op D -> (m < d * nb)%N ->
  coarse_multiply d blk thr D b (fun _ _ => 0) p m = 0.
Proof.
move=> h hm; have := multiplyD b 1 (fun _ _ => 0) (fun _ _ => 0) p h hm.
rewrite /coarse_multiply (_ : prolong b (fun _ _ => 1 * 0 + 0) = prolong b (fun _ _ => 0)); last first.
  by apply: prolong_ext => *; rewrite mulr0 addr0.
by rewrite mul1r => /eqP; rewrite -subr_eq subrr eq_sym => /eqP.
Qed.
Lemma one_process D b c p j : (forall q, q = p) -> additive_op D -> (j < d * nb)%N ->
  coarse_multiply d blk thr D b c p j = \sum_(i < d * nb) as_matrix d blk thr D b p j i * c p i.
Proof.
move=> hp h hj.
have key r : coarse_multiply d blk thr D b (fun _ m => \sum_(i <- r) c p i * (if m == i then 1 else 0)) p j =
    \sum_(i <- r) as_matrix d blk thr D b p j i * c p i.
  elim: r => [|i r IH].
    rewrite big_nil; apply: etrans (multiply_zero b p h hj); rewrite /coarse_multiply; congr (restrict b (D _) _ _).
    by apply: prolong_ext => q m hm; rewrite big_nil.
  rewrite big_cons -IH [as_matrix _ _ _ _ _ _ _ _ * _]mulrC /as_matrix -multiplyD // /coarse_multiply; congr (restrict b (D _) _ _).
  by apply: prolong_ext => q m hm; rewrite big_cons.
have := key (index_iota 0 (d * nb)); rewrite (big_mkord xpredT (fun i => as_matrix d blk thr D b p j i * c p i)) => <-.
rewrite /coarse_multiply; congr (restrict b (D _) _ _); apply: prolong_ext => q m hm.
rewrite (big_mkord xpredT (fun i => c p i * (if m == i then 1 else 0))) (bigD1 (Ordinal hm)) //= eqxx mulr1.
rewrite (hp q) big1 ?addr0 // => i ni; case: eqP => [e|_]; last by rewrite mulr0.
by case/negP: ni; apply/eqP/val_inj.
Qed.
End Coarse.
