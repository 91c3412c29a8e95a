(** C54, C69, C70: multigrid. *)
From mathcomp Require Import all_ssreflect all_algebra all_field.
From Verif Require Import MgModel MgSpec MgProofs MgProofs2 MgProofs3 MgProofs4.
Import GRing.Theory Num.Theory.
Set Implicit Arguments.
Unset Strict Implicit.
Unset Printing Implicit Defensive.
Local Open Scope ring_scope.

Section Props.
Variable C : numClosedFieldType.
Variables (n : nat) (P S T : finType) (nb d : nat).
Implicit Types (blk : P -> S -> 'I_nb) (thr : P -> S -> T) (b : basis C n P S) (f : field C n P S) (c : coarse C P).

(** C54.  Restriction is the adjoint of prolongation for any basis, whatever the partition in threads. *)
Theorem C54_adjoint blk thr b c f :
  coarse_inner nb d c (restrict d blk thr b f) = inner (prolong d blk b c) f.
Proof. exact: adjoint. Qed.

(** C54.  For an orthonormal basis restriction undoes prolongation, and what is lost by restricting a fine vector is
    orthogonal to all prolonged ones. *)
Theorem C54_projector blk thr b c f : block_orthonormal (block_of (n := n) blk) d (vecs b) ->
  (forall p m, (m < d * nb)%N -> restrict d blk thr b (prolong d blk b c) p m = c p m) /\
  inner (prolong d blk b c) [ffun x => f x - prolong d blk b (restrict d blk thr b f) x] = 0.
Proof. by move=> on; split; [move=> p m; exact: restrict_prolong|exact: projector]. Qed.

(** C69. *)
Theorem C69_orthogonalize blk thr b (k0 : P * 'I_nb) : block_independent (block_of (n := n) blk) d (vecs b) ->
  exists b', orthogonalize d blk thr b = Some b' /\
    block_orthonormal (block_of (n := n) blk) d (vecs b') /\
    block_spanned (block_of (n := n) blk) d (vecs b) (vecs b') /\
    block_spanned (block_of (n := n) blk) d (vecs b') (vecs b).
Proof. exact: orthogonalize_good. Qed.

Theorem C69_orthogonalize_one blk thr b (k0 : P * 'I_nb) i : (i < d)%N ->
  block_independent (block_of (n := n) blk) d (vecs b) ->
  (forall k l m, (l < d)%N -> (m < d)%N -> l != i -> m != i ->
     inner_on (block_of (n := n) blk) k (b l) (b m) = (l == m)%:R) ->
  exists b', orthogonalize_one d blk thr b i = Some b' /\
    block_orthonormal (block_of (n := n) blk) d (vecs b') /\
    block_spanned (block_of (n := n) blk) d (vecs b) (vecs b') /\
    block_spanned (block_of (n := n) blk) d (vecs b') (vecs b).
Proof. exact: orthogonalize_one_good. Qed.

(** C70. *)
Theorem C70_galerkin blk thr (D : field C n P S -> field C n P S) b :
  (forall c c', coarse_inner nb d c' (coarse_multiply d blk thr D b c) = inner (prolong d blk b c') (D (prolong d blk b c))) /\
  (hermitian_op D -> forall c c',
     coarse_inner nb d c' (coarse_multiply d blk thr D b c) = coarse_inner nb d (coarse_multiply d blk thr D b c') c) /\
  (positive_op D -> block_orthonormal (block_of (n := n) blk) d (vecs b) ->
     forall c p m, (m < d * nb)%N -> c p m != 0 -> 0 < coarse_inner nb d c (coarse_multiply d blk thr D b c)).
Proof.
split; [exact: galerkin|split=> [h c c'|h on c p m hm nz]]; first exact: coarse_hermitian.
exact: coarse_positive on h hm nz.
Qed.

(** C70.  multiplyAdd with an orthonormal basis adds alpha to the coarse operator. *)
Theorem C70_multiply_add blk thr (D : field C n P S -> field C n P S) b alpha :
  block_orthonormal (block_of (n := n) blk) d (vecs b) ->
  forall c p m, (m < d * nb)%N ->
  coarse_multiply_add d blk thr (fun f g a => [ffun x => a * g x + D f x]) b c alpha p m =
  alpha * c p m + coarse_multiply d blk thr D b c p m.
Proof.
move=> on c p m hm; rewrite /coarse_multiply_add.
by rewrite (restrictD blk thr b alpha (prolong d blk b c) (D (prolong d blk b c)) p hm) restrict_prolong.
Qed.

(** C70.  On one process asMatrix is the matrix of the coarse operator. *)
Theorem C70_matrix blk thr (D : field C n P S -> field C n P S) b c p j :
  (forall q : P, q = p) -> additive_op D -> (j < d * nb)%N ->
  coarse_multiply d blk thr D b c p j = \sum_(i < d * nb) as_matrix d blk thr D b p j i * c p i.
Proof. exact: one_process. Qed.
End Props.

(** C70 refuted for two processes: the coarse operator couples the processes, the matrix of asMatrix does not. *)
Section Refuted.
Variable C : numClosedFieldType.
Let S := unit_finType.
Let P := bool_finType.
Let blk : P -> S -> 'I_1 := fun _ _ => ord0.
Let thr : P -> S -> unit_finType := fun _ _ => tt.
Let swap (f : field C 1 P S) : field C 1 P S := [ffun x : index 1 P S => let: (p, s, mu, a) := x in f (~~ p, s, mu, a)].
Let e0 : basis C 1 P S := fun _ => [ffun x : index 1 P S => (x.1.2 == ord0)%:R].

Lemma swap_additive : additive_op swap.
Proof. by move=> a u v; apply/ffunP=> -[[[p s] mu] c]; rewrite !ffunE. Qed.
Lemma swap_hermitian : hermitian_op swap.
Proof.
move=> u v; rewrite /inner !(sum_index (P := P) (S := S)) !big_bool /= addrC.
by congr (_ + _); apply: eq_bigr => s _; apply: eq_bigr => mu _; apply: eq_bigr => a _; rewrite !ffunE.
Qed.
Lemma e0_orthonormal : block_orthonormal (block_of (n := 1) blk) 1 (vecs e0).
Proof.
move=> [p k] i j; rewrite !ltnS !leqn0 => /eqP -> /eqP ->; rewrite eqxx inner_onE.
rewrite big_mkcond (bigD1 tt) //= ?[k]ord1 ?eqxx [X in _ + X]big1 => [|[] //]; rewrite addr0.
rewrite big_ord_recl big_ord1 !ffunE /= ?eqxx conjC1 mulr1 big1 ?addr0 // => mu _.
by rewrite big_ord1 !ffunE /= mulr0.
Qed.
Theorem C70_matrix_refuted : exists (D : field C 1 P S -> field C 1 P S) (b : basis C 1 P S) c p,
  additive_op D /\ hermitian_op D /\ block_orthonormal (block_of (n := 1) blk) 1 (vecs b) /\
  coarse_multiply 1 blk thr D b c p 0%N <> \sum_(i < 1 * 1) as_matrix 1 blk thr D b p 0%N i * c p i.
Proof.
exists swap, e0, (fun (p : P) _ => p%:R), true.
split; first exact: swap_additive.
split; first exact: swap_hermitian.
split; first exact: e0_orthonormal.
have pr (c : coarse C P) : swap (prolong 1 blk e0 c) = prolong 1 blk e0 (fun p => c (~~ p)).
  by apply/ffunP=> -[[[p s] mu] a]; rewrite [in LHS]ffunE !prolongE; apply: eq_bigr => i _; rewrite !ffunE.
rewrite /as_matrix /coarse_multiply !pr big_ord1.
rewrite !(restrict_prolong thr _ _ e0_orthonormal) //= mulr1 pr (restrict_prolong thr _ _ e0_orthonormal) //=.
by move/eqP; rewrite eq_sym oner_eq0.
Qed.
End Refuted.

(** Examples: one process with one site, the vectors e0 and e0 + e1 in the spin components. *)
Section Example_.
Let C := algCnumClosedField.
Let S := unit_finType.
Let P := unit_finType.
Let blk : P -> S -> 'I_1 := fun _ _ => ord0.
Let thr : P -> S -> bool_finType := fun _ _ => true.
Let two : basis C 1 P S := fun i => [ffun x : index 1 P S => if i == 0%N then (x.1.2 == ord0)%:R
   else (x.1.2 < 2)%N%:R : C].
Lemma two_independent : block_independent (block_of (n := 1) blk) 2 (vecs two).
Proof.
move=> k a h.
have at_ mu : \sum_(i < 2) a i * two i (tt, tt, mu, ord0) = 0.
  by apply: h; rewrite /block_of; case: k => [[] k]; rewrite [k]ord1.
have a1 : a 1%N = 0.
  by have := at_ (@Ordinal 4 1 isT); rewrite !big_ord_recl big_ord0 !ffunE /= mulr0 mulr1 add0r addr0.
have a0 : a 0%N = 0.
  by have := at_ ord0; rewrite !big_ord_recl big_ord0 !ffunE /= !mulr1 addr0 /bump /= a1 addr0.
by case=> [|[|i]].
Qed.
Example two_orthogonalize : exists b', orthogonalize 2 blk thr two = Some b' /\
  block_orthonormal (block_of (n := 1) blk) 2 (vecs b').
Proof.
have [b' [e [on _]]] := C69_orthogonalize thr (tt, ord0) two_independent; by exists b'.
Qed.
Example two_one : exists b', orthogonalize_one 2 blk thr two 1 = Some b' /\
  block_orthonormal (block_of (n := 1) blk) 2 (vecs b').
Proof.
have h k l m : (l < 2)%N -> (m < 2)%N -> l != 1%N -> m != 1%N ->
     inner_on (block_of (n := 1) blk) k (two l) (two m) = (l == m)%:R.
  case: l => [|[|//]] // _; case: m => [|[|//]] // _ _ _; case: k => p k.
  rewrite inner_onE big_mkcond (bigD1 tt) //= ?[k]ord1 ?eqxx [X in _ + X]big1 => [|[] //]; rewrite addr0.
  rewrite big_ord_recl big_ord1 !ffunE /= ?eqxx conjC1 mulr1 big1 ?addr0 // => mu _.
  by rewrite big_ord1 !ffunE /= mulr0.
have [b' [e [on _]]] := C69_orthogonalize_one thr (tt, ord0) (isT : (1 < 2)%N) two_independent h; by exists b'.
Qed.
(** The identity is positive, so its coarse version is, and the basis of the refutation restricted to one process is
    orthonormal. *)
Let one_ : basis C 1 P S := fun _ => [ffun x : index 1 P S => (x.1.2 == ord0)%:R].
Lemma one_orthonormal : block_orthonormal (block_of (n := 1) blk) 1 (vecs one_).
Proof.
move=> [p k] i j; rewrite !ltnS !leqn0 => /eqP -> /eqP ->; rewrite eqxx inner_onE.
rewrite big_mkcond (bigD1 tt) //= ?[k]ord1 ?eqxx [X in _ + X]big1 => [|[] //]; rewrite addr0.
rewrite big_ord_recl big_ord1 !ffunE /= ?eqxx conjC1 mulr1 big1 ?addr0 // => mu _.
by rewrite big_ord1 !ffunE /= mulr0.
Qed.
Example one_matrix : coarse_multiply 1 blk thr id one_ (fun _ _ => 3%:R) tt 0%N = 3%:R /\
  as_matrix 1 blk thr id one_ tt 0%N 0%N = 1.
Proof.
by split; rewrite /as_matrix /coarse_multiply (restrict_prolong thr _ _ one_orthonormal).
Qed.
Example one_positive : 0 < coarse_inner 1%N 1%N (fun _ _ => 3%:R) (coarse_multiply 1 blk thr id one_ (fun _ _ => 3%:R)).
Proof.
have [_ [_ h]] := C70_galerkin 1 blk thr id one_.
apply: (h _ one_orthonormal _ tt 0%N); rewrite ?pnatr_eq0 //.
move=> u [x nx]; rewrite /inner (bigD1 x) //=.
apply: ltr_spaddl; first by rewrite mulrC mul_conjC_gt0.
by apply: sumr_ge0 => y _; rewrite mulrC mul_conjC_ge0.
Qed.
End Example_.

Print Assumptions C54_adjoint.
Print Assumptions C54_projector.
Print Assumptions C69_orthogonalize.
Print Assumptions C69_orthogonalize_one.
Print Assumptions C70_galerkin.
Print Assumptions C70_multiply_add.
Print Assumptions C70_matrix.
Print Assumptions C70_matrix_refuted.
