From mathcomp Require Import all_ssreflect all_algebra.
From Verif Require Import MgModel MgSpec MgProofs MgProofs2.
Import GRing.Theory Num.Theory.
Set Implicit Arguments.
Unset Strict Implicit.
Unset Printing Implicit Defensive.
Local Open Scope ring_scope.

Section Ortho.
Variable C : numClosedFieldType.
Variable n : nat.
Variables P S T : finType.
Variable nb : nat.
Variable d : nat.
Variable blk : P -> S -> 'I_nb.
Variable thr : P -> S -> T.
Local Notation X := (index n P S).
Local Notation basis := (basis C n P S).
Local Notation block_of := (block_of (n := n) blk).
Local Notation independent := (block_independent block_of d).
Local Notation same := (equivalent block_of d).
Local Notation ion := (inner_on block_of).
Implicit Types (b : basis) (i j : nat).

Lemma global_sub_sheared b i j :
  sheared block_of i j (fun _ => dot (b j) (b i)) (vecs b) (vecs (global_sub i b j)).
Proof.
split=> [l nl x|x]; rewrite /vecs /global_sub /put; first by rewrite (negbTE nl).
by rewrite eqxx ffunE.
Qed.
Lemma block_sub_sheared b i j :
  sheared block_of i j (fun pk => ion pk (b j) (b i)) (vecs b) (vecs (block_sub blk thr i b j)).
Proof.
split=> [l nl x|x]; rewrite /vecs /block_sub /put; first by rewrite (negbTE nl).
by rewrite eqxx ffunE; case: x => [[[p s] mu] a]; rewrite block_dotE.
Qed.

Variable k0 : P * 'I_nb.          (* there is a block *)

Lemma global_normalize_scaled b i : independent (vecs b) -> (i < d)%N ->
  exists b', global_normalize b i = Some b' /\ exists c : P * 'I_nb -> C, (forall k, c k != 0) /\ scaled block_of i c (vecs b) (vecs b').
Proof.
move=> ind hi; have nz := independent_inner k0 ind hi.
rewrite /global_normalize global_normE (negbTE nz); eexists; split; first reflexivity.
exists (fun _ => sqrtC (inner (b i) (b i))); split; first by move=> _; rewrite sqrtC_eq0.
split=> [l nl x|x]; rewrite /vecs /put; first by rewrite (negbTE nl).
by rewrite eqxx ffunE.
Qed.

Lemma block_normalize_scaled b i : independent (vecs b) -> (i < d)%N ->
  exists b', block_normalize blk thr b i = Some b' /\
    scaled block_of i (fun k => sqrtC (ion k (b i) (b i))) (vecs b) (vecs b') /\
    (forall k, sqrtC (ion k (b i) (b i)) != 0).
Proof.
move=> ind hi; have nz k : ion k (b i) (b i) != 0 := independent_norm k ind hi.
rewrite /block_normalize.
case: existsP => [[ps]|_]; first by rewrite normE (negbTE (nz _)).
eexists; split; first reflexivity; split; last by move=> k; rewrite sqrtC_eq0.
split=> [l nl x|x]; rewrite /vecs /put; first by rewrite (negbTE nl).
by rewrite eqxx ffunE; case: x => [[[p s] mu] a]; rewrite normE.
Qed.

(** What every step keeps. *)
Definition good b b' : Prop := independent (vecs b') /\ same (vecs b) (vecs b').
Lemma good_refl b : independent (vecs b) -> good b b.
Proof. by move=> h; split=> //; exact: equivalent_refl. Qed.
Lemma good_trans b b' b'' : good b b' -> good b' b'' -> good b b''.
Proof. by move=> [_ h] [h1 h2]; split=> //; exact: equivalent_trans h h2. Qed.
Lemma good_shear b b' i j c : (i < d)%N -> (j < d)%N -> i != j -> sheared block_of i j c (vecs b) (vecs b') ->
  independent (vecs b) -> good b b'.
Proof.
by move=> hi hj nij h ind; split; [exact: shear_independent h ind|exact: shear_equivalent h].
Qed.
Lemma good_scale b b' i c : (i < d)%N -> (forall k, c k != 0) -> scaled block_of i c (vecs b) (vecs b') ->
  independent (vecs b) -> good b b'.
Proof. by move=> hi nc h ind; split; [exact: scale_independent h ind|exact: scale_equivalent h]. Qed.

(** The global pass. *)
Lemma global_fold (js : seq nat) b i : (i < d)%N -> independent (vecs b) ->
  good b (foldl (fun b j => if (j != i) && (j < d)%N then global_sub i b j else b) b js).
Proof.
move=> hi; elim: js b => [|j js IH] b ind /=; first exact: good_refl.
case: ifP => [/andP [nj hj]|_]; last exact: IH.
have g := good_shear hi hj _ (global_sub_sheared b i j) ind.
have {}g : good b (global_sub i b j) by apply: g; rewrite eq_sym.
exact: good_trans g (IH _ (proj1 g)).
Qed.
Lemma fold_ext (f g : basis -> nat -> basis) (js : seq nat) b : (forall b j, j \in js -> f b j = g b j) ->
  foldl f b js = foldl g b js.
Proof.
elim: js b => [//|j js IH] b h /=; rewrite h ?mem_head //; apply: IH => b' l hl; apply: h.
by rewrite inE hl orbT.
Qed.

Lemma global_step_good b i : (i < d)%N -> independent (vecs b) -> exists b', global_step b i = Some b' /\ good b b'.
Proof.
move=> hi ind; rewrite /global_step.
rewrite (@fold_ext _ (fun b j => if (j != i) && (j < d)%N then global_sub i b j else b)); last first.
  move=> b' j; rewrite mem_iota add0n /= => hj; rewrite (ltn_trans hj hi) andbT.
  by rewrite neq_ltn hj.
have g := global_fold (iota 0 i) hi ind.
have [b' [-> [c [nc h]]]] := global_normalize_scaled (proj1 g) hi.
have g2 := good_scale hi nc h (proj1 g).
by exists b'; split=> //; exact: good_trans g g2.
Qed.

Lemma loop_good (body : basis -> nat -> option basis) (is_ : seq nat) b :
  (forall b i, i \in is_ -> independent (vecs b) -> exists b', body b i = Some b' /\ good b b') ->
  independent (vecs b) -> exists b', loop body is_ b = Some b' /\ good b b'.
Proof.
elim: is_ b => [|i r IH] b h ind /=; first by exists b; split=> //; exact: good_refl.
have [b1 [-> g1]] := h b i (mem_head _ _) ind.
have [b2 [e g2]] : exists b', loop body r b1 = Some b' /\ good b1 b'.
  by apply: IH (proj1 g1) => b' l hl; apply: h; rewrite inE hl orbT.
by exists b2; split=> //; exact: good_trans g1 g2.
Qed.

(** The block pass: the first [i] vectors are orthonormal. *)
Definition orthonormal_to i b : Prop := forall k l m, (l < i)%N -> (m < i)%N -> ion k (b l) (b m) = (l == m)%:R.

(** Projecting vector [i] on the complement of the first [m] of the others. *)
Lemma shear_orthogonal b b' i j (k : P * 'I_nb) : i != j ->
  sheared block_of i j (fun pk => ion pk (b j) (b i)) (vecs b) (vecs b') ->
  (forall l, l != i -> ion k (b l) (b' i) = ion k (b l) (b i) - ion k (b j) (b i) * ion k (b l) (b j)) /\
  (forall l m, l != i -> m != i -> ion k (b' l) (b' m) = ion k (b l) (b m)) /\
  (forall l, l != i -> ion k (b' l) (b' i) = ion k (b l) (b' i)).
Proof.
move=> nij [h1 h2]; split; [|split].
- move=> l nl; rewrite -inner_onD; apply: inner_on_ext => // x bx.
  by have := h2 x; rewrite /vecs bx => ->.
- by move=> l m nl nm; apply: inner_on_ext => x _; [exact: h1|exact: h1].
- by move=> l nl; apply: inner_on_ext => // x _; exact: h1.
Qed.

(** Orthonormality of all the vectors but the one numbered [i] among the first [m]. *)
Definition orthonormal_but i m b : Prop :=
  forall k l l', (l < m)%N -> (l' < m)%N -> l != i -> l' != i -> ion k (b l) (b l') = (l == l')%:R.
Definition orthogonal_to i (js : seq nat) b : Prop := forall k l, l \in js -> l != i -> ion k (b l) (b i) = 0.

Lemma block_sub_orthogonal b i j m js : i != j -> (j < m)%N -> (forall l, l \in js -> (l < m)%N) ->
  orthonormal_but i m b -> orthogonal_to i js b ->
  orthonormal_but i m (block_sub blk thr i b j) /\ orthogonal_to i (j :: js) (block_sub blk thr i b j).
Proof.
move=> nij hj hjs on og.
have sh := block_sub_sheared b i j.
split.
  move=> k l l' hl hl' nl nl'; have [_ [e _]] := shear_orthogonal k nij sh.
  by rewrite e // on.
move=> k l; rewrite inE => hl nl; have [e1 [_ e2]] := shear_orthogonal k nij sh.
rewrite e2 // e1 //.
have nji : j != i by rewrite eq_sym.
have jj : ion k (b j) (b j) = 1 by rewrite (on k j j hj hj nji nji) eqxx.
case/orP: hl => [/eqP ->|hl]; first by rewrite jj mulr1 subrr.
case: (altP (l =P j)) => [->|nlj]; first by rewrite jj mulr1 subrr.
by rewrite (og k l hl nl) (on k l j (hjs l hl) hj nl nji) (negbTE nlj) mulr0 subrr.
Qed.

Lemma block_normalize_orthonormal b b' i m js :
  scaled block_of i (fun k => sqrtC (ion k (b i) (b i))) (vecs b) (vecs b') ->
  (forall k, sqrtC (ion k (b i) (b i)) != 0) ->
  orthonormal_but i m b -> orthogonal_to i js b ->
  orthonormal_but i m b' /\ orthogonal_to i js b' /\ (forall k, ion k (b' i) (b' i) = 1).
Proof.
move=> [h1 h2] nz on og; split; [|split].
- move=> k l l' hl hl' nl nl'; rewrite -(on k l l') //.
  by apply: inner_on_ext => x _; exact: h1.
- move=> k l hl nl.
  rewrite (@inner_on_ext _ _ _ _ _ _ (fun x => b l x / 1) _ (fun x => b i x / sqrtC (ion k (b i) (b i)))).
  + by rewrite inner_onZ og // mul0r.
  + by move=> x _; rewrite divr1; exact: h1.
  + by move=> x bx; have := h2 x; rewrite /vecs bx.
- move=> k; set c := sqrtC (ion k (b i) (b i)) in nz *.
  rewrite (@inner_on_ext _ _ _ _ _ _ (fun x => b i x / c) _ (fun x => b i x / c)); last 2 first.
  + by move=> x bx; have := h2 x; rewrite /vecs bx.
  + by move=> x bx; have := h2 x; rewrite /vecs bx.
  rewrite inner_onZ.
  have cr : c^* = c by apply/CrealP; apply: ger0_real; rewrite sqrtC_ge0; exact: inner_on_ge0.
  rewrite cr -expr2 sqrtCK divff // -sqrtC_eq0; exact: nz.
Qed.

Lemma block_fold (js : seq nat) b i m js0 : (i < d)%N -> (m <= d)%N -> (forall l, l \in js -> (l < m)%N && (l != i)) ->
  (forall l, l \in js0 -> (l < m)%N) ->
  independent (vecs b) -> orthonormal_but i m b -> orthogonal_to i js0 b ->
  let b' := foldl (block_sub blk thr i) b js in
  good b b' /\ orthonormal_but i m b' /\ orthogonal_to i (js ++ js0) b'.
Proof.
move=> hi hm; elim: js js0 b => [|j js IH] js0 b hjs hjs0 ind on og /=; first by split; first exact: good_refl.
have /andP [hj nj] := hjs j (mem_head _ _).
have nij : i != j by rewrite eq_sym.
have g : good b (block_sub blk thr i b j).
  exact: good_shear hi (leq_trans hj hm) nij (block_sub_sheared b i j) ind.
have [on' og'] := block_sub_orthogonal nij hj hjs0 on og.
have h1 l : l \in js -> (l < m)%N && (l != i) by move=> hl; apply: hjs; rewrite inE hl orbT.
have h2 l : l \in j :: js0 -> (l < m)%N by rewrite inE => /orP [/eqP -> //|]; exact: hjs0.
have [g2 [on2 og2]] := IH (j :: js0) _ h1 h2 (proj1 g) on' og'.
split; first exact: good_trans g g2.
split; first exact: on2.
move=> k l; rewrite inE mem_cat => hl; apply: og2; rewrite mem_cat inE.
by case/orP: hl => [->|/orP [->|->]]; rewrite ?orbT.
Qed.

(** One step of the second pass of orthogonalize(). *)
Lemma block_step_good b i : (i < d)%N -> independent (vecs b) -> orthonormal_to i b ->
  exists b', block_step blk thr b i = Some b' /\ good b b' /\ orthonormal_to i.+1 b'.
Proof.
move=> hi ind on; rewrite /block_step.
have on0 : orthonormal_but i i b by move=> k l l' hl hl' _ _; exact: on.
have h1 l : l \in iota 0 i -> (l < i)%N && (l != i).
  by rewrite mem_iota add0n /= => hl; rewrite hl neq_ltn hl.
have [g [on1 og1]] := @block_fold (iota 0 i) b i i [::] hi (ltnW hi) h1 (fun l h => False_ind _ (elimF idP (in_nil l) h))
   ind on0 (fun k l h => False_ind _ (elimF idP (in_nil l) h)).
set b1 := foldl _ _ _ in g on1 og1 *; rewrite cats0 in og1.
have [b' [-> [sc nz]]] := block_normalize_scaled (proj1 g) hi.
have [on2 [og2 n2]] := block_normalize_orthonormal sc nz on1 og1.
exists b'; split=> //; split; first by apply: (good_trans g); exact: good_scale hi nz sc (proj1 g).
move=> k l m; rewrite !ltnS => hl hm.
have mem l1 : (l1 < i)%N -> l1 \in iota 0 i by move=> h; rewrite mem_iota add0n.
case: (altP (l =P i)) => [->|nl]; case: (altP (m =P i)) => [->|nm].
- by rewrite n2 eqxx.
- have hm' : (m < i)%N by rewrite ltn_neqAle nm.
  by rewrite inner_onC og2 ?mem // conjC0 eq_sym (negbTE nm).
- have hl' : (l < i)%N by rewrite ltn_neqAle nl.
  by rewrite og2 ?mem // (negbTE nl).
- by apply: on2 => //; rewrite ltn_neqAle ?nl ?nm.
Qed.

Lemma block_pass m b : (m <= d)%N -> independent (vecs b) ->
  exists b', loop (block_step blk thr) (iota 0 m) b = Some b' /\ good b b' /\ orthonormal_to m b'.
Proof.
elim: m => [|m IH] hm ind; first by exists b; split=> //; split; first exact: good_refl.
have [b1 [e1 [g1 on1]]] := IH (ltnW hm) ind.
have [b2 [e2 [g2 on2]]] := block_step_good hm (proj1 g1) on1.
exists b2; split; last by split=> //; exact: good_trans g1 g2.
have cat (body : basis -> nat -> option basis) r1 r2 x :
    loop body (r1 ++ r2) x = obind (loop body r2) (loop body r1 x).
  elim: r1 x => [//|y r1 IHr] x /=; by case: (body x y).
by rewrite -addn1 iotaD cat e1 /= e2.
Qed.

Lemma orthogonalize_good b : independent (vecs b) ->
  exists b', orthogonalize d blk thr b = Some b' /\ block_orthonormal block_of d (vecs b') /\ block_spanned block_of d (vecs b) (vecs b') /\ block_spanned block_of d (vecs b') (vecs b).
Proof.
move=> ind; rewrite /orthogonalize.
have [b1 [-> g1]] : exists b', loop (@global_step C n P S) (iota 0 d) b = Some b' /\ good b b'.
  apply: loop_good ind => b' i; rewrite mem_iota add0n /= => hi ind'; exact: global_step_good.
have [b2 [/= -> [g2 on2]]] := block_pass (leqnn d) (proj1 g1).
have [_ [s1 s2]] := good_trans g1 g2.
by exists b2; split.
Qed.

(** orthogonalize(index). *)
Lemma loop_one js b i : (i < d)%N -> (forall l, l \in js -> (l < d)%N) -> independent (vecs b) ->
  orthonormal_but i d b -> forall js0, (forall l, l \in js0 -> (l < d)%N) -> orthogonal_to i js0 b ->
  (js = [::] -> forall k, ion k (b i) (b i) = 1) ->
  exists b', loop (one_step blk thr i) js b = Some b' /\ good b b' /\ orthonormal_but i d b' /\ orthogonal_to i (js ++ js0) b' /\ forall k, ion k (b' i) (b' i) = 1.
Proof.
move=> hi; elim: js b => [|j js IH] b hjs ind on js0 hjs0 og n1 /=.
  by exists b; split=> //; split; [exact: good_refl|split=> //; split=> //; exact: n1].
have hj := hjs j (mem_head _ _).
pose b1 := if j != i then block_sub blk thr i b j else b.
have [g1 [on1 og1]] : good b b1 /\ orthonormal_but i d b1 /\ orthogonal_to i (j :: js0) b1.
  rewrite /b1; case: (altP (j =P i)) => [e|nj] /=.
    split; first exact: good_refl.
    by split=> // k l; rewrite inE => /orP [/eqP -> |hl nl]; [rewrite e eqxx|exact: og].
  have nij : i != j by rewrite eq_sym.
  split; first exact: good_shear hi hj nij (block_sub_sheared b i j) ind.
  exact: block_sub_orthogonal nij hj hjs0 on og.
rewrite /one_step -/b1.
have [b2 [-> [sc nz]]] := block_normalize_scaled (proj1 g1) hi.
have [on2 [og2 n2]] := block_normalize_orthonormal sc nz on1 og1.
have g2 : good b b2 by apply: (good_trans g1); exact: good_scale hi nz sc (proj1 g1).
have h1 l : l \in js -> (l < d)%N by move=> hl; apply: hjs; rewrite inE hl orbT.
have h2 l : l \in j :: js0 -> (l < d)%N by rewrite inE => /orP [/eqP -> //|]; exact: hjs0.
have [b3 [/= e3 [g3 [on3 [og3 n3]]]]] := IH b2 h1 (proj1 g2) on2 (j :: js0) h2 og2 (fun _ => n2).
exists b3; split=> //; split; first exact: good_trans g2 g3.
split=> //; split=> // k l; rewrite inE mem_cat => hl; apply: og3; rewrite mem_cat inE.
by case/orP: hl => [->|/orP [->|->]]; rewrite ?orbT.
Qed.

Lemma orthogonalize_one_good b i : (i < d)%N -> independent (vecs b) -> orthonormal_but i d b ->
  exists b', orthogonalize_one d blk thr b i = Some b' /\ block_orthonormal block_of d (vecs b') /\
    block_spanned block_of d (vecs b) (vecs b') /\ block_spanned block_of d (vecs b') (vecs b).
Proof.
move=> hi ind on; rewrite /orthogonalize_one.
rewrite (@fold_ext _ (fun b j => if (j != i) && (j < d)%N then global_sub i b j else b)); last first.
  by move=> b' j; rewrite mem_iota add0n /= => hj; rewrite hj andbT.
have g := global_fold (iota 0 d) hi ind.
have keep : forall js b0 l, l != i ->
    foldl (fun b j => if (j != i) && (j < d)%N then global_sub i b j else b) b0 js l = b0 l.
  elim=> [//|j js IH] b0 l nl /=; rewrite IH //; case: ifP => // _.
  by rewrite /global_sub /put (negbTE nl).
have {}keep := keep (iota 0 d) b.
set b1 := foldl _ _ _ in g keep *.
have on1 : orthonormal_but i d b1 by move=> k l l' hl hl' nl nl'; rewrite !keep // on.
have [b2 [-> [c [nc sc]]]] := global_normalize_scaled (proj1 g) hi.
have g2 : good b b2 by apply: (good_trans g); exact: good_scale hi nc sc (proj1 g).
have on2 : orthonormal_but i d b2.
  move=> k l l' hl hl' nl nl'; rewrite -(on1 k l l') //; apply: inner_on_ext => x _; exact: (proj1 sc).
have h1 l : l \in iota 0 d -> (l < d)%N by rewrite mem_iota add0n.
have d0 : iota 0 d = [::] -> forall k, ion k (b2 i) (b2 i) = 1.
  by move/(congr1 size); rewrite size_iota => e; move: hi; rewrite /= e.
have [b3 [/= -> [g3 [on3 [og3 n3]]]]] := @loop_one (iota 0 d) b2 i hi h1 (proj1 g2) on2 [::]
   (fun l h => False_ind _ (elimF idP (in_nil l) h)) (fun k l h => False_ind _ (elimF idP (in_nil l) h)) d0.
have [_ [s1 s2]] := good_trans g2 g3.
exists b3; split=> //; split; last by split.
have mem l1 : (l1 < d)%N -> l1 \in iota 0 d by move=> h; rewrite mem_iota add0n.
rewrite cats0 in og3; move=> k l m hl hm; rewrite /vecs.
case: (altP (l =P i)) => [->|nl]; case: (altP (m =P i)) => [->|nm].
- by rewrite n3 eqxx.
- by rewrite inner_onC og3 ?mem // conjC0 eq_sym (negbTE nm).
- by rewrite og3 ?mem // (negbTE nl).
- exact: on3.
Qed.
End Ortho.
