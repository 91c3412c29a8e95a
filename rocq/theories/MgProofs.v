From mathcomp Require Import all_ssreflect all_algebra.
From Verif Require Import MgModel MgSpec.
Import GRing.Theory Num.Theory.
Set Implicit Arguments.
Unset Strict Implicit.
Unset Printing Implicit Defensive.
Local Open Scope ring_scope.

(** ** Inner products on blocks, abstractly *)
Section Abstract.
Variable C : numClosedFieldType.
Variables (X : finType) (K : eqType) (block : X -> K).
Implicit Types u v w : X -> C.
Local Notation inner_on := (inner_on (C := C) block).

Lemma inner_onD k u v w (c : C) : inner_on k u (fun x => v x - c * w x) = inner_on k u v - c * inner_on k u w.
Proof.
rewrite /inner_on mulr_sumr -sumrB; apply: eq_bigr => x _.
by rewrite mulrBr mulrCA.
Qed.
Lemma inner_on_ext k u u' v v' : (forall x, block x = k -> u x = u' x) -> (forall x, block x = k -> v x = v' x) ->
  inner_on k u v = inner_on k u' v'.
Proof. by move=> hu hv; apply: eq_bigr => x /eqP e; rewrite hu // hv. Qed.
Lemma inner_onC k u v : inner_on k u v = (inner_on k v u)^*.
Proof. by rewrite rmorph_sum; apply: eq_bigr => x _; rewrite rmorphM conjCK mulrC. Qed.
Lemma inner_onZ k u v (a c : C) : inner_on k (fun x => u x / a) (fun x => v x / c) = inner_on k u v / (a^* * c).
Proof.
rewrite /inner_on mulr_suml; apply: eq_bigr => x _.
by rewrite rmorphM fmorphV invfM mulrACA.
Qed.
Lemma inner_on_ge0 k u : 0 <= inner_on k u u.
Proof. by apply: sumr_ge0 => x _; rewrite mulrC mul_conjC_ge0. Qed.
Lemma inner_on_eq0 k u : inner_on k u u = 0 -> forall x, block x = k -> u x = 0.
Proof.
move=> e x bx.
have h : forall y, block y == k -> 0 <= (u y)^* * u y by move=> y _; rewrite mulrC mul_conjC_ge0.
have := psumr_eq0P h e; move/(_ x); rewrite bx eqxx => /(_ isT) /eqP.
by rewrite mulrC mul_conjC_eq0 => /eqP.
Qed.
Lemma inner_eq0 u : inner u u = 0 -> forall x, u x = 0.
Proof.
move=> e x.
have h : forall y, true -> 0 <= (u y)^* * u y by move=> y _; rewrite mulrC mul_conjC_ge0.
have := psumr_eq0P h e; move/(_ x isT)/eqP.
by rewrite mulrC mul_conjC_eq0 => /eqP.
Qed.
Lemma inner_ge0 u : 0 <= inner u u.
Proof. by apply: sumr_ge0 => x _; rewrite mulrC mul_conjC_ge0. Qed.

(** ** Elementary steps on a family of vectors *)
Variable d : nat.
Implicit Types b : nat -> X -> C.

(** [b'] is [b] with vector [i] changed by a multiple of vector [j], or scaled, block by block. *)
Definition sheared i j (c : K -> C) b b' : Prop :=
  (forall l, l != i -> forall x, b' l x = b l x) /\ (forall x, b' i x = b i x - c (block x) * b j x).
Definition scaled i (c : K -> C) b b' : Prop :=
  (forall l, l != i -> forall x, b' l x = b l x) /\ (forall x, b' i x = b i x / c (block x)).

Lemma sum_delta (i : nat) (F : nat -> C) : (i < d)%N -> \sum_(l < d) (if l == i :> nat then F l else 0) = F i.
Proof.
move=> hi; rewrite (bigD1 (Ordinal hi)) //= eqxx big1 ?addr0 // => l.
by move=> /negbTE; rewrite -val_eqE /= => ->.
Qed.

Lemma shear_independent i j c b b' : (i < d)%N -> (j < d)%N -> i != j -> sheared i j c b b' ->
  block_independent block d b -> block_independent block d b'.
Proof.
move=> hi hj nij [h1 h2] ind k a e.
pose a' l := if l == j then a j - a i * c k else a l.
have z : forall l, (l < d)%N -> a' l = 0.
  apply: (ind k) => x bx; apply: etrans (e x bx).
  transitivity (\sum_(l < d) (a l * b l x) - a i * c k * b j x).
    rewrite -(sum_delta (fun l => a i * c k * b l x) hj) -sumrB; apply: eq_bigr => l _.
    by rewrite /a'; case: eqP => [->|_]; rewrite ?subr0 // mulrBl.
  transitivity (\sum_(l < d) (a l * b l x) - \sum_(l < d) (if l == i :> nat then a l * c k * b j x else 0)).
    by rewrite (sum_delta (fun l => a l * c k * b j x) hi).
  rewrite -sumrB; apply: eq_bigr => l _; case: eqP => [->|/eqP nl].
    by rewrite h2 bx mulrBr mulrA.
  by rewrite subr0 h1.
have ai : a i = 0 by have := z i hi; rewrite /a' (negbTE nij).
move=> l hl; have := z l hl; rewrite /a'; case: eqP => [->|//].
by rewrite ai mul0r subr0.
Qed.

Lemma scale_independent i c b b' : (i < d)%N -> (forall k, c k != 0) -> scaled i c b b' ->
  block_independent block d b -> block_independent block d b'.
Proof.
move=> hi nc [h1 h2] ind k a e.
pose a' l := if l == i then a i / c k else a l.
have z : forall l, (l < d)%N -> a' l = 0.
  apply: (ind k) => x bx; apply: etrans (e x bx); apply: eq_bigr => l _; rewrite /a'.
  case: eqP => [->|/eqP nl]; last by rewrite h1.
  by rewrite h2 bx mulrAC mulrA.
move=> l hl; have := z l hl; rewrite /a'; case: eqP => [->|//] /eqP.
by rewrite mulf_eq0 invr_eq0 (negbTE (nc k)) orbF => /eqP.
Qed.

(** Spans. *)
Definition equivalent b b' : Prop := block_spanned block d b b' /\ block_spanned block d b' b.

Lemma spanned_trans b b' b'' : block_spanned block d b b' -> block_spanned block d b' b'' -> block_spanned block d b b''.
Proof.
move=> h1 h2 k i hi; have [a ha] := h2 k i hi.
have h l : exists a1 : nat -> C, (l < d)%N -> forall x, block x = k -> b' l x = \sum_(j < d) a1 j * b j x.
  by case: (ltnP l d) => hl; [have [a1 h] := h1 k l hl; exists a1|exists (fun _ => 0)].
have [A hA] : exists A : nat -> nat -> C, forall l, (l < d)%N -> forall x, block x = k ->
    b' l x = \sum_(j < d) A l j * b j x.
  have : forall m, exists A : nat -> nat -> C, forall l, (l < m)%N -> (l < d)%N -> forall x, block x = k ->
    b' l x = \sum_(j < d) A l j * b j x.
    elim=> [|m [A hA]]; first by exists (fun _ _ => 0).
    have [a1 h3] := h m; exists (fun l => if l == m then a1 else A l) => l.
    rewrite ltnS leq_eqVlt; case: eqP => [-> _|_ /=]; [exact: h3|exact: hA].
  by move/(_ d) => [A hA]; exists A => l hl; apply: hA.
exists (fun j => \sum_(l < d) a l * A l j) => x bx; rewrite ha //.
transitivity (\sum_(l < d) \sum_(j < d) a l * A l j * b j x).
  by apply: eq_bigr => l _; rewrite (hA l) // mulr_sumr; apply: eq_bigr => j _; rewrite mulrA.
by rewrite exchange_big /=; apply: eq_bigr => j _; rewrite mulr_suml.
Qed.
Lemma spanned_refl b : block_spanned block d b b.
Proof.
move=> k i hi; exists (fun j => if j == i then 1 else 0) => x _.
rewrite -[LHS](sum_delta (fun j => b j x) hi); apply: eq_bigr => l _.
by case: eqP; rewrite ?mul1r ?mul0r.
Qed.
Lemma equivalent_refl b : equivalent b b. Proof. by split; apply: spanned_refl. Qed.
Lemma equivalent_trans b b' b'' : equivalent b b' -> equivalent b' b'' -> equivalent b b''.
Proof. by move=> [h1 h2] [h3 h4]; split; [apply: spanned_trans h1 h3|apply: spanned_trans h4 h2]. Qed.

Lemma spanned_other k l b b' : (forall x, b' l x = b l x) -> (l < d)%N ->
  exists a : nat -> C, forall x, block x = k -> b' l x = \sum_(j < d) a j * b j x.
Proof. by move=> e hl; have [a h] := (spanned_refl b : block_spanned block d b b) k l hl; exists a => x bx; rewrite e h. Qed.

Lemma shear_spanned i j (c : K -> C) b b' : (i < d)%N -> (j < d)%N -> sheared i j c b b' -> block_spanned block d b b'.
Proof.
move=> hi hj [h1 h2] k l hl.
case: (altP (l =P i)) => [->|nl]; last by apply: spanned_other hl => x; exact: h1.
exists (fun m => (if m == i then 1 else 0) - (if m == j then c k else 0)) => x bx.
rewrite h2 bx -[b i x](sum_delta (fun m => b m x) hi) -[c k * b j x](sum_delta (fun m => c k * b m x) hj) -sumrB.
apply: eq_bigr => m _; case: eqP => _; case: eqP => _; rewrite ?mulrBl ?mul1r ?mul0r ?sub0r ?subr0 ?mulNr ?oppr0 ?subrr //.
Qed.
Lemma shear_equivalent i j (c : K -> C) b b' : (i < d)%N -> (j < d)%N -> i != j -> sheared i j c b b' -> equivalent b b'.
Proof.
move=> hi hj nij h; split; first exact: shear_spanned h.
case: h => h1 h2; apply: (@shear_spanned i j (fun k => - c k)) => //; split.
  by move=> l nl x; rewrite h1.
by move=> x; rewrite h2 h1 1?eq_sym // mulNr opprK subrK.
Qed.
Lemma scale_spanned i (c : K -> C) b b' : (i < d)%N -> scaled i c b b' -> block_spanned block d b b'.
Proof.
move=> hi [h1 h2] k l hl.
case: (altP (l =P i)) => [->|nl]; last by apply: spanned_other hl => x; exact: h1.
exists (fun m => if m == i then (c k)^-1 else 0) => x bx.
rewrite h2 bx mulrC -[LHS](sum_delta (fun m => (c k)^-1 * b m x) hi).
by apply: eq_bigr => m _; case: eqP => // _; rewrite mul0r.
Qed.
Lemma scale_equivalent i (c : K -> C) b b' : (i < d)%N -> (forall k, c k != 0) -> scaled i c b b' -> equivalent b b'.
Proof.
move=> hi nc h; split; first exact: scale_spanned h.
case: h => h1 h2; apply: (@scale_spanned i (fun k => (c k)^-1)) => //; split.
  by move=> l nl x; rewrite h1.
by move=> x; rewrite h2 invrK mulfVK.
Qed.

(** A vector of an independent family does not vanish on a block. *)
Lemma independent_norm b k i : block_independent block d b -> (i < d)%N -> inner_on k (b i) (b i) != 0.
Proof.
move=> ind hi; apply/negP => /eqP e; have z := inner_on_eq0 e.
have := ind k (fun j => if j == i then 1 else 0) _ i hi; rewrite eqxx => /(_ _)/eqP; rewrite oner_eq0 => h.
apply: notF; apply: h => x bx; apply: big1 => j _; case: eqP => [->|_]; last by rewrite mul0r.
by rewrite z // mulr0.
Qed.
Lemma independent_inner b (k : K) i : block_independent block d b -> (i < d)%N -> inner (b i) (b i) != 0.
Proof.
move=> ind hi; apply/negP => /eqP e; have z := inner_eq0 e.
move: (independent_norm k ind hi); rewrite /inner_on big1 ?eqxx // => x _; by rewrite z mulr0.
Qed.
End Abstract.
