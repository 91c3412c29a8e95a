(** Functions of a small real parameter with a first order expansion, and the expansion of the plaquettes of the clover. *)
From mathcomp Require Import all_ssreflect all_algebra.
From Verif Require Import GaugeModel GaugeSpec GaugeProofs GaugeProofs2 DiracModel DiracSpec CloverModel PertProofs.
Import Order.POrderTheory GRing.Theory Num.Theory.
Set Implicit Arguments.
Unset Strict Implicit.
Unset Printing Implicit Defensive.
Local Open Scope ring_scope.

Section Expand.
Variable C : numClosedFieldType.
Add Ring Cring_expand : (Crth C).
Implicit Types (f g : C -> C) (a b e : C).
(** f e is a + e b up to second order. *)
Definition sexp f a b : Prop := exists2 K : C, 0 <= K & forall e, e \is Num.real -> `|e| <= 1 -> `|f e - a - e * b| <= `|e| ^+ 2 * K.
Lemma sexp_ext f g a b a' b' : sexp f a b -> (forall e, e \is Num.real -> f e = g e) -> a = a' -> b = b' -> sexp g a' b'.
Proof. by move=> [K K0 H] E <- <-; exists K => // e eR le; rewrite -E // H. Qed.
Lemma sexp_const c : sexp (fun _ => c) c 0.
Proof. by exists 0 => // e _ _; rewrite mulr0 subrr subr0 normr0 mulr0. Qed.
Lemma sexp_curve a b c : sexp (fun e => a + e * (b + e * c)) a b.
Proof.
exists `|c|; first exact: normr_ge0.
move=> e _ _; have -> : a + e * (b + e * c) - a - e * b = e ^+ 2 * c by rewrite expr2; cring_fold C; ring.
by rewrite normrM normrX.
Qed.
Lemma sexp_add f g a b a' b' : sexp f a b -> sexp g a' b' -> sexp (fun e => f e + g e) (a + a') (b + b').
Proof.
move=> [K K0 H] [K' K0' H']; exists (K + K'); first by rewrite addr_ge0.
move=> e eR le; have -> : f e + g e - (a + a') - e * (b + b') = (f e - a - e * b) + (g e - a' - e * b').
  by cring_fold C; ring.
by rewrite mulrDr; apply: (le_trans (ler_norm_add _ _)); rewrite ler_add ?H ?H'.
Qed.
Lemma sexp_bound f a b : sexp f a b -> exists2 K, 0 <= K & forall e, e \is Num.real -> `|e| <= 1 -> `|f e| <= K.
Proof.
move=> [K K0 H]; exists (`|a| + `|b| + K); first by rewrite !addr_ge0.
move=> e eR le; have -> : f e = a + e * b + (f e - a - e * b) by cring_fold C; ring.
apply: (le_trans (ler_norm_add _ _)); rewrite ler_add //.
  by apply: (le_trans (ler_norm_add _ _)); rewrite ler_add2l normrM ler_pimull.
by apply: (le_trans (H e eR le)); rewrite ler_pimull // expr_le1.
Qed.
Lemma sexp_mul f g a b a' b' : sexp f a b -> sexp g a' b' -> sexp (fun e => f e * g e) (a * a') (a * b' + b * a').
Proof.
move=> sf sg; have [Kg Kg0 Hg] := sexp_bound sg; case: sf sg => [K K0 H] [K' K0' H'].
exists (K * Kg + (`|a| + `|b|) * K' + `|b| * `|b'|); first by rewrite !addr_ge0 ?mulr_ge0 ?addr_ge0.
move=> e eR le.
have -> : f e * g e - a * a' - e * (a * b' + b * a') = (f e - a - e * b) * g e + (a + e * b) * (g e - a' - e * b') + e ^+ 2 * (b * b').
  by rewrite expr2; cring_fold C; ring.
rewrite [X in _ <= X]mulrDr [X in _ <= X + _]mulrDr; apply: (le_trans (ler_norm_add _ _)); rewrite ler_add //; last by rewrite normrM normrX normrM.
apply: (le_trans (ler_norm_add _ _)); rewrite ler_add //.
  by rewrite normrM mulrA; apply: ler_pmul; rewrite ?H ?Hg.
rewrite normrM mulrCA; apply: ler_pmul; rewrite ?H' //.
by apply: (le_trans (ler_norm_add _ _)); rewrite ler_add2l normrM ler_pimull.
Qed.
Lemma sexp_scale c f a b : sexp f a b -> sexp (fun e => c * f e) (c * a) (c * b).
Proof. by move=> h; apply: sexp_ext (sexp_mul (sexp_const c) h) _ _ _ => //; rewrite mul0r addr0. Qed.
Lemma sexp_opp f a b : sexp f a b -> sexp (fun e => - f e) (- a) (- b).
Proof. by move=> h; apply: sexp_ext (sexp_scale (-1) h) _ _ _ => *; rewrite mulN1r. Qed.
Lemma sexp_conj f a b : sexp f a b -> sexp (fun e => (f e)^*) a^* b^*.
Proof.
move=> [K K0 H]; exists K => // e eR le; rewrite -[X in X * b^*](CrealP eR) -rmorphM -!rmorphB norm_conjC; exact: H.
Qed.
Lemma sexp_sum (T : Type) (s : seq T) (f : T -> C -> C) (a b : T -> C) : (forall i, sexp (f i) (a i) (b i)) ->
  sexp (fun e => \sum_(i <- s) f i e) (\sum_(i <- s) a i) (\sum_(i <- s) b i).
Proof.
move=> h; elim: s => [|i s IH].
  by apply: sexp_ext (sexp_const 0) _ _ _ => *; rewrite big_nil.
by apply: sexp_ext (sexp_add (h i) IH) _ _ _ => *; rewrite big_cons.
Qed.

Definition mexp m k (f : C -> 'M[C]_(m, k)) (A B : 'M[C]_(m, k)) : Prop := forall i j, sexp (fun e => f e i j) (A i j) (B i j).
Lemma mexp_ext m k (f g : C -> 'M[C]_(m, k)) A B A' B' : mexp f A B -> (forall e, e \is Num.real -> f e = g e) ->
  A = A' -> B = B' -> mexp g A' B'.
Proof. by move=> h E <- <- i j; apply: sexp_ext (h i j) _ _ _ => // e eR; rewrite E. Qed.
Lemma mexp_const m k (A : 'M[C]_(m, k)) : mexp (fun _ => A) A 0.
Proof. by move=> i j; rewrite mxE; exact: sexp_const. Qed.
Lemma mexp_curve m k (A B D : 'M[C]_(m, k)) : mexp (fun e => A + e *: (B + e *: D)) A B.
Proof. by move=> i j; apply: sexp_ext (sexp_curve (A i j) (B i j) (D i j)) _ _ _ => // e _; rewrite !mxE. Qed.
Lemma mexp_add m k (f g : C -> 'M[C]_(m, k)) A B A' B' : mexp f A B -> mexp g A' B' -> mexp (fun e => f e + g e) (A + A') (B + B').
Proof. by move=> h h' i j; apply: sexp_ext (sexp_add (h i j) (h' i j)) _ _ _ => *; rewrite !mxE. Qed.
Lemma mexp_opp m k (f : C -> 'M[C]_(m, k)) A B : mexp f A B -> mexp (fun e => - f e) (- A) (- B).
Proof. by move=> h i j; apply: sexp_ext (sexp_opp (h i j)) _ _ _ => *; rewrite !mxE. Qed.
Lemma mexp_scale c m k (f : C -> 'M[C]_(m, k)) A B : mexp f A B -> mexp (fun e => c *: f e) (c *: A) (c *: B).
Proof. by move=> h i j; apply: sexp_ext (sexp_scale c (h i j)) _ _ _ => *; rewrite !mxE. Qed.
Lemma mexp_mul m k l (f : C -> 'M[C]_(m, k)) (g : C -> 'M[C]_(k, l)) A B A' B' : mexp f A B -> mexp g A' B' ->
  mexp (fun e => f e *m g e) (A *m A') (A *m B' + B *m A').
Proof.
move=> h h' i j.
apply: sexp_ext (sexp_sum (index_enum _) (fun t => sexp_mul (h i t) (h' t j))) _ _ _ => [e _||]; try by rewrite mxE.
by rewrite big_split !mxE.
Qed.
Lemma mexp_htrans m k (f : C -> 'M[C]_(m, k)) A B : mexp f A B -> mexp (fun e => htrans (f e)) (htrans A) (htrans B).
Proof. by move=> h i j; apply: sexp_ext (sexp_conj (h j i)) _ _ _ => *; rewrite !mxE. Qed.
(** The remainder as a bounded matrix. *)
Definition remainder m k (f : C -> 'M[C]_(m, k)) A B (e : C) : 'M[C]_(m, k) :=
  if (e \is Num.real) && (`|e| <= 1) then (e ^+ 2)^-1 *: (f e - A - e *: B) else 0.
Lemma remainderE m k (f : C -> 'M[C]_(m, k)) A B e : mexp f A B -> e \is Num.real -> `|e| <= 1 ->
  f e = A + e *: (B + e *: remainder f A B e).
Proof.
move=> h eR le; rewrite /remainder eR le /=.
have [->|ne] := eqVneq e 0.
  rewrite scale0r addr0; apply/matrixP => i j; have [K _ H] := h i j.
  have := H 0 (real0 _); rewrite normr0 ler01 expr0n mul0r mul0r subr0 => /(_ isT).
  by rewrite normr_le0 subr_eq0 => /eqP.
rewrite scalerA scalerDr scalerA mulrA -expr2 divff ?expf_neq0 // scale1r.
by rewrite [X in _ + X]addrC subrK addrC subrK.
Qed.
Lemma remainder_bound m k (f : C -> 'M[C]_(m, k)) A B : mexp f A B ->
  exists rho, forall e, `|e| <= 1 -> nrm (remainder f A B e) <= rho.
Proof.
move=> h; have h2 (i : 'I_m) (j : 'I_k) : exists K, 0 <= K /\ forall e, e \is Num.real -> `|e| <= 1 ->
    `|f e i j - A i j - e * B i j| <= `|e| ^+ 2 * K by have [K K0 H] := h i j; exists K.
have [K H] : exists K : 'I_m * 'I_k -> C, forall t, 0 <= K t /\ forall e, e \is Num.real -> `|e| <= 1 ->
    `|f e t.1 t.2 - A t.1 t.2 - e * B t.1 t.2| <= `|e| ^+ 2 * K t.
  exact: (@fin_all_exists _ (fun _ => C) (fun t K => 0 <= K /\ forall e, e \is Num.real -> `|e| <= 1 ->
    `|f e t.1 t.2 - A t.1 t.2 - e * B t.1 t.2| <= `|e| ^+ 2 * K) (fun t => h2 t.1 t.2)).
have S0 : 0 <= \sum_i \sum_j K (i, j) by do 2 (apply: sumr_ge0 => ? _); exact: (proj1 (H _)).
exists (\sum_i \sum_j K (i, j)) => e le; rewrite /remainder; case: ifP => [/andP [eR _]|_]; last first.
  by rewrite /nrm big1 // => i _; rewrite big1 // => j _; rewrite mxE normr0.
have [e0|ne] := eqVneq e 0.
  by rewrite e0 expr0n invr0 scale0r /nrm big1 // => i _; rewrite big1 // => j _; rewrite mxE normr0.
apply: ler_sum => i _; apply: ler_sum => j _; rewrite !mxE normrM normfV normrX.
have [_ /(_ e eR le) /=] := H (i, j).
by move=> le2; rewrite mulrC ler_pdivr_mulr ?exprn_gt0 ?normr_gt0 // [K _ * _]mulrC.
Qed.
End Expand.

Section Leaves.
Variable C : numClosedFieldType.
Add Ring Cring_leaves : (Crth C).
Variable n : nat.
Variable L : lattice.
Notation links := (L -> 'I_4 -> 'M[C]_n) (only parsing).
Implicit Types (V W Z : links) (x : L).
(** The change of the leaves with the links in the first direction of the plane, and with those in the second. *)
Definition leaves_first V W x (mu nu : 'I_4) : 'M[C]_n :=
  htrans (W (sdn mu x) mu) *m htrans (V (sdn nu (sdn mu x)) nu) *m V (sdn nu (sdn mu x)) mu *m V (sdn nu x) nu
  + htrans (V (sdn mu x) mu) *m htrans (V (sdn nu (sdn mu x)) nu) *m W (sdn nu (sdn mu x)) mu *m V (sdn nu x) nu
  + (htrans (V (sdn nu x) nu) *m W (sdn nu x) mu *m V (sup mu (sdn nu x)) nu *m htrans (V x mu)
  + htrans (V (sdn nu x) nu) *m V (sdn nu x) mu *m V (sup mu (sdn nu x)) nu *m htrans (W x mu))
  + (W x mu *m V (sup mu x) nu *m htrans (V (sup nu x) mu) *m htrans (V x nu)
  + V x mu *m V (sup mu x) nu *m htrans (W (sup nu x) mu) *m htrans (V x nu))
  + (V x nu *m htrans (W (sup nu (sdn mu x)) mu) *m htrans (V (sdn mu x) nu) *m V (sdn mu x) mu
  + V x nu *m htrans (V (sup nu (sdn mu x)) mu) *m htrans (V (sdn mu x) nu) *m W (sdn mu x) mu).
Definition leaves_second V W x (mu nu : 'I_4) : 'M[C]_n := htrans (leaves_first V W x nu mu).
Definition leaves_change V W x mu nu := leaves_first V W x mu nu + leaves_second V W x mu nu.
Lemma sum16 (p p0 p1 p2 p3 p4 p5 p6 p7 p8 p9 p10 p11 p12 p13 p14 : C) :
  p + p0 + p1 + p2 + (p3 + p4 + p5 + p6) + (p7 + p8 + p9 + p10) + (p11 + p12 + p13 + p14) =
  p + p1 + (p4 + p6) + (p7 + p9) + (p12 + p14) + (p2 + p0 + (p13 + p11) + (p10 + p8) + (p5 + p3)).
Proof. by cring_fold C; ring. Qed.
Lemma mexp4 (f1 f2 f3 f4 : C -> 'M[C]_n) A1 A2 A3 A4 B1 B2 B3 B4 :
  mexp f1 A1 B1 -> mexp f2 A2 B2 -> mexp f3 A3 B3 -> mexp f4 A4 B4 ->
  mexp (fun e => f1 e *m f2 e *m f3 e *m f4 e) (A1 *m A2 *m A3 *m A4)
    (B1 *m A2 *m A3 *m A4 + A1 *m B2 *m A3 *m A4 + A1 *m A2 *m B3 *m A4 + A1 *m A2 *m A3 *m B4).
Proof.
move=> h1 h2 h3 h4; apply: mexp_ext (mexp_mul (mexp_mul (mexp_mul h1 h2) h3) h4) _ _ _ => //.
rewrite !mulmxDl.
move: (A1 *m A2 *m A3 *m B4) (A1 *m A2 *m B3 *m A4) (A1 *m B2 *m A3 *m A4) (B1 *m A2 *m A3 *m A4) => p q s t.
by rewrite addrC; congr (_ + _); rewrite addrC; congr (_ + _); rewrite addrC.
Qed.
Variables V W Z : links.
Let V' (e : C) : links := fun x mu => V x mu + e *: (W x mu + e *: Z x mu).
Lemma link_exp x mu : mexp (fun e => V' e x mu) (V x mu) (W x mu).
Proof. exact: mexp_curve. Qed.
Lemma leaves_exp x mu nu : mexp (fun e => leaves (V' e) x mu nu) (leaves V x mu nu) (leaves_change V W x mu nu).
Proof.
have l1 y d := link_exp y d; have l2 y d := mexp_htrans (link_exp y d).
have E := mexp_add (mexp_add (mexp_add (mexp4 (l2 (sdn mu x) mu) (l2 (sdn nu (sdn mu x)) nu) (l1 (sdn nu (sdn mu x)) mu) (l1 (sdn nu x) nu))
  (mexp4 (l2 (sdn nu x) nu) (l1 (sdn nu x) mu) (l1 (sup mu (sdn nu x)) nu) (l2 x mu)))
  (mexp4 (l1 x mu) (l1 (sup mu x) nu) (l2 (sup nu x) mu) (l2 x nu)))
  (mexp4 (l1 x nu) (l2 (sup nu (sdn mu x)) mu) (l2 (sdn mu x) nu) (l1 (sdn mu x) mu)).
apply: mexp_ext E _ _ _ => //.
rewrite /leaves_change /leaves_second /leaves_first !(htransD, htransM, htransK) !mulmxA (sdnC mu nu x).
do 16 (let p := fresh "p" in move: (_ *m _ *m _ *m _) => p).
by apply/matrixP => i j; rewrite !mxE; exact: sum16.
Qed.
End Leaves.
