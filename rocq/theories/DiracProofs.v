(** Proofs about the Wilson-Dirac operators. *)
From Coq Require Import ZArith.
From mathcomp Require Import all_ssreflect all_algebra.
From Verif Require Import GaugeModel GaugeSpec GaugeProofs GammaModel DiracModel DiracSpec.
Import GRing.Theory Num.Theory.
Set Implicit Arguments.
Unset Strict Implicit.
Unset Printing Implicit Defensive.
Local Open Scope ring_scope.

Section Proofs.
Variable C : numClosedFieldType.
Add Ring Cring : (Crth C).
Variable n : nat.
Variable L : lattice.
Notation field := (L -> 'I_4 -> 'I_n -> C) (only parsing).
Implicit Types (U : L -> 'I_4 -> 'M[C]_n) (v w : field) (x : L).

Lemma ii : 'i * 'i = -1 :> C.
Proof. by rewrite -expr2 sqrCi. Qed.
Lemma rect (z : C) : 'Re z + 'i * 'Im z = z.
Proof. by rewrite -Crect. Qed.

(** Complex numbers assembled from real and imaginary parts. *)
Lemma mkc_add (a b : C) : mkc ('Re a + 'Re b) ('Im a + 'Im b) = a + b.
Proof. by rewrite /mkc mulrDr addrACA !rect. Qed.
Lemma mkc_sub (a b : C) : mkc ('Re a - 'Re b) ('Im a - 'Im b) = a - b.
Proof. by rewrite /mkc mulrBr addrACA -opprD !rect. Qed.
Lemma mkc_addi (a b : C) : mkc ('Re a - 'Im b) ('Im a + 'Re b) = a + 'i * b.
Proof.
rewrite /mkc -[in RHS](rect a) -[in RHS](rect b) (mulrDr _ ('Re b)) mulrA ii mulN1r mulrDr.
by rewrite -!addrA; congr (_ + _); rewrite addrC -!addrA.
Qed.
Lemma mkc_subi (a b : C) : mkc ('Re a + 'Im b) ('Im a - 'Re b) = a - 'i * b.
Proof.
rewrite /mkc -[in RHS](rect a) -[in RHS](rect b) (mulrDr _ ('Re b)) mulrA ii mulN1r opprD opprK mulrBr.
by rewrite -!addrA; congr (_ + _); rewrite addrC -!addrA.
Qed.
Lemma mkc_i (a b : C) : mkc ('Im a - 'Im b) ('Re b - 'Re a) = 'i * (b - a).
Proof.
rewrite /mkc -[in RHS](rect a) -[in RHS](rect b) !mulrBr !mulrDr !mulrA ii !mulN1r.
by rewrite opprD opprK addrACA addrC; congr (_ + _); rewrite addrC.
Qed.
Lemma mkc0 (t : C) : mkc 0 t = 'i * t.
Proof. by rewrite /mkc add0r. Qed.

Lemma cii : @cmul C 'i 'i = @copp C (@c1 C).
Proof. exact: ii. Qed.
Ltac cringi := cring_fold C; ring [cii].
Ltac split_c z := move: (esym (rect z)); move: ('Re z) ('Im z) => ? ? ->.

(** The output lines of the basic operator. *)
Lemma out_plus (k a p q r s : C) :
  mkc ('Re a - k * ('Re p + 'Re q + 'Re r + 'Re s)) ('Im a - k * ('Im p + 'Im q + 'Im r + 'Im s))
  = a - k * (p + q + r + s).
Proof. rewrite /mkc; split_c a; split_c p; split_c q; split_c r; split_c s; cringi. Qed.
Lemma out_two (k a p q r s : C) :
  mkc ('Re a + k * ('Re q + 'Re s - 'Im p - 'Im r)) ('Im a + k * ('Re p + 'Re r + 'Im q + 'Im s))
  = a + k * ('i * p + q + 'i * r + s).
Proof. rewrite /mkc; split_c a; split_c p; split_c q; split_c r; split_c s; cringi. Qed.
Lemma out_three (k a p q r s : C) :
  mkc ('Re a + k * ('Im r - 'Im p - 'Re q + 'Re s)) ('Im a + k * ('Re p - 'Re r - 'Im q + 'Im s))
  = a + k * ('i * p - q - 'i * r + s).
Proof. rewrite /mkc; split_c a; split_c p; split_c q; split_c r; split_c s; cringi. Qed.
Lemma mkcN (a b : C) : mkc (- a) (- b) = - mkc a b.
Proof. by rewrite /mkc mulrN -opprD. Qed.

(** Matrix times colour vector. *)
Lemma mulvD (A : 'M[C]_n) (f g : 'I_n -> C) c : mulv A (fun d => f d + g d) c = mulv A f c + mulv A g c.
Proof. by rewrite /mulv -big_split; apply: eq_bigr => d _; rewrite mulrDr. Qed.
Lemma mulvB (A : 'M[C]_n) (f g : 'I_n -> C) c : mulv A (fun d => f d - g d) c = mulv A f c - mulv A g c.
Proof. by rewrite /mulv -sumrB; apply: eq_bigr => d _; rewrite mulrBr. Qed.
Lemma mulvZ (A : 'M[C]_n) (k : C) (f : 'I_n -> C) c : mulv A (fun d => k * f d) c = k * mulv A f c.
Proof. by rewrite /mulv mulr_sumr; apply: eq_bigr => d _; rewrite mulrCA. Qed.
Lemma mulv_ext (A : 'M[C]_n) (f g : 'I_n -> C) : f =1 g -> mulv A f =1 mulv A g.
Proof. by move=> E c; apply: eq_bigr => d _; rewrite E. Qed.

(** The gamma matrices acting on four components. *)
Definition gact (mu a : nat) (f : 'I_4 -> C) : C :=
  match mu, a with
  | 0, 0 => (- 'i * f d3)%R | 0, 1 => (- 'i * f d2)%R | 0, 2 => ('i * f d1)%R | 0, _ => ('i * f d0)%R
  | 1, 0 => (- f d3)%R | 1, 1 => (f d2)%R | 1, 2 => (f d1)%R | 1, _ => (- f d0)%R
  | 2, 0 => (- 'i * f d2)%R | 2, 1 => ('i * f d3)%R | 2, 2 => ('i * f d0)%R | 2, _ => (- 'i * f d1)%R
  | _, 0 => (f d2)%R | _, 1 => (f d3)%R | _, 2 => (f d0)%R | _, _ => (f d1)%R
  end%N.
Lemma sum4E (f : 'I_4 -> C) : \sum_(b < 4) f b = f d0 + (f d1 + (f d2 + f d3)).
Proof.
rewrite !big_ord_recl big_ord0 addr0.
by congr (_ + (_ + (_ + _))); congr (f _); apply: val_inj.
Qed.
Lemma sum4E' (f : 'I_4 -> C) : \sum_(b < 4) f b = f d0 + f d1 + f d2 + f d3.
Proof. by rewrite sum4E !addrA. Qed.
Lemma ord4P (P : 'I_4 -> Prop) : P d0 -> P d1 -> P d2 -> P d3 -> forall a, P a.
Proof.
move=> h0 h1 h2 h3 [[|[|[|[|m]]]] h] //.
- by rewrite (_ : Ordinal h = d0) //; apply: val_inj.
- by rewrite (_ : Ordinal h = d1) //; apply: val_inj.
- by rewrite (_ : Ordinal h = d2) //; apply: val_inj.
- by rewrite (_ : Ordinal h = d3) //; apply: val_inj.
Qed.
Lemma gc0 : gc C e0 = 0. Proof. by rewrite /gc /zc /= mulr0 addr0. Qed.
Lemma gc1 : gc C e1 = 1. Proof. by rewrite /gc /zc /= mulr0 addr0. Qed.
Lemma gcm : gc C em = -1. Proof. by rewrite /gc /zc /= mulr0 addr0. Qed.
Lemma gci : gc C ei = 'i. Proof. by rewrite /gc /zc /= mulr1 add0r. Qed.
Lemma gcj : gc C ej = - 'i. Proof. by rewrite /gc /zc /= mulrN1 add0r. Qed.
Definition gcE := (gc0, gc1, gcm, gci, gcj).
Lemma gammaE (mu a : 'I_4) f : \sum_(b < 4) gamma C mu a b * f b = gact mu a f.
Proof.
move: mu; apply: ord4P; move: a; apply: ord4P;
  by rewrite sum4E !mxE /at3 /at2 /= !gcE ?mul0r ?mul1r ?mulN1r ?add0r ?addr0.
Qed.
Lemma gamma5E (a : 'I_4) (f : 'I_4 -> C) : \sum_(b < 4) gamma_five C a b * f b = if (a < 2)%N then f a else - f a.
Proof.
move: a; apply: ord4P;
  by rewrite sum4E !mxE /at2 /= !gcE ?mul0r ?mul1r ?mulN1r ?add0r ?addr0.
Qed.
Lemma sum_one (a : 'I_4) (f : 'I_4 -> C) : \sum_(b < 4) (1%:M : 'M[C]_4) a b * f b = f a.
Proof.
rewrite (bigD1 a) //= !mxE eqxx mul1r big1 ?addr0 // => b nb.
by rewrite !mxE eq_sym (negbTE nb) mul0r.
Qed.
(** The hopping term, direction by direction. *)
Definition up U v x mu b : 'I_n -> C := mulv (U x mu) (v (sup mu x) b).
Definition dn U v x mu b : 'I_n -> C := mulv (htrans (U (sdn mu x) mu)) (v (sdn mu x) b).
Lemma hoppingE U v x a c : hopping U v x a c =
  \sum_(mu < 4) ((up U v x mu a c - gact mu a (fun b => up U v x mu b c))
                 + (dn U v x mu a c + gact mu a (fun b => dn U v x mu b c))).
Proof.
apply: eq_bigr => mu _; rewrite big_split; congr (_ + _) => /=.
  rewrite -gammaE -[up U v x mu a c](sum_one a (fun b => up U v x mu b c)) -sumrB.
  by apply: eq_bigr => b _; rewrite [X in X * _]mxE [X in (_ + X) * _]mxE -mulrBl.
rewrite -gammaE -[dn U v x mu a c](sum_one a (fun b => dn U v x mu b c)) -big_split.
apply: eq_bigr => b _ /=; rewrite [X in X * _]mxE -mulrDl; congr (_ * _).
by apply: eq_bigr => e _; rewrite !mxE.
Qed.

(** The projections of the two implementations. *)
Lemma proj_upE v x mu nu A c : mulv A (proj_up v x mu nu) c =
  let f b := mulv A (v (sup mu x) b) c in
  match nat_of_ord mu, nu with
  | 0, 0 => (f d0 + 'i * f d3)%R | 0, _ => (f d1 + 'i * f d2)%R
  | 1, 0 => (f d0 + f d3)%R | 1, _ => (f d1 - f d2)%R
  | 2, 0 => (f d0 + 'i * f d2)%R | 2, _ => (f d1 - 'i * f d3)%R
  | _, 0 => (f d0 - f d2)%R | _, _ => (f d1 - f d3)%R
  end%N.
Proof.
move: mu; apply: ord4P; case: nu => [|nu] /=;
  rewrite -?mulvZ -?mulvD -?mulvB; apply: mulv_ext => d; rewrite /proj_up /=;
  by rewrite ?mkc_addi ?mkc_subi ?mkc_add ?mkc_sub.
Qed.
Lemma proj_dnE v x mu nu A c : mulv A (proj_dn v x mu nu) c =
  let f b := mulv A (v (sdn mu x) b) c in
  match nat_of_ord mu, nu with
  | 0, 0 => (f d0 - 'i * f d3)%R | 0, _ => (f d1 - 'i * f d2)%R
  | 1, 0 => (f d0 - f d3)%R | 1, _ => (f d1 + f d2)%R
  | 2, 0 => (f d0 - 'i * f d2)%R | 2, _ => (f d1 + 'i * f d3)%R
  | _, 0 => (f d0 + f d2)%R | _, _ => (f d1 + f d3)%R
  end%N.
Proof.
move: mu; apply: ord4P; case: nu => [|nu] /=;
  rewrite -?mulvZ -?mulvD -?mulvB; apply: mulv_ext => d; rewrite /proj_dn /=;
  by rewrite ?mkc_addi ?mkc_subi ?mkc_add ?mkc_sub.
Qed.

(** Multiplication with gamma5 by the flag. *)
Definition sg5 (gamma5 : bool) (a : 'I_4) (z : C) : C := if gamma5 && (1 < a)%N then - z else z.
Lemma maybe5E g v x a c : maybe5 g v x a c = sg5 g a (v x a c).
Proof.
rewrite /maybe5 /sg5; case: g => //=; rewrite /g5 gamma5E ltnNge.
by case: leqP.
Qed.
Lemma basic_outE k g tp tm v x a c :
  basic_output (C := C) (n := n) (L := L) k g tp tm v x a c
  = sg5 g a (match nat_of_ord a with
      | 0 => (v x d0 c - k * (tp d0 0%N c + tp d1 0%N c + tp d2 0%N c + tp d3 0%N c))%R
      | 1 => (v x d1 c - k * (tp d0 1%N c + tp d1 1%N c + tp d2 1%N c + tp d3 1%N c))%R
      | 2 => (v x d2 c + k * ('i * tm d0 1%N c + tm d1 1%N c + 'i * tm d2 0%N c + tm d3 0%N c))%R
      | _ => (v x d3 c + k * ('i * tm d0 0%N c - tm d1 0%N c - 'i * tm d2 1%N c + tm d3 1%N c))%R
      end%N).
Proof.
rewrite /basic_output /sg5; case: g => /=; move: a; apply: ord4P => /=;
  by rewrite ?mkcN ?out_plus ?out_two ?out_three.
Qed.
Lemma basic_correct k g U v : feq (basic_multiply k g U v) (maybe5 g (dirac k U v)).
Proof.
move=> x a c; rewrite maybe5E /basic_multiply basic_outE /basic_plus /basic_minus !proj_upE !proj_dnE /=.
congr (sg5 _ _ _); rewrite /dirac hoppingE sum4E /up /dn.
move: a; apply: ord4P => /=; cringi.
Qed.

(** The second implementation. *)
Lemma from_upE U x mu f : from_up U x mu f =1 mulv (U x mu) f.
Proof. by move=> a; apply: eq_bigr => c _; rewrite mulrC. Qed.
Lemma from_downE U x mu f : from_down U x mu f =1 mulv (htrans (U (sdn mu x) mu)) f.
Proof. by move=> a; apply: eq_bigr => c _; rewrite mulrC !mxE. Qed.
Lemma mulv_addi (A : 'M[C]_n) (f g : 'I_n -> C) c :
  mulv A (fun d => mkc ('Re (f d) - 'Im (g d)) ('Im (f d) + 'Re (g d))) c = mulv A f c + 'i * mulv A g c.
Proof. by rewrite -mulvZ -mulvD; apply: mulv_ext => d; rewrite mkc_addi. Qed.
Lemma mulv_subi (A : 'M[C]_n) (f g : 'I_n -> C) c :
  mulv A (fun d => mkc ('Re (f d) + 'Im (g d)) ('Im (f d) - 'Re (g d))) c = mulv A f c - 'i * mulv A g c.
Proof. by rewrite -mulvZ -mulvB; apply: mulv_ext => d; rewrite mkc_subi. Qed.
Lemma putE (out : 'I_4 -> 'I_n -> C) a f b c : put out a f b c = if b == a then f c else out b c.
Proof. by rewrite /put; case: (b == a). Qed.
Definition restE := (from_upE, from_downE, mulv_addi, mulv_subi, mkc_i, mulvB, mulvD).
(** What each step adds to the output, and what all of them leave there. *)
Lemma dw_step2E k U v x out a c : dw_step2 k U v x out a c = out a c +
  match nat_of_ord a with 0 => (- k * ((dn U v x d1 d0 c - dn U v x d1 d3 c) + (up U v x d1 d0 c + up U v x d1 d3 c)))%R | 3 => (k * ((up U v x d1 d0 c + up U v x d1 d3 c) - (dn U v x d1 d0 c - dn U v x d1 d3 c)))%R | _ => 0%R end%N.
Proof.
rewrite /dw_step2 !putE /up /dn.
by move: a; apply: ord4P => /=; rewrite ?addr0 // !restE ?mulNr.
Qed.
Lemma dw_step3E k U v x out a c : dw_step3 k U v x out a c = out a c +
  match nat_of_ord a with 1 => (- k * ((dn U v x d1 d1 c + dn U v x d1 d2 c) + (up U v x d1 d1 c - up U v x d1 d2 c)))%R | 2 => (k * ((dn U v x d1 d1 c + dn U v x d1 d2 c) - (up U v x d1 d1 c - up U v x d1 d2 c)))%R | _ => 0%R end%N.
Proof.
rewrite /dw_step3 !putE /up /dn.
by move: a; apply: ord4P => /=; rewrite ?addr0 // !restE ?mulNr.
Qed.
Lemma dw_step4E k U v x out a c : dw_step4 k U v x out a c = out a c +
  match nat_of_ord a with 0 => (- k * ((dn U v x d2 d0 c - 'i * dn U v x d2 d2 c) + (up U v x d2 d0 c + 'i * up U v x d2 d2 c)))%R | 2 => (k * ('i * ((dn U v x d2 d0 c - 'i * dn U v x d2 d2 c) - (up U v x d2 d0 c + 'i * up U v x d2 d2 c))))%R | _ => 0%R end%N.
Proof.
rewrite /dw_step4 !putE /up /dn.
by move: a; apply: ord4P => /=; rewrite ?addr0 // !restE ?mulNr.
Qed.
Lemma dw_step5E k U v x out a c : dw_step5 k U v x out a c = out a c +
  match nat_of_ord a with 1 => (- k * ((dn U v x d2 d1 c + 'i * dn U v x d2 d3 c) + (up U v x d2 d1 c - 'i * up U v x d2 d3 c)))%R | 3 => (k * ('i * ((up U v x d2 d1 c - 'i * up U v x d2 d3 c) - (dn U v x d2 d1 c + 'i * dn U v x d2 d3 c))))%R | _ => 0%R end%N.
Proof.
rewrite /dw_step5 !putE /up /dn.
by move: a; apply: ord4P => /=; rewrite ?addr0 // !restE ?mulNr.
Qed.
Lemma dw_step6E k U v x out a c : dw_step6 k U v x out a c = out a c +
  match nat_of_ord a with 0 => (- k * ((dn U v x d3 d0 c + dn U v x d3 d2 c) + (up U v x d3 d0 c - up U v x d3 d2 c)))%R | 2 => (k * ((dn U v x d3 d0 c + dn U v x d3 d2 c) - (up U v x d3 d0 c - up U v x d3 d2 c)))%R | _ => 0%R end%N.
Proof.
rewrite /dw_step6 !putE /up /dn.
by move: a; apply: ord4P => /=; rewrite ?addr0 // !restE ?mulNr.
Qed.
Lemma dw_step7E k U v x out a c : dw_step7 k U v x out a c = out a c +
  match nat_of_ord a with 1 => (- k * ((dn U v x d3 d1 c + dn U v x d3 d3 c) + (up U v x d3 d1 c - up U v x d3 d3 c)))%R | 3 => (k * ((dn U v x d3 d1 c + dn U v x d3 d3 c) - (up U v x d3 d1 c - up U v x d3 d3 c)))%R | _ => 0%R end%N.
Proof.
rewrite /dw_step7 !putE /up /dn.
by move: a; apply: ord4P => /=; rewrite ?addr0 // !restE ?mulNr.
Qed.
Lemma dw_step01E k U v x out a c : dw_step1 k U v x (dw_step0 k U v x out) a c =
  match nat_of_ord a with
  | 0 => (v x d0 c - k * ((dn U v x d0 d0 c - 'i * dn U v x d0 d3 c) + (up U v x d0 d0 c + 'i * up U v x d0 d3 c)))%R
  | 1 => (v x d1 c - k * ((dn U v x d0 d1 c - 'i * dn U v x d0 d2 c) + (up U v x d0 d1 c + 'i * up U v x d0 d2 c)))%R
  | 2 => (- v x d2 c + k * ('i * ((dn U v x d0 d1 c - 'i * dn U v x d0 d2 c) - (up U v x d0 d1 c + 'i * up U v x d0 d2 c))))%R
  | _ => (- v x d3 c + k * ('i * ((dn U v x d0 d0 c - 'i * dn U v x d0 d3 c) - (up U v x d0 d0 c + 'i * up U v x d0 d3 c))))%R
  end%N.
Proof. rewrite /dw_step1 /dw_step0 !putE /up /dn; move: a; apply: ord4P => /=; by rewrite !restE. Qed.
Lemma dw_step01_addE k U v w alpha x out a c :
  dw_step1_add k U v w alpha x (dw_step0_add k U v w alpha x out) a c
  = alpha * w x a c + dw_step1 k U v x (dw_step0 k U v x out) a c.
Proof.
rewrite /dw_step1_add /dw_step0_add /dw_step1 /dw_step0 !putE.
by move: a; apply: ord4P => /=; rewrite -?addrA.
Qed.
Lemma dw_rest_add k U v x out a c (z : C) out' : out' a c = z + out a c ->
  dw_rest k U v x out' a c = z + dw_rest k U v x out a c.
Proof. by move=> E; rewrite /dw_rest !(dw_step2E, dw_step3E, dw_step4E, dw_step5E, dw_step6E, dw_step7E) E -!addrA. Qed.
Lemma wilson5 k U v x out a c :
  dw_rest k U v x (dw_step1 k U v x (dw_step0 k U v x out)) a c = sg5 true a (dirac k U v x a c).
Proof.
rewrite /dw_rest !(dw_step2E, dw_step3E, dw_step4E, dw_step5E, dw_step6E, dw_step7E) dw_step01E /dirac hoppingE sum4E /sg5.
move: a; apply: ord4P => /=; cringi.
Qed.
Lemma wilson_correct k g U old v : feq (wilson_multiply k g U old v) (maybe5 g (dirac k U v)).
Proof.
move=> x a c; rewrite maybe5E /wilson_multiply; case: g; first exact: wilson5.
rewrite !putE !wilson5 /sg5; move: a; apply: ord4P => //=; exact: opprK.
Qed.

(** multiplyAdd. *)
Lemma wilson_add_correct k g U old old' :
  multiply_add_law (wilson_multiply k g U old) (wilson_multiply_add k g U old').
Proof.
move=> v w alpha x a c; rewrite /combine /wilson_multiply_add.
have E (b : 'I_4) : dw_rest k U v x (dw_step1_add k U v w alpha x (dw_step0_add k U v w alpha x (old' x))) b c
    = alpha * w x b c + sg5 true b (dirac k U v x b c).
  by rewrite -(wilson5 k U v x (old' x)); apply: dw_rest_add; exact: dw_step01_addE.
rewrite wilson_correct maybe5E; case: g; first by rewrite E addrC.
rewrite !putE !E !(mulr_natl alpha) !mulr2n /sg5; move: a; apply: ord4P => /=; cringi.
Qed.
Lemma basic_add_correct k g U : multiply_add_law (basic_multiply k g U) (basic_multiply_add k g U).
Proof.
move=> v w alpha x a c; rewrite /combine /basic_multiply_add /basic_multiply /basic_output_add /basic_output.
by case: g => /=; move: a; apply: ord4P => /=; exact: addrC.
Qed.
Lemma square_add_correct mul (mad : field -> field -> C -> field) :
  multiply_add_law mul mad -> multiply_add_law (square_multiply mul) (square_multiply_add mul mad).
Proof. by move=> H v w alpha x a c; rewrite /square_multiply_add H. Qed.
Lemma twisted_add_correct mul (mad : field -> field -> C -> field) t :
  multiply_add_law mul mad -> multiply_add_law (twisted_multiply mul t) (twisted_multiply_add mad t).
Proof.
move=> H v w alpha x a c; rewrite /twisted_multiply_add /add_twist H /combine /twisted_multiply /add_twist.
by case: (twist_active t) => //; case: ifP => _; rewrite addrAC.
Qed.
(** The squared twisted operator satisfies the law only for the same vector twice. *)
Lemma square_twisted_add_same mul (mad : field -> field -> C -> field) t v alpha :
  multiply_add_law mul mad ->
  feq (square_twisted_multiply_add mad t v v alpha) (combine alpha (square_twisted_multiply mul t v) v).
Proof.
move=> H x a c; rewrite /square_twisted_multiply_add H /combine /square_twisted_multiply.
by rewrite mulrDl addrCA addrC -addrA addrCA addrA.
Qed.

(** The block operator. *)
Lemma dirac_block blk U v x mu b c : up U (restrict blk v) x mu b c = (if blk (sup mu x) then up U v x mu b c else 0).
Proof.
rewrite /up /mulv /restrict; case: (blk (sup mu x)) => //.
by rewrite big1 // => e _; rewrite mulr0.
Qed.
Lemma dirac_block' blk U v x mu b c : dn U (restrict blk v) x mu b c = (if blk (sdn mu x) then dn U v x mu b c else 0).
Proof.
rewrite /dn /mulv /restrict; case: (blk (sdn mu x)) => //.
by rewrite big1 // => e _; rewrite mulr0.
Qed.
Lemma proj_up_restrict blk U v x mu nu c :
  mulv (U x mu) (proj_up (restrict blk v) x mu nu) c = if blk (sup mu x) then mulv (U x mu) (proj_up v x mu nu) c else 0.
Proof.
rewrite !proj_upE /=; have H b : mulv (U x mu) (restrict blk v (sup mu x) b) c = if blk (sup mu x) then mulv (U x mu) (v (sup mu x) b) c else 0 by exact: dirac_block.
rewrite !H; case: (blk (sup mu x)) => //.
by case: (nat_of_ord mu) => [|[|[|m]]]; case: nu => [|k]; rewrite ?mulr0 ?subr0 ?addr0.
Qed.
Lemma proj_dn_restrict blk U v x mu nu c :
  mulv (htrans (U (sdn mu x) mu)) (proj_dn (restrict blk v) x mu nu) c
  = if blk (sdn mu x) then mulv (htrans (U (sdn mu x) mu)) (proj_dn v x mu nu) c else 0.
Proof.
rewrite !proj_dnE /=; have H b : mulv (htrans (U (sdn mu x) mu)) (restrict blk v (sdn mu x) b) c = if blk (sdn mu x) then mulv (htrans (U (sdn mu x) mu)) (v (sdn mu x) b) c else 0 by exact: dirac_block'.
rewrite !H; case: (blk (sdn mu x)) => //.
by case: (nat_of_ord mu) => [|[|[|m]]]; case: nu => [|k]; rewrite ?mulr0 ?subr0 ?addr0.
Qed.
Lemma block_plusE blk U v x mu nu c : block_plus blk U v x mu nu c = basic_plus U (restrict blk v) x mu nu c.
Proof.
rewrite /block_plus /basic_plus proj_up_restrict proj_dn_restrict.
by case: (blk (sdn mu x)); rewrite ?addr0.
Qed.
Lemma block_minusE blk U v x mu nu c : block_minus blk U v x mu nu c = basic_minus U (restrict blk v) x mu nu c.
Proof.
rewrite /block_minus /basic_minus proj_up_restrict proj_dn_restrict.
by case: (blk (sdn mu x)); rewrite ?subr0.
Qed.
(** The twist enters as i twist gamma5 before the multiplication by gamma5. *)
Lemma block_correct blk k t g U v : feq (block_multiply blk k t g U v)
  (maybe5 g (fun x a c => (if blk x then dirac k U (restrict blk v) x a c else v x a c) + 'i * t * g5 v x a c)).
Proof.
move=> x a c; rewrite maybe5E /block_multiply; case Eb: (blk x); last first.
  rewrite /block_outside /g5 gamma5E /sg5 /mkc; case: g => /=; move: a; apply: ord4P => /=; cringi.
have E5 := basic_correct k g U (restrict blk v) x a c.
rewrite /block_output.
have -> : dirac k U (restrict blk v) x a c + 'i * t * g5 v x a c
   = sg5 g a (basic_multiply k g U (restrict blk v) x a c) + 'i * t * g5 v x a c.
  by rewrite E5 maybe5E /sg5; case: (g && _); rewrite ?opprK.
rewrite /basic_multiply /basic_output /restrict Eb /g5 gamma5E /sg5 !mkc0.
case: g {E5}; move: a; apply: ord4P => /=; rewrite ?block_plusE ?block_minusE ?opprK;
 move: (mkc _ _) => z; cringi.
Qed.
End Proofs.
