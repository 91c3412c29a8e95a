(** A lattice with an odd extent on which the order of the sites matters; a lattice with extent one. *)
From Coq Require Import ZArith.
From Verif Require Import Base.
From mathcomp Require Import all_ssreflect all_algebra.
From Verif Require Import GaugeModel GaugeSpec GaugeProofs GaugeProofs3 LoopModel LoopGrid ScalarModel ScalarSpec ScalarProofs ScalarProofs2.
Import GRing.Theory Num.Theory.
Set Implicit Arguments.
Unset Strict Implicit.
Unset Printing Implicit Defensive.
Local Open Scope ring_scope.

Section Free.
Variable C : numClosedFieldType.
(** One colour, one fundamental field, trivial links, mass term cancelled, no quartic couplings, one hit. *)
Definition g16 : couplings C := Couplings 16%:R 16%:R 0 0 0 0.
Variable L : lattice.
Notation state := (scalars C 1 0 0 1 L).
Definition one_links : L -> 'I_4 -> 'M[C]_1 := fun _ _ => 1%:M.
Definition no_links : L -> 'I_4 -> 'M[C]_0 := fun _ _ => 1%:M.
Definition no_adj : L -> 'I_0 -> nat -> 'I_0 -> C := fun _ _ _ _ => 0.
Definition val (s : state) (x : L) : C := fund s (0, x) 0 0.
Definition nsum (s : state) (x : L) : C := \sum_(mu < 4) (val s (sup mu x) + val s (sdn mu x)).
Lemma sixteen : 16%:R / 2%:R - 8%:R = 0 :> C.
Proof. by rewrite (_ : 16%N = (8 * 2)%N) // natrM mulfK ?subrr // pnatr_eq0. Qed.
Lemma no_potential (s : state) x : potential [::] g16 s x = 0.
Proof. by rewrite /potential /= sixteen big_nil !mul0r !addr0. Qed.
Lemma kin_free (s : state) x : kinetic one_links (fun y => fund s (0, y)) x 0 0 = - nsum s x.
Proof.
rewrite summxE -sumrN; apply: eq_bigr => mu _; rewrite !mxE !big_ord1 !mxE /= conjC1 !mul1r opprD.
by [].
Qed.
Variable rexp : C -> C.
Variable p : L -> C.
Notation pf := (fun (x : L) (_ : 'I_1) (_ : nat) (_ : 'I_1) => p x).
Notation uf := (fun (_ : L) (_ : 'I_1) (_ : nat) (_ : 'I_1) => 1).
Definition free_update : state * nat -> L -> state * nat :=
  update_site one_links no_links [::] g16 rexp no_adj no_adj pf uf 1.
Lemma enum0 : enum 'I_0 = [::].
Proof. by apply: size0nil; rewrite size_enum_ord. Qed.
Lemma enum1 : enum 'I_1 = [:: 0].
Proof. by apply: (inj_map val_inj); rewrite val_enum_ord. Qed.
Lemma free_updateE st x : free_update st x
  = trial_fund [::] g16 rexp pf uf x 0 (kinetic one_links (fun y => fund st.1 (0, y)) x) st (0%N, 0).
Proof. by rewrite /free_update /update_site enum0 enum1 /= /trials_fund /= enum1 /=. Qed.
Lemma free_val s k x : val s x = 0 ->
  val (free_update (s, k) x).1 x =
  let delta := 'Re ((nsum s x)^* * p x) in if (delta < 0) || (1 < rexp (- delta)) then p x else 0.
Proof.
move=> H; rewrite free_updateE /trial_fund /accept /energy_fundamental !no_potential !addr0 /vdot !big_ord1.
set K := kinetic _ _ _.
have e1 : fund (add_fund s 0 x 0 (p x)) (0, x) 0 0 = p x by rewrite ffunE eqxx mxE eqxx -[fund _ _ _ _]/(val s x) H add0r.
rewrite e1 (_ : fund s (0, x) 0 0 = 0) // mulr0 raddf0 oppr0 subr0 kin_free rmorphN mulNr raddfN opprK.
by cbn zeta; case: ifP => _; [exact: e1 | rewrite add_fundK].
Qed.
Lemma free_off st x y : y != x -> val (free_update st x).1 y = val st.1 y.
Proof. by move=> ne; rewrite /val (proj2 (@update_site_off _ _ _ _ _ _ _ _ _ _ _ _ _ _ _ _ _ _ _ ne)). Qed.
Lemma free_offs l st y : y \notin l -> val (foldl free_update st l).1 y = val st.1 y.
Proof.
elim: l st => [|x l IH] st //=; rewrite inE negb_or => /andP[ne nl].
by rewrite IH // free_off.
Qed.
End Free.

Section Odd.
Variable C : numClosedFieldType.
Add Ring CringW : (Crth C).
Notation G := (box_grid 2 1 1 1).
Definition corner : G := (ord0, ord0, ord0, ord0).
Definition far : G := (ord_max, ord0, ord0, ord0).
Definition d0 : 'I_4 := @Ordinal 4 0 isT.
Definition d1 : 'I_4 := @Ordinal 4 1 isT.
Definition slice : scalars C 1 0 0 1 G := Scalars [ffun=> 0] [ffun q => (- (coord q.2 d1)%:R)%:M].
Definition shifts (x : G) : C := if x == corner then 3%:R else if x == far then -1 else 0.
Lemma val_slice x : val slice x = - (coord x d1)%:R.
Proof. by rewrite /val ffunE mxE eqxx mulr1n. Qed.
Lemma coord_dn_other (x : G) mu nu : nu != mu -> coord (sdn mu x) nu = coord x nu.
Proof. by move=> ne; rewrite -{2}(sdnK mu x) coord_other. Qed.
Lemma wrap2 k : (k < 2)%N -> (k.+1 %% 2)%N = 0%N -> k = 1%N.
Proof. by case: k => [|[]]. Qed.
Lemma coord_dn1 (x : G) : coord x d1 = 0%N -> coord (sdn d1 x) d1 = 1%N.
Proof. by move=> H; apply: wrap2; [exact: coord_lt | rewrite -(coord_up (g := G)) sdnK]. Qed.
Lemma coord_up1 (x : G) : coord x d1 = 0%N -> coord (sup d1 x) d1 = 1%N.
Proof. by move=> H; rewrite coord_up H. Qed.
Lemma nsum_slice x : coord x d1 = 0%N -> nsum slice x = - 2%:R.
Proof.
move=> H; rewrite /nsum (bigD1 d1) //= big1 => [|mu ne].
  by rewrite !val_slice coord_up1 // coord_dn1 // addr0 -opprD -natrD.
by rewrite !val_slice coord_other 1?eq_sym // coord_dn_other 1?eq_sym // H !oppr0 addr0.
Qed.
Variable rexp : C -> C.
Hypothesis small : forall z : C, z <= 0 -> rexp z <= 1.
Notation upd := (free_update rexp shifts).
Lemma far_corner : (far == corner) = false. Proof. by []. Qed.
Lemma corner_first k : val (upd (slice, k) corner).1 corner = 3%:R.
Proof.
rewrite free_val ?val_slice ?oppr0 // nsum_slice // /shifts eqxx.
have -> : 'Re ((- 2%:R)^* * 3%:R) = - 6%:R :> C.
  by rewrite rmorphN conjC_nat mulNr -natrM raddfN /= Re_real // realn.
by rewrite /= oppr_lt0 ltr0n.
Qed.
Lemma not_small (z : C) : 0 <= z -> (z < 0) || (1 < rexp (- z)) = false.
Proof.
move=> H; apply/negbTE; rewrite negb_or; apply/andP; split; first by rewrite -real_leNgt ?real0 ?ger0_real.
apply/negP => h; have := small (z := - z); rewrite oppr_le0 => /(_ H) h'.
by move: (Order.POrderTheory.lt_le_trans h h'); rewrite Order.POrderTheory.ltxx.
Qed.
Lemma far_first k : val (upd (slice, k) far).1 far = 0.
Proof.
rewrite free_val ?val_slice ?oppr0 // nsum_slice // /shifts eqxx far_corner.
have -> : 'Re ((- 2%:R)^* * -1) = 2%:R :> C.
  by rewrite rmorphN conjC_nat mulrN1 opprK Re_real // realn.
by cbn zeta; rewrite not_small // ler0n.
Qed.
Lemma coord_up0 : coord (sup d0 far : G) d0 = 0%N. Proof. by rewrite coord_up. Qed.
Lemma sup_far : sup d0 far = corner :> G.
Proof.
apply: (@coord_inj G) => mu; case: (altP (mu =P d0)) => [->|ne]; first by rewrite coord_up0.
rewrite coord_other //; by move: ne; case: mu => [[|[|[|[|?]]]] h].
Qed.
Lemma sdn_far : (sdn d0 far : G) != corner.
Proof.
apply/eqP => e; have := coord_up (g := G) (sdn d0 far) d0; rewrite sdnK e.
by [].
Qed.
Lemma far_second k : val (upd (upd (slice, k) corner) far).1 far = -1.
Proof.
have -> : upd (slice, k) corner = ((upd (slice, k) corner).1, (upd (slice, k) corner).2) by case: (upd _ _).
set s1 := (upd (slice, k) corner).1; have V y : val s1 y = - (coord y d1)%:R + 3%:R *+ (y == corner).
  case: (altP (y =P corner)) => [->|ne]; first by rewrite corner_first oppr0 add0r.
  by rewrite /s1 free_off //= val_slice mulr0n addr0.
rewrite free_val; last by rewrite V far_corner mulr0n addr0 oppr0.
have -> : nsum s1 far = 1.
  have -> : nsum s1 far = nsum slice far + \sum_(mu < 4) (3%:R *+ (sup mu far == corner) + 3%:R *+ (sdn mu far == corner)).
    rewrite /nsum -big_split; apply: eq_bigr => mu _; rewrite !V !val_slice.
    by rewrite /= addrACA.
  rewrite nsum_slice // (bigD1 d0) // big1 => [|mu ne].
    rewrite sup_far eqxx (negbTE sdn_far) mulr1n mulr0n !addr0.
    by rewrite /= addr0 (_ : 3%N = (2 + 1)%N) // natrD addrA addNr add0r.
  have h : coord (far : G) d0 = 2%N by [].
  have n1 : (sup mu far == corner) = false.
    by apply/eqP => e; have := coord_other (g := G) far (mu := mu) (nu := d0); rewrite e h => /(_ _); rewrite eq_sym => /(_ ne).
  have n2 : (sdn mu far == corner) = false.
    by apply/eqP => e; have := @coord_dn_other far mu d0; rewrite e h => /(_ _); rewrite eq_sym => /(_ ne).
  by rewrite n1 n2 !mulr0n addr0.
rewrite /shifts eqxx far_corner conjC1 mul1r Re_real ?rpredN ?rpred1 //=.
by rewrite oppr_lt0 ltr01.
Qed.
Definition rest : seq G := [seq x <- enum G | (x != corner) && (x != far)].
Lemma rest_far : far \notin rest. Proof. by rewrite mem_filter eqxx andbF. Qed.
Lemma parity_corner : parity (corner : G) = 0%N.
Proof. by rewrite /parity big1 // => mu _; case: mu => [[|[|[|[|?]]]] h]. Qed.
Lemma parity_far : parity (far : G) = 0%N.
Proof.
rewrite /parity (bigD1 d0) //= big1 // => mu; by case: mu => [[|[|[|[|?]]]] h].
Qed.
Notation run order := (half_sweep upd order 1 (half_sweep upd order 0 (slice, 0%N))).
Lemma run_far x y : [:: x; y] =i [:: corner; far] -> 
  val (run (x :: y :: rest)).1 far = val (upd (upd (slice, 0%N) x) y).1 far.
Proof.
move=> H; rewrite /half_sweep; rewrite [X in X.1]/(foldl _ _ _).
rewrite free_offs; last by rewrite mem_filter parity_far.
have px : parity x = 0%N by have := H x; rewrite !inE eqxx /= => /esym/orP[] /eqP ->; [exact: parity_corner | exact: parity_far].
have py : parity y = 0%N by have := H y; rewrite !inE eqxx orbT => /esym/orP[] /eqP ->; [exact: parity_corner | exact: parity_far].
rewrite /= px py /= free_offs // mem_filter negb_and rest_far orbT //.
Qed.
Lemma orders_differ : run (corner :: far :: rest) <> run (far :: corner :: rest).
Proof.
move=> e; have := congr1 (fun st : scalars C 1 0 0 1 G * nat => val st.1 far) e; rewrite !run_far; first last.
- by [].
- by move=> z; rewrite !inE orbC.
rewrite far_second free_off // far_first => /eqP.
by rewrite oppr_eq0 oner_eq0.
Qed.
Lemma swap2 (T : eqType) (x y : T) r l : perm_eq (x :: y :: r) l -> perm_eq (y :: x :: r) l.
Proof. by move=> P; apply: (perm_trans _ P); apply/permP => q; rewrite /= addnCA. Qed.
Lemma order_perm : perm_eq (corner :: far :: rest) (enum G) /\ perm_eq (far :: corner :: rest) (enum G).
Proof.
have P : perm_eq (corner :: far :: rest) (enum G).
  apply: uniq_perm; rewrite ?enum_uniq //=.
    by rewrite inE negb_or !mem_filter eqxx /= filter_uniq ?enum_uniq.
  move=> z; rewrite !inE mem_filter mem_enum andbT inE.
  by case: (z == corner); case: (z == far).
split; [exact: P | exact: swap2 P].
Qed.
End Odd.
