(** Proofs for the measurements. *)
From mathcomp Require Import all_ssreflect all_algebra.
From Verif Require Import GaugeModel GaugeSpec GaugeProofs GaugeProofs2 MeasModel MeasSpec.
Import GRing.Theory Num.Theory.
Set Implicit Arguments.
Unset Strict Implicit.
Unset Printing Implicit Defensive.
Local Open Scope ring_scope.

Section Sums.
Variable C : numClosedFieldType.
Variables P S T : finType.
Variable thr : P -> S -> T.

Lemma compute_resultE (sel : P -> S -> bool) (f : P -> S -> C) :
  compute_result thr sel f = \sum_(i : P * S | sel i.1 i.2) f i.1 i.2.
Proof.
rewrite -(pair_big_dep xpredT sel f) /=; apply: eq_bigr => p _.
rewrite (partition_big (thr p) xpredT) //=.
Qed.

Section Lattice.
Variables n nt : nat.
Variable L : lattice.
Variable at_ : P * S -> L.
Variable time : L -> 'I_nt.
Hypothesis bij : bijective at_.
Implicit Type U : gauge C n L.

Lemma slice_sum (t : 'I_nt) (g : L -> C) :
  compute_result thr (in_slice at_ time t) (fun p s => g (at_ (p, s))) = \sum_(x | time x == t) g x.
Proof.
rewrite compute_resultE (reindex at_) /=; last exact: onW_bij.
by apply: eq_big => [[p s]|[p s] _].
Qed.

Lemma phi_xE U x : phi_x U x = loop_re U x (square d1 d0).
Proof. exact: plaquette_termE. Qed.
Lemma phi_yE U x : phi_y U x = loop_re U x (square d2 d0).
Proof. exact: plaquette_termE. Qed.
Lemma phi_zE U x : phi_z U x = loop_re U x (square d2 d1).
Proof. exact: plaquette_termE. Qed.

Lemma loop_flip U x mu nu : loop_re U x (square mu nu) = loop_re U x (square nu mu).
Proof. by rewrite -!plaquette_termE /plaquette_term -retr_htrans !htransM !htransK !mulmxA. Qed.

(** The sum of a plane over a time slice. *)
Definition plane U (t : 'I_nt) mu nu : C := \sum_(x | time x == t) loop_re U x (square mu nu).
Lemma plane_flip U t mu nu : plane U t mu nu = plane U t nu mu.
Proof. by apply: eq_bigr => x _; exact: loop_flip. Qed.
Lemma plane_gauge om U t mu nu : (forall y, unitary (om y)) -> plane (gauge_transform om U) t mu nu = plane U t mu nu.
Proof. by move=> u; apply: eq_bigr => x _; rewrite loop_gauge // endpoint_square. Qed.
Lemma plane_turned rho sg U t mu nu : symmetry time rho sg ->
  plane (turned rho sg U) t mu nu = plane U t (sg mu) (sg nu).
Proof.
case=> [ri [_ [st [tm _]]]]; rewrite /plane [RHS](reindex rho) /=; last exact/onW_bij/injF_bij.
apply: eq_big => [x|x _]; first by rewrite tm.
by rewrite -!plaquette_termE /plaquette_term /turned !st.
Qed.

Lemma two_planes U t : two_glueball thr at_ time U t = plane U t d1 d0 - plane U t d2 d0.
Proof.
rewrite /two_glueball (slice_sum t (fun x => phi_x U x - phi_y U x)) sumrB.
by congr (_ - _); apply: eq_bigr => x _; rewrite ?phi_xE ?phi_yE.
Qed.
Lemma zero_planes U t : zero_glueball thr at_ time U t = plane U t d1 d0 + plane U t d2 d0 + plane U t d2 d1.
Proof.
rewrite /zero_glueball (slice_sum t (fun x => phi_x U x + phi_y U x + phi_z U x)) !big_split /=.
by congr (_ + _ + _); apply: eq_bigr => x _; rewrite ?phi_xE ?phi_yE ?phi_zE.
Qed.

(** The three planes are all spatial planes. *)
Definition d3 : 'I_4 := @Ordinal 4 3 isT.
Lemma sum4 (Q : pred 'I_4) (g : 'I_4 -> C) : \sum_(i < 4 | Q i) g i =
  (if Q d0 then g d0 else 0) + (if Q d1 then g d1 else 0) + (if Q d2 then g d2 else 0) + (if Q d3 then g d3 else 0).
Proof.
rewrite big_mkcond !big_ord_recl big_ord0 /= addr0 !addrA.
have -> : ord0 = d0 by apply/val_inj.
have -> : lift d0 ord0 = d1 by apply/val_inj.
have -> : lift d0 (lift ord0 ord0) = d2 by apply/val_inj.
by have -> : lift d0 (lift ord0 (lift ord0 ord0)) = d3 by apply/val_inj.
Qed.
Lemma spatial_sum (f : 'I_4 -> 'I_4 -> C) :
  \sum_(nu < 4 | (nu < 3)%N) \sum_(mu < 4 | (mu < nu)%N) f nu mu = f d1 d0 + f d2 d0 + f d2 d1.
Proof. by rewrite !sum4 /= !(add0r, addr0) addrA. Qed.
Lemma double_sum (f : 'I_4 -> 'I_4 -> C) : (forall a b, f a b = f b a) ->
  \sum_(mu < 4 | (mu < 3)%N) \sum_(nu < 4 | (nu < 3)%N && (nu != mu)) f mu nu = (f d1 d0 + f d2 d0 + f d2 d1) *+ 2.
Proof.
move=> sy; rewrite !sum4 /= !(add0r, addr0) (sy d0 d1) (sy d0 d2) (sy d1 d2) mulr2n.
move: (f d1 d0) (f d2 d0) (f d2 d1) => u v w.
by rewrite -!addrA; congr (_ + (_ + _)); exact: addrCA.
Qed.
Lemma symmetry_spatial rho sg (mu : 'I_4) : symmetry time rho sg -> (sg mu < 3)%N = (mu < 3)%N.
Proof.
case=> [_ [si [_ [_ s3]]]].
have e3 : sg d3 = d3 by apply: s3.
have lt3 (k : 'I_4) : (k < 3)%N = (k != d3).
  by case: k => [[|[|[|[|k]]]] //= h].
by rewrite !lt3 -{1}e3 (inj_eq si).
Qed.
Lemma planes_turned rho sg U t : symmetry time rho sg ->
  plane U t (sg d1) (sg d0) + plane U t (sg d2) (sg d0) + plane U t (sg d2) (sg d1)
  = plane U t d1 d0 + plane U t d2 d0 + plane U t d2 d1.
Proof.
move=> sy; have [_ [si _]] := sy; apply: (@mulIf _ 2%:R); first by rewrite pnatr_eq0.
rewrite !mulr_natr -(double_sum (f := plane U t)); last exact: plane_flip.
rewrite -(double_sum (f := fun a b => plane U t (sg a) (sg b))); last by move=> a b; exact: plane_flip.
rewrite [RHS](reindex sg) /=; last exact/onW_bij/injF_bij.
apply: eq_big => [mu|mu _]; first by rewrite (symmetry_spatial _ sy).
rewrite [RHS](reindex sg) /=; last exact/onW_bij/injF_bij.
by apply: eq_bigl => nu; rewrite (symmetry_spatial _ sy) (inj_eq si).
Qed.

Lemma zero_turned rho sg U t : symmetry time rho sg ->
  zero_glueball thr at_ time (turned rho sg U) t = zero_glueball thr at_ time U t.
Proof.
move=> sy; rewrite !zero_planes -(planes_turned U t sy).
by congr (_ + _ + _); exact: plane_turned.
Qed.
Lemma two_swapped rho sg U t : symmetry time rho sg -> sg d0 = d0 -> sg d1 = d2 -> sg d2 = d1 ->
  two_glueball thr at_ time (turned rho sg U) t = - two_glueball thr at_ time U t.
Proof.
move=> sy e0 e1 e2; rewrite !two_planes opprB; have h mu nu := plane_turned U t mu nu sy.
by rewrite (h d1 d0) (h d2 d0) e0 e1 e2.
Qed.
Lemma two_cyclic rho sg U t : symmetry time rho sg -> sg d0 = d1 -> sg d1 = d2 -> sg d2 = d0 ->
  two_glueball thr at_ time U t + two_glueball thr at_ time (turned rho sg U) t
  + two_glueball thr at_ time (turned rho sg (turned rho sg U)) t = 0.
Proof.
move=> sy e0 e1 e2; rewrite !two_planes.
have h W mu nu := plane_turned W t mu nu sy.
rewrite (h (turned rho sg U) d1 d0) (h (turned rho sg U) d2 d0) (h U d1 d0) (h U d2 d0) e0 e1 e2.
rewrite (h U d2 d1) (h U d0 d1) e0 e1 e2.
rewrite (plane_flip U t d0 d1) (plane_flip U t d0 d2) (plane_flip U t d1 d2).
move: (plane U t d1 d0) (plane U t d2 d0) (plane U t d2 d1) => u v w.
by rewrite [u - v + _]addrC (addrA (w - u) u (- v)) subrK -[w - v]opprB addNr.
Qed.
Lemma zero_gauge om U t : (forall y, unitary (om y)) ->
  zero_glueball thr at_ time (gauge_transform om U) t = zero_glueball thr at_ time U t.
Proof. by move=> u; rewrite !zero_planes !plane_gauge. Qed.
Lemma two_gauge om U t : (forall y, unitary (om y)) ->
  two_glueball thr at_ time (gauge_transform om U) t = two_glueball thr at_ time U t.
Proof. by move=> u; rewrite !two_planes !plane_gauge. Qed.

Lemma written_glueball out sv (U : gauge C n L) (p : P) :
  (forall t, #|[pred x | time x == t]| = sv) ->
  glueball_written out thr at_ time sv true U p =
  if p == out then
    Some ([seq average [pred x | time x == t]
             (fun x => \sum_(nu < 4 | (nu < 3)%N) \sum_(mu < 4 | (mu < nu)%N) loop_re U x (square nu mu)) | t <- enum 'I_nt],
          [seq average [pred x | time x == t]
             (fun x => loop_re U x (square d1 d0) - loop_re U x (square d2 d0)) | t <- enum 'I_nt])
  else None.
Proof.
move=> hv; rewrite /glueball_written /=; case: (p == out) => //; congr (Some (_, _)); apply: eq_map => t;
  rewrite /average hv; congr (_ / _).
- rewrite zero_planes /plane -!big_split /=; apply: eq_bigr => x _.
  by rewrite (spatial_sum (fun nu mu => loop_re U x (square nu mu))).
- by rewrite two_planes /plane -sumrB.
Qed.
End Lattice.

Section Scalars.
Variable out : P.
Variables nf n : nat.

(** The average over all flavours, sites of all processes and components. *)
Lemma global_sum d (g : C -> C) (phi : scalars C P S nf d) p :
  reduce_all (local_sum g phi) p
  = \sum_(i : 'I_nf * (P * S) * 'I_d) g (phi i.1.1 i.1.2.1 i.1.2.2 i.2).
Proof.
rewrite /reduce_all /local_sum.
rewrite -(pair_big xpredT xpredT (fun (i : 'I_nf * (P * S)) c => g (phi i.1 i.2.1 i.2.2 c))) /=.
rewrite -(pair_big xpredT xpredT (fun f (i : P * S) => \sum_(c < d) g (phi f i.1 i.2 c))) /=.
rewrite exchange_big /=; apply: eq_bigr => f _.
by rewrite -(pair_big xpredT xpredT (fun q s => \sum_(c < d) g (phi f q s c))).
Qed.
Lemma card_all d : #|{: 'I_nf * (P * S) * 'I_d}| = (nf * d * #|{: P * S}|)%N.
Proof. by rewrite !card_prod !card_ord mulnAC. Qed.
Lemma global_average d (g : C -> C) (phi : scalars C P S nf d) p :
  reduce_all (local_sum g phi) p / (nf * d * #|{: P * S}|)%N%:R
  = average xpredT (fun i : 'I_nf * (P * S) * 'I_d => g (phi i.1.1 i.1.2.1 i.1.2.2 i.2)).
Proof. by rewrite global_sum -card_all. Qed.

(** The sums of one process, which are all the fundamental fields get. *)
Lemma own_average d (g : C -> C) (phi : scalars C P S nf d) p :
  local_sum g phi p / (nf * d * #|{: P * S}|)%N%:R
  = average xpredT (fun i : 'I_nf * S * 'I_d => g (phi i.1.1 p i.1.2 i.2)) / #|P|%:R.
Proof.
rewrite /average /local_sum.
rewrite -(pair_big xpredT xpredT (fun (i : 'I_nf * S) c => g (phi i.1 p i.2 c))) /=.
rewrite -(pair_big xpredT xpredT (fun f s => \sum_(c < d) g (phi f p s c))) /=.
rewrite -mulrA -invfM -natrM; congr (_ / _%:R).
have -> : #|(xpredT : pred ('I_nf * S * 'I_d))| = (nf * #|S| * d)%N.
  by rewrite (eq_card (B := {: 'I_nf * S * 'I_d})) // !card_prod !card_ord.
by rewrite card_prod [(#|P| * #|S|)%N]mulnC -!mulnA; congr (_ * _)%N; rewrite mulnCA.
Qed.

Lemma average_const (F : finType) (z : C) : (0 < #|F|)%N -> average (xpredT : pred F) (fun _ => z) = z.
Proof. by move=> h; rewrite /average sumr_const -[z *+ _]mulr_natr mulfK // pnatr_eq0 -lt0n. Qed.
End Scalars.
End Sums.
