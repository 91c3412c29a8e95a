(** C93: the glueball operators and the mean scalar fields that are written. *)
From mathcomp Require Import all_ssreflect all_algebra all_field.
From Verif Require Import GaugeModel GaugeSpec GaugeProofs GaugeProofs2 GaugeProofs3 MeasModel MeasSpec MeasProofs.
Import GRing.Theory Num.Theory.
Set Implicit Arguments.
Unset Strict Implicit.
Unset Printing Implicit Defensive.
Local Open Scope ring_scope.

(** ** C93 *)
(** Only the output process writes, and only when measuring: for every time the averages over the sites of the slice, on
    all processes, of the sum of the spatial plaquettes and of the difference of the planes 01 and 02. *)
Theorem C93_glueball (C : numClosedFieldType) (P S T : finType) (out : P) (thr : P -> S -> T) (n nt : nat) (L : lattice)
    (at_ : P * S -> L) (time : L -> 'I_nt) (sv : nat) (U : gauge C n L) (p : P) :
  bijective at_ -> (forall t, #|[pred x | time x == t]| = sv) ->
  glueball_written out thr at_ time sv false U p = None /\
  glueball_written out thr at_ time sv true U p =
  if p == out then
    Some ([seq average [pred x | time x == t]
             (fun x => \sum_(nu < 4 | (nu < 3)%N) \sum_(mu < 4 | (mu < nu)%N) loop_re U x (square nu mu)) | t <- enum 'I_nt],
          [seq average [pred x | time x == t]
             (fun x => loop_re U x (square (inord 1) (inord 0)) - loop_re U x (square (inord 2) (inord 0))) | t <- enum 'I_nt])
  else None.
Proof.
move=> bij hv; split; first by [].
have -> : inord 0 = d0 by apply/val_inj; rewrite /= inordK.
have -> : inord 1 = d1 by apply/val_inj; rewrite /= inordK.
have -> : inord 2 = d2 by apply/val_inj; rewrite /= inordK.
exact: written_glueball.
Qed.

(** What is written does not change under gauge transformations. *)
Theorem C93_gauge (C : numClosedFieldType) (P S T : finType) (out : P) (thr : P -> S -> T) (n nt : nat) (L : lattice)
    (at_ : P * S -> L) (time : L -> 'I_nt) (sv : nat) (U : gauge C n L) (om : L -> 'M[C]_n) (m : bool) (p : P) :
  bijective at_ -> (forall x, unitary (om x)) ->
  glueball_written out thr at_ time sv m (gauge_transform om U) p = glueball_written out thr at_ time sv m U p.
Proof.
move=> bij u; rewrite /glueball_written; case: (_ && _) => //.
by congr (Some (_, _)); apply: eq_map => t; rewrite ?zero_gauge ?two_gauge.
Qed.

(** The 0++ operator does not change under symmetries of the spatial lattice; the 2++ operator changes its sign when the
    axes 1 and 2 are exchanged, and its three rotations about the diagonal add up to zero (it has no scalar part). *)
Theorem C93_axes (C : numClosedFieldType) (P S T : finType) (out : P) (thr : P -> S -> T) (n nt : nat) (L : lattice)
    (at_ : P * S -> L) (time : L -> 'I_nt) (sv : nat) (U : gauge C n L) (rho : L -> L) (sg : 'I_4 -> 'I_4) :
  bijective at_ -> symmetry time rho sg ->
  let written W := glueball_written out thr at_ time sv true W out in
  exists zero two two' two'' : seq C,
    [/\ written U = Some (zero, two), written (turned rho sg U) = Some (zero, two'),
        written (turned rho sg (turned rho sg U)) = Some (zero, two''),
        (forall mu : 'I_4, val (sg mu) = nth 0%N [:: 0; 2; 1; 3]%N mu) -> two' = [seq - z | z <- two]
      & (forall mu : 'I_4, val (sg mu) = nth 0%N [:: 1; 2; 0; 3]%N mu) ->
        forall k, nth 0 two k + nth 0 two' k + nth 0 two'' k = 0].
Proof.
move=> bij sy written.
pose w (W : gauge C n L) := [seq two_glueball thr at_ time W t / sv%:R | t <- enum 'I_nt].
exists [seq zero_glueball thr at_ time U t / sv%:R | t <- enum 'I_nt], (w U), (w (turned rho sg U)),
  (w (turned rho sg (turned rho sg U))); split.
- by rewrite /written /glueball_written eqxx.
- by rewrite /written /glueball_written eqxx /=; congr (Some (_, _)); apply: eq_map => t; rewrite (zero_turned thr bij U t sy).
- rewrite /written /glueball_written eqxx /=; congr (Some (_, _)); apply: eq_map => t.
  by rewrite (zero_turned thr bij (turned rho sg U) t sy) (zero_turned thr bij U t sy).
- move=> h; rewrite /w -[RHS]map_comp; apply: eq_map => t /=.
  by rewrite (two_swapped thr bij U t sy) ?mulNr //; apply/val_inj; rewrite h.
move=> h k; case: (ltnP k nt) => hk; last first.
  by rewrite !nth_default ?addr0 // size_map size_enum_ord.
have sz (W : gauge C n L) : nth 0 (w W) k = two_glueball thr at_ time W (Ordinal hk) / sv%:R.
  by rewrite (nth_map (Ordinal hk)) ?size_enum_ord // (nth_ord_enum _ (Ordinal hk)).
rewrite !sz -!mulrDl (two_cyclic thr bij U (Ordinal hk) sy) ?mul0r //; by apply/val_inj; rewrite h.
Qed.

(** The mean adjoint fields written are the averages over all flavours, sites of all processes and components. *)
Theorem C93_adjoint (C : numClosedFieldType) (P S : finType) (out : P) (nf n : nat)
    (phi : 'I_nf -> P -> S -> 'I_(n * n - 1) -> C) (m : bool) (p : P) :
  adjoint_written (n := n) out #|{: P * S}| m phi p =
  if [&& (0 < nf)%N, m & p == out] then
    let mean g := average xpredT (fun i : 'I_nf * (P * S) * 'I_(n * n - 1) => g (phi i.1.1 i.1.2.1 i.1.2.2 i.2)) in
    Some [:: mean id; mean (fun z => z ^+ 2); mean (fun z => `|z|)]
  else None.
Proof.
rewrite /adjoint_written; case: (0 < nf)%N => //=; case: (m && (p == out)) => //.
by rewrite !global_average /average.
Qed.

(** The mean fundamental fields written are the averages over the sites of the output process divided by the number of
    processes; they are the averages over all sites if there is one process. *)
Theorem C93_fundamental (C : numClosedFieldType) (P S : finType) (out : P) (nf n : nat)
    (phi : 'I_nf -> P -> S -> 'I_n -> C) (m : bool) (p : P) :
  let own g := average xpredT (fun i : 'I_nf * S * 'I_n => g (phi i.1.1 out i.1.2 i.2)) in
  let mean g := average xpredT (fun i : 'I_nf * (P * S) * 'I_n => g (phi i.1.1 i.1.2.1 i.1.2.2 i.2)) in
  let written := fundamental_written (n := n) out #|{: P * S}| m phi p in
  let share := #|P|%:R in
  written = (if [&& (0 < nf)%N, m & p == out]
             then Some [:: own (fun z => 'Re z) / share; own (fun z => `|z| ^+ 2) / share; own (fun z => `|z|) / share]
             else None) /\
  (#|P| = 1%N ->
   written = if [&& (0 < nf)%N, m & p == out]
             then Some [:: mean (fun z => 'Re z); mean (fun z => `|z| ^+ 2); mean (fun z => `|z|)] else None).
Proof.
move=> own mean written share.
have sq z : 'Re (z^* * z) = `|z| ^+ 2 :> C.
  by rewrite mulrC -normCK; apply/Creal_ReP; rewrite rpredX // normr_real.
have E g : own g / share = local_sum g phi out / (nf * n * #|{: P * S}|)%N%:R by rewrite own_average.
have sqs : local_sum (fun z => 'Re (z^* * z)) phi out = local_sum (fun z => `|z| ^+ 2) phi out.
  by do 3! (apply: eq_bigr => ? _); exact: sq.
have W : written = (if [&& (0 < nf)%N, m & p == out]
             then Some [:: own (fun z => 'Re z) / share; own (fun z => `|z| ^+ 2) / share; own (fun z => `|z|) / share]
             else None).
  rewrite /written /fundamental_written; case: (0 < nf)%N => //=.
  by rewrite !E; case: m {written} => //=; case: eqP => // ->; rewrite sqs.
split=> // one; rewrite W.
have M g : own g / share = mean g.
  rewrite E /mean -(global_average g phi out) /reduce_all; congr (_ / _).
  have /fintype_le1P h : (#|P| <= 1)%N by rewrite one.
  by rewrite (big_pred1 out) // => q; apply/esym/eqP; exact: h.
by rewrite !M.
Qed.
(** On several processes that is not the mean: a constant field is written divided by their number. *)
Theorem C93_fundamental_refuted (C : numClosedFieldType) (P S : finType) (out : P) (nf n : nat) (z : C) :
  (1 < #|P|)%N -> (0 < #|S|)%N -> (0 < nf)%N -> (0 < n)%N -> 'Re z != 0 ->
  exists a b c : C, fundamental_written (n := n) out #|{: P * S}| true (fun (_ : 'I_nf) (_ : P) (_ : S) (_ : 'I_n) => z) out
    = Some [:: a; b; c] /\ a = 'Re z / #|P|%:R /\ a != 'Re z.
Proof.
move=> hp hs hf hn hz.
have [-> _] := C93_fundamental out (fun (_ : 'I_nf) (_ : P) (_ : S) (_ : 'I_n) => z) true out.
rewrite hf eqxx /=; do 3! eexists; split; first by [].
have -> : average xpredT (fun _ : 'I_nf * S * 'I_n => 'Re z) = 'Re z.
  by apply: average_const; rewrite !card_prod !card_ord !muln_gt0 hf hs hn.
split=> //; have p0 : #|P|%:R != 0 :> C by rewrite pnatr_eq0 -lt0n ltnW.
apply/eqP => /(congr1 (fun y => y * #|P|%:R)); rewrite divfK // => /eqP.
rewrite -{1}[_ z]mulr1 (inj_eq (mulfI hz)) eq_sym (_ : 1 = 1%:R) // eqr_nat => /eqP e; by rewrite e in hp.
Qed.

(** A lattice cut into its time slices, one for each process. *)
Definition cut a b c d (i : 'I_d.+1 * ('I_a.+1 * 'I_b.+1 * 'I_c.+1)) : box a b c d := (i.2.1.1, i.2.1.2, i.2.2, i.1).
Definition box_time a b c d (x : box a b c d) : 'I_d.+1 := x.2.
Example C93_case_cut a b c d : bijective (@cut a b c d) /\
  forall t, #|[pred x : box a b c d | box_time x == t]| = (a.+1 * b.+1 * c.+1)%N.
Proof.
have bij : bijective (@cut a b c d).
  by exists (fun x : box a b c d => (x.2, x.1)) => [[p [[? ?] ?]]|[[[? ?] ?] ?]].
split=> // t.
pose f (s : 'I_a.+1 * 'I_b.+1 * 'I_c.+1) : box a b c d := cut (t, s).
have fi : injective f by move=> [[? ?] ?] [[? ?] ?] [-> -> ->].
rewrite (_ : (a.+1 * b.+1 * c.+1)%N = #|{: 'I_a.+1 * 'I_b.+1 * 'I_c.+1}|); last by rewrite !card_prod !card_ord.
rewrite -(card_codom fi); apply: eq_card => x; rewrite !inE; apply/eqP/codomP => [e|[s ->] //].
by exists x.1; rewrite /f -e; case: x {e} => [[[? ?] ?] ?].
Qed.
(** Exchanging the axes 1 and 2, and turning the three axes. *)
Definition swap_axes a b d (x : box a b b d) : box a b b d := (x.1.1.1, x.1.2, x.1.1.2, x.2).
Definition turn_axes a d (x : box a a a d) : box a a a d := (x.1.2, x.1.1.1, x.1.1.2, x.2).
Definition axes (s : seq nat) (mu : 'I_4) : 'I_4 := inord (nth 0%N s mu).
Example C93_case_swap a b d : symmetry (@box_time a b b d) (@swap_axes a b d) (axes [:: 0; 2; 1; 3]%N) /\
  forall mu : 'I_4, val (axes [:: 0; 2; 1; 3]%N mu) = nth 0%N [:: 0; 2; 1; 3]%N mu.
Proof.
have v (mu : 'I_4) : val (axes [:: 0; 2; 1; 3]%N mu) = nth 0%N [:: 0; 2; 1; 3]%N mu.
  by rewrite /axes /= inordK //; case: mu => [[|[|[|[|]]]]].
split=> //; split; first by move=> [[[? ?] ?] ?] [[[? ?] ?] ?] [-> -> -> ->].
split; first by move=> mu nu /(congr1 val); rewrite !v => e; apply/val_inj; move: e; case: mu nu => [[|[|[|[|//]]]] ?] [[|[|[|[|//]]]] ?].
split; first by move=> mu [[[x0 x1] x2] x3]; have := v mu; rewrite /= /box_sup /box_move; case: mu => [[|[|[|[|//]]]] h] /= ->.
by split=> [[[[? ?] ?] ?] //|mu e]; apply/val_inj; rewrite v e.
Qed.
Example C93_case_turn a d : symmetry (@box_time a a a d) (@turn_axes a d) (axes [:: 1; 2; 0; 3]%N) /\
  forall mu : 'I_4, val (axes [:: 1; 2; 0; 3]%N mu) = nth 0%N [:: 1; 2; 0; 3]%N mu.
Proof.
have v (mu : 'I_4) : val (axes [:: 1; 2; 0; 3]%N mu) = nth 0%N [:: 1; 2; 0; 3]%N mu.
  by rewrite /axes /= inordK //; case: mu => [[|[|[|[|]]]]].
split=> //; split; first by move=> [[[? ?] ?] ?] [[[? ?] ?] ?] [-> -> -> ->].
split; first by move=> mu nu /(congr1 val); rewrite !v => e; apply/val_inj; move: e; case: mu nu => [[|[|[|[|//]]]] ?] [[|[|[|[|//]]]] ?].
split; first by move=> mu [[[x0 x1] x2] x3]; have := v mu; rewrite /= /box_sup /box_move; case: mu => [[|[|[|[|//]]]] h] /= ->.
by split=> [[[[? ?] ?] ?] //|mu e]; apply/val_inj; rewrite v e.
Qed.
(** Links 1 but for a sign of the links in direction 1 at x = 0: the planes 01 are -1, the others 1. *)
Example C93_case_two : let U : gauge algCnumClosedField 1 (box 1 1 1 1) :=
    fun x mu => if (val mu == 1%N) && (val (x : box 1 1 1 1).1.1.1 == 0%N) then - 1%:M else 1%:M in
  forall t, two_glueball (fun _ _ => tt) (@cut 1 1 1 1) (@box_time 1 1 1 1) U t / 8%:R = - 2%:R.
Proof.
move=> U t; have [bij hv] := C93_case_cut 1 1 1 1.
rewrite /two_glueball (slice_sum _ _ bij t (fun x => phi_x U x - phi_y U x)) (eq_bigr (fun _ => - 2%:R)) => [|x _].
  rewrite sumr_const (_ : #|_| = 8%N); last by apply: etrans (hv t); apply: eq_card => y; rewrite !inE.
  by rewrite -[_ *+ 8]mulr_natr mulfK // pnatr_eq0.
have r1 : retr (1%:M : 'M[algCnumClosedField]_1) = 1 by rewrite /retr mxtrace1; apply/Creal_ReP; rewrite rpred1.
case: x => [[[x0 x1] x2] x3]; rewrite /phi_x /phi_y /U /=.
rewrite !htrans1 !mulmx1 r1 /cyc_up inordK ?ltn_mod //.
have -> : (x0.+1 %% 2 == 0)%N = ~~ (val x0 == 0%N) by case: x0 => [[|[|]]].
case: (val x0 == 0%N) => /=; rewrite ?htransN ?htrans1 ?mulmx1 ?mul1mx /retr raddfN /= raddfN /= mxtrace1;
  by rewrite (Creal_ReP _ (rpred1 _)) -opprD.
Qed.
Example C93_case_scalar : (1 < #|{: 'I_2}|)%N /\ (0 < #|{: 'I_3}|)%N /\ 'Re (2%:R : algCnumClosedField) != 0.
Proof. by rewrite !card_ord (Creal_ReP _ (realn _ 2)) pnatr_eq0. Qed.
Print Assumptions C93_glueball.
Print Assumptions C93_gauge.
Print Assumptions C93_axes.
Print Assumptions C93_adjoint.
Print Assumptions C93_fundamental.
Print Assumptions C93_fundamental_refuted.
