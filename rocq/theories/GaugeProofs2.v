(** Transports along paths, gauge transformations, box lattices. *)
From Coq Require Import Ring.
From mathcomp Require Import all_ssreflect all_algebra.
From Verif Require Import GaugeModel GaugeSpec GaugeProofs.
Import GRing.Theory Num.Theory.
Set Implicit Arguments.
Unset Strict Implicit.
Unset Printing Implicit Defensive.
Local Open Scope ring_scope.

Section Paths.
Variable C : numClosedFieldType.
Variable n : nat.
Variable L : lattice.
Notation GaugeGroup := 'M[C]_n.
Implicit Types (U W : L -> 'I_4 -> GaugeGroup) (x y : L) (mu nu : 'I_4) (p q : seq step).

Lemma unitary_l (A : GaugeGroup) : unitary A -> htrans A *m A = 1%:M.
Proof. by rewrite /unitary daggerE => /mulmx1C. Qed.
Lemma unitary_r (A : GaugeGroup) : unitary A -> A *m htrans A = 1%:M.
Proof. by rewrite /unitary daggerE. Qed.

Lemma endpoint_cat x p q : endpoint x (p ++ q) = endpoint (endpoint x p) q.
Proof. by rewrite /endpoint foldl_cat. Qed.
Lemma transport_cat U x p q : transport U x (p ++ q) = transport U x p *m transport U (endpoint x p) q.
Proof. by elim: p x => [|s p IH] x /=; rewrite ?mul1mx // IH mulmxA. Qed.

(** Going back along the path. *)
Definition rev_step (s : step) : step := (~~ s.1, s.2).
Definition rev_path (p : seq step) := rev (map rev_step p).
Lemma move_rev x s : move (move x s) (rev_step s) = x.
Proof. by case: s => [[] mu]; rewrite /move /= ?supK ?sdnK. Qed.
Lemma hop_rev U x s : hop U (move x s) (rev_step s) = htrans (hop U x s).
Proof. by case: s => [[] mu]; rewrite /hop /move /= ?supK ?sdnK !daggerE ?htransK. Qed.
Lemma rev_path_cons s p : rev_path (s :: p) = rev_path p ++ [:: rev_step s].
Proof. by rewrite /rev_path /= rev_cons cats1. Qed.
Lemma endpoint_rev x p : endpoint (endpoint x p) (rev_path p) = x.
Proof.
elim: p x => [|s p IH] x //; rewrite rev_path_cons endpoint_cat /= IH; exact: move_rev.
Qed.
Lemma transport_rev U x p : transport U (endpoint x p) (rev_path p) = htrans (transport U x p).
Proof.
elim: p x => [|s p IH] x /=; first by rewrite htrans1.
by rewrite rev_path_cons transport_cat /= mulmx1 endpoint_rev IH hop_rev htransM.
Qed.

(** Gauge covariance. *)
Lemma hop_gauge om U x s : (forall y, unitary (om y)) ->
  hop (gauge_transform om U) x s = om x *m hop U x s *m htrans (om (move x s)).
Proof.
move=> _; case: s => [[] mu]; rewrite /hop /move /gauge_transform //= !daggerE !htransM htransK sdnK.
by rewrite mulmxA.
Qed.
Lemma transport_gauge om U x p : (forall y, unitary (om y)) ->
  transport (gauge_transform om U) x p = om x *m transport U x p *m htrans (om (endpoint x p)).
Proof.
move=> u; elim: p x => [|s p IH] x /=.
  by rewrite mulmx1 unitary_r.
rewrite hop_gauge // IH !mulmxA; congr (_ *m _ *m _).
by rewrite -!mulmxA unitary_l // mulmx1.
Qed.
Lemma loop_gauge om U x p : (forall y, unitary (om y)) -> endpoint x p = x ->
  loop_re (gauge_transform om U) x p = loop_re U x p.
Proof.
move=> u e; rewrite /loop_re transport_gauge // e mxtrace_mulC mulmxA unitary_l ?mul1mx //.
Qed.
Lemma trace_gauge om U x p : (forall y, unitary (om y)) -> endpoint x p = x ->
  \tr (transport (gauge_transform om U) x p) = \tr (transport U x p).
Proof. by move=> u e; rewrite transport_gauge // e mxtrace_mulC mulmxA unitary_l ?mul1mx. Qed.

(** Unitary links give unitary transports. *)
Lemma unitary1 : unitary (1%:M : GaugeGroup).
Proof. by rewrite /unitary daggerE htrans1 mulmx1. Qed.
Lemma unitaryM (A B : GaugeGroup) : unitary A -> unitary B -> unitary (A *m B).
Proof.
move=> a b; rewrite /unitary daggerE htransM mulmxA -(mulmxA A) unitary_r // mulmx1; exact: unitary_r.
Qed.
Lemma unitaryH (A : GaugeGroup) : unitary A -> unitary (htrans A).
Proof. by move=> a; rewrite /unitary daggerE htransK unitary_l. Qed.
Lemma det_htrans (A : GaugeGroup) : \det (htrans A) = (\det A)^*.
Proof. by rewrite /htrans det_tr det_map_mx. Qed.
Lemma su1 : special_unitary (1%:M : GaugeGroup).
Proof. split; [exact: unitary1 | exact: det1]. Qed.
Lemma suM (A B : GaugeGroup) : special_unitary A -> special_unitary B -> special_unitary (A *m B).
Proof. by case=> ua da [ub db]; split; [exact: unitaryM | rewrite det_mulmx da db mulr1]. Qed.
Lemma suH (A : GaugeGroup) : special_unitary A -> special_unitary (htrans A).
Proof. by case=> ua da; split; [exact: unitaryH | rewrite det_htrans da conjC1]. Qed.
Lemma transport_su U x p : (forall y mu, special_unitary (U y mu)) -> special_unitary (transport U x p).
Proof.
move=> u; elim: p x => [|s p IH] x /=; first exact: su1.
apply: suM (IH _); case: s => [[] mu]; rewrite /hop /= ?daggerE //; exact: suH.
Qed.

(** The model's products as transports. *)
Lemma endpoint_square x mu nu : endpoint x (square mu nu) = x.
Proof. by rewrite /endpoint /square /= /move /= (supC nu mu) !supK. Qed.
Lemma loop_square U x mu nu : loop_re U x (square mu nu) = pl U x mu nu.
Proof.
rewrite /loop_re /square /= /hop /move /= !daggerE mulmx1 /pl /retr !mulmxA.
by rewrite (supC nu mu) !supK.
Qed.
Lemma endpoint_rect21 x mu nu : endpoint x (rectangle mu nu 2 1) = x.
Proof. by rewrite /endpoint /= /move /= !(supC nu mu) !supK. Qed.
Lemma endpoint_rect12 x mu nu : endpoint x (rectangle mu nu 1 2) = x.
Proof. by rewrite /endpoint /= /move /= !(supC nu mu) !supK. Qed.
Lemma loop_rect21 U x mu nu : loop_re U x (rectangle mu nu 2 1) = rl U x mu nu.
Proof.
rewrite /loop_re /= /hop /move /= !daggerE mulmx1 /rl /retr !mulmxA.
by rewrite !(supC nu mu) !supK.
Qed.
Lemma loop_rect12 U x mu nu : loop_re U x (rectangle mu nu 1 2) = rs U x mu nu.
Proof.
rewrite /loop_re /= /hop /move /= !daggerE mulmx1 /rs /retr !mulmxA.
by rewrite !(supC nu mu) !supK.
Qed.

Lemma wilson_is_action beta U : wilson_energy beta U = wilson_action beta U.
Proof.
rewrite wilson_energyE /wilson_action; congr (_ * _).
by do 3! (apply: eq_bigr => ? _); rewrite loop_square.
Qed.
Lemma improved_is_action beta u0 U : u0 \is Num.real -> improved_energy beta u0 U = symanzik_action beta u0 U.
Proof.
move=> h; rewrite improved_energyE // /symanzik_action; congr (_ * _).
do 3! (apply: eq_bigr => ? _); rewrite loop_square loop_rect21 loop_rect12 /impl /c_plaq /c_rect div1r.
by rewrite [_^-1 * _]mulrC expr2 mulrA.
Qed.
Lemma wilson_action_gauge beta om U : (forall y, unitary (om y)) ->
  wilson_action beta (gauge_transform om U) = wilson_action beta U.
Proof.
move=> u; rewrite /wilson_action; congr (_ * _).
by do 3! (apply: eq_bigr => ? _); rewrite loop_gauge // endpoint_square.
Qed.
Lemma symanzik_action_gauge beta u0 om U : (forall y, unitary (om y)) ->
  symanzik_action beta u0 (gauge_transform om U) = symanzik_action beta u0 U.
Proof.
move=> u; rewrite /symanzik_action; congr (_ * _).
by do 3! (apply: eq_bigr => ? _); rewrite !loop_gauge // ?endpoint_square ?endpoint_rect21 ?endpoint_rect12.
Qed.
Lemma plaquette_termE U x mu nu : plaquette_term U x mu nu = loop_re U x (square mu nu).
Proof. by rewrite loop_square /plaquette_term /pl !mulmxA. Qed.

(** Staples as transports from x + mu to x. *)
Definition staple_up mu nu : seq step := [:: fwd nu; bwd mu; bwd nu].
Definition staple_down mu nu : seq step := [:: bwd nu; bwd mu; fwd nu].
Lemma staple_upE U x mu nu : transport U (sup mu x) (staple_up mu nu) = up U x mu nu.
Proof. by rewrite /= /hop /move /= !daggerE mulmx1 /up !mulmxA (supC nu mu) !supK. Qed.
Lemma staple_downE U x mu nu : transport U (sup mu x) (staple_down mu nu) = down U x mu nu.
Proof. by rewrite /= /hop /move /= !daggerE mulmx1 /down !mulmxA -!sup_sdnC !sdnK. Qed.
Lemma endpoint_up x mu nu : endpoint (sup mu x) (staple_up mu nu) = x.
Proof. by rewrite /endpoint /= /move /= (supC nu mu) !supK. Qed.
Lemma endpoint_down x mu nu : endpoint (sup mu x) (staple_down mu nu) = x.
Proof. by rewrite /endpoint /= /move /= -!sup_sdnC !sdnK. Qed.

Definition st3 mu nu : seq step := [:: fwd mu; fwd nu; bwd mu; bwd mu; bwd nu].
Definition st4 mu nu : seq step := [:: fwd nu; bwd mu; bwd mu; bwd nu; fwd mu].
Definition st5 mu nu : seq step := [:: fwd mu; bwd nu; bwd mu; bwd mu; fwd nu].
Definition st6 mu nu : seq step := [:: bwd nu; bwd mu; bwd mu; fwd nu; fwd mu].
Definition st7 mu nu : seq step := [:: fwd nu; fwd nu; bwd mu; bwd nu; bwd nu].
Definition st8 mu nu : seq step := [:: bwd nu; bwd nu; bwd mu; fwd nu; fwd nu].
Lemma end3 x mu nu : endpoint (sup mu x) (st3 mu nu) = x.
Proof. by rewrite /endpoint /= /move /= !(supC nu mu) !supK. Qed.
Lemma end4 x mu nu : endpoint (sup mu x) (st4 mu nu) = x.
Proof. by rewrite /endpoint /= /move /= !(supC nu mu) !supK -!sup_sdnC !sdnK. Qed.
Lemma end5 x mu nu : endpoint (sup mu x) (st5 mu nu) = x.
Proof. by rewrite /endpoint /= /move /= -!sup_sdnC !sdnK. Qed.
Lemma end6 x mu nu : endpoint (sup mu x) (st6 mu nu) = x.
Proof. by rewrite /endpoint /= /move /= -!sup_sdnC !sdnK (sdnC mu nu) !sdnK. Qed.
Lemma end7 x mu nu : endpoint (sup mu x) (st7 mu nu) = x.
Proof. by rewrite /endpoint /= /move /= !(supC nu mu) !supK. Qed.
Lemma end8 x mu nu : endpoint (sup mu x) (st8 mu nu) = x.
Proof. by rewrite /endpoint /= /move /= -!sup_sdnC !sdnK. Qed.

Lemma st3E U x mu nu : transport U (sup mu x) (st3 mu nu) = r3 U x mu nu.
Proof. by rewrite /= /hop /move /= !daggerE mulmx1 /r3 !mulmxA !(supC nu mu) !supK. Qed.
Lemma st4E U x mu nu : transport U (sup mu x) (st4 mu nu) = r4 U x mu nu.
Proof. by rewrite /= /hop /move /= !daggerE mulmx1 /r4 !mulmxA !(supC nu mu) !supK -!sup_sdnC ?sdnK. Qed.
Lemma st5E U x mu nu : transport U (sup mu x) (st5 mu nu) = r5 U x mu nu.
Proof. by rewrite /= /hop /move /= !daggerE mulmx1 /r5 !mulmxA -!sup_sdnC !sdnK. Qed.
Lemma st6E U x mu nu : transport U (sup mu x) (st6 mu nu) = r6 U x mu nu.
Proof. by rewrite /= /hop /move /= !daggerE mulmx1 /r6 !mulmxA -!sup_sdnC !sdnK (sdnC mu nu) !sdnK. Qed.
Lemma st7E U x mu nu : transport U (sup mu x) (st7 mu nu) = r7 U x mu nu.
Proof. by rewrite /= /hop /move /= !daggerE mulmx1 /r7 !mulmxA !(supC nu mu) !supK. Qed.
Lemma st8E U x mu nu : transport U (sup mu x) (st8 mu nu) = r8 U x mu nu.
Proof. by rewrite /= /hop /move /= !daggerE mulmx1 /r8 !mulmxA -!sup_sdnC !sdnK. Qed.

Lemma wilson_stapleE U x mu : wilson_staple U x mu
  = \sum_(nu < 4 | nu != mu) (transport U (sup mu x) (staple_up mu nu) + transport U (sup mu x) (staple_down mu nu)).
Proof. by apply: eq_bigr => nu _; rewrite staple_upE staple_downE. Qed.
Lemma improved_stapleE u0 U x mu : improved_staple u0 U x mu
  = \sum_(nu < 4 | nu != mu)
     (c_plaq C *: (transport U (sup mu x) (staple_up mu nu)) + c_plaq C *: (transport U (sup mu x) (staple_down mu nu))
      - c_rect u0 *: transport U (sup mu x) (st3 mu nu) - c_rect u0 *: transport U (sup mu x) (st4 mu nu)
      - c_rect u0 *: transport U (sup mu x) (st5 mu nu) - c_rect u0 *: transport U (sup mu x) (st6 mu nu)
      - c_rect u0 *: transport U (sup mu x) (st7 mu nu) - c_rect u0 *: transport U (sup mu x) (st8 mu nu)).
Proof. by apply: eq_bigr => nu _; rewrite staple_upE staple_downE st3E st4E st5E st6E st7E st8E. Qed.

Lemma staple_gauge om U x mu : (forall y, unitary (om y)) ->
  wilson_staple (gauge_transform om U) x mu = om (sup mu x) *m wilson_staple U x mu *m htrans (om x).
Proof.
move=> u; rewrite !wilson_stapleE mulmx_sumr mulmx_suml; apply: eq_bigr => nu _.
by rewrite !transport_gauge // endpoint_up endpoint_down mulmxDr mulmxDl.
Qed.
Lemma improved_staple_gauge u0 om U x mu : (forall y, unitary (om y)) ->
  improved_staple u0 (gauge_transform om U) x mu = om (sup mu x) *m improved_staple u0 U x mu *m htrans (om x).
Proof.
move=> u; rewrite !improved_stapleE mulmx_sumr mulmx_suml; apply: eq_bigr => nu _.
rewrite !transport_gauge // endpoint_up endpoint_down end3 end4 end5 end6 end7 end8.
by rewrite !(mulmxDr, mulmxDl, mulmxN, mulNmx) -!scalemxAr -!scalemxAl.
Qed.
End Paths.
