(** The derivatives with respect to the interval length of the Legendre basis in binary64. *)
From Coquelicot Require Import Coquelicot.
From Coq Require Import ZArith Reals Lra Lia List Arith Bool.
From Flocq Require Import Core Relative BinarySingleNaN.
From Verif Require Import Num Outcome LinAlg LegendreModel LegendreSpec LegendreMath LegendreProofs StabMath IEEEModel IEEESpec IEEEProofs IEEEHorner IEEELegendre IEEESpline IEEELagrange IEEEDerivSpec IEEEDeriv IEEEDeriv2.
Local Open Scope R_scope.

Lemma spread_facts tau : 0 < tau -> 1 <= spread tau /\ / spread tau <= 2 / tau <= spread tau.
Proof.
  intros Pt. assert (I2 : 0 < 2 / tau) by (apply Rdiv_lt_0_compat; lra). assert (I3 : / (2 / tau) = tau / 2) by (field; lra).
  assert (A1 : 2 / tau <= spread tau) by apply Rmax_l. assert (A2 : tau / 2 <= spread tau) by apply Rmax_r.
  assert (HA : 1 <= spread tau). { destruct (Rle_lt_dec 1 (2 / tau)); [lra|]. rewrite <- I3 in A2. assert (1 < / (2 / tau)) by (rewrite <- Rinv_1; apply Rinv_lt_contravar; lra). lra. }
  split; auto. split; auto. rewrite <- (Rinv_inv (2 / tau)). apply Rinv_le_contravar; [apply Rinv_0_lt_compat; lra|rewrite I3; lra].
Qed.

Lemma omax_pos : 0 < omax.
Proof. apply bpow_gt_0. Qed.

Section Tau.
Variable m : libm.
Local Instance BN : Num b64 := B64num m.

Lemma opp64 (a : b64) : fin a -> fin (nopp a) /\ val (nopp a) = - val a.
Proof. intros F. split; [unfold fin in *; cbn; rewrite is_finite_Bopp; exact F|]. unfold val. cbn. apply B2R_Bopp. Qed.
Lemma one64 : fin (n1 : b64) /\ val (n1 : b64) = 1.
Proof. exact (IEEELegendre.one64 m). Qed.
Lemma two64 : fin (c2 : b64) /\ val (c2 : b64) = 2.
Proof. exact (IEEELegendre.two64 m). Qed.
Lemma nofnat64 i : (i <= 2 ^ 53)%nat -> fin (nofnat i) /\ val (nofnat i) = INR i.
Proof. exact (IEEELegendre.nofnat64 m i). Qed.
Lemma mul64 (x y : b64) : fin x -> fin y -> bnd big (val x * val y) -> fin (nmul x y) /\ exists q, rat 1 q /\ val (nmul x y) = val x * val y * q.
Proof. exact (IEEELagrange.mul64 m x y). Qed.
Lemma div64 (x y : b64) : fin x -> val y <> 0 -> bnd big (val x / val y) -> fin (ndiv x y) /\ exists q, rat 1 q /\ val (ndiv x y) = val x / val y * q.
Proof. exact (IEEELagrange.div64 m x y). Qed.
Lemma mulr (x y : b64) B : fin x -> fin y -> Rabs (val x) * Rabs (val y) <= B -> B <= 16 * big ->
  fin (nmul x y) /\ exists d e, Rabs d <= uu /\ Rabs e <= hh /\ val (nmul x y) = val x * val y * (1 + d) + e.
Proof. exact (IEEEDeriv.mulr m x y B). Qed.
Lemma half64 : fin (nhalf : b64) /\ val (nhalf : b64) = / 2.
Proof.
  split; [reflexivity|]. unfold val. replace (B2R (nhalf : b64)) with (F2R (Float radix2 4503599627370496 (-53))) by (vm_compute; reflexivity).
  unfold F2R. cbn [Fnum Fexp]. change (-53)%Z with (- Z.of_nat 53)%Z. rewrite bpow_opp, bpow_pow. lra.
Qed.

Lemma mulz (a b : b64) : fin a -> fin b -> val b = 0 -> fin (nmul a b) /\ val (nmul a b) = 0.
Proof. intros Fa Fb Z. destruct (mul_ok a b Fa Fb) as (F & V); rewrite Z, Rmult_0_r, rnd_0 in *; [rewrite Rabs_R0; apply omax_pos|]. split; [exact F|exact V]. Qed.
Lemma zmul (a b : b64) : fin a -> fin b -> val a = 0 -> fin (nmul a b) /\ val (nmul a b) = 0.
Proof. intros Fa Fb Z. destruct (mul_ok a b Fa Fb) as (F & V); rewrite Z, Rmult_0_l, rnd_0 in *; [rewrite Rabs_R0; apply omax_pos|]. split; [exact F|exact V]. Qed.

Definition tfac (tau : b64) (d : nat) : b64 := (- nhalf * nofnat d * (c2 / tau))%num.

Lemma bnd_of A y : / A <= Rabs y -> Rabs y <= A -> bnd A y. Proof. intros; split; auto. Qed.

Lemma tfac64 tau d A : fin tau -> 0 < val tau -> (1 <= d)%nat -> INR d <= 2 ^ 50 -> 1 <= A -> / A <= 2 / val tau <= A -> A <= 2 ^ 900 ->
  fin (tfac tau d) /\ exists q, rat 3 q /\ val (tfac tau d) = - (INR d / val tau) * q.
Proof.
  intros Ft Pt D1 D2 HA HB HC. destruct two64 as (F2 & V2). destruct half64 as (Fh & Vh). destruct (opp64 _ Fh) as (Fo & Vo). rewrite Vh in Vo.
  assert (D53 : (d <= 2 ^ 53)%nat). { apply IEEEDeriv.n53. eapply Rle_trans; [exact D2|]. apply Rle_pow; [lra|lia]. }
  destruct (nofnat64 d D53) as (Fd & Vd). clear D53. assert (D1' : 1 <= INR d) by (apply (le_INR 1); auto).
  assert (BB : 2 ^ 960 <= big) by (unfold big; apply pow_lit; lia).
  assert (P9 : 2 ^ 960 = 2 ^ 900 * (1024 * 2 ^ 50)) by (replace 1024 with (2 ^ 10) by lra; rewrite <- !pow_add; reflexivity).
  assert (Q9 : 1 <= 2 ^ 900) by (apply pow_R1_Rle; lra). assert (Q5 : 1 <= 2 ^ 50) by (apply pow_R1_Rle; lra). set (w := 2 ^ 50) in *. set (w9 := 2 ^ 900) in *. set (w96 := 2 ^ 960) in *.
  assert (IA : 0 < / A) by (apply Rinv_0_lt_compat; lra).
  assert (B1 : bnd A (2 / val tau)) by (unfold bnd; rewrite Rabs_pos_eq; lra).
  destruct (mul64 (nopp nhalf) (nofnat d) Fo Fd) as (Fm & q1 & R1 & W1).
  { rewrite Vo, Vd. apply (bnd_le (2 * w)); [lra|nra|]. unfold bnd. rewrite Rabs_mult, Rabs_Ropp, (Rabs_pos_eq (/ 2)), (Rabs_pos_eq (INR d)) by lra. split; [|lra].
    apply Rle_trans with (/ 2); [apply Rinv_le_contravar; lra|lra]. }
  destruct (div64 c2 tau F2) as (Fq & q2 & R2 & W2); [lra| |].
  { rewrite V2. apply (bnd_le A); auto; nra. }
  rewrite Vo, Vd in W1. rewrite V2 in W2.
  destruct (mul64 (nopp nhalf * nofnat d)%num (c2 / tau)%num Fm Fq) as (F3 & q3 & R3 & W3).
  { rewrite W1, W2. replace (- / 2 * INR d * q1 * (2 / val tau * q2)) with (- / 2 * INR d * (2 / val tau) * (q1 * q2)) by ring.
    apply (bnd_le (2 * w * A * 2)); [nra|nra|]. apply bnd_mul; [nra|lra| |].
    - apply bnd_mul; [lra|lra| |auto]. unfold bnd. rewrite Rabs_mult, Rabs_Ropp, (Rabs_pos_eq (/ 2)), (Rabs_pos_eq (INR d)) by lra. split; [|lra].
      apply Rle_trans with (/ 2); [apply Rinv_le_contravar; lra|lra].
    - apply (bnd_le (bt ^ (2 * 1))); [apply bt_pos|eapply Rle_trans; [apply bt_2k|cbn; lra]|]. apply bnd_rat. apply (rat_mul 1 1); auto. }
  split; [exact F3|]. exists (q1 * q2 * q3). split; [apply (rat_mul 2 1); auto; apply (rat_mul 1 1); auto|].
  unfold tfac. rewrite W3, W1, W2. field. lra.
Qed.

Variables (s : b64) (x : R) (K : nat).
Hypothesis Fs : fin s.
Hypothesis Vs : val s = x.
Hypothesis Hx : -1 <= x <= 1.
Hypothesis HK : (1 <= K)%nat.

Lemma tau_entry64 (tau : b64) d j : (d <= K)%nat -> (j <= K)%nat -> deriv_error K d <= INR K ^ (2 * d) / 16 -> fin tau -> 0 < val tau -> (2 * spread (val tau) * INR K ^ 2) ^ S d <= 2 ^ 900 ->
  fin (gld s d j * gmult tau d * tfac tau d)%num /\
  Rabs (val (gld s d j * gmult tau d * tfac tau d)%num - LD d j x * (2 / val tau) ^ d * (- (INR d / val tau))) <= 3 * deriv_error K d * (2 / val tau) ^ d * (INR d / val tau).
Proof.
  intros Hd Hj Sd Ft Pt Hb. set (A := spread (val tau)) in *. destruct (spread_facts _ Pt) as (HA & A3 & A1). fold A in HA, A3, A1.
  pose proof uu_pos as U. pose proof uu_small as US. assert (K1 : 1 <= INR K) by (apply (le_INR 1); auto).
  assert (KK : 1 <= INR K ^ 2) by (apply pow_R1_Rle; lra). assert (Z1 : 1 <= 2 * A * INR K ^ 2) by nra.
  assert (Hb' : (2 * A * INR K ^ 2) ^ d <= 2 ^ 900) by (eapply Rle_trans; [|exact Hb]; apply Rle_pow; [lra|lia]).
  destruct (entry64 m s x K Fs Vs Hx HK tau d j Hd Hj Sd Ft Pt Hb') as (Fe & Be).
  assert (Fe' : fin (gld s d j * gmult tau d)%num) by exact Fe. clear Fe.
  set (v := (gld s d j * gmult tau d)%num) in *. change (val (gld s d j * gmult tau d)%num) with (val v) in Be.
  assert (A9 : A * INR K ^ 2 <= 2 ^ 900). { apply Rle_trans with (2 * A * INR K ^ 2); [nra|]. eapply Rle_trans; [|exact Hb]. rewrite <- (pow_1 (2 * A * INR K ^ 2)) at 1. apply Rle_pow; [lra|lia]. }
  destruct d as [|e].
  { destruct two64 as (F2 & V2). destruct half64 as (Fh & Vh). destruct (opp64 _ Fh) as (Fo & Vo). destruct (nofnat64 0 ltac:(apply Nat.le_0_l)) as (Fd & Vd). cbn [INR] in Vd.
    destruct (mulz (nopp nhalf) (nofnat 0) Fo Fd Vd) as (Fm & Vm).
    destruct (div64 c2 tau F2) as (Fq & q2 & R2 & W2); [lra| |].
    { rewrite V2. apply (bnd_le A); [lra| |unfold bnd; rewrite Rabs_pos_eq; [lra|]; pose proof (Rinv_0_lt_compat A); lra]. unfold big. pose proof (pow_lit 900 1000 ltac:(lia)). nra. }
    destruct (zmul (nopp nhalf * nofnat 0)%num (c2 / tau)%num Fm Fq Vm) as (Fn & Vn').
    destruct (mulz v (tfac tau 0) Fe' Fn Vn') as (Fz & Vz).
    split; [exact Fz|]. assert (Vz' : val (v * tfac tau 0)%num = 0) by exact Vz. rewrite Vz'. cbn [INR]. unfold Rdiv. rewrite Rmult_0_l, Ropp_0, !Rmult_0_r, Rminus_0_r, Rabs_R0. lra. }
  set (d := S e) in *.
  assert (K50 : 2 * INR K + 1 <= 2 ^ 50). { apply K_small; auto. pose proof (derr_all K d HK Sd 0 ltac:(lia)) as Q. cbn [Nat.mul Nat.add pow] in Q. exact Q. }
  assert (ED : INR d <= INR K) by (apply le_INR; auto). assert (D1 : 1 <= INR d) by (apply (le_INR 1); unfold d; lia).
  destruct (tfac64 tau d A Ft Pt ltac:(unfold d; lia) ltac:(lra) HA (conj A3 A1) ltac:(nra)) as (Ff & q & Rq & Vq).
  set (g := (2 / val tau) ^ d) in *. assert (I2 : 0 < 2 / val tau) by (apply Rdiv_lt_0_compat; lra). assert (Gp : 0 < g) by (apply pow_lt; lra).
  set (c := INR d / val tau) in *. assert (Cp : 0 < c) by (apply Rdiv_lt_0_compat; lra).
  set (L := LD d j x) in *. set (DE := deriv_error K d) in *. set (kp := INR K ^ (2 * d)) in *.
  assert (LB : Rabs L <= kp) by (apply LD_boundK; auto). assert (DP : 0 <= DE) by apply derr_pos. assert (KP : 1 <= kp) by (apply pow_R1_Rle; lra).
  assert (EB : 100 * uu * kp <= DE).
  { unfold DE, d. rewrite derr_S. fold d. fold kp. pose proof (derr_pos K e). assert (0 <= 2 * INR d * deriv_error K e) by (apply Rmult_le_pos; lra).
    assert (100 * uu * kp <= (100 + 10 * INR d) * uu * kp) by (apply Rmult_le_compat_r; [lra|apply Rmult_le_compat_r; lra]). assert (0 <= uu * kp) by nra. assert (1 <= INR K * (INR K + 1) / 2) by (clear - K1; nra). nra. }
  assert (VB : Rabs (val v) <= 2 * kp * g).
  { replace (val v) with (val v - L * g + L * g) by ring. eapply Rle_trans; [apply Rabs_triang|]. rewrite (Rabs_mult L), (Rabs_pos_eq g) by lra.
    assert (Rabs L * g <= kp * g) by (apply Rmult_le_compat_r; lra). assert (2 * DE * g <= kp * g) by (apply Rmult_le_compat_r; lra). lra. }
  assert (Rq1 : Rabs (q - 1) <= 6 * uu). { pose proof (rat_abs _ _ Rq) as RA. assert (Q : INR 3 * uu <= / 2) by (cbn [INR]; lra). pose proof (bt_lin 3 Q) as BL. cbn [INR] in BL. lra. }
  assert (Aq : Rabs q <= 2). { replace q with ((q - 1) + 1) by ring. eapply Rle_trans; [apply Rabs_triang|]. rewrite Rabs_R1. lra. }
  assert (GA : g <= A ^ d) by (apply pow_incr; lra).
  assert (CA : c <= INR K * A). { unfold c. replace (INR d / val tau) with (INR d * (2 / val tau) / 2) by (field; lra). assert (INR d * (2 / val tau) <= INR K * A) by (apply Rmult_le_compat; lra). nra. }
  rewrite pow_mult in Hb || idtac.
  assert (HB2 : 2 ^ S d * (A ^ d * A) * (kp * INR K ^ 2) <= 2 ^ 900).
  { eapply Rle_trans; [|exact Hb]. right. rewrite !Rpow_mult_distr, <- pow_mult. unfold kp. rewrite <- pow_add. replace (2 * S d)%nat with (2 * d + 2)%nat by lia. rewrite <- (tech_pow_Rmult A). ring. }
  assert (P2 : 4 <= 2 ^ S d). { replace 4 with (2 ^ 2) by lra. apply Rle_pow; [lra|unfold d; lia]. }
  assert (AP : 1 <= A ^ d) by (apply pow_R1_Rle; lra).
  assert (SV : 2 * kp * g * (c * 2) <= 2 ^ 900).
  { eapply Rle_trans; [|exact HB2]. assert (kp * g <= kp * A ^ d) by (apply Rmult_le_compat_l; lra). assert (c <= A * INR K ^ 2) by nra.
    assert (T : kp * g * c <= kp * A ^ d * (A * INR K ^ 2)) by (apply Rmult_le_compat; nra).
    replace (2 ^ S d * (A ^ d * A) * (kp * INR K ^ 2)) with (2 ^ S d * (kp * A ^ d * (A * INR K ^ 2))) by ring.
    assert (0 <= kp * A ^ d * (A * INR K ^ 2)) by (apply Rmult_le_pos; [apply Rmult_le_pos; lra|apply Rmult_le_pos; lra]).
    apply Rle_trans with (4 * (kp * A ^ d * (A * INR K ^ 2))); [lra|]. apply Rmult_le_compat_r; lra. }
  assert (VF : Rabs (val (tfac tau d)) <= c * 2). { rewrite Vq, Rabs_mult, Rabs_Ropp, (Rabs_pos_eq c) by lra. apply Rmult_le_compat_l; lra. }
  destruct (mulr v (tfac tau d) (2 * kp * g * (c * 2)) Fe' Ff) as (F & d1 & e1 & B1 & B2 & V); [apply Rmult_le_compat; auto using Rabs_pos| |].
  { unfold big. pose proof (pow_lit 900 1000 ltac:(lia)). lra. }
  split; [exact F|]. rewrite V, Vq. clear V.
  replace (val v * (- c * q) * (1 + d1) + e1 - L * g * - c) with (- c * ((val v - L * g) + val v * (q - 1) + val v * q * d1) + e1) by ring.
  assert (T1 : Rabs (val v * (q - 1)) <= 2 * kp * g * (6 * uu)) by (rewrite Rabs_mult; apply Rmult_le_compat; auto using Rabs_pos).
  assert (T2 : Rabs (val v * q * d1) <= 2 * kp * g * 2 * uu) by (rewrite !Rabs_mult; repeat apply Rmult_le_compat; auto using Rabs_pos, Rmult_le_pos).
  assert (GL : / 2 ^ 900 <= g * c).
  { apply Rle_trans with (/ (A ^ d * (2 * A))).
    - apply Rinv_le_contravar; [nra|]. eapply Rle_trans; [|exact HB2]. assert (1 <= kp * INR K ^ 2) by nra. assert (0 <= A ^ d * A) by nra.
      apply Rle_trans with (2 ^ S d * (A ^ d * A) * 1); [nra|]. apply Rmult_le_compat_l; nra.
    - rewrite Rinv_mult. apply Rmult_le_compat; [apply Rlt_le, Rinv_0_lt_compat; lra|apply Rlt_le, Rinv_0_lt_compat; lra| |].
      + unfold g. rewrite <- pow_inv. apply pow_incr. split; [apply Rlt_le, Rinv_0_lt_compat; lra|lra].
      + rewrite Rinv_mult. unfold c. replace (INR d / val tau) with (/ 2 * (INR d * (2 / val tau))) by (field; lra). apply Rmult_le_compat_l; [lra|]. assert (2 / val tau <= INR d * (2 / val tau)) by nra. lra. }
  assert (HG : hh <= g * c * uu). { apply Rle_trans with (/ 2 ^ 900 * uu); [|apply Rmult_le_compat_r; lra]. unfold hh, uu. rewrite <- Rinv_mult, <- pow_add. apply Rinv_le_contravar; [apply pow_lt; lra|apply pow_lit; lia]. }
  eapply Rle_trans; [apply Rabs_triang|]. rewrite Rabs_mult, Rabs_Ropp, (Rabs_pos_eq c) by lra.
  assert (T3 : Rabs (val v - L * g + val v * (q - 1) + val v * q * d1) <= 2 * DE * g + 2 * kp * g * (6 * uu) + 2 * kp * g * 2 * uu) by (eapply Rle_trans; [apply Rabs_triang|]; apply Rplus_le_compat; auto; eapply Rle_trans; [apply Rabs_triang|]; apply Rplus_le_compat; auto).
  assert (T4 : 2 * DE * g + 2 * kp * g * (6 * uu) + 2 * kp * g * 2 * uu + g * uu <= 3 * DE * g).
  { replace (2 * DE * g + 2 * kp * g * (6 * uu) + 2 * kp * g * 2 * uu + g * uu) with ((2 * DE + 16 * (uu * kp) + uu) * g) by ring. apply Rmult_le_compat_r; [lra|]. assert (uu <= uu * kp) by (rewrite <- (Rmult_1_r uu) at 1; apply Rmult_le_compat_l; lra). lra. }
  assert (T5 : c * Rabs (val v - L * g + val v * (q - 1) + val v * q * d1) <= c * (2 * DE * g + 2 * kp * g * (6 * uu) + 2 * kp * g * 2 * uu)) by (apply Rmult_le_compat_l; lra).
  assert (T6 : c * (2 * DE * g + 2 * kp * g * (6 * uu) + 2 * kp * g * 2 * uu + g * uu) <= c * (3 * DE * g)) by (apply Rmult_le_compat_l; lra). lra.
Qed.
End Tau.
