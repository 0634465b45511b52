(** The six functions of the exponential-trigonometric basis in binary64. *)
From Coquelicot Require Import Coquelicot.
From Coq Require Import ZArith Reals Lra Lia List Arith Bool.
From Flocq Require Import Core BinarySingleNaN.
From Verif Require Import Num Outcome LinAlg RSum LegendreModel Basis0101Spec Basis0101Math Basis0101Model Basis0101Proofs
  IEEEModel IEEESpec IEEEProofs IEEEHorner IEEELegendre IEEESpline IEEEProps2 IEEELagrange IEEEFunSpec IEEEFunProofs IEEEFunProofs2 IEEEFunProofs3 IEEE01Spec IEEE01.
Local Open Scope R_scope.

Lemma uu_15 : uu <= / 1000000000000000.
Proof. unfold uu. apply Rinv_le_contravar; [lra|]. rewrite (pow_IZR 2 53). apply IZR_le. vm_compute. discriminate. Qed.
Lemma hh_uup k : (k <= 1000)%nat -> 1000000 * hh <= uu * / 2 ^ k.
Proof.
  intros Hk. unfold hh, uu. rewrite <- Rinv_mult, <- pow_add. apply Rmult_le_reg_l with (2 ^ 1075); [apply pow_lt; lra|]. rewrite <- Rmult_assoc, (Rmult_comm _ 1000000), Rmult_assoc, Rinv_r by (apply pow_nonzero; lra).
  replace 1075%nat with ((1022 - k) + (53 + k))%nat at 1 by lia. rewrite pow_add, Rmult_assoc, Rinv_r by (apply pow_nonzero; lra).
  rewrite !Rmult_1_r. apply Rle_trans with (2 ^ 20); [lra|]. apply Rle_pow; [lra|lia].
Qed.
Lemma exp_4 n : exp (INR n) <= 4 ^ n.
Proof.
  induction n as [|n IH]; [cbn; rewrite exp_0; lra|]. rewrite S_INR, exp_plus. cbn [pow]. rewrite (Rmult_comm 4). apply Rmult_le_compat; auto; try apply Rlt_le, exp_pos. pose proof exp_le_3. lra.
Qed.
Lemma exp_range p n : Rabs p <= INR n -> / 4 ^ n <= exp p <= 4 ^ n.
Proof.
  intros H. apply Rabs_le_between in H. pose proof (exp_4 n) as E4.
  assert (exp p <= exp (INR n)) by (destruct (Req_dec p (INR n)) as [->|]; [lra|left; apply exp_increasing; lra]).
  assert (exp (- INR n) <= exp p) by (destruct (Req_dec p (- INR n)) as [->|]; [lra|left; apply exp_increasing; lra]). rewrite exp_Ropp in *.
  assert (/ 4 ^ n <= / exp (INR n)) by (apply Rinv_le_contravar; [apply exp_pos|exact E4]). lra.
Qed.
Lemma exp_abs p : exp p <= exp (Rabs p) /\ exp (- p) <= exp (Rabs p) /\ 1 + Rabs p <= exp (Rabs p).
Proof.
  pose proof (Rle_abs p). pose proof (Rle_abs (- p)) as N. rewrite Rabs_Ropp in N. assert (M : forall x y, x <= y -> exp x <= exp y) by (intros x y [L|L]; [left; apply exp_increasing; exact L|rewrite L; lra]).
  repeat split; [apply M; lra|apply M; lra|apply exp_ineq1_le].
Qed.
Lemma expm1_small d : 0 <= d <= / 1000 -> exp d - 1 <= 101 / 100 * d.
Proof.
  intros Hd. pose proof (exp_ineq1_le (- d)) as E. rewrite exp_Ropp in E. pose proof (exp_pos d) as P.
  assert (exp d <= / (1 - d)). { apply Rmult_le_reg_r with (1 - d); [lra|]. rewrite Rinv_l by lra. apply Rmult_le_reg_r with (/ exp d); [apply Rinv_0_lt_compat; exact P|]. rewrite (Rmult_comm (exp d)), Rmult_assoc, Rinv_r by lra. lra. }
  assert (/ (1 - d) <= 1 + 101 / 100 * d). { apply Rmult_le_reg_r with (1 - d); [lra|]. rewrite Rinv_l by lra. nra. }
  lra.
Qed.
Lemma pow4 n : 4 ^ n = 2 ^ (2 * n).
Proof. rewrite pow_mult. f_equal. cbn. ring. Qed.
(** product and quotient of perturbed factors *)
Lemma prod_err D eta gam c : 0 <= D <= 7000 -> Rabs eta <= uu * (101 / 100 * D + 202 / 100) -> Rabs gam <= uu * (D + 2) -> Rabs c <= 1 ->
  Rabs ((1 + eta) * (c + gam) - c) <= uu * (202 / 100 * D + 41 / 10) /\ Rabs ((c + gam) / (1 + eta) - c) <= uu * (202 / 100 * D + 41 / 10) /\ / 2 <= 1 + eta.
Proof.
  intros HD He Hg Hc. pose proof uu_pos as U. pose proof uu_15 as U1.
  assert (Se : uu * (101 / 100 * D + 202 / 100) <= / 1000000). { apply Rle_trans with (/ 1000000000000000 * 10000); [apply Rmult_le_compat; lra|lra]. }
  assert (Sg : uu * (D + 2) <= / 1000000). { apply Rle_trans with (/ 1000000000000000 * 10000); [apply Rmult_le_compat; lra|lra]. }
  pose proof (Rabs_pos eta) as Pe. pose proof (Rabs_pos gam) as Pg. pose proof (Rabs_pos c) as Pc.
  assert (H2 : / 2 <= 1 + eta) by (apply Rabs_le_between in He; lra).
  assert (X1 : Rabs eta * Rabs c <= Rabs eta * 1) by (apply Rmult_le_compat_l; lra).
  assert (X2 : Rabs eta * Rabs gam <= / 1000000 * Rabs gam) by (apply Rmult_le_compat_r; lra).
  split; [|split; [|exact H2]].
  - replace ((1 + eta) * (c + gam) - c) with (eta * c + (eta * gam + gam)) by ring. eapply Rle_trans; [apply Rabs_triang|]. pose proof (Rabs_triang (eta * gam) gam). rewrite !Rabs_mult in *. lra.
  - replace ((c + gam) / (1 + eta) - c) with ((gam + - (eta * c)) * / (1 + eta)) by (field; lra). rewrite Rabs_mult, (Rabs_right (/ (1 + eta))) by (apply Rle_ge, Rlt_le, Rinv_0_lt_compat; lra).
    assert (I : / (1 + eta) <= 1 + / 900000). { apply Rmult_le_reg_r with (1 + eta); [lra|]. rewrite Rinv_l by lra. apply Rabs_le_between in He. nra. }
    assert (N : Rabs (gam + - (eta * c)) <= uu * (201 / 100 * D + 402 / 100)). { eapply Rle_trans; [apply Rabs_triang|]. rewrite Rabs_Ropp, Rabs_mult. lra. }
    eapply Rle_trans; [apply Rmult_le_compat; [apply Rabs_pos|apply Rlt_le, Rinv_0_lt_compat; lra|exact N|exact I]|]. rewrite Rmult_assoc. apply Rmult_le_compat_l; lra.
Qed.

Section E.
Variable m : libm.
Local Instance BN : Num b64 := B64num m.
Variable eps : R.
Hypothesis HA : accurate m eps.
Hypothesis HR : accurate_root m eps.
Hypothesis He : eps <= 2 * uu.

Lemma k64 alpha : fin alpha -> 0 < val alpha < 1 -> fin (b01_k alpha) /\ (exists q, rat 11 q /\ val (b01_k alpha) = b01K (val alpha) * q) /\ bnd (2 ^ 600) (val (b01_k alpha)).
Proof. exact (IEEE01.k64 m eps HR He alpha). Qed.
Lemma mul64 (x y : b64) : fin x -> fin y -> bnd big (val x * val y) -> fin (nmul x y) /\ exists q, rat 1 q /\ val (nmul x y) = val x * val y * q.
Proof. exact (IEEELagrange.mul64 m x y). Qed.

Lemma bt13 : bt ^ 13 - 1 <= 14 * uu.
Proof. pose proof (bt_lin1 13) as B. cbn [INR] in B. pose proof uu_15. pose proof uu_pos. assert (E : 1 + 1 + 1 + 1 + 1 + 1 + 1 + 1 + 1 + 1 + 1 + 1 + 1 = 13) by ring. rewrite E in B. lra. Qed.
Lemma bt13_2 k : (k <= 13)%nat -> bt ^ k <= 2.
Proof. intros H. pose proof (bt_le k 13 H). pose proof bt13. pose proof uu_15. lra. Qed.
Lemma rat_2 k q : (k <= 13)%nat -> rat k q -> / 2 <= q <= 2.
Proof.
  intros Hk (A & B). pose proof (bt13_2 k Hk) as C. split; [|lra]. eapply Rle_trans; [|exact A]. apply Rinv_le_contravar; [apply bt_pos|exact C].
Qed.

(** the argument p = (tau k) s *)
Lemma p64 alpha tau s : fin alpha -> 0 < val alpha < 1 -> fin tau -> fin s -> let K := b01K (val alpha) in
  / 2 ^ 900 <= val tau * K <= 2 ^ 900 -> let p := val tau * K * val s in Rabs p <= 450 ->
  fin (nmul (nmul tau (b01_k alpha)) s) /\ Rabs (val (nmul (nmul tau (b01_k alpha)) s) - p) <= 14 * uu * Rabs p + hh.
Proof.
  intros Fa Ha Ft Fs K HK p Hp. destruct (k64 alpha Fa Ha) as (Fk & (q & Rq & Vk) & _). fold K in Vk.
  assert (P9 : 0 < / 2 ^ 900) by (apply Rinv_0_lt_compat, pow_lt; lra).
  assert (T1 : val tau * val (b01_k alpha) = val tau * K * q) by (rewrite Vk; ring). pose proof (rat_2 11 q ltac:(lia) Rq) as Q2.
  assert (H902 : 2 ^ 900 * 2 <= big). { replace (2 ^ 900 * 2) with (2 ^ 901) by (change 901%nat with (900 + 1)%nat; rewrite pow_add, pow_1; reflexivity). apply big_of. lia. }
  assert (P90 : 0 < 2 ^ 900) by (apply pow_lt; lra). pose proof big_pos as PB.
  destruct (mul64 tau (b01_k alpha) Ft Fk) as (F1 & q1 & R1 & V1).
  { rewrite T1. unfold bnd. rewrite Rabs_right by (apply Rle_ge, Rmult_le_pos; lra). split.
    - apply Rle_trans with (/ 2 ^ 900 * / 2); [rewrite <- Rinv_mult; apply Rinv_le_contravar; lra|]. apply Rmult_le_compat; lra.
    - apply Rle_trans with (2 ^ 900 * 2); [apply Rmult_le_compat; lra|exact H902]. }
  rewrite T1 in V1. pose proof (rat_mul 11 1 q q1 Rq R1) as R2. pose proof (rat_2 12 _ ltac:(lia) R2) as Q3.
  assert (T2 : val (nmul tau (b01_k alpha)) * val s = p * (q * q1)) by (rewrite V1; unfold p; ring).
  assert (M2 : Rabs (p * (q * q1)) <= 900). { rewrite Rabs_mult, (Rabs_right (q * q1)) by lra. apply Rle_trans with (450 * 2); [apply Rmult_le_compat; try lra; apply Rabs_pos|lra]. }
  change (nmul (nmul tau (b01_k alpha)) s) with (Bmult mode_NE (nmul tau (b01_k alpha)) s). set (x := nmul tau (b01_k alpha)) in *. clearbody x.
  destruct (mul_ok x s F1 Fs) as (F3 & V3). { rewrite T2. apply rnd_big. pose proof big_1. assert (900 <= 2 ^ 10) by lra. assert (2 ^ 10 <= big) by (apply big_of; lia). lra. }
  split; [exact F3|]. rewrite V3, T2. destruct (rnd_err (p * (q * q1))) as (d & e & Hd & Hee & ->).
  pose proof (rat_mul 12 1 _ _ R2 (rat_1 d Hd)) as R4. pose proof (rat_abs _ _ R4) as A4. replace (12 + 1)%nat with 13%nat in A4 by reflexivity. pose proof bt13.
  replace (p * (q * q1) * (1 + d) + e - p) with (p * (q * q1 * (1 + d) - 1) + e) by ring. eapply Rle_trans; [apply Rabs_triang|]. rewrite Rabs_mult.
  assert (Rabs p * Rabs (q * q1 * (1 + d) - 1) <= Rabs p * (14 * uu)) by (apply Rmult_le_compat_l; [apply Rabs_pos|lra]). lra.
Qed.

Section Ent.
Variables (x : b64) (p : R).
Hypothesis Fx : fin x.
Hypothesis Hp : Rabs p <= 450.
Hypothesis Hx : Rabs (val x - p) <= 14 * uu * Rabs p + hh.
Let D := 14 * Rabs p + / 1000.
Lemma D_r : 0 <= D <= 7000.
Proof. unfold D. pose proof (Rabs_pos p). lra. Qed.
Lemma x_D : Rabs (val x - p) <= uu * D.
Proof. eapply Rle_trans; [exact Hx|]. unfold D. pose proof (hh_uup 0 ltac:(lia)) as H. rewrite pow_O, Rinv_1 in H. pose proof hh_pos. pose proof uu_pos. lra. Qed.
Lemma uD : uu * D <= / 1000000.
Proof. pose proof D_r. pose proof uu_15. pose proof uu_pos. apply Rle_trans with (/ 1000000000000000 * 10000); [apply Rmult_le_compat; lra|lra]. Qed.
Lemma exp64 : fin (nexp x) /\ exists eta, Rabs eta <= uu * (101 / 100 * D + 202 / 100) /\ val (nexp x) = exp p * (1 + eta).
Proof.
  pose proof D_r as HD. pose proof x_D as HX. pose proof uD as HU. pose proof uu_pos as U. pose proof uu_15 as U1. pose proof (eps_nonneg m eps HA) as E0.
  destruct HA as (HE & _). destruct (exp_near p (uu * D) (val x) HX) as (N & L).
  assert (I450 : INR 450 = 450) by (rewrite INR_IZR_INZ; reflexivity).
  destruct (exp_range p 450 ltac:(rewrite I450; exact Hp)) as (L1 & U2). rewrite pow4 in L1, U2. change (2 * 450)%nat with 900%nat in L1, U2.
  pose proof (expm1_small (uu * D)) as S1. assert (0 <= uu * D) by (apply Rmult_le_pos; lra). specialize (S1 ltac:(lra)). rewrite exp_plus in N, L. pose proof (exp_pos p) as P.
  assert (L2 : exp (val x) <= exp p * (1 + 101 / 100 * (uu * D))). { eapply Rle_trans; [exact L|]. apply Rmult_le_compat_l; lra. }
  assert (L3 : exp (val x) <= exp p * (10001 / 10000)). { eapply Rle_trans; [exact L2|]. apply Rmult_le_compat_l; lra. }
  assert (B9 : 2 ^ 900 * 2 <= big). { replace (2 ^ 900 * 2) with (2 ^ 901) by (change 901%nat with (900 + 1)%nat; rewrite pow_add, pow_1; reflexivity). apply big_of. lia. }
  destruct (HE x Fx ltac:(lra)) as (F & B). split; [exact F|]. change (nexp x) with (m_exp m x).
  exists (val (m_exp m x) / exp p - 1). split; [|field; lra].
  assert (T : tiny <= / 1000 * exp p).
  { apply Rle_trans with (/ 1000 * / 2 ^ 900); [|apply Rmult_le_compat_l; lra]. unfold tiny. rewrite <- Rinv_mult. apply Rinv_le_contravar; [apply Rmult_lt_0_compat; [lra|apply pow_lt; lra]|].
    apply Rle_trans with (2 ^ 10 * 2 ^ 900); [apply Rmult_le_compat_r; [apply pow_le; lra|lra]|]. rewrite <- pow_add. apply Rle_pow; [lra|lia]. }
  replace (val (m_exp m x) / exp p - 1) with ((val (m_exp m x) - exp p) * / exp p) by (field; lra). rewrite Rabs_mult, (Rabs_right (/ exp p)) by (apply Rle_ge, Rlt_le, Rinv_0_lt_compat; lra).
  apply Rmult_le_reg_r with (exp p); [exact P|]. rewrite Rmult_assoc, Rinv_l, Rmult_1_r by lra.
  replace (val (m_exp m x) - exp p) with ((val (m_exp m x) - exp (val x)) + (exp (val x) - exp p)) by ring. eapply Rle_trans; [apply Rabs_triang|].
  assert (eps * (exp (val x) + tiny) <= 2 * uu * (exp p * (101 / 100))) by (apply Rmult_le_compat; [exact E0|pose proof (exp_pos (val x)); unfold tiny; pose proof (Rinv_0_lt_compat (2 ^ 1022) (pow_lt 2 1022 ltac:(lra))); lra|exact He|lra]).
  assert (exp p * (exp (uu * D) - 1) <= exp p * (101 / 100 * (uu * D))) by (apply Rmult_le_compat_l; lra). lra.
Qed.
Lemma cos64 : fin (ncos x) /\ exists g, Rabs g <= uu * (D + 2) /\ val (ncos x) = cos p + g.
Proof.
  pose proof x_D as HX. destruct HA as (_ & HC & _). destruct (HC x Fx) as (F & B). split; [exact F|]. exists (val (ncos x) - cos p). split; [|ring].
  change (ncos x) with (m_cos m x). pose proof (cos_lip (val x) p). replace (val (m_cos m x) - cos p) with ((val (m_cos m x) - cos (val x)) + (cos (val x) - cos p)) by ring.
  eapply Rle_trans; [apply Rabs_triang|]. lra.
Qed.
Lemma sin64 : fin (nsin x) /\ exists g, Rabs g <= uu * (D + 2) /\ val (nsin x) = sin p + g.
Proof.
  pose proof x_D as HX. destruct HA as (_ & _ & HC). destruct (HC x Fx) as (F & B). split; [exact F|]. exists (val (nsin x) - sin p). split; [|ring].
  change (nsin x) with (m_sin m x). pose proof (sin_lip (val x) p). replace (val (m_sin m x) - sin p) with ((val (m_sin m x) - sin (val x)) + (sin (val x) - sin p)) by ring.
  eapply Rle_trans; [apply Rabs_triang|]. lra.
Qed.
(** a product E (1 + th), rounded *)
Lemma rnd_prod (v E c : R) : / 2 ^ 900 <= E <= 2 ^ 900 -> Rabs c <= 1 -> Rabs (v - E * c) <= E * (uu * (202 / 100 * D + 41 / 10)) ->
  Rabs v <= big /\ Rabs (rnd v - E * c) <= uu * E * (202 / 100 * D + 52 / 10).
Proof.
  intros HE Hc Hv. pose proof uu_pos as U. pose proof uu_15 as U1. pose proof D_r as HD. assert (P9 : 0 < / 2 ^ 900) by (apply Rinv_0_lt_compat, pow_lt; lra).
  assert (Sm : uu * (202 / 100 * D + 41 / 10) <= / 1000000). { apply Rle_trans with (/ 1000000000000000 * 20000); [apply Rmult_le_compat; lra|lra]. }
  assert (Hv2 : E * (uu * (202 / 100 * D + 41 / 10)) <= E * / 1000000) by (apply Rmult_le_compat_l; lra).
  assert (Ec : Rabs (E * c) <= E * 1). { rewrite Rabs_mult, (Rabs_right E) by lra. apply Rmult_le_compat_l; lra. }
  assert (V : Rabs v <= E * (1 + / 1000000)). { replace v with (E * c + (v - E * c)) by ring. eapply Rle_trans; [apply Rabs_triang|]. lra. }
  assert (B9 : 2 ^ 900 * 2 <= big). { replace (2 ^ 900 * 2) with (2 ^ 901) by (change 901%nat with (900 + 1)%nat; rewrite pow_add, pow_1; reflexivity). apply big_of. lia. }
  split; [lra|]. pose proof (rnd_bd v _ V) as Rv. pose proof (hh_uup 900 ltac:(lia)) as Hh. pose proof hh_pos as Ph.
  replace (rnd v - E * c) with ((rnd v - v) + (v - E * c)) by ring. eapply Rle_trans; [apply Rabs_triang|].
  assert (uu * / 2 ^ 900 <= uu * E) by (apply Rmult_le_compat_l; lra). assert (0 <= uu * E) by (apply Rmult_le_pos; lra). lra.
Qed.
Lemma err_le E r : 1 <= exp (Rabs p) -> 0 <= E <= exp (Rabs p) -> r <= uu * E * (202 / 100 * D + 52 / 10) -> r <= b01_error p.
Proof.
  intros H1 HE Hr. eapply Rle_trans; [exact Hr|]. unfold b01_error, D. pose proof uu_pos. pose proof (Rabs_pos p).
  apply Rmult_le_compat; [apply Rmult_le_pos; lra|lra|apply Rmult_le_compat_l; lra|lra].
Qed.
Lemma entry64 i : (i < 6)%nat -> fin (gb01 x i) /\ Rabs (val (gb01 x i) - b01f i p) <= b01_error p.
Proof.
  intros Hi. pose proof uu_pos as U. pose proof uu_15 as U1. destruct (exp_abs p) as (A1 & A2 & A3). pose proof (Rabs_pos p) as P0.
  assert (I450 : INR 450 = 450) by (rewrite INR_IZR_INZ; reflexivity).
  destruct (exp_range p 450 ltac:(rewrite I450; exact Hp)) as (L1 & U2). rewrite pow4 in L1, U2. change (2 * 450)%nat with 900%nat in L1, U2.
  destruct (exp_range (- p) 450 ltac:(rewrite I450, Rabs_Ropp; exact Hp)) as (L3 & U4). rewrite pow4 in L3, U4. change (2 * 450)%nat with 900%nat in L3, U4.
  destruct exp64 as (Fe & eta & He1 & Ve). destruct cos64 as (Fc & gc & Hc & Vc). destruct sin64 as (Fs & gs & Hs & Vs).
  pose proof (COS_bound p) as CB. pose proof (SIN_bound p) as SB. assert (CB' : Rabs (cos p) <= 1) by (apply Rabs_le; lra). assert (SB' : Rabs (sin p) <= 1) by (apply Rabs_le; lra).
  destruct (prod_err D eta gc (cos p) D_r He1 Hc CB') as (C1 & C2 & C3). destruct (prod_err D eta gs (sin p) D_r He1 Hs SB') as (S1 & S2 & _).
  pose proof (exp_pos p) as Pe. pose proof (exp_pos (- p)) as Pn.
  assert (Pm : forall c g, Rabs ((1 + eta) * (c + g) - c) <= uu * (202 / 100 * D + 41 / 10) -> Rabs (exp p * (1 + eta) * (c + g) - exp p * c) <= exp p * (uu * (202 / 100 * D + 41 / 10))).
  { intros c g H. replace (exp p * (1 + eta) * (c + g) - exp p * c) with (exp p * ((1 + eta) * (c + g) - c)) by ring. rewrite Rabs_mult, (Rabs_right (exp p)) by lra. apply Rmult_le_compat_l; lra. }
  assert (Pd : forall c g, Rabs ((c + g) / (1 + eta) - c) <= uu * (202 / 100 * D + 41 / 10) -> Rabs ((c + g) / (exp p * (1 + eta)) - exp (- p) * c) <= exp (- p) * (uu * (202 / 100 * D + 41 / 10))).
  { intros c g H. rewrite exp_Ropp in *. replace ((c + g) / (exp p * (1 + eta)) - / exp p * c) with (/ exp p * ((c + g) / (1 + eta) - c)) by (field; lra). rewrite Rabs_mult, (Rabs_right (/ exp p)) by lra. apply Rmult_le_compat_l; lra. }
  assert (Ne : val (nexp x) <> 0) by (rewrite Ve; apply Rmult_integral_contrapositive_currified; lra).
  destruct i as [|[|[|[|[|[|i]]]]]]; try lia; cbn [gb01 b01f].
  - destruct (rnd_prod (exp p * (1 + eta) * (cos p + gc)) (exp p) (cos p) ltac:(lra) CB' (Pm _ _ C1)) as (B & Er).
    destruct (mul_ok (nexp x) (ncos x) Fe Fc) as (F & V). { rewrite Ve, Vc. apply rnd_big. pose proof big_pos. lra. }
    split; [exact F|]. change (nmul (nexp x) (ncos x)) with (Bmult mode_NE (nexp x) (ncos x)). rewrite V, Ve, Vc. apply err_le with (exp p); [lra|lra|exact Er].
  - destruct (rnd_prod (exp p * (1 + eta) * (sin p + gs)) (exp p) (sin p) ltac:(lra) SB' (Pm _ _ S1)) as (B & Er).
    destruct (mul_ok (nexp x) (nsin x) Fe Fs) as (F & V). { rewrite Ve, Vs. apply rnd_big. pose proof big_pos. lra. }
    split; [exact F|]. change (nmul (nexp x) (nsin x)) with (Bmult mode_NE (nexp x) (nsin x)). rewrite V, Ve, Vs. apply err_le with (exp p); [lra|lra|exact Er].
  - destruct (rnd_prod ((cos p + gc) / (exp p * (1 + eta))) (exp (- p)) (cos p) ltac:(lra) CB' (Pd _ _ C2)) as (B & Er).
    destruct (div_ok (ncos x) (nexp x) Fc Ne) as (F & V). { rewrite Ve, Vc. apply rnd_big. pose proof big_pos. lra. }
    split; [exact F|]. change (ndiv (ncos x) (nexp x)) with (Bdiv mode_NE (ncos x) (nexp x)). rewrite V, Ve, Vc. apply err_le with (exp (- p)); [lra|lra|exact Er].
  - destruct (rnd_prod ((sin p + gs) / (exp p * (1 + eta))) (exp (- p)) (sin p) ltac:(lra) SB' (Pd _ _ S2)) as (B & Er).
    destruct (div_ok (nsin x) (nexp x) Fs Ne) as (F & V). { rewrite Ve, Vs. apply rnd_big. pose proof big_pos. lra. }
    split; [exact F|]. change (ndiv (nsin x) (nexp x)) with (Bdiv mode_NE (nsin x) (nexp x)). rewrite V, Ve, Vs. apply err_le with (exp (- p)); [lra|lra|exact Er].
  - split; [exact Fx|]. apply err_le with 1; [lra|lra|]. eapply Rle_trans; [exact x_D|]. rewrite Rmult_1_r. apply Rmult_le_compat_l; [lra|]. pose proof D_r. lra.
  - destruct (ofZ_ok 1) as (F1 & V1); [lia|]. change (n1 : b64) with (b64_of_Z 1). split; [exact F1|]. rewrite V1, Rminus_eq_0, Rabs_R0. unfold b01_error. apply Rmult_le_pos; [apply Rmult_le_pos|]; lra.
Qed.
End Ent.
End E.
