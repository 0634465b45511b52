(** The exponential-trigonometric basis in binary64. *)
From Coquelicot Require Import Coquelicot.
From Coq Require Import ZArith Reals Lra Lia List Arith Bool.
From Flocq Require Import Core BinarySingleNaN.
From Verif Require Import Num Outcome LinAlg RSum LegendreModel Basis0101Spec Basis0101Math Basis0101Model Basis0101Proofs
  IEEEModel IEEESpec IEEEProofs IEEEHorner IEEELegendre IEEESpline IEEEProps2 IEEELagrange IEEEFunSpec IEEEFunProofs IEEEFunProofs2 IEEEFunProofs3 IEEE01Spec.
Local Open Scope R_scope.

Lemma bt_lin1 k : INR k * (INR k + 1) * uu <= 1 -> bt ^ k - 1 <= (INR k + 1) * uu.
Proof.
  intros H. pose proof uu_pos as U. pose proof uu_small as U1. assert (Be : 1 - INR k * uu <= (1 - uu) ^ k).
  { clear H. induction k as [|k IH]; [cbn; lra|]. rewrite S_INR. cbn [pow]. pose proof (pos_INR k). assert (0 <= (1 - uu) ^ k <= 1).
    { split; [apply pow_le; lra|]. apply Rle_trans with (1 ^ k); [apply pow_incr; lra|rewrite pow1; lra]. } assert (uu * (1 - uu) ^ k <= uu * 1) by (apply Rmult_le_compat_l; lra). lra. }
  unfold bt. rewrite pow_inv. pose proof (pos_INR k) as K0. set (x := INR k) in *. assert (X1 : x * uu < 1).
  { destruct k as [|k]; [unfold x; cbn; lra|]. assert (1 <= x) by (apply (le_INR 1); lia). assert (x * uu * 2 <= x * uu * (x + 1)) by (apply Rmult_le_compat_l; [nra|lra]). nra. }
  assert (/ (1 - uu) ^ k <= / (1 - x * uu)) by (apply Rinv_le_contravar; lra).
  assert (/ (1 - x * uu) <= 1 + (x + 1) * uu). { apply Rmult_le_reg_r with (1 - x * uu); [lra|]. rewrite Rinv_l by lra. nra. }
  lra.
Qed.
Lemma rat_near r v : 0 < r -> Rabs (v - r) <= 2 * uu * r -> exists q, rat 3 q /\ v = r * q.
Proof.
  intros Hr H. exists (v / r). pose proof uu_pos as U. pose proof uu_small as U1. split; [|field; lra].
  apply Rabs_le_between in H. assert (A : 1 - 2 * uu <= v / r <= 1 + 2 * uu).
  { split; [apply Rle_div_r|apply Rle_div_l]; lra. }
  unfold rat. unfold bt. rewrite pow_inv, Rinv_inv. split.
  - apply Rle_trans with (1 - 2 * uu); [|lra]. cbn [pow]. nra.
  - apply Rle_trans with (1 + 2 * uu); [lra|]. apply Rmult_le_reg_r with ((1 - uu) ^ 3); [apply pow_lt; lra|]. rewrite Rinv_l by (apply pow_nonzero; lra). cbn [pow]. nra.
Qed.
Lemma rat_root q : rat 1 q -> rat 1 (Rpower q (/ 4)).
Proof.
  intros (A & B). rewrite pow_1 in *. pose proof bt_ge1 as G. assert (P : 0 < / bt) by (apply Rinv_0_lt_compat; lra). unfold rat. rewrite pow_1.
  assert (E : forall y, 1 <= y -> Rpower y (/ 4) <= y). { intros y Hy. rewrite <- (Rpower_1 y) at 2 by lra. apply Rle_Rpower; lra. }
  split.
  - apply Rle_trans with (Rpower (/ bt) (/ 4)); [|apply Rle_Rpower_l; lra]. rewrite Rpower_inv by lra. apply Rinv_le_contravar; [apply exp_pos|]. apply E. lra.
  - apply Rle_trans with (Rpower bt (/ 4)); [apply Rle_Rpower_l; lra|]. apply E. lra.
Qed.
Lemma sqrt_ok x : fin x -> 0 <= val x -> fin (Bsqrt mode_NE x) /\ val (Bsqrt mode_NE x) = rnd (sqrt (val x)).
Proof.
  intros F P. pose proof (Bsqrt_correct 53 1024 _ _ mode_NE x) as (A & B & _). split; [|exact A].
  unfold fin. rewrite B. destruct x as [| | |s mm e]; try discriminate; auto. destruct s; auto. exfalso.
  unfold val, B2R in P. assert (F2R (Float radix2 (cond_Zopp true (Z.pos mm)) e) < 0) by (apply F2R_lt_0; cbn; lia). lra.
Qed.

Section E.
Variable m : libm.
Local Instance BN : Num b64 := B64num m.
Variable eps : R.
Hypothesis HA : accurate m eps.
Hypothesis HR : accurate_root m eps.
Hypothesis He : eps <= 2 * uu.

Lemma sub64 (x y : b64) : fin x -> fin y -> Rabs (val x - val y) <= big -> fin (nsub x y) /\ exists q, rat 1 q /\ val (nsub x y) = (val x - val y) * q.
Proof. exact (IEEELagrange.sub64 m x y). Qed.
Lemma mul64 (x y : b64) : fin x -> fin y -> bnd big (val x * val y) -> fin (nmul x y) /\ exists q, rat 1 q /\ val (nmul x y) = val x * val y * q.
Proof. exact (IEEELagrange.mul64 m x y). Qed.
Lemma div64 (x y : b64) : fin x -> val y <> 0 -> bnd big (val x / val y) -> fin (ndiv x y) /\ exists q, rat 1 q /\ val (ndiv x y) = val x / val y * q.
Proof. exact (IEEELagrange.div64 m x y). Qed.
Lemma eps0 : 0 <= eps.
Proof. exact (eps_nonneg m eps HA). Qed.
Lemma quarter64 : fin (nquarter : b64) /\ val (nquarter : b64) = / 4.
Proof. split; [vm_compute; reflexivity|]. unfold val. replace (B2R (nquarter : b64)) with (F2R (Float radix2 4503599627370496 (-54))) by (vm_compute; reflexivity). unfold F2R. cbn [Fnum Fexp]. change (bpow radix2 (-54)) with (/ 18014398509481984). lra. Qed.
Lemma lit64 z : (Z.abs z <= 2 ^ 53)%Z -> fin (nofZ z : b64) /\ val (nofZ z : b64) = IZR z.
Proof. exact (ofZ_ok z). Qed.
Lemma root64 x : fin x -> 0 < val x <= 1 -> fin (npow x nquarter) /\ exists q, rat 3 q /\ val (npow x nquarter) = Rpower (val x) (/ 4) * q.
Proof.
  intros F B. destruct quarter64 as (Fq & Vq). destruct (HR x nquarter F B Fq Vq) as (Fr & Er). split; [exact Fr|].
  apply rat_near; [apply exp_pos|]. eapply Rle_trans; [exact Er|]. apply Rmult_le_compat_r; [apply Rlt_le, exp_pos|exact He].
Qed.
(** numbers of the format in (0, 1) keep away from both ends *)
Lemma pos_min x : fin x -> 0 < val x -> / 2 ^ 1074 <= val x.
Proof.
  intros F P. assert (St : is_finite_strict x = true). { destruct x as [s| | |s mm e]; try discriminate; auto. unfold val in P. cbn in P. lra. }
  pose proof (abs_B2R_ge_emin 53 1024 x St) as A. fold (val x) in A. rewrite Rabs_right in A by lra.
  eapply Rle_trans; [|exact A]. change (SpecFloat.emin 53 1024) with (- (Z.of_nat 1074))%Z. rewrite bpow_opp, bpow_pow. apply Rle_refl.
Qed.
Lemma root_bnd x : / 2 ^ 1074 <= x <= 1 -> / 2 ^ 269 <= Rpower x (/ 4) <= 1.
Proof.
  intros (A & B). assert (P : 0 < / 2 ^ 1074) by (apply Rinv_0_lt_compat, pow_lt; lra). assert (Q : 0 < / 2 ^ 269) by (apply Rinv_0_lt_compat, pow_lt; lra). split.
  - rewrite <- (Rpower_1 (/ 2 ^ 269)) by lra. replace 1 with (INR 4 * / 4) by (cbn [INR]; field). rewrite <- Rpower_mult. rewrite Rpower_pow by lra.
    apply Rle_Rpower_l; [lra|]. split; [apply pow_lt; lra|]. eapply Rle_trans; [|exact A]. rewrite pow_inv, <- pow_mult. change (269 * 4)%nat with (1074 + 2)%nat. rewrite pow_add.
    apply Rinv_le_contravar; [apply pow_lt; lra|]. assert (0 < 2 ^ 1074) by (apply pow_lt; lra). change (2 ^ 2) with (2 * (2 * 1)). lra.
  - apply Rle_trans with (Rpower 1 (/ 4)); [apply Rle_Rpower_l; lra|]. unfold Rpower. rewrite ln_1, Rmult_0_r, exp_0. lra.
Qed.
Lemma big_of k : (k <= 1000)%nat -> 2 ^ k <= big.
Proof. intros H. unfold big. apply Rle_pow; [lra|exact H]. Qed.
Lemma K_split a : 0 < a < 1 -> b01K a = sqrt 2 / 4 * Rpower a (/ 4) / Rpower (1 - a) (/ 4).
Proof.
  intros Ha. unfold b01K, Rdiv. rewrite <- Rpower_mult_distr; [|lra|apply Rinv_0_lt_compat; lra]. rewrite Rpower_inv by lra. ring.
Qed.
Lemma K_pos a : 0 < b01K a.
Proof. unfold b01K. apply Rmult_lt_0_compat; [|apply exp_pos]. apply Rdiv_lt_0_compat; [apply sqrt_lt_R0|]; lra. Qed.
Lemma k64 alpha : fin alpha -> 0 < val alpha < 1 -> fin (b01_k alpha) /\ (exists q, rat 11 q /\ val (b01_k alpha) = b01K (val alpha) * q) /\ bnd (2 ^ 600) (val (b01_k alpha)).
Proof.
  intros F Ha. unfold b01_k. pose proof uu_pos as U. pose proof uu_small as U1.
  destruct (lit64 2) as (F2 & V2); [lia|]. destruct (lit64 4) as (F4 & V4); [lia|]. destruct (lit64 1) as (F1 & V1); [lia|]. change (fin (n1 : b64)) in F1. change (val (n1 : b64) = 1) in V1.
  assert (S2 : 1 <= sqrt 2 <= 2). { split; [rewrite <- sqrt_1 at 1|replace 2 with (sqrt (2 * 2)) at 2 by (apply sqrt_square; lra)]; apply sqrt_le_1; lra. }
  (* sqrt 2 *)
  assert (E1 : fin (nsqrt (nofZ 2) : b64) /\ exists q, rat 1 q /\ val (nsqrt (nofZ 2) : b64) = sqrt 2 * q).
  { destruct (sqrt_ok (nofZ 2) F2 ltac:(rewrite V2; lra)) as (A & B). split; [exact A|]. change (nsqrt (nofZ 2) : b64) with (Bsqrt mode_NE (nofZ 2 : b64)). rewrite B, V2.
    destruct (rnd_err_normal (sqrt 2)) as (d & D & ->). { rewrite Rabs_right by lra. apply Rle_trans with (/ big); [exact normal_big|]. apply Rle_trans with (/ 1); [apply Rinv_le_contravar; [lra|pose proof big_1; lra]|lra]. }
    exists (1 + d). split; [apply rat_1; auto|reflexivity]. }
  destruct E1 as (G1 & q1 & R1 & W1). set (x1 := nsqrt (nofZ 2) : b64) in *. clearbody x1.
  assert (Pq : forall k q, (2 * k <= 40)%nat -> rat k q -> bnd (2 ^ 20) q).
  { intros k q Hk Rq. apply bnd_le with (bt ^ k); [apply bt_pos| |apply bnd_rat; exact Rq]. apply Rle_trans with (bt ^ (2 * 20)); [apply bt_le; lia|]. apply bt_2k. }
  assert (B0 : bnd (2 ^ 4) (sqrt 2 / 4)). { unfold bnd. rewrite Rabs_right by lra. split; cbn [pow]; lra. }
  assert (P2 : forall k, 0 < 2 ^ k) by (intros; apply pow_lt; lra).
  (* / 4 *)
  assert (T1 : val x1 / val (nofZ 4 : b64) = sqrt 2 / 4 * q1) by (rewrite W1, V4; field).
  destruct (div64 x1 (nofZ 4) G1 ltac:(rewrite V4; lra)) as (G2 & q2 & R2 & W2).
  { rewrite T1. apply bnd_le with (2 ^ 4 * 2 ^ 20); [apply Rmult_lt_0_compat; apply P2|rewrite <- pow_add; apply big_of; lia|]. apply bnd_mul; auto. apply (Pq 1%nat); [lia|exact R1]. }
  rewrite T1 in W2. set (x2 := ndiv x1 (nofZ 4)) in *. clearbody x2.
  (* pow alpha *)
  destruct (root64 alpha F ltac:(lra)) as (G3 & q3 & R3 & W3). set (x3 := npow alpha nquarter) in *. clearbody x3.
  pose proof (root_bnd (val alpha) ltac:(split; [apply pos_min; [exact F|lra]|lra])) as B3.
  set (A := Rpower (val alpha) (/ 4)) in *. assert (B3' : bnd (2 ^ 269) A). { unfold bnd. assert (0 < / 2 ^ 269) by (apply Rinv_0_lt_compat, P2). rewrite Rabs_right by lra. split; [lra|]. pose proof (pow_R1_Rle 2 269 ltac:(lra)). lra. }
  assert (T3 : val x2 * val x3 = (sqrt 2 / 4 * A) * (q1 * q2 * q3)) by (rewrite W2, W3; ring).
  assert (R123 : rat 5 (q1 * q2 * q3)) by (apply (rat_mul 2 3); [apply (rat_mul 1 1)|]; auto).
  assert (B4 : bnd (2 ^ 273) (sqrt 2 / 4 * A)). { replace (2 ^ 273) with (2 ^ 4 * 2 ^ 269) by (rewrite <- pow_add; reflexivity). apply bnd_mul; auto. }
  destruct (mul64 x2 x3 G2 G3) as (G4 & q4 & R4 & W4).
  { rewrite T3. apply bnd_le with (2 ^ 273 * 2 ^ 20); [apply Rmult_lt_0_compat; apply P2|rewrite <- pow_add; apply big_of; lia|]. apply bnd_mul; auto. apply (Pq 5%nat); [lia|exact R123]. }
  rewrite T3 in W4. set (x4 := nmul x2 x3) in *. clearbody x4.
  (* 1 - alpha *)
  destruct (sub64 (n1 : b64) alpha F1 F) as (G5 & q5 & R5 & W5). { rewrite V1. pose proof big_1. rewrite Rabs_right; lra. }
  rewrite V1 in W5.
  assert (B5 : val (nsub n1 alpha) <= 1). { cbn [nsub BN B64num] in *. destruct (sub_ok (n1 : b64) alpha F1 F) as (_ & E).
    { rewrite V1. apply rnd_big. pose proof big_1. rewrite Rabs_right; lra. } rewrite E, V1. rewrite <- (rnd_fmt 1) at 2 by (apply (fmt_Z 1); lia). apply rnd_le. lra. }
  set (x5 := nsub n1 alpha) in *. clearbody x5. pose proof (rat_pos _ _ R5) as Q5.
  assert (P5 : 0 < val x5) by (rewrite W5; apply Rmult_lt_0_compat; lra).
  destruct (root64 x5 G5 ltac:(lra)) as (G6 & q6 & R6 & W6). set (x6 := npow x5 nquarter) in *. clearbody x6.
  pose proof (root_bnd (val x5) ltac:(split; [apply pos_min; [exact G5|lra]|lra])) as B6.
  assert (E6 : Rpower (val x5) (/ 4) = Rpower (1 - val alpha) (/ 4) * Rpower q5 (/ 4)) by (rewrite W5, Rpower_mult_distr; auto; lra).
  assert (B6' : bnd (2 ^ 269) (Rpower (val x5) (/ 4))). { unfold bnd. assert (0 < / 2 ^ 269) by (apply Rinv_0_lt_compat, P2). rewrite Rabs_right by lra. split; [lra|]. pose proof (pow_R1_Rle 2 269 ltac:(lra)). lra. }
  assert (N6 : Rpower (val x5) (/ 4) <> 0) by (apply Rgt_not_eq, exp_pos).
  pose proof (rat_pos _ _ R6) as Q6. pose proof (rat_root q5 R5) as R5'. set (r5 := Rpower q5 (/ 4)) in *. pose proof (rat_pos _ _ R5') as Q5'.
  set (B := Rpower (1 - val alpha) (/ 4)) in *. assert (NB : 0 < B) by apply exp_pos.
  assert (R14 : rat 6 (q1 * q2 * q3 * q4)) by (apply (rat_mul 5 1); auto).
  assert (T7 : val x4 / val x6 = (sqrt 2 / 4 * A) * / Rpower (val x5) (/ 4) * (q1 * q2 * q3 * q4 * / q6)) by (rewrite W4, W6; field; split; lra).
  assert (R9 : rat 9 (q1 * q2 * q3 * q4 * / q6)) by (apply (rat_mul 6 3); [exact R14|apply rat_inv; exact R6]).
  assert (B7 : bnd (2 ^ 542) (sqrt 2 / 4 * A * / Rpower (val x5) (/ 4))).
  { replace (2 ^ 542) with (2 ^ 273 * 2 ^ 269) by (rewrite <- pow_add; reflexivity). apply bnd_mul; auto. apply bnd_inv; auto. }
  destruct (div64 x4 x6 G4) as (G7 & q7 & R7 & W7).
  { rewrite W6. apply Rmult_integral_contrapositive_currified; lra. }
  { rewrite T7. apply bnd_le with (2 ^ 542 * 2 ^ 20); [apply Rmult_lt_0_compat; apply P2|rewrite <- pow_add; apply big_of; lia|]. apply bnd_mul; auto. apply (Pq 9%nat); [lia|exact R9]. }
  rewrite T7 in W7. split; [exact G7|]. split.
  - exists (/ r5 * (q1 * q2 * q3 * q4 * / q6) * q7). split; [apply (rat_mul 10 1); [apply (rat_mul 1 9); [apply rat_inv|]|]; assumption|].
    rewrite W7, K_split by lra. fold A B. rewrite E6. field. repeat split; lra.
  - rewrite W7, Rmult_assoc. apply bnd_le with (2 ^ 542 * 2 ^ 20); [apply Rmult_lt_0_compat; apply P2|rewrite <- pow_add; apply Rle_pow; [lra|lia]|].
    apply bnd_mul; auto. apply (Pq 10%nat); [lia|]. apply (rat_mul 9 1); assumption.
Qed.
End E.
