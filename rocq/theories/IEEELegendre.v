(** Rounding errors of the Legendre evaluation of LegendreModel.v in binary64. *)
From Coquelicot Require Import Coquelicot.
From Coq Require Import ZArith Reals Lra Lia List Arith Bool.
From Flocq Require Import Core Relative BinarySingleNaN.
From Verif Require Import Num Outcome LinAlg LegendreModel LegendreSpec LegendreMath LegendreProofs StabMath IEEEModel IEEESpec IEEEProofs IEEEHorner.
Local Open Scope R_scope.

Lemma uu_small : uu <= / 1000000.
Proof. unfold uu. apply Rinv_le_contravar; lra. Qed.
Lemma hh_uu : hh <= uu * / 1000.
Proof.
  unfold hh, uu. replace (2 ^ 1075) with (2 ^ 53 * 2 ^ 1022) by (rewrite <- pow_add; f_equal; reflexivity). rewrite Rinv_mult.
  apply Rmult_le_compat_l; [apply Rlt_le, Rinv_0_lt_compat, pow_lt; lra|]. apply Rinv_le_contravar; [lra|].
  apply Rle_trans with (2 ^ 10); [lra|]. apply Rle_pow; [lra|lia].
Qed.
Lemma pow_lit n m : (n <= m)%nat -> 2 ^ n <= 2 ^ m.
Proof. intros. apply Rle_pow; [lra|lia]. Qed.
Lemma rnd_small x : Rabs x <= 2 ^ 60 -> Rabs (rnd x) < omax.
Proof.
  intros H. assert (F : fmt (2 ^ 60)). { replace (2 ^ 60) with (bpow radix2 60) by (apply (bpow_pow 60)). apply generic_format_bpow. vm_compute. discriminate. }
  apply Rabs_le_between in H. pose proof (rnd_le _ _ (proj1 H)) as L. pose proof (rnd_le _ _ (proj2 H)) as U. rewrite rnd_opp in L. rewrite (rnd_fmt _ F) in L, U.
  apply Rle_lt_trans with (2 ^ 60); [apply Rabs_le; lra|]. unfold omax. change 1024%Z with (Z.of_nat 1024). rewrite bpow_pow. apply Rlt_pow; [lra|lia].
Qed.
(** away from underflow *)
Lemma rnd_err_normal x : 2 * hh * 2 ^ 53 <= Rabs x -> exists d, Rabs d <= uu /\ rnd x = x * (1 + d).
Proof.
  intros H. destruct (relative_error_N_FLT_ex radix2 (-1074) 53 eq_refl (fun x => negb (Z.even x)) x) as (d & D & Q).
  { eapply Rle_trans; [|exact H]. rewrite <- hh_bpow. change 53%nat with (Z.to_nat 53). rewrite <- (bpow_pow (Z.to_nat 53)). change (Z.of_nat (Z.to_nat 53)) with 53%Z.
    rewrite <- (Rmult_assoc 2 (/ 2)), Rinv_r, Rmult_1_l by lra. rewrite <- bpow_plus. apply bpow_le. vm_compute. discriminate. }
  exists d. split; auto. rewrite uu_bpow in D. exact D.
Qed.

(** products of factors 1 + d *)
Definition rel (k : nat) (p : R) : Prop := Rabs (p - 1) <= (1 + uu) ^ k - 1.
Lemma rel_1 d : Rabs d <= uu -> rel 1 (1 + d).
Proof. intros H. unfold rel. replace (1 + d - 1) with d by ring. rewrite pow_1. lra. Qed.
Lemma rel_mul a b p q : rel a p -> rel b q -> rel (a + b) (p * q).
Proof.
  unfold rel. intros Ha Hb. rewrite pow_add. replace (p * q - 1) with ((p - 1) * (q - 1) + (p - 1) + (q - 1)) by ring.
  assert (Rabs ((p - 1) * (q - 1)) <= ((1 + uu) ^ a - 1) * ((1 + uu) ^ b - 1)) by (rewrite Rabs_mult; apply Rmult_le_compat; auto using Rabs_pos).
  pose proof (Rabs_triang ((p - 1) * (q - 1) + (p - 1)) (q - 1)). pose proof (Rabs_triang ((p - 1) * (q - 1)) (p - 1)). lra.
Qed.
Lemma rel_le a b p : (a <= b)%nat -> rel a p -> rel b p.
Proof. unfold rel. intros H Hp. pose proof (pow_1u_le a b H). lra. Qed.
Lemma pow5 : (1 + uu) ^ 5 - 1 <= 6 * uu.
Proof.
  pose proof uu_pos. pose proof uu_small. assert (E : forall a, 0 <= a <= 100 -> (1 + a * uu) * (1 + uu) <= 1 + (a + 1 + / 10000) * uu) by (intros; nra).
  cbn [pow]. rewrite Rmult_1_r. pose proof (E 1 ltac:(lra)) as E1. rewrite Rmult_1_l in E1.
  pose proof (E (1 + 1 + /10000) ltac:(lra)). pose proof (E (1 + 1 + /10000 + 1 + /10000) ltac:(lra)). pose proof (E (1 + 1 + /10000 + 1 + /10000 + 1 + /10000) ltac:(lra)). nra.
Qed.
Lemma rel5 p : rel 5 p -> Rabs (p - 1) <= 6 * uu.
Proof. unfold rel. pose proof pow5. lra. Qed.

Section Leg.
Variable m : libm.
Local Instance BN : Num b64 := B64num m.

Lemma nofnat64 i : (i <= 2 ^ 53)%nat -> fin (nofnat i) /\ val (nofnat i) = INR i.
Proof.
  intros H. unfold nofnat. cbn [nofZ BN B64num]. rewrite INR_IZR_INZ. apply ofZ_ok. rewrite Z.abs_eq by lia.
  apply Nat2Z.inj_le in H. rewrite Nat2Z.inj_pow in H. exact H.
Qed.
Lemma one64 : fin (n1 : b64) /\ val (n1 : b64) = 1.
Proof. cbn [n1 BN B64num]. apply (ofZ_ok 1). cbn. lia. Qed.
Lemma two64 : fin (c2 : b64) /\ val (c2 : b64) = 2.
Proof. unfold c2. cbn [nofZ BN B64num]. apply (ofZ_ok 2). cbn. lia. Qed.
Lemma INR_fmt z : (z <= 2 ^ 53)%nat -> fmt (INR z).
Proof. intros H. rewrite INR_IZR_INZ. apply fmt_Z. rewrite Z.abs_eq by lia. apply Nat2Z.inj_le in H. rewrite Nat2Z.inj_pow in H. exact H. Qed.
Lemma INR_53 z : (z <= 2 ^ 53)%nat -> INR z <= 2 ^ 53.
Proof. intros H. apply le_INR in H. rewrite pow_INR in H. exact H. Qed.
Lemma exact_add a b (x y : b64) : fin x -> fin y -> val x = INR a -> val y = INR b -> (a + b <= 2 ^ 53)%nat -> fin (nadd x y) /\ val (nadd x y) = INR (a + b).
Proof.
  intros Fx Fy Vx Vy H. cbn [nadd BN B64num]. assert (E : rnd (val x + val y) = INR (a + b)) by (rewrite Vx, Vy, <- plus_INR; apply rnd_fmt, INR_fmt; auto).
  destruct (add_ok x y Fx Fy) as (A & B); [|rewrite B; auto]. apply rnd_small. rewrite Vx, Vy, <- plus_INR, Rabs_pos_eq by apply pos_INR.
  eapply Rle_trans; [apply INR_53; auto|apply pow_lit; lia].
Qed.
Lemma exact_mul a b (x y : b64) : fin x -> fin y -> val x = INR a -> val y = INR b -> (a * b <= 2 ^ 53)%nat -> fin (nmul x y) /\ val (nmul x y) = INR (a * b).
Proof.
  intros Fx Fy Vx Vy H. cbn [nmul BN B64num]. assert (E : rnd (val x * val y) = INR (a * b)) by (rewrite Vx, Vy, <- mult_INR; apply rnd_fmt, INR_fmt; auto).
  destruct (mul_ok x y Fx Fy) as (A & B); [|rewrite B; auto]. apply rnd_small. rewrite Vx, Vy, <- mult_INR, Rabs_pos_eq by apply pos_INR.
  eapply Rle_trans; [apply INR_53; auto|apply pow_lit; lia].
Qed.

(** one step of the recursion *)
Lemma leg_step64 i (s a b : b64) (k := S i) : (2 * k + 1 <= 2 ^ 53)%nat -> fin s -> fin a -> fin b ->
  Rabs (val s) <= 17 / 16 -> Rabs (val a) <= 17 / 16 -> Rabs (val b) <= 17 / 16 ->
  let r := (n1 / (nofnat k + n1) * ((c2 * nofnat k + n1) * s * a - nofnat k * b))%num in
  fin r /\ Rabs (val r - ((2 * INR k + 1) * val s * val a - INR k * val b) / (INR k + 1)) <= 21 * uu.
Proof.
  intros Hk Fs Fa Fb Bs Ba Bb. cbv zeta. destruct one64 as (F1 & V1). destruct two64 as (F2 & V2).
  destruct (nofnat64 k) as (Fk & Vk); [lia|].
  destruct (exact_add k 1 (nofnat k) n1) as (Fd & Vd); auto; [lia|].
  destruct (exact_mul 2 k c2 (nofnat k)) as (Fe & Ve); auto; [lia|].
  destruct (exact_add (2 * k) 1 (c2 * nofnat k)%num n1) as (Fg & Vg); auto; try lia.
  rewrite plus_INR in Vd, Vg. rewrite mult_INR in Vg. change (INR 1) with 1 in *. change (INR 2) with (1 + 1) in *.
  assert (K1 : 1 <= INR k) by (apply (le_INR 1); unfold k; lia). assert (K2 : 2 * INR k + 1 <= 2 ^ 53).
  { pose proof (INR_53 _ Hk) as Q. rewrite plus_INR, mult_INR in Q. change (INR 1) with 1 in Q. change (INR 2) with (1 + 1) in Q. lra. }
  set (dd := (nofnat k + n1)%num) in *. set (gg := (c2 * nofnat k + n1)%num) in *. set (kk := nofnat k) in *. set (K := INR k) in *.
  pose proof uu_pos as U. pose proof uu_small as US. pose proof hh_pos as HP. pose proof hh_uu as HU.
  assert (P53 : 2 ^ 53 * 4 <= 2 ^ 60) by (cbn; lra).
  cbn [nadd nmul nsub ndiv BN B64num].
  (* q *)
  assert (Hq : 2 * hh * 2 ^ 53 <= / (K + 1)).
  { apply Rle_trans with (/ 2 ^ 53); [|apply Rinv_le_contravar; lra]. apply (Rmult_le_reg_l (2 ^ 53)); [apply pow_lt; lra|]. rewrite Rinv_r by (apply pow_nonzero; lra).
    assert (E : 2 ^ 1075 = 2 ^ 53 * 2 ^ 53 * (2 ^ 100 * 2 ^ 869)) by (rewrite <- !pow_add; reflexivity). unfold hh. rewrite E, !Rinv_mult. assert (P0 : 2 ^ 53 <> 0) by (apply pow_nonzero; lra). set (zz := 2 ^ 53) in *.
    replace (zz * (2 * (/ zz * / zz * (/ 2 ^ 100 * / 2 ^ 869)) * zz)) with (2 * (/ 2 ^ 100 * / 2 ^ 869)) by (field; repeat split; auto; apply pow_nonzero; lra).
    rewrite <- Rinv_mult, <- pow_add. apply (Rmult_le_reg_r (2 ^ (100 + 869))); [apply pow_lt; lra|]. rewrite Rmult_assoc, Rinv_l, Rmult_1_r, Rmult_1_l by (apply pow_nonzero; lra). apply Rle_trans with (2 ^ 1); [lra|apply pow_lit; lia]. }
  assert (IK : 0 < / (K + 1)) by (apply Rinv_0_lt_compat; lra). assert (IK1 : / (K + 1) <= 1) by (rewrite <- Rinv_1; apply Rinv_le_contravar; lra).
  destruct (rnd_err_normal (1 / (K + 1))) as (d5 & D5 & Q5). { unfold Rdiv. rewrite Rmult_1_l, (Rabs_pos_eq (/ (K + 1))) by lra. exact Hq. }
  destruct (div_ok n1 dd) as (Fq & Vq); [exact F1|rewrite Vd; lra| |].
  { rewrite V1, Vd. apply rnd_small. unfold Rdiv. rewrite Rmult_1_l, Rabs_pos_eq by lra. eapply Rle_trans; [exact IK1|]. cbn; lra. }
  rewrite V1, Vd, Q5 in Vq. set (q := Bdiv mode_NE n1 dd) in *. assert (Wq : val q = 1 / (K + 1) * (1 + d5)) by exact Vq.
  (* a *)
  assert (X1 : Rabs ((2 * K + 1) * val s) <= 2 ^ 53 * 2) by (rewrite Rabs_mult; apply Rmult_le_compat; auto using Rabs_pos; [rewrite Rabs_pos_eq; lra|lra]).
  destruct (mul_ok gg s Fg Fs) as (F3 & V3). { rewrite Vg. apply rnd_small. replace (1 + 1) with 2 by ring. lra. }
  destruct (rnd_err (val gg * val s)) as (d1 & e1 & D1 & E1 & Q1). rewrite Q1, Vg in V3. replace (1 + 1) with 2 in V3 by ring. set (p1 := Bmult mode_NE gg s) in *.
  (* b *)
  assert (Y1 : Rabs (val p1) <= 2 ^ 53 * (17 / 16) * (1 + uu) + hh).
  { rewrite V3. eapply Rle_trans; [apply Rabs_triang|]. apply Rplus_le_compat; auto. rewrite Rabs_mult. apply Rmult_le_compat; auto using Rabs_pos, abs_1d.
    rewrite Rabs_mult. apply Rmult_le_compat; auto using Rabs_pos. rewrite Rabs_pos_eq; lra. }
  assert (Y1' : Rabs (val p1) <= 2 ^ 53 * 2) by (set (zz := 2 ^ 53) in *; assert (1 <= zz) by (unfold zz; cbn; lra); nra).
  assert (X2 : Rabs (val p1 * val a) <= 2 ^ 53 * 2 * (17 / 16)) by (rewrite Rabs_mult; apply Rmult_le_compat; auto using Rabs_pos).
  destruct (mul_ok p1 a F3 Fa) as (F4 & V4). { apply rnd_small. lra. }
  destruct (rnd_err (val p1 * val a)) as (d2 & e2 & D2 & E2 & Q2). rewrite Q2 in V4. set (p2 := Bmult mode_NE p1 a) in *.
  (* c *)
  assert (X3 : Rabs (K * val b) <= 2 ^ 53 * (17 / 16)) by (rewrite Rabs_mult; apply Rmult_le_compat; auto using Rabs_pos; rewrite Rabs_pos_eq; lra).
  destruct (mul_ok kk b Fk Fb) as (F5 & V5). { rewrite Vk. apply rnd_small. lra. }
  destruct (rnd_err (val kk * val b)) as (d3 & e3 & D3 & E3 & Q3). rewrite Q3, Vk in V5. set (p3 := Bmult mode_NE kk b) in *.
  (* d *)
  set (zz := 2 ^ 53) in *. assert (Z1 : 1 <= zz) by (unfold zz; cbn; lra).
  assert (Y2 : Rabs (val p2) <= zz * 2 * (17 / 16) * (1 + uu) + hh).
  { rewrite V4. eapply Rle_trans; [apply Rabs_triang|]. apply Rplus_le_compat; auto. rewrite Rabs_mult. apply Rmult_le_compat; auto using Rabs_pos, abs_1d. }
  assert (Y3 : Rabs (val p3) <= zz * (17 / 16) * (1 + uu) + hh).
  { rewrite V5. eapply Rle_trans; [apply Rabs_triang|]. apply Rplus_le_compat; auto. rewrite Rabs_mult. apply Rmult_le_compat; auto using Rabs_pos, abs_1d. }
  assert (X4 : Rabs (val p2 - val p3) <= zz * (13 / 4)).
  { unfold Rminus. eapply Rle_trans; [apply Rabs_triang|]. rewrite Rabs_Ropp. assert (ZU : zz * uu <= zz * / 1000000) by (apply Rmult_le_compat_l; lra). lra. }
  destruct (sub_ok p2 p3 F4 F5) as (F6 & V6). { apply rnd_small. nra. }
  destruct (rnd_err_minus (val p2) (val p3)) as (d4 & D4 & Q4); [apply val_fmt|apply val_fmt|]. rewrite Q4 in V6. set (p4 := Bminus mode_NE p2 p3) in *.
  (* r *)
  assert (Y4 : Rabs (val p4) <= zz * (13 / 4) * (1 + uu)) by (rewrite V6, Rabs_mult; apply Rmult_le_compat; auto using Rabs_pos, abs_1d).
  assert (Y5 : Rabs (val q) <= 1 * (1 + uu)). { rewrite Wq, Rabs_mult; apply Rmult_le_compat; auto using Rabs_pos, abs_1d. unfold Rdiv. rewrite Rmult_1_l, Rabs_pos_eq; lra. }
  assert (X5 : Rabs (val q * val p4) <= zz * 4).
  { rewrite Rabs_mult. apply Rle_trans with (1 * (1 + uu) * (zz * (13 / 4) * (1 + uu))); [apply Rmult_le_compat; auto using Rabs_pos|]. assert (UU : (1 + uu) * (1 + uu) <= 101 / 100) by (apply Rle_trans with ((1 + / 1000) * (1 + / 1000)); [apply Rmult_le_compat; lra|lra]).
    assert (UZ : (1 + uu) * (1 + uu) * (zz * (13 / 4)) <= 101 / 100 * (zz * (13 / 4))) by (apply Rmult_le_compat_r; lra). lra. }
  destruct (mul_ok q p4 Fq F6) as (F7 & V7). { apply rnd_small. lra. }
  destruct (rnd_err (val q * val p4)) as (d6 & e6 & D6 & E6 & Q6). rewrite Q6 in V7.
  match goal with |- fin ?w /\ _ => assert (W7 : val w = val q * val p4 * (1 + d6) + e6) by exact V7 end.
  split; [exact F7|]. rewrite W7, Wq, V6, V5, V4, V3. clear - D1 D2 D3 D4 D5 D6 E1 E2 E3 E6 Bs Ba Bb K1 IK IK1 U US HP HU.
  set (f := (1 + d5) * (1 + d4) * (1 + d6)).
  assert (R3 : rel 3 f). { unfold f. apply (rel_mul 2 1); [apply (rel_mul 1 1)|]; apply rel_1; auto. }
  set (t1 := f * ((1 + d1) * (1 + d2))). set (t2 := f * (1 + d3)).
  assert (R1 : Rabs (t1 - 1) <= 6 * uu). { apply rel5. apply (rel_mul 3 2); auto. apply (rel_mul 1 1); apply rel_1; auto. }
  assert (R2 : Rabs (t2 - 1) <= 6 * uu). { apply rel5. apply (rel_le 4); [lia|]. apply (rel_mul 3 1); auto. apply rel_1; auto. }
  assert (Rf : Rabs f <= 2). { assert (Rabs (f - 1) <= 6 * uu) by (apply rel5, (rel_le 3); auto). replace f with ((f - 1) + 1) by ring. eapply Rle_trans; [apply Rabs_triang|]. rewrite Rabs_R1. lra. }
  set (x := val s) in *. set (y := val a) in *. set (z := val b) in *.
  match goal with |- Rabs ?e <= _ => replace e with
    ((2 * K + 1) / (K + 1) * ((x * y) * (t1 - 1)) + - (K / (K + 1) * (z * (t2 - 1))) + (f * / (K + 1) * (e1 * y * (1 + d2) + e2 + - e3) + e6)) by (unfold t1, t2, f; field; lra) end.
  assert (XY : Rabs (x * y) <= 289 / 256). { rewrite Rabs_mult. apply Rle_trans with (17 / 16 * (17 / 16)); [apply Rmult_le_compat; auto using Rabs_pos|lra]. }
  assert (C1 : 0 <= (2 * K + 1) / (K + 1) <= 2). { split; [apply Rdiv_le_0_compat; lra|]. apply Rle_div_l; lra. }
  assert (C2 : 0 <= K / (K + 1) <= 1). { split; [apply Rdiv_le_0_compat; lra|]. apply Rle_div_l; lra. }
  assert (T1 : Rabs ((2 * K + 1) / (K + 1) * ((x * y) * (t1 - 1))) <= 2 * (289 / 256 * (6 * uu))).
  { rewrite !Rabs_mult. rewrite Rabs_mult in XY. apply Rmult_le_compat; auto using Rabs_pos, Rmult_le_pos; [rewrite Rabs_pos_eq; lra|apply Rmult_le_compat; auto using Rabs_pos, Rmult_le_pos]. }
  assert (T2 : Rabs (- (K / (K + 1) * (z * (t2 - 1)))) <= 1 * (17 / 16 * (6 * uu))).
  { rewrite Rabs_Ropp, !Rabs_mult. apply Rmult_le_compat; auto using Rabs_pos, Rmult_le_pos; [rewrite Rabs_pos_eq; lra|apply Rmult_le_compat; auto using Rabs_pos]. }
  assert (T3 : Rabs (e1 * y * (1 + d2) + e2 + - e3) <= 4 * hh).
  { eapply Rle_trans; [apply Rabs_triang|]. eapply Rle_trans; [apply Rplus_le_compat_r, Rabs_triang|]. rewrite Rabs_Ropp, !Rabs_mult.
    assert (Rabs e1 * Rabs y * Rabs (1 + d2) <= hh * (17 / 16) * (1 + uu)) by (repeat apply Rmult_le_compat; auto using Rabs_pos, Rmult_le_pos, abs_1d). nra. }
  assert (T4 : Rabs (f * / (K + 1) * (e1 * y * (1 + d2) + e2 + - e3)) <= 2 * 1 * (4 * hh)).
  { rewrite 2Rabs_mult. repeat apply Rmult_le_compat; auto using Rabs_pos, Rmult_le_pos. rewrite Rabs_pos_eq; lra. }
  eapply Rle_trans; [apply Rabs_triang|]. eapply Rle_trans; [apply Rplus_le_compat_r, Rabs_triang|]. eapply Rle_trans; [apply Rplus_le_compat_l, Rabs_triang|]. lra.
Qed.

(** the whole evaluation *)
Lemma gleg64_0 (s : b64) : gleg s 0 = n1. Proof. reflexivity. Qed.
Lemma gleg64_1 (s : b64) : gleg s 1 = s. Proof. reflexivity. Qed.

Lemma abs_of_near (a b e : R) : Rabs (a - b) <= e -> Rabs a <= Rabs b + e.
Proof. intros H. replace a with ((a - b) + b) by ring. eapply Rle_trans; [apply Rabs_triang|]. lra. Qed.

Section Whole.
Variables (s : b64) (x sg : R) (N : nat).
Hypothesis Fs : fin s.
Hypothesis Hx : -1 <= x <= 1.
Hypothesis Hs : Rabs (val s - x) <= sg.
Let D := 3 * sg + 21 * uu.
Hypothesis HN : (1 <= N)%nat.
Hypothesis Sm : INR N * (INR N + 1) / 2 * D <= / 16.

Lemma sg_pos : 0 <= sg. Proof. pose proof (Rabs_pos (val s - x)). lra. Qed.
Lemma D_pos : 0 < D. Proof. pose proof sg_pos. pose proof uu_pos. unfold D. lra. Qed.
Lemma small_of n : (n <= N)%nat -> INR n * (INR n + 1) / 2 * D <= / 16.
Proof. intros H. eapply Rle_trans; [|exact Sm]. apply Rmult_le_compat_r; [apply Rlt_le, D_pos|]. apply le_INR in H. pose proof (pos_INR n). nra. Qed.
Lemma N_small : (2 * N + 1 <= 2 ^ 53)%nat.
Proof.
  apply INR_le. rewrite plus_INR, mult_INR, pow_INR. replace (INR 2) with 2 by (cbn; ring). replace (INR 1) with 1 by reflexivity. pose proof (le_INR 1 N HN) as L. replace (INR 1) with 1 in L by reflexivity.
  pose proof sg_pos. pose proof uu_pos as U. pose proof D_pos. assert (INR N * (21 * uu) <= / 16).
  { eapply Rle_trans; [|exact Sm]. apply Rle_trans with (INR N * (INR N + 1) / 2 * (21 * uu)); [apply Rmult_le_compat_r; nra|]. apply Rmult_le_compat_l; [nra|unfold D; lra]. }
  assert (uu * 2 ^ 53 = 1) by (unfold uu; apply Rinv_l, pow_nonzero; lra). set (zz := 2 ^ 53) in *.
  apply (Rmult_le_reg_l uu); auto. rewrite H2. nra.
Qed.
Lemma s_bound : Rabs (val s) <= 17 / 16.
Proof.
  eapply Rle_trans; [apply (abs_of_near _ x sg Hs)|]. assert (Rabs x <= 1) by (apply Rabs_le; lra). pose proof (small_of 1 HN) as Q. change (INR 1) with 1 in Q.
  pose proof uu_pos. unfold D in Q. pose proof sg_pos. lra.
Qed.
Definition y64 (k : nat) : R := val (gleg s k).
Lemma y64_step k : (S (S k) <= N)%nat -> fin (gleg s k) -> fin (gleg s (S k)) -> Rabs (y64 k) <= 17 / 16 -> Rabs (y64 (S k)) <= 17 / 16 ->
  fin (gleg s (S (S k))) /\ Rabs (y64 (S (S k)) - ((2 * INR k + 3) * x * y64 (S k) - (INR k + 1) * y64 k) / (INR k + 2)) <= D.
Proof.
  intros Hk F0 F1 B0 B1. pose proof N_small as NS. destruct (leg_step64 k s (gleg s (S k)) (gleg s k)) as (F2 & B2); auto using s_bound; [lia|].
  rewrite <- gleg_SS in F2, B2. split; auto. fold (y64 (S (S k))) (y64 (S k)) (y64 k) in B2. rewrite S_INR in B2. pose proof (pos_INR k) as Pk.
  replace (y64 (S (S k)) - ((2 * INR k + 3) * x * y64 (S k) - (INR k + 1) * y64 k) / (INR k + 2)) with
    ((y64 (S (S k)) - ((2 * (INR k + 1) + 1) * val s * y64 (S k) - (INR k + 1) * y64 k) / (INR k + 1 + 1)) + (2 * INR k + 3) / (INR k + 2) * ((val s - x) * y64 (S k))) by (field; lra).
  eapply Rle_trans; [apply Rabs_triang|]. unfold D. rewrite Rplus_comm. apply Rplus_le_compat; auto. rewrite !Rabs_mult.
  apply Rle_trans with (2 * (sg * (17 / 16))); [|pose proof sg_pos; lra]. apply Rmult_le_compat; auto using Rabs_pos, Rmult_le_pos.
  - rewrite Rabs_pos_eq; [apply Rle_div_l; lra|apply Rdiv_le_0_compat; lra].
  - apply Rmult_le_compat; auto using Rabs_pos.
Qed.
Lemma leg64_upto n : (n <= N)%nat ->
  (forall j, (j <= n)%nat -> fin (gleg s j) /\ Rabs (y64 j) <= 17 / 16) /\
  (forall k, (S (S k) <= n)%nat -> Rabs (y64 (S (S k)) - ((2 * INR k + 3) * x * y64 (S k) - (INR k + 1) * y64 k) / (INR k + 2)) <= D).
Proof.
  induction n as [|n IH]; intros Hn.
  { split; [|intros; lia]. intros j Hj. replace j with 0%nat by lia. unfold y64. rewrite gleg64_0. destruct one64 as (A & B). split; auto. rewrite B, Rabs_R1. lra. }
  destruct (IH ltac:(lia)) as (I1 & I2). clear IH.
  assert (NF : fin (gleg s (S n)) /\ (forall k, (S (S k) <= S n)%nat -> Rabs (y64 (S (S k)) - ((2 * INR k + 3) * x * y64 (S k) - (INR k + 1) * y64 k) / (INR k + 2)) <= D)).
  { destruct n as [|k]; [split; [rewrite gleg64_1; auto|intros; lia]|].
    destruct (y64_step k Hn) as (A & B); try (apply I1; lia). split; auto. intros k' Hk'. destruct (Nat.eq_dec k' k) as [->|]; auto. apply I2. lia. }
  destruct NF as (NF & NS). split; auto. intros j Hj. destruct (Nat.eq_dec j (S n)) as [->|]; [|apply I1; lia]. split; auto.
  assert (PB : Rabs (y64 (S n) - legP (S n) x) <= INR (S n) * (INR (S n) + 1) / 2 * D).
  { apply (perturbed x D y64 (S n)); auto; [apply Rlt_le, D_pos|apply one64|].
    change (y64 1) with (val s). pose proof sg_pos. pose proof uu_pos. unfold D. lra. }
  pose proof (small_of (S n) Hn) as Q. apply abs_of_near in PB. pose proof (legP_bound (S n) x Hx). lra.
Qed.
Lemma leg64 j : (j <= N)%nat -> fin (gleg s j) /\ Rabs (val (gleg s j) - legP j x) <= INR j * (INR j + 1) / 2 * D.
Proof.
  intros Hj. destruct (leg64_upto N (le_n _)) as (A & B). split; [apply A; auto|]. apply (perturbed x D y64 N); auto; [apply Rlt_le, D_pos|apply one64|].
  change (y64 1) with (val s). pose proof sg_pos. pose proof uu_pos. unfold D. lra.
Qed.
End Whole.
End Leg.
