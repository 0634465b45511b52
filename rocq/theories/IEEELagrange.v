(** Rounding errors of the barycentric formula in binary64. *)
From Coquelicot Require Import Coquelicot.
From Coq Require Import ZArith Reals Lra Lia List Arith Bool.
From Flocq Require Import Core BinarySingleNaN.
From Verif Require Import Num Outcome LinAlg RSum RPoly LegendreModel LegendreProofs InterpMath2 LagrangeModel LagrangeSpec LagrangeMath LagrangeProofs
  IEEEModel IEEESpec IEEEProofs IEEEHorner IEEELegendre IEEESpline.
Import ListNotations.
Local Open Scope R_scope.

(** ** Factors between (1 - u)^k and (1 - u)^-k: closed under products and inverses *)
Definition bt : R := / (1 - uu).
Definition rat (k : nat) (q : R) : Prop := / bt ^ k <= q <= bt ^ k.
Lemma uu_lt1 : 0 < 1 - uu.
Proof. pose proof uu_small. lra. Qed.
Lemma bt_ge1 : 1 <= bt.
Proof. unfold bt. rewrite <- Rinv_1 at 1. pose proof uu_lt1. pose proof uu_pos. apply Rinv_le_contravar; lra. Qed.
Lemma bt_pos k : 0 < bt ^ k.
Proof. apply pow_lt. pose proof bt_ge1. lra. Qed.
Lemma btk_ge1 k : 1 <= bt ^ k.
Proof. apply pow_R1_Rle, bt_ge1. Qed.
Lemma bt_le j k : (j <= k)%nat -> bt ^ j <= bt ^ k.
Proof. intros. apply Rle_pow; auto. apply bt_ge1. Qed.
Lemma rat_pos k q : rat k q -> 0 < q.
Proof. intros (L & _). eapply Rlt_le_trans; [|exact L]. apply Rinv_0_lt_compat, bt_pos. Qed.
Lemma rat_1 d : Rabs d <= uu -> rat 1 (1 + d).
Proof.
  intros H. apply Rabs_le_between in H. unfold rat. rewrite pow_1. unfold bt. rewrite Rinv_inv. split; [lra|].
  apply Rle_trans with (1 + uu); [lra|]. apply Rmult_le_reg_r with (1 - uu); [apply uu_lt1|]. rewrite Rinv_l by (pose proof uu_lt1; lra). pose proof uu_pos. nra.
Qed.
Lemma rat_mul j k p q : rat j p -> rat k q -> rat (j + k) (p * q).
Proof.
  intros (A & B) (C & D). unfold rat. rewrite pow_add, Rinv_mult.
  assert (0 < / bt ^ j) by (apply Rinv_0_lt_compat, bt_pos). assert (0 < / bt ^ k) by (apply Rinv_0_lt_compat, bt_pos).
  split; apply Rmult_le_compat; lra.
Qed.
Lemma rat_inv k q : rat k q -> rat k (/ q).
Proof.
  intros Hq. pose proof (rat_pos _ _ Hq) as P. destruct Hq as (A & B). split.
  - apply Rinv_le_contravar; auto.
  - rewrite <- (Rinv_inv (bt ^ k)). apply Rinv_le_contravar; auto. apply Rinv_0_lt_compat, bt_pos.
Qed.
Lemma rat_le j k q : (j <= k)%nat -> rat j q -> rat k q.
Proof. intros H (A & B). pose proof (bt_le j k H). pose proof (bt_pos j). split; [|lra]. eapply Rle_trans; [|exact A]. apply Rinv_le_contravar; auto. Qed.
Lemma inv_ge2 p : 1 <= p -> 2 - p <= / p.
Proof. intros H. apply Rmult_le_reg_r with p; [lra|]. rewrite Rinv_l by lra. nra. Qed.
Lemma rat_abs k q : rat k q -> Rabs (q - 1) <= bt ^ k - 1.
Proof. intros (A & B). pose proof (inv_ge2 _ (btk_ge1 k)). apply Rabs_le. lra. Qed.
Lemma bt_lin k : INR k * uu <= / 2 -> bt ^ k - 1 <= 2 * INR k * uu.
Proof.
  intros H. pose proof uu_pos as U. pose proof uu_small as U1. assert (Be : 1 - INR k * uu <= (1 - uu) ^ k).
  { clear H. induction k as [|k IH]; [cbn; lra|]. rewrite S_INR. cbn [pow]. pose proof (pos_INR k). assert (0 <= (1 - uu) ^ k <= 1).
    { split; [apply pow_le; lra|]. apply Rle_trans with (1 ^ k); [apply pow_incr; lra|rewrite pow1; lra]. } assert (uu * (1 - uu) ^ k <= uu * 1) by (apply Rmult_le_compat_l; lra). lra. }
  unfold bt. rewrite pow_inv. set (y := INR k * uu) in *. assert (0 <= y) by (unfold y; pose proof (pos_INR k); nra).
  assert (/ (1 - uu) ^ k <= / (1 - y)) by (apply Rinv_le_contravar; lra).
  assert (/ (1 - y) <= 1 + 2 * y). { apply Rmult_le_reg_r with (1 - y); [lra|]. rewrite Rinv_l by lra. nra. }
  replace (2 * INR k * uu) with (2 * y) by (unfold y; ring). lra.
Qed.
Lemma bt2 : bt ^ 2 <= 2.
Proof. pose proof (bt_lin 2) as H. pose proof uu_small. cbn [INR] in H. lra. Qed.
Lemma bt_2k k : bt ^ (2 * k) <= 2 ^ k.
Proof. rewrite pow_mult. apply pow_incr. split; [apply pow_le; pose proof bt_ge1; lra|apply bt2]. Qed.
Lemma pow1u_bt k : (1 + uu) ^ k <= bt ^ k.
Proof. apply pow_incr. split; [pose proof uu_pos; lra|]. pose proof (rat_1 uu) as H. rewrite Rabs_pos_eq in H by (pose proof uu_pos; lra). specialize (H ltac:(lra)). destruct H as (_ & H). now rewrite pow_1 in H. Qed.

(** ** Magnitudes *)
Definition bnd (A y : R) : Prop := / A <= Rabs y <= A.
Lemma bnd_neq0 A y : 0 < A -> bnd A y -> y <> 0.
Proof. intros HA (L & _) ->. rewrite Rabs_R0 in L. pose proof (Rinv_0_lt_compat A HA). lra. Qed.
Lemma bnd_mul A B y z : 0 < A -> 0 < B -> bnd A y -> bnd B z -> bnd (A * B) (y * z).
Proof.
  intros HA HB (a & b) (c & d). unfold bnd. rewrite Rabs_mult, Rinv_mult. pose proof (Rinv_0_lt_compat A HA). pose proof (Rinv_0_lt_compat B HB).
  pose proof (Rabs_pos y). pose proof (Rabs_pos z). split; apply Rmult_le_compat; lra.
Qed.
Lemma bnd_inv A y : 0 < A -> bnd A y -> bnd A (/ y).
Proof.
  intros HA Hy. pose proof (bnd_neq0 _ _ HA Hy) as N. destruct Hy as (a & b). unfold bnd. rewrite Rabs_inv. pose proof (Rabs_pos_lt y N).
  split; [apply Rinv_le_contravar; auto|]. rewrite <- (Rinv_inv A). apply Rinv_le_contravar; auto. apply Rinv_0_lt_compat; auto.
Qed.
Lemma bnd_le A B y : 0 < A -> A <= B -> bnd A y -> bnd B y.
Proof. intros HA H (a & b). split; [|lra]. eapply Rle_trans; [|exact a]. apply Rinv_le_contravar; auto. Qed.
Lemma bnd_rat k q : rat k q -> bnd (bt ^ k) q.
Proof. intros Hq. pose proof (rat_pos _ _ Hq). unfold bnd. rewrite Rabs_pos_eq by lra. exact Hq. Qed.
Lemma normal_big : 2 * hh * 2 ^ 53 <= / big.
Proof.
  unfold hh, big. replace 1075%nat with (1 + (1021 + 53))%nat by reflexivity. rewrite !pow_add, pow_1.
  replace (2 * / (2 * (2 ^ 1021 * 2 ^ 53)) * 2 ^ 53) with (/ 2 ^ 1021).
  - apply Rinv_le_contravar; [apply pow_lt; lra|]. apply Rle_pow; [lra|lia].
  - field; repeat split; apply pow_nonzero; lra.
Qed.
Lemma big_pos : 0 < big.
Proof. pose proof big_1. lra. Qed.

Section Lag.
Variable m : libm.
Local Instance BN : Num b64 := B64num m.

Lemma sub64 (x y : b64) : fin x -> fin y -> Rabs (val x - val y) <= big -> fin (nsub x y) /\ exists q, rat 1 q /\ val (nsub x y) = (val x - val y) * q.
Proof.
  intros Fx Fy H. cbn [nsub BN B64num]. destruct (sub_ok x y Fx Fy) as (A & B). { apply rnd_big. pose proof big_1. lra. }
  split; [exact A|]. rewrite B. destruct (rnd_err_minus (val x) (val y)) as (d & D & ->); [apply val_fmt|apply val_fmt|].
  exists (1 + d). split; [apply rat_1; auto|reflexivity].
Qed.
Lemma mul64 (x y : b64) : fin x -> fin y -> bnd big (val x * val y) -> fin (nmul x y) /\ exists q, rat 1 q /\ val (nmul x y) = val x * val y * q.
Proof.
  intros Fx Fy (L & H). cbn [nmul BN B64num]. destruct (mul_ok x y Fx Fy) as (A & B). { apply rnd_big. pose proof big_1. lra. }
  split; [exact A|]. rewrite B. destruct (rnd_err_normal (val x * val y)) as (d & D & ->). { pose proof normal_big. lra. }
  exists (1 + d). split; [apply rat_1; auto|reflexivity].
Qed.
Lemma div64 (x y : b64) : fin x -> val y <> 0 -> bnd big (val x / val y) -> fin (ndiv x y) /\ exists q, rat 1 q /\ val (ndiv x y) = val x / val y * q.
Proof.
  intros Fx Fy (L & H). cbn [ndiv BN B64num]. destruct (div_ok x y Fx Fy) as (A & B). { apply rnd_big. pose proof big_1. lra. }
  split; [exact A|]. rewrite B. destruct (rnd_err_normal (val x / val y)) as (d & D & ->). { pose proof normal_big. lra. }
  exists (1 + d). split; [apply rat_1; auto|reflexivity].
Qed.

(** ** The tolerance *)
Lemma tol_ok : fin (tol9 : b64) /\ / 2 ^ 30 <= val (tol9 : b64) <= / 1000000000 * (1 + uu).
Proof.
  unfold tol9. destruct (one64 m) as (F1 & V1). assert (W1 : val (n1 : b64) = 1) by exact V1. assert (G1 : fin (n1 : b64)) by exact F1.
  assert (Z9 : fin (nofZ 1000000000 : b64) /\ val (nofZ 1000000000 : b64) = 1000000000). { cbn [nofZ BN B64num]. apply (ofZ_ok 1000000000). vm_compute. discriminate. }
  destruct Z9 as (F9 & V9).
  assert (S9 : rnd (val (n1 : b64) / val (nofZ 1000000000 : b64)) = rnd (/ 1000000000)) by (rewrite W1, V9; f_equal; lra).
  destruct (rnd_err_normal (/ 1000000000)) as (d & D & Er).
  { pose proof normal_big. rewrite Rabs_pos_eq by lra. assert (/ big <= / 1000000000); [|lra]. apply Rinv_le_contravar; [lra|]. unfold big. apply Rle_trans with (2 ^ 30); [lra|apply pow_lit; lia]. }
  pose proof uu_small as US. apply Rabs_le_between in D.
  destruct (div_ok n1 (nofZ 1000000000)) as (A & B); [exact G1|rewrite V9; lra| |].
  { rewrite S9. apply rnd_small. rewrite Rabs_pos_eq by lra. apply Rle_trans with (2 ^ 1); [lra|apply pow_lit; lia]. }
  change (val (ndiv n1 (nofZ 1000000000) : b64) = rnd (val (n1 : b64) / val (nofZ 1000000000 : b64))) in B. split; [exact A|]. rewrite B, S9, Er. split; [lra|].
  apply Rmult_le_compat_l; lra.
Qed.
Lemma abs64 (x : b64) : fin x -> fin (nabs x) /\ val (nabs x) = Rabs (val x).
Proof. intros F. cbn [nabs BN B64num]. split; [unfold fin in *; rewrite is_finite_Babs; exact F|apply B2R_Babs]. Qed.
Lemma lt64 (x y : b64) : fin x -> fin y -> nltb x y = Rltb (val x) (val y).
Proof. apply ltb_val. Qed.
Lemma Rltb_f x y : Rltb x y = false -> y <= x.
Proof. unfold Rltb. destruct (Rlt_dec x y); [discriminate|lra]. Qed.
Lemma Rltb_t x y : Rltb x y = true -> x < y.
Proof. unfold Rltb. destruct (Rlt_dec x y); [auto|discriminate]. Qed.
(** at most 1 times the tolerance, at least the tolerance squared *)
Lemma tolmul (x : b64) : fin x -> Rabs (val x) <= 2 -> fin (nmul tol9 (nabs x)) /\ (Rabs (val x) <= 1 -> val (nmul tol9 (nabs x)) <= val (tol9 : b64)) /\
  (val (tol9 : b64) <= Rabs (val x) -> / 2 ^ 60 <= val (nmul tol9 (nabs x))).
Proof.
  intros Fx H. destruct tol_ok as (Ft & Tl & Tu). destruct (abs64 x Fx) as (Fa & Va). pose proof uu_small as US. pose proof (Rabs_pos (val x)).
  destruct (mul_ok tol9 (nabs x) Ft Fa) as (A & B).
  { apply rnd_small. rewrite Va. rewrite Rabs_pos_eq by (apply Rmult_le_pos; lra). apply Rle_trans with 2; [nra|]. apply Rle_trans with (2 ^ 1); [lra|apply pow_lit; lia]. }
  split; [exact A|]. split; intros H1; cbn [nmul BN B64num]; cbn [nmul BN B64num] in B; rewrite B, Va.
  - rewrite <- (rnd_fmt (val (tol9 : b64)) (val_fmt _)) at 2. apply rnd_le. nra.
  - assert (F60 : fmt (/ 2 ^ 60)). { rewrite <- bpow_pow, <- bpow_opp. apply generic_format_bpow. vm_compute. discriminate. }
    rewrite <- (rnd_fmt _ F60). apply rnd_le. replace (/ 2 ^ 60) with (/ 2 ^ 30 * / 2 ^ 30) by (rewrite <- Rinv_mult, <- pow_add; reflexivity). apply Rmult_le_compat; lra.
Qed.
Lemma near64 (s x : b64) : fin s -> fin x -> Rabs (val s) <= 2 -> Rabs (val x) <= 1 ->
  (almost_equal s x tol9 = true -> Rabs (val s - val x) <= 11 / 10000000000) /\ (almost_equal s x tol9 = false -> / 2 ^ 61 <= Rabs (val s - val x)).
Proof.
  intros Fs Fx Hs Hx. destruct tol_ok as (Ft & Tl & Tu). destruct (abs64 s Fs) as (Fas & Vas). destruct (abs64 x Fx) as (Fax & Vax).
  assert (H3 : Rabs (val s - val x) <= 3) by (eapply Rle_trans; [apply (Rabs_triang _ (- val x))|]; rewrite Rabs_Ropp; lra).
  destruct (sub64 s x Fs Fx) as (Fd & q & Q & Vd). { eapply Rle_trans; [exact H3|]. unfold big. apply Rle_trans with (2 ^ 2); [lra|apply pow_lit; lia]. }
  destruct (abs64 _ Fd) as (Fad & Vad). rewrite Vd, Rabs_mult in Vad. rewrite (Rabs_pos_eq q) in Vad by (apply Rlt_le, (rat_pos 1); auto).
  destruct (tolmul s Fs Hs) as (Fts & _ & Ls). destruct (tolmul x Fx ltac:(lra)) as (Ftx & Ux & Lx).
  pose proof (rat_abs _ _ Q) as Qa. pose proof (bt_lin 1) as B1. cbn [INR] in B1. pose proof uu_small as US. specialize (B1 ltac:(lra)). apply Rabs_le_between in Qa.
  set (D := Rabs (val s - val x)) in *. assert (DP : 0 <= D) by apply Rabs_pos. set (d := val (nabs (nsub s x))) in *. set (t := val (tol9 : b64)) in *.
  assert (Low : / 2 ^ 60 <= d -> / 2 ^ 61 <= D).
  { intros H. replace (/ 2 ^ 61) with (/ 2 * / 2 ^ 60) by (rewrite <- Rinv_mult; reflexivity). rewrite Vad in H. assert (D * q <= D * 2) by (apply Rmult_le_compat_l; lra). lra. }
  assert (Up : d < t -> D <= 11 / 10000000000). { intros H. rewrite Vad in H. assert (D * (1 - 2 * uu) <= D * q) by (apply Rmult_le_compat_l; lra). nra. }
  unfold almost_equal. rewrite !lt64 by auto. rewrite Vas, Vax. fold d t.
  assert (t30 : / 2 ^ 60 <= t). { eapply Rle_trans; [|exact Tl]. apply Rinv_le_contravar; [apply pow_lt; lra|apply pow_lit; lia]. }
  destruct (Rltb (Rabs (val s)) t || Rltb (Rabs (val x)) t) eqn:Eo.
  - split; intros E; [apply Up, Rltb_t, E|apply Low]. apply Rltb_f in E. lra.
  - apply orb_false_iff in Eo. destruct Eo as (E1 & E2). apply Rltb_f in E1, E2. split; intros E.
    + apply andb_true_iff in E. destruct E as (_ & E). apply Rltb_t in E. apply Up. specialize (Ux Hx). lra.
    + apply Low. apply andb_false_iff in E. destruct E as [E|E]; apply Rltb_f in E; [specialize (Ls E1)|specialize (Lx E2)]; lra.
Qed.

(** ** Weights *)
Section Pts.
Variables (n : nat) (x : nat -> b64) (G : R).
Hypothesis (HG : 1 <= G).
Hypothesis (Fx : forall j, (j < n)%nat -> fin (x j)).
Hypothesis (Gap : forall j k, (j < n)%nat -> (k < n)%nat -> j <> k -> / G <= Rabs (val (x j) - val (x k)) <= G).
Hypothesis (Cap : (2 * G) ^ n <= 2 ^ 400).
Let X (j : nat) : R := val (x j).

Lemma n400 : (n <= 400)%nat.
Proof.
  destruct (le_lt_dec n 400) as [|H]; auto. exfalso. assert (2 ^ n <= (2 * G) ^ n) by (apply pow_incr; lra). assert (2 ^ 401 <= 2 ^ n) by (apply pow_lit; lia).
  assert (2 ^ 400 < 2 ^ 401) by (apply Rlt_pow; [lra|lia]). lra.
Qed.
Lemma big_split : 2 ^ 400 * 2 ^ 600 = big.
Proof. unfold big. rewrite <- pow_add. reflexivity. Qed.
Lemma G2k k : (k <= n)%nat -> (2 * G) ^ k <= 2 ^ 400.
Proof. intros H. eapply Rle_trans; [|exact Cap]. apply Rle_pow; [lra|exact H]. Qed.
Lemma G2big k : (k <= n)%nat -> (2 * G) ^ k <= big.
Proof. intros H. eapply Rle_trans; [apply G2k, H|]. unfold big. apply pow_lit. lia. Qed.
Definition dprd (k j : nat) : R := Rprod j (fun i => if Nat.eqb i k then 1 else X k - X i).
Lemma dprd_bnd k j : (k < n)%nat -> (j <= n)%nat -> bnd (G ^ j) (dprd k j).
Proof.
  intros Hk. induction j as [|j IH]; intros Hj; [unfold dprd, bnd; cbn; rewrite Rinv_1, Rabs_R1; lra|].
  assert (P : 0 < G ^ j) by (apply pow_lt; lra). unfold dprd in *. cbn [Rprod pow]. rewrite (Rmult_comm G). apply bnd_mul; [exact P|lra|apply IH; lia|].
  destruct (Nat.eqb_spec j k) as [->|N].
  - unfold bnd. rewrite Rabs_R1. split; [|lra]. rewrite <- Rinv_1. apply Rinv_le_contravar; lra.
  - apply Gap; auto.
Qed.
Lemma mix_bnd j y q : bnd (G ^ j) y -> rat (2 * j) q -> bnd ((2 * G) ^ j) (y * q).
Proof.
  intros Hy Hq. assert (P : 0 < G ^ j) by (apply pow_lt; lra). rewrite Rpow_mult_distr, Rmult_comm. rewrite Rmult_comm. rewrite (Rmult_comm (2 ^ j)). apply bnd_mul; auto; [apply pow_lt; lra|].
  apply (bnd_le (bt ^ (2 * j))); [apply bt_pos|apply bt_2k|apply bnd_rat; auto].
Qed.
Lemma skip64 k j : (k < n)%nat -> (j <= n)%nat -> fin (gskip x k j) /\ exists q, rat (2 * j) q /\ val (gskip x k j) = dprd k j * q.
Proof.
  intros Hk. induction j as [|j IH]; intros Hj.
  { cbn [gskip]. destruct (one64 m) as (F1 & V1). split; [exact F1|]. exists 1. split; [unfold rat; cbn; lra|]. unfold dprd. cbn [Rprod]. assert (W1 : val (n1 : b64) = 1) by exact V1. rewrite W1. ring. }
  destruct (IH ltac:(lia)) as (Fs & q & Q & Vs). cbn [gskip]. destruct (Nat.eqb_spec j k) as [Ek|N].
  - split; [exact Fs|]. exists q. split; [apply (rat_le (2 * j)); auto; lia|]. rewrite Vs. unfold dprd. cbn [Rprod]. rewrite (proj2 (Nat.eqb_eq j k) Ek). ring.
  - destruct (sub64 (x k) (x j)) as (Fd & q1 & Q1 & Vd); [apply Fx; auto|apply Fx; lia| |].
    { eapply Rle_trans; [apply Gap; auto|]. assert (L1 : (2 * G) ^ 1 <= big) by (apply G2big; lia). rewrite pow_1 in L1. lra. }
    assert (Em : val (gskip x k j) * val (nsub (x k) (x j)) = dprd k (S j) * (q * q1)).
    { rewrite Vs, Vd. unfold dprd. cbn [Rprod]. rewrite (proj2 (Nat.eqb_neq j k) N). unfold X. ring. }
    assert (Q2 : rat (2 * j + 1) (q * q1)) by (apply rat_mul; auto).
    destruct (mul64 (gskip x k j) (nsub (x k) (x j)) Fs Fd) as (Fm & q2 & Hq2 & Vm).
    { rewrite Em. apply (bnd_le ((2 * G) ^ S j)); [apply pow_lt; lra|apply G2big; lia|]. apply mix_bnd; [apply dprd_bnd; auto|]. apply (rat_le (2 * j + 1)); auto; lia. }
    split; [exact Fm|]. exists (q * q1 * q2). split.
    + replace (2 * S j)%nat with (2 * j + 1 + 1)%nat by lia. apply rat_mul; auto.
    + rewrite Vm, Em. ring.
Qed.
Lemma w64 k : (k < n)%nat -> fin (gw x n k) /\ exists q, rat (2 * n + 1) q /\ val (gw x n k) = / wprod n X k * q.
Proof.
  intros Hk. destruct (skip64 k n Hk (le_n n)) as (Fs & q & Q & Vs). unfold gw. destruct (one64 m) as (F1 & V1). assert (W1 : val (n1 : b64) = 1) by exact V1.
  assert (Bs : bnd ((2 * G) ^ n) (dprd k n * q)) by (apply mix_bnd; auto; apply dprd_bnd; auto).
  assert (P2 : 0 < (2 * G) ^ n) by (apply pow_lt; lra).
  assert (Ed : val (n1 : b64) / val (gskip x k n) = / (dprd k n * q)) by (rewrite W1, Vs; unfold Rdiv; ring).
  destruct (div64 n1 (gskip x k n)) as (Fd & q1 & Q1 & Vd); [exact F1|rewrite Vs; eapply bnd_neq0; [|exact Bs]; auto| |].
  { rewrite Ed. apply (bnd_le ((2 * G) ^ n)); [auto|apply G2big; lia|]. apply bnd_inv; auto. }
  split; [exact Fd|]. exists (/ q * q1). split; [apply rat_mul; [apply rat_inv|]; auto|]. rewrite Vd, Ed, Rinv_mult. change (wprod n X k) with (dprd k n). ring.
Qed.

(** ** Terms, their sum, quotients *)
Variable s : b64.
Hypothesis (Fs : fin s).
Hypothesis (Off : forall j, (j < n)%nat -> / 2 ^ 61 <= Rabs (val s - val (x j)) <= 2 ^ 61).
Definition tm (j : nat) : R := / wprod n X j / (val s - X j).
Lemma t64 j : (j < n)%nat -> fin (gterm x (gw x n) s j) /\ bnd (2 ^ 464) (tm j) /\ exists q, rat (2 * n + 3) q /\ val (gterm x (gw x n) s j) = tm j * q.
Proof.
  intros Hj. destruct (w64 j Hj) as (Fw & q & Q & Vw). unfold gterm.
  assert (P61 : 0 < 2 ^ 61) by (apply pow_lt; lra). assert (PG : 0 < G ^ n) by (apply pow_lt; lra). assert (G400 : G ^ n <= 2 ^ 400). { eapply Rle_trans; [|exact Cap]. apply pow_incr. lra. }
  destruct (sub64 s (x j)) as (Fd & q1 & Q1 & Vd); [auto|apply Fx; auto| |]. { eapply Rle_trans; [apply Off; auto|]. unfold big. apply pow_lit. lia. }
  assert (BW : bnd (2 ^ 400) (/ wprod n X j)) by (apply (bnd_le (G ^ n)); auto; apply bnd_inv; auto; apply (dprd_bnd j n); auto).
  assert (P400 : 0 < 2 ^ 400) by (apply pow_lt; lra).
  assert (BT : bnd (2 ^ 464) (tm j)). { apply (bnd_le (2 ^ 400 * 2 ^ 61)); [apply Rmult_lt_0_compat; auto|rewrite <- pow_add; apply pow_lit; lia|]. unfold tm, Rdiv. apply bnd_mul; auto. apply bnd_inv; auto. apply Off; auto. }
  assert (N0 : val s - X j <> 0) by (apply (bnd_neq0 (2 ^ 61)); auto; apply Off; auto).
  pose proof (rat_pos _ _ Q1) as Q1p.
  assert (NW : wprod n X j <> 0) by (intros Z; apply (bnd_neq0 (2 ^ 400) (/ wprod n X j)); auto; rewrite Z; apply Rinv_0).
  assert (Et : val (gw x n j) / val (nsub s (x j)) = tm j * (q * / q1)). { rewrite Vw, Vd. unfold tm. fold (X j). set (W := wprod n X j) in *. set (D := val s - X j) in *. field. repeat split; auto; lra. }
  assert (Q2 : rat (2 * n + 1 + 1) (q * / q1)) by (apply rat_mul; auto; apply rat_inv; auto).
  assert (P464 : 0 < 2 ^ 464) by (apply pow_lt; lra).
  destruct (div64 (gw x n j) (nsub s (x j)) Fw) as (Ft & q2 & Hq2 & Vt).
  { rewrite Vd. fold (X j). apply Rmult_integral_contrapositive. split; [exact N0|lra]. }
  { rewrite Et. assert (B0 : bnd (2 ^ 464 * 2 ^ (n + 1)) (tm j * (q * / q1))).
    { apply bnd_mul; auto; [apply pow_lt; lra|]. apply (bnd_le (bt ^ (2 * (n + 1)))); [apply bt_pos|apply bt_2k|]. apply bnd_rat. replace (2 * (n + 1))%nat with (2 * n + 1 + 1)%nat by lia. exact Q2. }
    apply (bnd_le (2 ^ 464 * 2 ^ (n + 1))); [apply Rmult_lt_0_compat; auto; apply pow_lt; lra| |exact B0]. rewrite <- pow_add. unfold big. apply pow_lit. pose proof n400. lia. }
  split; [exact Ft|]. split; [exact BT|]. exists (q * / q1 * q2). split.
  - replace (2 * n + 3)%nat with (2 * n + 1 + 1 + 1)%nat by lia. apply rat_mul; auto.
  - rewrite Vt, Et. ring.
Qed.
Definition Tsum : R := Rsum n tm.
Definition Tabs : R := Rsum n (fun j => Rabs (tm j)).
Lemma ksmall : INR (3 * n + 3) * uu <= / 2.
Proof. assert (INR (3 * n + 3) <= INR 1203) by (apply le_INR; pose proof n400; lia). replace (INR 1203) with 1203 in H by (rewrite INR_IZR_INZ; reflexivity). pose proof uu_small. pose proof uu_pos. nra. Qed.
Lemma sum64 : fin (nsum n (gterm x (gw x n) s)) /\ Rabs (val (nsum n (gterm x (gw x n) s)) - Tsum) <= (bt ^ (3 * n + 3) - 1) * Tabs.
Proof.
  set (f := gterm x (gw x n) s). set (z := B754_zero false : b64). assert (EA : nsum n f = acc m z f n) by exact (nsum_acc m f n). rewrite EA.
  assert (TA : Rsum n (fun i => Rabs (val (f i))) <= bt ^ (2 * n + 3) * Tabs).
  { unfold Tabs. rewrite <- Rsum_scal. apply Rsum_le. intros i Hi. destruct (t64 i Hi) as (_ & _ & q & Q & V). unfold f. rewrite V, Rabs_mult. pose proof (rat_pos _ _ Q). rewrite (Rabs_pos_eq q) by lra. rewrite Rmult_comm. apply Rmult_le_compat_r; [apply Rabs_pos|apply Q]. }
  assert (DA : Rabs (Rsum n (fun i => val (f i)) - Tsum) <= (bt ^ (2 * n + 3) - 1) * Tabs).
  { unfold Tsum, Tabs, Rminus. rewrite <- Rsum_opp, <- Rsum_plus. eapply Rle_trans; [apply InterpMath2.Rsum_abs|]. fold (bt ^ (2 * n + 3) - 1). rewrite <- Rsum_scal. apply Rsum_le. intros i Hi.
    destruct (t64 i Hi) as (_ & _ & q & Q & V). unfold f. rewrite V. replace (tm i * q + - tm i) with (tm i * (q - 1)) by ring. rewrite Rabs_mult, Rmult_comm. apply Rmult_le_compat_r; [apply Rabs_pos|]. apply (rat_abs _ _ Q). }
  assert (TB : Tabs <= INR n * 2 ^ 464). { unfold Tabs. eapply Rle_trans; [apply (Rsum_le n _ (fun _ => 2 ^ 464)); intros i Hi; apply (t64 i Hi)|]. rewrite Rsum_const. lra. }
  assert (TP : 0 <= Tabs) by (apply Rsum_nonneg; intros; apply Rabs_pos).
  pose proof n400 as N4. assert (B2 : forall k, (k <= 3 * n + 3)%nat -> bt ^ k <= 2). { intros k Hk. pose proof (bt_le _ _ Hk). pose proof (bt_lin (3 * n + 3) ksmall). pose proof ksmall. lra. }
  assert (F0 : fin z) by reflexivity. assert (W0 : val z = 0) by reflexivity.
  destruct (acc_ok m z f n F0) with (k := n) as (A & B); auto.
  { intros i Hi. apply (t64 i Hi). }
  { unfold mag. rewrite W0, Rabs_R0, Rplus_0_l.
    assert (I4 : INR n <= 2 ^ 9) by (apply le_INR in N4; replace (INR 400) with 400 in N4 by (rewrite INR_IZR_INZ; reflexivity); lra).
    pose proof (pos_INR n). assert (L1 : Rsum n (fun i => Rabs (val (f i))) <= 2 * (2 ^ 9 * 2 ^ 464)).
    { eapply Rle_trans; [exact TA|]. apply Rmult_le_compat; auto; [apply Rlt_le, bt_pos|apply B2; lia|]. eapply Rle_trans; [exact TB|]. apply Rmult_le_compat_r; [apply pow_le; lra|exact I4]. }
    apply Rle_trans with (2 * (2 * (2 ^ 9 * 2 ^ 464))).
    - apply Rmult_le_compat; auto; [pose proof (pow_1u_ge1 n); lra|apply Rsum_nonneg; intros; apply Rabs_pos|]. eapply Rle_trans; [apply pow1u_bt|apply B2; lia].
    - rewrite <- pow_add, !tech_pow_Rmult. unfold big. apply pow_lit. lia. }
  split; [exact A|]. unfold mag in B. rewrite W0, Rabs_R0, !Rplus_0_l in B.
  assert (PP : bt ^ (3 * n + 3) = bt ^ n * bt ^ (2 * n + 3)) by (rewrite <- pow_add; f_equal; lia).
  match goal with |- Rabs (?a - Tsum) <= _ => replace (a - Tsum) with ((a - Rsum n (fun i => val (f i))) + (Rsum n (fun i => val (f i)) - Tsum)) by ring end.
  eapply Rle_trans; [apply Rabs_triang|]. eapply Rle_trans; [apply Rplus_le_compat; [exact B|exact DA]|].
  assert (C1 : ((1 + uu) ^ n - 1) * Rsum n (fun i => Rabs (val (f i))) <= (bt ^ n - 1) * (bt ^ (2 * n + 3) * Tabs)).
  { apply Rmult_le_compat; auto; [pose proof (pow_1u_ge1 n); lra|apply Rsum_nonneg; intros; apply Rabs_pos|]. pose proof (pow1u_bt n). lra. }
  eapply Rle_trans; [apply Rplus_le_compat_r; exact C1|]. rewrite PP. right. ring.
Qed.
Hypothesis (Hn : (1 <= n)%nat).
Definition Lam : R := Rsum n (fun j => Rabs (lagr n X j (val s))).
Lemma Xdist : distinct n X.
Proof. intros i j Hi Hj N E. destruct (Gap i j Hi Hj N) as (L & _). unfold X in E. rewrite E, Rminus_eq_0, Rabs_R0 in L. pose proof (Rinv_0_lt_compat G ltac:(lra)). lra. Qed.
Lemma soff j : (j < n)%nat -> val s <> X j.
Proof. intros Hj E. destruct (Off j Hj) as (L & _). unfold X in E. rewrite E, Rminus_eq_0, Rabs_R0 in L. pose proof (Rinv_0_lt_compat (2 ^ 61) ltac:(apply pow_lt; lra)). lra. Qed.
Lemma lagr_tm j : (j < n)%nat -> lagr n X j (val s) = tm j / Tsum /\ Tsum <> 0.
Proof.
  intros Hj. rewrite lagr_off by (auto using Xdist, soff). pose proof (bary_den n X (val s) Xdist ltac:(lia) soff) as B. fold Tsum in B. change (Rsum n (fun j => / wprod n X j / (val s - X j))) with Tsum in B.
  assert (S0 : Tsum <> 0) by (intros E; rewrite E in B; lra). split; auto. unfold tm.
  replace (Rprod n (fun m => val s - X m)) with (/ Tsum); [reflexivity|]. apply (Rmult_eq_reg_l Tsum); auto. rewrite B. field. auto.
Qed.
Lemma Tabs_Lam : Tabs = Lam * Rabs Tsum.
Proof.
  unfold Tabs, Lam. rewrite Rmult_comm, <- Rsum_scal. apply Rsum_ext. intros j Hj. destruct (lagr_tm j Hj) as (E & N). rewrite E. unfold Rdiv. rewrite Rabs_mult, Rabs_inv. field. apply Rabs_no_R0. exact N.
Qed.
Lemma lag64 i : (i < n)%nat -> 6 * INR (n + 1) * uu * Lam <= / 2 ->
  fin (ndiv (gterm x (gw x n) s i) (nsum n (gterm x (gw x n) s))) /\
  Rabs (val (ndiv (gterm x (gw x n) s i) (nsum n (gterm x (gw x n) s))) - lagr n X i (val s)) <= 12 * INR (n + 1) * uu * (1 + Lam) * Rabs (lagr n X i (val s)) + hh.
Proof.
  intros Hi HL. destruct (t64 i Hi) as (Ft & _ & q & Q & Vt). destruct sum64 as (FS & BS). destruct (lagr_tm i Hi) as (El & NS). rewrite Tabs_Lam in BS.
  set (e := 6 * INR (n + 1) * uu) in *. pose proof uu_pos as U. pose proof uu_small as US.
  assert (He : bt ^ (3 * n + 3) - 1 <= e). { eapply Rle_trans; [apply bt_lin, ksmall|]. unfold e. replace (3 * n + 3)%nat with (3 * (n + 1))%nat by lia. rewrite mult_INR. replace (INR 3) with 3 by (cbn; ring). right. ring. }
  assert (LP : 0 <= Lam) by (apply Rsum_nonneg; intros; apply Rabs_pos).
  assert (eu : 12 * uu <= e). { unfold e. apply le_INR in Hn. rewrite plus_INR. cbn [INR] in *. nra. }
  set (S' := val (nsum n (gterm x (gw x n) s))) in *. set (psi := S' / Tsum - 1).
  assert (ES : S' = Tsum * (1 + psi)) by (unfold psi; field; auto).
  assert (Hpsi : Rabs psi <= e * Lam).
  { assert (Rabs Tsum * Rabs psi <= Rabs Tsum * (e * Lam)).
    { rewrite <- Rabs_mult. replace (Tsum * psi) with (S' - Tsum) by (unfold psi; field; auto). eapply Rle_trans; [exact BS|]. replace (Rabs Tsum * (e * Lam)) with (e * (Lam * Rabs Tsum)) by ring. apply Rmult_le_compat_r; auto. apply Rmult_le_pos; auto using Rabs_pos. }
    apply Rmult_le_reg_l with (Rabs Tsum); auto. apply Rabs_pos_lt; auto. }
  assert (Hp2 : - / 2 <= psi <= / 2) by (apply Rabs_le_between; lra).
  assert (NS' : S' <> 0) by (rewrite ES; apply Rmult_integral_contrapositive; split; auto; lra).
  set (L := lagr n X i (val s)) in *.
  assert (Ey : val (gterm x (gw x n) s i) / S' = L * (q / (1 + psi))). { rewrite Vt, ES, El. field. split; [lra|auto]. }
  pose proof (rat_abs _ _ Q) as Qa. pose proof (bt_le (2 * n + 3) (3 * n + 3) ltac:(lia)) as Bq.
  assert (LL : Rabs L <= Lam). { unfold Lam. unfold L. apply (Rsum_term n (fun j => Rabs (lagr n X j (val s))) i); auto. intros; apply Rabs_pos. }
  assert (L53 : Lam <= 2 ^ 53). { assert (12 * uu * Lam <= e * Lam) by (apply Rmult_le_compat_r; auto). assert (uu * Lam <= 1) by lra. unfold uu in H0. apply Rmult_le_reg_l with (/ 2 ^ 53); [exact U|]. rewrite Rinv_l by lra. exact H0. }
  pose proof (rat_pos _ _ Q) as qp. assert (e2 : bt ^ (3 * n + 3) <= 2). { pose proof (bt_lin (3 * n + 3) ksmall). pose proof ksmall. lra. }
  assert (q2 : q <= 2) by (destruct Q; lra).
  assert (ip : 0 < / (1 + psi) <= 2). { split; [apply Rinv_0_lt_compat; lra|]. replace 2 with (/ / 2) by field. apply Rinv_le_contravar; lra. }
  destruct (div_ok (gterm x (gw x n) s i) (nsum n (gterm x (gw x n) s)) Ft NS') as (A & B).
  { apply rnd_small. fold S'. rewrite Ey. rewrite Rabs_mult. apply Rle_trans with (2 ^ 53 * 4); [|replace 4 with (2 ^ 2) by (cbn; ring); rewrite <- pow_add; apply pow_lit; lia].
    apply Rmult_le_compat; auto using Rabs_pos; [lra|]. unfold Rdiv. rewrite Rabs_pos_eq by (apply Rmult_le_pos; lra). replace 4 with (2 * 2) by ring. apply Rmult_le_compat; lra. }
  split; [exact A|]. cbn [ndiv BN B64num]. rewrite B. fold S'. rewrite Ey. destruct (rnd_err (L * (q / (1 + psi)))) as (d & ee & Dd & De & ->).
  replace (L * (q / (1 + psi)) * (1 + d) + ee - L) with (L * ((q * (1 + d) - 1 - psi) / (1 + psi)) + ee) by (field; lra).
  eapply Rle_trans; [apply Rabs_triang|]. apply Rplus_le_compat; [|exact De]. rewrite Rabs_mult, Rmult_comm. apply Rmult_le_compat_r; [apply Rabs_pos|].
  assert (Qd : rat (2 * n + 3 + 1) (q * (1 + d))) by (apply rat_mul; auto; apply rat_1; auto). pose proof (rat_abs _ _ Qd) as Qda.
  pose proof (bt_le (2 * n + 3 + 1) (3 * n + 3) ltac:(lia)) as Bq1.
  unfold Rdiv. rewrite Rabs_mult, (Rabs_pos_eq (/ (1 + psi))) by lra. replace (12 * INR (n + 1) * uu * (1 + Lam)) with ((e + e * Lam) * 2) by (unfold e; ring).
  apply Rmult_le_compat; [apply Rabs_pos|lra| |lra]. eapply Rle_trans; [apply (Rabs_triang _ (- psi))|]. rewrite Rabs_Ropp. lra.
Qed.
End Pts.
End Lag.
