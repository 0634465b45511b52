(** Rounding errors of the derivative values of the Legendre basis in binary64. *)
From Coquelicot Require Import Coquelicot.
From Coq Require Import ZArith Reals Lra Lia List Arith Bool.
From Flocq Require Import Core Relative BinarySingleNaN.
From Verif Require Import Num Outcome LinAlg LegendreModel LegendreSpec LegendreMath LegendreProofs StabMath IEEEModel IEEESpec IEEEProofs IEEEHorner IEEELegendre IEEESpline IEEELagrange IEEEDerivSpec.
Local Open Scope R_scope.

(** a forced recursion from zero *)
Section Forced.
Variables (x D : R) (e : nat -> R) (N : nat).
Hypothesis Hx : -1 <= x <= 1.
Hypothesis HD : 0 <= D.
Hypothesis E0 : e 0%nat = 0.
Hypothesis E1 : (1 <= N)%nat -> Rabs (e 1%nat) <= D.
Hypothesis ES : forall k, (S (S k) <= N)%nat -> Rabs (e (S (S k)) - ((2 * INR k + 3) * x * e (S k) - (INR k + 1) * e k) / (INR k + 2)) <= D.
Lemma forced_qf m : (S m <= N)%nat -> qf x (e (S m)) (e m) <= (INR (S m) * D) * (INR (S m) * D).
Proof.
  induction m as [|m IH]; intros Hm.
  - rewrite E0. unfold qf. replace (INR 1) with 1 by reflexivity. specialize (E1 Hm).
    apply Rabs_le_between in E1. assert (0 <= (D - e 1%nat) * (D + e 1%nat)) by (apply Rmult_le_pos; lra). nra.
  - specialize (IH ltac:(lia)). pose proof (ES m ltac:(lia)) as B. pose proof (pos_INR m) as Pm.
    set (z := ((2 * INR m + 3) * x * e (S m) - (INR m + 1) * e m) / (INR m + 2)) in *.
    assert (Ez : (INR m + 1 + 1) * z = (2 * (INR m + 1) + 1) * x * e (S m) - (INR m + 1) * e m) by (unfold z; field; lra).
    assert (Qz : qf x z (e (S m)) <= (INR (S m) * D) * (INR (S m) * D)) by (eapply Rle_trans; [apply (qf_step x (INR m + 1) (e (S m)) (e m) z Hx); [lra|exact Ez]|exact IH]).
    set (d := e (S (S m)) - z) in *.
    replace (e (S (S m))) with (z + d) by (unfold d; ring). set (M := INR (S m) * D) in *.
    assert (HM : 0 <= M) by (unfold M; apply Rmult_le_pos; [apply pos_INR|auto]).
    assert (A : Rabs (z - x * e (S m)) <= M). { apply sq_le; auto. rewrite qf_left in Qz. pose proof (w_pos x (e (S m)) Hx). lra. }
    replace (INR (S (S m)) * D) with (M + D) by (unfold M; rewrite (S_INR (S m)); ring).
    replace (qf x (z + d) (e (S m))) with (qf x z (e (S m)) + 2 * (d * (z - x * e (S m))) + d * d) by (unfold qf; ring).
    assert (d * (z - x * e (S m)) <= D * M). { eapply Rle_trans; [apply Rle_abs|]. rewrite Rabs_mult. apply Rmult_le_compat; auto; apply Rabs_pos. }
    assert (d * d <= D * D). { eapply Rle_trans; [apply Rle_abs|]. rewrite Rabs_mult. apply Rmult_le_compat; auto; apply Rabs_pos. }
    nra.
Qed.
Lemma forced m : (m <= N)%nat -> Rabs (e m) <= INR m * (INR m + 1) / 2 * D.
Proof.
  induction m as [|m IH]; intros Hm; [rewrite E0, Rabs_R0; cbn [INR]; lra|].
  specialize (IH ltac:(lia)). pose proof (forced_qf m Hm) as Q. rewrite qf_left in Q. pose proof (pos_INR m) as Pm.
  assert (A : Rabs (e (S m) - x * e m) <= INR (S m) * D). { apply sq_le; [apply Rmult_le_pos; [apply pos_INR|auto]|]. pose proof (w_pos x (e m) Hx). lra. }
  replace (e (S m)) with ((e (S m) - x * e m) + x * e m) by ring. eapply Rle_trans; [apply Rabs_triang|]. rewrite Rabs_mult.
  assert (Rabs x <= 1) by (apply Rabs_le; lra). assert (Rabs x * Rabs (e m) <= 1 * Rabs (e m)) by (apply Rmult_le_compat_r; [apply Rabs_pos|auto]). rewrite S_INR in *. nra.
Qed.
End Forced.

(** |P_n^(d)| <= n^(2d) on [-1, 1] *)
Lemma LD_bound x : -1 <= x <= 1 -> forall d n, Rabs (LD d n x) <= INR n ^ (2 * d).
Proof.
  intros Hx. assert (Ax : Rabs x <= 1) by (apply Rabs_le; lra). induction d as [|k IH]; intros n; [apply legP_bound; auto|].
  induction n as [|n IHn]; [rewrite LD_S_0, Rabs_R0; cbn [INR]; apply pow_le; lra|].
  rewrite LD_id1. eapply Rle_trans; [apply Rabs_triang|]. rewrite !Rabs_mult. pose proof (pos_INR n) as Pn. pose proof (pos_INR k) as Pk.
  replace (2 * S k)%nat with (2 * k + 2)%nat in * by lia. rewrite pow_add in *.
  assert (X1 : Rabs x * Rabs (LD (S k) n x) <= INR n ^ (2 * k) * INR n ^ 2). { rewrite <- (Rmult_1_l (INR n ^ (2 * k) * INR n ^ 2)). apply Rmult_le_compat; auto using Rabs_pos. }
  assert (P0 : 0 <= INR n ^ (2 * k)) by (apply pow_le; auto).
  assert (X2 : Rabs (INR n + 1 + INR k) * Rabs (LD k n x) <= (2 * INR n + 1) * INR n ^ (2 * k)).
  { destruct (Nat.le_gt_cases k n) as [L|L].
    - apply Rmult_le_compat; auto using Rabs_pos. rewrite Rabs_pos_eq by lra. apply le_INR in L. lra.
    - rewrite LD_low, Rabs_R0, Rmult_0_r by auto. apply Rmult_le_pos; lra. }
  apply Rle_trans with (INR n ^ (2 * k) * INR (S n) ^ 2).
  - rewrite S_INR. replace (INR n ^ (2 * k) * (INR n + 1) ^ 2) with (INR n ^ (2 * k) * INR n ^ 2 + (2 * INR n + 1) * INR n ^ (2 * k)) by ring. lra.
  - apply Rmult_le_compat_r; [apply pow2_ge_0|]. apply pow_incr. rewrite S_INR. lra.
Qed.
Lemma LD_boundK x d n K : -1 <= x <= 1 -> (n <= K)%nat -> Rabs (LD d n x) <= INR K ^ (2 * d).
Proof. intros Hx H. eapply Rle_trans; [apply LD_bound; auto|]. apply pow_incr. split; [apply pos_INR|apply le_INR; auto]. Qed.

Section Der.
Variable m : libm.
Local Instance BN : Num b64 := B64num m.

Lemma one64 : fin (n1 : b64) /\ val (n1 : b64) = 1.
Proof. exact (IEEELegendre.one64 m). Qed.
Lemma two64 : fin (c2 : b64) /\ val (c2 : b64) = 2.
Proof. exact (IEEELegendre.two64 m). Qed.
Lemma nofnat64 i : (i <= 2 ^ 53)%nat -> fin (nofnat i) /\ val (nofnat i) = INR i.
Proof. exact (IEEELegendre.nofnat64 m i). Qed.
Lemma exact_add a b (x y : b64) : fin x -> fin y -> val x = INR a -> val y = INR b -> (a + b <= 2 ^ 53)%nat -> fin (nadd x y) /\ val (nadd x y) = INR (a + b).
Proof. exact (IEEELegendre.exact_add m a b x y). Qed.
Lemma exact_mul a b (x y : b64) : fin x -> fin y -> val x = INR a -> val y = INR b -> (a * b <= 2 ^ 53)%nat -> fin (nmul x y) /\ val (nmul x y) = INR (a * b).
Proof. exact (IEEELegendre.exact_mul m a b x y). Qed.
Lemma mul64 (x y : b64) : fin x -> fin y -> bnd big (val x * val y) -> fin (nmul x y) /\ exists q, rat 1 q /\ val (nmul x y) = val x * val y * q.
Proof. exact (IEEELagrange.mul64 m x y). Qed.
Lemma div64 (x y : b64) : fin x -> val y <> 0 -> bnd big (val x / val y) -> fin (ndiv x y) /\ exists q, rat 1 q /\ val (ndiv x y) = val x / val y * q.
Proof. exact (IEEELagrange.div64 m x y). Qed.

Lemma mulr (x y : b64) B : fin x -> fin y -> Rabs (val x) * Rabs (val y) <= B -> B <= 16 * big ->
  fin (nmul x y) /\ exists d e, Rabs d <= uu /\ Rabs e <= hh /\ val (nmul x y) = val x * val y * (1 + d) + e.
Proof.
  intros Fx Fy H1 H2. destruct (mul_ok x y Fx Fy) as (A & B'); [apply rnd_big; rewrite Rabs_mult; lra|]. destruct (rnd_err (val x * val y)) as (d & e & D1 & E1 & Q). rewrite Q in B'.
  split; [exact A|]. exists d, e. auto.
Qed.
Lemma addr (x y : b64) B : fin x -> fin y -> Rabs (val x) + Rabs (val y) <= B -> B <= 16 * big ->
  fin (nadd x y) /\ exists d, Rabs d <= uu /\ val (nadd x y) = (val x + val y) * (1 + d).
Proof.
  intros Fx Fy H1 H2. pose proof (Rabs_triang (val x) (val y)). destruct (add_ok x y Fx Fy) as (A & B'); [apply rnd_big; lra|].
  destruct (rnd_err_plus (val x) (val y)) as (d & D1 & Q); [apply val_fmt|apply val_fmt|]. rewrite Q in B'. split; [exact A|]. exists d. auto.
Qed.
Lemma subr (x y : b64) B : fin x -> fin y -> Rabs (val x) + Rabs (val y) <= B -> B <= 16 * big ->
  fin (nsub x y) /\ exists d, Rabs d <= uu /\ val (nsub x y) = (val x - val y) * (1 + d).
Proof.
  intros Fx Fy H1 H2. assert (Rabs (val x - val y) <= Rabs (val x) + Rabs (val y)) by (unfold Rminus; eapply Rle_trans; [apply Rabs_triang|]; rewrite Rabs_Ropp; lra).
  destruct (sub_ok x y Fx Fy) as (A & B'); [apply rnd_big; lra|].
  destruct (rnd_err_minus (val x) (val y)) as (d & D1 & Q); [apply val_fmt|apply val_fmt|]. rewrite Q in B'. split; [exact A|]. exists d. auto.
Qed.
Lemma sz (v d e B : R) : Rabs d <= uu -> Rabs e <= hh -> Rabs v <= B -> Rabs (v * (1 + d) + e) <= B * (1 + uu) + hh.
Proof. intros D1 E1 H. eapply Rle_trans; [apply Rabs_triang|]. apply Rplus_le_compat; auto. rewrite Rabs_mult. apply Rmult_le_compat; auto using Rabs_pos, abs_1d. Qed.
Lemma pow6 : (1 + uu) ^ 6 - 1 <= 7 * uu.
Proof. pose proof pow5 as P. pose proof uu_pos. pose proof uu_small. change ((1 + uu) ^ 6) with ((1 + uu) * (1 + uu) ^ 5). nra. Qed.
Lemma rel6 p : rel 6 p -> Rabs (p - 1) <= 7 * uu.
Proof. unfold rel. pose proof pow6. lra. Qed.
Lemma inv_normal K : 1 <= K <= 2 ^ 53 -> 2 * hh * 2 ^ 53 <= / (K + 1).
Proof.
  intros HK. eapply Rle_trans; [apply normal_big|]. apply Rinv_le_contravar; [lra|]. unfold big. apply Rle_trans with (2 ^ 60); [cbn; lra|apply pow_lit; lia].
Qed.

(** one step of the recursion of order d *)
Lemma der_step64 i d (s b n p : b64) M : (1 <= d <= i)%nat -> (2 * i + 1 <= 2 ^ 53)%nat -> fin s -> fin b -> fin n -> fin p ->
  Rabs (val s) <= 1 -> INR d * Rabs (val b) <= M -> Rabs (val n) <= M -> Rabs (val p) <= M -> 1 <= M <= 2 ^ 910 ->
  let r := (n1 / (nofnat i + n1) * ((c2 * nofnat i + n1) * (nofnat d * b + s * n) - nofnat i * p))%num in
  fin r /\ Rabs (val r - ((2 * INR i + 1) * (INR d * val b + val s * val n) - INR i * val p) / (INR i + 1)) <= 45 * uu * M.
Proof.
  intros Hd Hk Fs Fb Fn Fp Bs Bb Bn Bp HM. cbv zeta. destruct one64 as (F1 & V1). destruct two64 as (F2 & V2).
  destruct (nofnat64 i) as (Fk & Vk); [lia|]. destruct (nofnat64 d) as (Fd0 & Vd0); [lia|].
  destruct (exact_add i 1 (nofnat i) n1) as (Fd & Vd); auto; [lia|].
  destruct (exact_mul 2 i c2 (nofnat i)) as (Fe & Ve); auto; [lia|].
  destruct (exact_add (2 * i) 1 (c2 * nofnat i)%num n1) as (Fg & Vg); auto; try lia.
  rewrite plus_INR in Vd, Vg. rewrite mult_INR in Vg. replace (INR 1) with 1 in * by reflexivity. replace (INR 2) with 2 in * by (cbn; ring).
  assert (K1 : 1 <= INR i) by (apply (le_INR 1); lia). assert (K2 : 2 * INR i + 1 <= 2 ^ 53).
  { pose proof (INR_53 _ Hk) as Q. rewrite plus_INR, mult_INR in Q. replace (INR 1) with 1 in Q by reflexivity. replace (INR 2) with 2 in Q by (cbn; ring). lra. }
  set (dd := (nofnat i + n1)%num) in *. set (gg := (c2 * nofnat i + n1)%num) in *. set (kk := nofnat i) in *. set (K := INR i) in *.
  pose proof uu_pos as U. pose proof uu_small as US. pose proof hh_pos as HP. pose proof hh_uu as HU.
  assert (BG : 2 ^ 910 * (2 ^ 53 * 16) <= big). { unfold big. replace (2 ^ 1000) with (2 ^ 910 * 2 ^ 90) by (rewrite <- pow_add; reflexivity). apply Rmult_le_compat_l; [apply pow_le; lra|]. cbn; lra. }
  set (zz := 2 ^ 53) in *. assert (Z1 : 9007199254740992 <= zz) by (unfold zz; cbn; lra).
  assert (HZ : M * (zz * 16) <= big). { eapply Rle_trans; [|exact BG]. apply Rmult_le_compat_r; lra. }
  assert (IK : 0 < / (K + 1)) by (apply Rinv_0_lt_compat; lra). assert (IK1 : / (K + 1) <= 1) by (rewrite <- Rinv_1; apply Rinv_le_contravar; lra).
  assert (MZ : M * 9007199254740992 <= M * zz) by (apply Rmult_le_compat_l; lra).
  assert (MU : M * uu <= M * / 1000000) by (apply Rmult_le_compat_l; lra).
  assert (MZU : M * zz * uu <= M * zz * / 1000000) by (apply Rmult_le_compat_l; nra).
  (* q *)
  destruct (rnd_err_normal (1 / (K + 1))) as (d5 & D5 & Q5). { unfold Rdiv. rewrite Rmult_1_l, (Rabs_pos_eq (/ (K + 1))) by lra. apply inv_normal. fold zz. lra. }
  destruct (div_ok n1 dd) as (Fq & Vq); [exact F1|rewrite Vd; lra| |].
  { rewrite V1, Vd. apply rnd_small. unfold Rdiv. rewrite Rmult_1_l, Rabs_pos_eq by lra. eapply Rle_trans; [exact IK1|]. cbn; lra. }
  rewrite V1, Vd, Q5 in Vq. change (Bdiv mode_NE n1 dd) with (n1 / dd)%num in Fq, Vq. set (q := (n1 / dd)%num) in *. assert (Wq : val q = 1 / (K + 1) * (1 + d5)) by exact Vq.
  (* d b *)
  assert (Ad : Rabs (INR d * val b) <= M) by (rewrite Rabs_mult, (Rabs_pos_eq (INR d)) by apply pos_INR; exact Bb).
  assert (As : Rabs (val s * val n) <= M) by (rewrite Rabs_mult, <- (Rmult_1_l M); apply Rmult_le_compat; auto using Rabs_pos).
  destruct (mulr (nofnat d) b M) as (G1 & d1 & e1 & D1 & E1 & W1); auto; [rewrite <- Rabs_mult, Vd0; exact Ad|lra|]. rewrite Vd0 in W1. set (p1 := (nofnat d * b)%num) in *.
  destruct (mulr s n M) as (G2 & d2 & e2 & D2 & E2 & W2); auto; [rewrite <- Rabs_mult; exact As|lra|]. set (p2 := (s * n)%num) in *.
  assert (S1 : Rabs (val p1) <= M * (1 + uu) + hh) by (rewrite W1; apply sz; auto). assert (S2 : Rabs (val p2) <= M * (1 + uu) + hh) by (rewrite W2; apply sz; auto).
  destruct (addr p1 p2 (M * (21 / 10))) as (G3 & d3 & D3 & W3); auto; [lra|lra|]. set (p3 := (p1 + p2)%num) in *.
  assert (S3 : Rabs (val p3) <= M * (22 / 10)).
  { rewrite W3, Rabs_mult. pose proof (Rabs_triang (val p1) (val p2)). pose proof (abs_1d d3 D3). apply Rle_trans with (M * (21 / 10) * (1 + uu)); [apply Rmult_le_compat; auto using Rabs_pos; lra|lra]. }
  assert (AG : Rabs (2 * K + 1) <= zz) by (rewrite Rabs_pos_eq; lra).
  assert (S4' : Rabs ((2 * K + 1) * val p3) <= zz * (M * (22 / 10))) by (rewrite Rabs_mult; apply Rmult_le_compat; auto using Rabs_pos).
  destruct (mulr gg p3 (zz * (M * (22 / 10)))) as (G4 & d4 & e4 & D4 & E4 & W4); auto; [rewrite <- Rabs_mult, Vg; exact S4'|lra|]. rewrite Vg in W4. set (p4 := (gg * p3)%num) in *.
  assert (S5' : Rabs (K * val p) <= zz * M) by (rewrite Rabs_mult; apply Rmult_le_compat; auto using Rabs_pos; rewrite Rabs_pos_eq; lra).
  destruct (mulr kk p (zz * M)) as (G5 & d6 & e6 & D6 & E6 & W5); auto; [rewrite <- Rabs_mult, Vk; exact S5'|lra|]. rewrite Vk in W5. set (p5 := (kk * p)%num) in *.
  assert (S4 : Rabs (val p4) <= zz * (M * (22 / 10)) * (1 + uu) + hh) by (rewrite W4; apply sz; auto). assert (S5 : Rabs (val p5) <= zz * M * (1 + uu) + hh) by (rewrite W5; apply sz; auto).
  destruct (subr p4 p5 (zz * M * 4)) as (G6 & d7 & D7 & W6); auto; [lra|lra|]. set (p6 := (p4 - p5)%num) in *.
  assert (S6 : Rabs (val p6) <= zz * M * 4 * (1 + uu)).
  { rewrite W6, Rabs_mult. apply Rmult_le_compat; auto using Rabs_pos, abs_1d. unfold Rminus. eapply Rle_trans; [apply Rabs_triang|]. rewrite Rabs_Ropp. lra. }
  assert (Sq : Rabs (val q) <= 1 + uu). { rewrite Wq, Rabs_mult, <- (Rmult_1_l (1 + uu)). apply Rmult_le_compat; auto using Rabs_pos, abs_1d. unfold Rdiv. rewrite Rmult_1_l, Rabs_pos_eq; lra. }
  destruct (mulr q p6 ((1 + uu) * (zz * M * 4 * (1 + uu)))) as (G7 & d8 & e8 & D8 & E8 & W7); auto; [apply Rmult_le_compat; auto using Rabs_pos| |].
  { assert (UU : (1 + uu) * (1 + uu) <= 2) by nra. apply Rle_trans with (2 * (zz * M * 4)); [|lra]. rewrite <- Rmult_assoc, (Rmult_comm (1 + uu)), Rmult_assoc, (Rmult_comm 2). apply Rmult_le_compat_l; [nra|exact UU]. }
  split; [exact G7|]. rewrite W7, Wq, W6, W5, W4, W3, W2, W1.
  clear - D1 D2 D3 D4 D5 D6 D7 D8 E1 E2 E4 E6 E8 Bp Ad As K1 IK IK1 U US HP HU HM.
  set (f := (1 + d5) * (1 + d7) * (1 + d8)).
  assert (R3 : rel 3 f). { unfold f. apply (rel_mul 2 1); [apply (rel_mul 1 1)|]; apply rel_1; auto. }
  set (g := f * ((1 + d3) * (1 + d4))). assert (R5 : rel 5 g). { unfold g. apply (rel_mul 3 2); auto. apply (rel_mul 1 1); apply rel_1; auto. }
  set (t1 := g * (1 + d1)). set (t2 := g * (1 + d2)). set (t3 := f * (1 + d6)).
  assert (R1 : Rabs (t1 - 1) <= 7 * uu). { apply rel6. apply (rel_mul 5 1); auto. apply rel_1; auto. }
  assert (R2 : Rabs (t2 - 1) <= 7 * uu). { apply rel6. apply (rel_mul 5 1); auto. apply rel_1; auto. }
  assert (R4 : Rabs (t3 - 1) <= 7 * uu). { apply rel6. apply (rel_le 4); [lia|]. apply (rel_mul 3 1); auto. apply rel_1; auto. }
  assert (Rf : Rabs f <= 2). { assert (Rabs (f - 1) <= 6 * uu) by (apply rel5, (rel_le 3); auto). replace f with ((f - 1) + 1) by ring. eapply Rle_trans; [apply Rabs_triang|]. rewrite Rabs_R1. lra. }
  assert (Rg : Rabs g <= 2). { assert (Rabs (g - 1) <= 6 * uu) by (apply rel5; auto). replace g with ((g - 1) + 1) by ring. eapply Rle_trans; [apply Rabs_triang|]. rewrite Rabs_R1. lra. }
  set (x := INR d * val b) in *. set (y := val s * val n) in *. set (z := val p) in *.
  match goal with |- Rabs ?e <= _ => replace e with
    ((2 * K + 1) / (K + 1) * (x * (t1 - 1) + y * (t2 - 1) + g * (e1 + e2)) + - (K / (K + 1) * (z * (t3 - 1))) + (f * / (K + 1) * (e4 + - e6) + e8)) by (unfold t1, t2, t3, g, f; field; lra) end.
  assert (C1 : 0 <= (2 * K + 1) / (K + 1) <= 2). { split; [apply Rdiv_le_0_compat; lra|]. apply Rle_div_l; lra. }
  assert (C2 : 0 <= K / (K + 1) <= 1). { split; [apply Rdiv_le_0_compat; lra|]. apply Rle_div_l; lra. }
  assert (X1 : Rabs (x * (t1 - 1)) <= M * (7 * uu)) by (rewrite Rabs_mult; apply Rmult_le_compat; auto using Rabs_pos).
  assert (X2 : Rabs (y * (t2 - 1)) <= M * (7 * uu)) by (rewrite Rabs_mult; apply Rmult_le_compat; auto using Rabs_pos).
  assert (X3 : Rabs (z * (t3 - 1)) <= M * (7 * uu)) by (rewrite Rabs_mult; apply Rmult_le_compat; auto using Rabs_pos).
  assert (X4 : Rabs (g * (e1 + e2)) <= 2 * (2 * hh)) by (rewrite Rabs_mult; apply Rmult_le_compat; auto using Rabs_pos; eapply Rle_trans; [apply Rabs_triang|lra]).
  assert (X5 : Rabs (e4 + - e6) <= 2 * hh) by (eapply Rle_trans; [apply Rabs_triang|rewrite Rabs_Ropp; lra]).
  assert (T1 : Rabs ((2 * K + 1) / (K + 1) * (x * (t1 - 1) + y * (t2 - 1) + g * (e1 + e2))) <= 2 * (M * (7 * uu) + M * (7 * uu) + 2 * (2 * hh))).
  { rewrite Rabs_mult. apply Rmult_le_compat; auto using Rabs_pos; [rewrite Rabs_pos_eq; lra|]. eapply Rle_trans; [apply Rabs_triang|]. apply Rplus_le_compat; auto. eapply Rle_trans; [apply Rabs_triang|]. lra. }
  assert (T2 : Rabs (- (K / (K + 1) * (z * (t3 - 1)))) <= 1 * (M * (7 * uu))).
  { rewrite Rabs_Ropp, Rabs_mult. apply Rmult_le_compat; auto using Rabs_pos. rewrite Rabs_pos_eq; lra. }
  assert (T4 : Rabs (f * / (K + 1) * (e4 + - e6)) <= 2 * 1 * (2 * hh)).
  { rewrite 2Rabs_mult. repeat apply Rmult_le_compat; auto using Rabs_pos, Rmult_le_pos. rewrite Rabs_pos_eq; lra. }
  assert (UM : uu <= uu * M) by (rewrite <- (Rmult_1_r uu) at 1; apply Rmult_le_compat_l; lra).
  eapply Rle_trans; [apply Rabs_triang|]. eapply Rle_trans; [apply Rplus_le_compat_r, Rabs_triang|]. eapply Rle_trans; [apply Rplus_le_compat_l, Rabs_triang|]. lra.
Qed.

(** (2d-1)!! *)
Lemma n53 a : INR a <= 2 ^ 53 -> (a <= 2 ^ 53)%nat.
Proof. intros Ha. apply INR_le. rewrite pow_INR. exact Ha. Qed.
Lemma aux64 e B : 2 * INR e + 1 <= 2 ^ 50 -> dfact (S e) <= B -> B <= 2 ^ 910 -> fin (gaux e) /\ exists q, rat (3 * e) q /\ val (gaux e) = dfact (S e) * q.
Proof.
  intros He HB HB2. destruct one64 as (F1 & V1). destruct two64 as (F2 & V2).
  assert (P53 : 2 ^ 53 = 8 * 2 ^ 50) by (cbn; ring).
  assert (DP : forall j, 1 <= dfact j). { induction j as [|j IHj]; cbn [dfact]; [lra|]. pose proof (pos_INR j). nra. }
  revert He HB. induction e as [|e IH]; intros He HB.
  { cbn [gaux]. split; auto. exists 1. split; [unfold rat; cbn; lra|]. replace (dfact 1) with 1 by (cbn [dfact INR]; ring). rewrite V1. ring. }
  assert (DS : dfact (S (S e)) = (2 * INR (S e) + 1) * dfact (S e)) by reflexivity.
  assert (KS : 1 <= INR (S e)) by (apply (le_INR 1); lia). pose proof (DP (S e)) as D1.
  destruct IH as (Fa & q & Rq & Va); [rewrite S_INR in He; lra|rewrite DS in HB; nra|].
  assert (N1 : (S e <= 2 ^ 53)%nat) by (apply n53; lra). assert (N2 : (S e + 1 <= 2 ^ 53)%nat) by (apply n53; rewrite plus_INR; change (INR 1) with 1; lra).
  assert (N3 : (2 * S e <= 2 ^ 53)%nat) by (apply n53; rewrite mult_INR; change (INR 2) with (1 + 1); lra). assert (N4 : (2 * S e + 1 <= 2 ^ 53)%nat) by (apply n53; rewrite plus_INR, mult_INR; change (INR 2) with (1 + 1); change (INR 1) with 1; lra).
  destruct (nofnat64 (S e) N1) as (Fk & Vk). destruct (exact_add (S e) 1 (nofnat (S e)) n1) as (Fd & Vd); [exact Fk|exact F1|exact Vk|exact V1|exact N2|].
  destruct (exact_mul 2 (S e) c2 (nofnat (S e))) as (Fe & Ve); [exact F2|exact Fk|exact V2|exact Vk|exact N3|].
  destruct (exact_add (2 * S e) 1 (c2 * nofnat (S e))%num n1) as (Fg & Vg); [exact Fe|exact F1|exact Ve|exact V1|exact N4|]. clear N1 N2 N3 N4.
  rewrite plus_INR in Vd, Vg. rewrite mult_INR in Vg. replace (INR 1) with 1 in * by reflexivity. replace (INR 2) with 2 in * by (cbn; ring).
  set (K := INR (S e)) in *. assert (K2 : 2 * K + 1 <= 2 ^ 50) by exact He.
  assert (BB : bt <= 2) by (pose proof bt2; pose proof bt_ge1; cbn in *; nra).
  assert (R6 : bt ^ (3 * S e) <= 2).
  { assert (Q : INR (3 * S e) * uu <= / 2). { rewrite mult_INR. fold K. replace (INR 3) with 3 by (cbn; ring). assert (uu * 2 ^ 53 = 1) by (unfold uu; apply Rinv_l, pow_nonzero; lra). rewrite P53 in H. pose proof uu_pos. nra. }
    pose proof (bt_lin _ Q). lra. }
  assert (CB : forall C j z r, 1 <= C -> C <= 2 ^ 910 -> / C <= Rabs z <= C -> (j <= 3 * S e)%nat -> rat j r -> bnd big (z * r)).
  { intros C j z r HC HC2 Hz Hj Hr. apply (bnd_le (C * 2)); [lra| |apply bnd_mul; [lra|lra|exact Hz|]].
    - apply Rle_trans with (2 ^ 910 * 2); [lra|]. unfold big. replace (2 ^ 910 * 2) with (2 ^ 911) by (change (2 ^ 911) with (2 * 2 ^ 910); ring). apply pow_lit. lia.
    - apply (bnd_le (bt ^ (3 * S e))); [apply bt_pos|exact R6|]. apply bnd_rat. eapply rat_le; [|exact Hr]. lia. }
  assert (P9 : 2 ^ 60 <= 2 ^ 910) by (apply pow_lit; lia). assert (P6 : 2 ^ 60 = 1024 * 2 ^ 50) by (cbn; ring). set (w := 2 ^ 50) in *.
  cbn [gaux]. set (dd := (nofnat (S e) + n1)%num) in *. set (gg := (c2 * nofnat (S e) + n1)%num) in *.
  assert (Y1 : 1 <= (2 * K + 1) / (K + 1) <= 2) by (split; [apply Rle_div_r; lra|apply Rle_div_l; lra]).
  destruct (div64 gg dd) as (G1 & q1 & R1 & W1); [exact Fg|rewrite Vd; lra| |].
  { rewrite Vg, Vd. rewrite <- (Rmult_1_r ((2 * K + 1) / (K + 1))). apply (CB 2 0%nat); [lra|lra| |lia|unfold rat; cbn; lra]. rewrite Rabs_pos_eq by lra. lra. }
  rewrite Vg, Vd in W1.
  set (p1 := (gg / dd)%num) in *.
  destruct (mul64 p1 dd) as (G2 & q2 & R2 & W2); auto.
  { rewrite W1, Vd. replace ((2 * K + 1) / (K + 1) * q1 * (K + 1)) with ((2 * K + 1) * q1) by (field; lra). apply (CB w 1%nat); auto; [lra|lra| |lia]. rewrite Rabs_pos_eq by lra. split; [|exact K2].
    apply Rle_trans with 1; [rewrite <- Rinv_1; apply Rinv_le_contravar; lra|lra]. }
  rewrite W1, Vd in W2. set (p2 := (p1 * dd)%num) in *.
  assert (RR : rat (2 + 3 * e) (q1 * q2 * q)) by (apply (rat_mul 2); auto; apply (rat_mul 1 1); auto).
  destruct (mul64 p2 (gaux e)) as (G3 & q3 & R3 & W3); auto.
  { rewrite W2, Va. replace ((2 * K + 1) / (K + 1) * q1 * (K + 1) * q2 * (dfact (S e) * q)) with (dfact (S (S e)) * (q1 * q2 * q)) by (rewrite DS; field; lra).
    pose proof (DP (S (S e))). apply (CB B (2 + 3 * e)%nat); auto; [lra| |lia]. rewrite Rabs_pos_eq by lra. split; [|exact HB]. apply Rle_trans with 1; [rewrite <- Rinv_1; apply Rinv_le_contravar; lra|lra]. }
  split; [exact G3|]. exists (q1 * q2 * q * q3). split; [apply (rat_le (2 + 3 * e + 1)); [lia|]; apply rat_mul; auto|].
  rewrite W3, W2, Va, DS. field. lra.
Qed.
End Der.
