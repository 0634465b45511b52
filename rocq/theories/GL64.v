(** Gauss-Lobatto points and weights in binary64: q_and_evaluation. *)
From Coquelicot Require Import Coquelicot.
From Coq Require Import ZArith Reals Lra Lia List Arith Bool Psatz.
From Flocq Require Import Core Relative BinarySingleNaN.
From Verif Require Import Num Outcome LinAlg LegendreModel LegendreSpec LegendreMath LegendreProofs StabMath IEEEModel IEEESpec IEEEProofs IEEEHorner IEEELegendre
  GLSpec QuadSpec LobattoRoots GLModel GLProofs GLProofs2.
Local Open Scope R_scope.

Lemma pow4 : (1 + uu) ^ 4 - 1 <= 41 / 10 * uu.
Proof.
  pose proof uu_pos. pose proof uu_small. assert (E : forall a, 0 <= a <= 100 -> (1 + a * uu) * (1 + uu) <= 1 + (a + 1 + / 10000) * uu) by (intros; nra).
  cbn [pow]. rewrite Rmult_1_r. pose proof (E 1 ltac:(lra)) as E1. rewrite Rmult_1_l in E1.
  pose proof (E (1 + 1 + /10000) ltac:(lra)). pose proof (E (1 + 1 + /10000 + 1 + /10000) ltac:(lra)). nra.
Qed.
Lemma rel4 p : rel 4 p -> Rabs (p - 1) <= 41 / 10 * uu.
Proof. unfold rel. pose proof pow4. lra. Qed.
Lemma tiny_normal : 2 * hh * 2 ^ 53 <= / 2 ^ 60.
Proof.
  assert (E : 2 ^ 1075 = 2 ^ 53 * 2 ^ 60 * (2 ^ 100 * 2 ^ 862)) by (rewrite <- !pow_add; reflexivity). unfold hh. rewrite E, !Rinv_mult.
  assert (P0 : 2 ^ 53 <> 0) by (apply pow_nonzero; lra). assert (P1 : 0 < / 2 ^ 60) by (apply Rinv_0_lt_compat, pow_lt; lra).
  replace (2 * (/ 2 ^ 53 * / 2 ^ 60 * (/ 2 ^ 100 * / 2 ^ 862)) * 2 ^ 53) with (/ 2 ^ 60 * (2 * (/ 2 ^ 100 * / 2 ^ 862))) by (field; repeat split; apply pow_nonzero; lra).
  rewrite <- (Rmult_1_r (/ 2 ^ 60)) at 2. apply Rmult_le_compat_l; [lra|]. rewrite <- Rinv_mult, <- pow_add.
  apply (Rmult_le_reg_r (2 ^ (100 + 862))); [apply pow_lt; lra|]. rewrite Rmult_assoc, Rinv_l, Rmult_1_r, Rmult_1_l by (apply pow_nonzero; lra). apply Rle_trans with (2 ^ 1); [lra|apply pow_lit; lia].
Qed.
(** products and quotients away from the ends of the range *)
Lemma rnd_rel x : / 2 ^ 60 <= Rabs x -> exists d, Rabs d <= uu /\ rnd x = x * (1 + d).
Proof. intros H. apply rnd_err_normal. pose proof tiny_normal. lra. Qed.

Section GL.
Variable m : libm.
Local Instance BN : Num b64 := B64num m.
Lemma one_v : fin (n1 : b64) /\ val (n1 : b64) = 1. Proof. exact (one64 m). Qed.
Lemma two_v : fin (c2 : b64) /\ val (c2 : b64) = 2. Proof. exact (two64 m). Qed.
Lemma nat_v k : (k <= 2 ^ 53)%nat -> fin (nofnat k : b64) /\ val (nofnat k : b64) = INR k. Proof. exact (nofnat64 m k). Qed.
Lemma mul_v a b (x y : b64) : fin x -> fin y -> val x = INR a -> val y = INR b -> (a * b <= 2 ^ 53)%nat -> fin (nmul x y) /\ val (nmul x y) = INR (a * b).
Proof. exact (exact_mul m a b x y). Qed.
Lemma q_odd64 k : (1 <= k)%nat -> (2 * k <= 2 ^ 53)%nat -> fin (q_odd k) /\ val (q_odd k) = 2 * INR k - 1.
Proof.
  intros H1 Hk. destruct one_v as (F1 & V1). destruct two_v as (F2 & V2). destruct (nat_v k) as (Fk & Vk); [lia|].
  destruct (mul_v 2 k c2 (nofnat k)) as (Fe & Ve); auto.
  unfold q_odd. fold BN. set (p := (c2 * nofnat k)%num) in *. cbn [nsub BN B64num]. rewrite mult_INR in Ve. replace (INR 2) with 2 in Ve by (simpl; ring).
  assert (E : rnd (val p - val (n1 : b64)) = 2 * INR k - 1).
  { rewrite V1. transitivity (rnd (INR (2 * k - 1))); [f_equal; rewrite Ve, minus_INR, mult_INR by lia; simpl; ring|]. rewrite rnd_fmt; [|apply INR_fmt; lia]. rewrite minus_INR, mult_INR by lia. simpl. ring. }
  assert (K1 : 1 <= INR k) by (apply (le_INR 1); lia). assert (K2 : 2 * INR k <= 2 ^ 53). { pose proof (INR_53 _ Hk) as Q. rewrite mult_INR in Q. replace (INR 2) with 2 in Q by (simpl; ring). lra. }
  destruct (sub_ok p n1 Fe F1) as (A & B); [|split; [exact A|]; rewrite <- E; exact B]. apply rnd_small. rewrite V1, Ve. rewrite Rabs_pos_eq by lra. apply Rle_trans with (2 ^ 53); [lra|]. apply pow_lit; lia.
Qed.
(** one step of the recursion *)
Lemma q_rec64 k (t a b : b64) : (2 <= k)%nat -> (2 * k <= 2 ^ 53)%nat -> fin t -> fin a -> fin b ->
  Rabs (val t) <= 1 -> Rabs (val a) <= 17 / 16 -> Rabs (val b) <= 17 / 16 ->
  fin (q_rec t k a b) /\ Rabs (val (q_rec t k a b) - ((2 * INR k - 1) * val t * val a - (INR k - 1) * val b) / INR k) <= 14 * uu.
Proof.
  intros H2 Hk Ft Fa Fb Bt Ba Bb. destruct one_v as (F1 & V1). destruct (nat_v k) as (Fk & Vk); [lia|].
  destruct (q_odd64 k ltac:(lia) Hk) as (Fo & Vo).
  assert (K2 : 2 <= INR k) by (apply (le_INR 2); lia). assert (K3 : 2 * INR k <= 2 ^ 53). { pose proof (INR_53 _ Hk) as Q. rewrite mult_INR in Q. replace (INR 2) with 2 in Q by (simpl; ring). lra. }
  unfold q_rec. fold BN. cbn [nsub nmul ndiv BN B64num]. 
  change (q_odd k) with (@q_odd b64 BN k) in *. set (oo := @q_odd b64 BN k) in *. change (@nofnat b64 (B64num m) k) with (@nofnat b64 BN k) in *. set (kk := @nofnat b64 BN k) in *. set (K := INR k) in *.
  pose proof uu_pos as U. pose proof uu_small as US. pose proof hh_pos as HP. pose proof hh_uu as HU.
  assert (P60 : 4 <= 2 ^ 60) by (apply Rle_trans with (2 ^ 2); [lra|apply pow_lit; lia]). assert (I60 : / 2 ^ 60 <= / 4) by (apply Rinv_le_contravar; lra).
  (* k - 1 *)
  assert (E1 : rnd (val kk - val (n1 : b64)) = K - 1).
  { rewrite V1, Vk. transitivity (rnd (INR (k - 1))); [f_equal; rewrite minus_INR by lia; unfold K; simpl; ring|]. rewrite rnd_fmt; [|apply INR_fmt; lia]. rewrite minus_INR by lia. unfold K. simpl. ring. }
  destruct (sub_ok kk n1 Fk F1) as (Fm & Vm). { apply rnd_small. rewrite V1, Vk, Rabs_pos_eq by lra. apply Rle_trans with (2 ^ 53); [lra|]. apply pow_lit; lia. }
  change (B64num m) with BN. set (km := Bminus mode_NE kk n1) in *. assert (Wm : val km = K - 1) by (rewrite <- E1; exact Vm). clear Vm.
  (* quotients *)
  assert (Q1 : 1 <= (2 * K - 1) / K <= 2). { split; [apply Rle_div_r; lra|apply Rle_div_l; lra]. }
  assert (Q2 : / 2 <= (K - 1) / K <= 1). { split; [apply Rle_div_r; lra|apply Rle_div_l; lra]. }
  destruct (rnd_rel ((2 * K - 1) / K)) as (d1 & D1 & R1). { rewrite Rabs_pos_eq; lra. }
  destruct (div_ok oo kk) as (Fq & Vq); [exact Fo|rewrite Vk; lra|rewrite Vo, Vk; apply rnd_small; rewrite Rabs_pos_eq; lra|]. rewrite Vo, Vk, R1 in Vq. set (q := Bdiv mode_NE oo kk) in *.
  destruct (rnd_rel ((K - 1) / K)) as (d4 & D4 & R4). { rewrite Rabs_pos_eq; lra. }
  destruct (div_ok km kk) as (Fr & Vr); [exact Fm|rewrite Vk; lra|rewrite Wm, Vk; apply rnd_small; rewrite Rabs_pos_eq; lra|]. rewrite Wm, Vk, R4 in Vr. set (r := Bdiv mode_NE km kk) in *.
  assert (Wq : Rabs (val q) <= 21 / 10). { rewrite Vq, Rabs_mult. apply Rle_trans with (2 * (1 + uu)); [apply Rmult_le_compat; auto using Rabs_pos, abs_1d; rewrite Rabs_pos_eq; lra|lra]. }
  assert (Wr : Rabs (val r) <= 11 / 10). { rewrite Vr, Rabs_mult. apply Rle_trans with (1 * (1 + uu)); [apply Rmult_le_compat; auto using Rabs_pos, abs_1d; rewrite Rabs_pos_eq; lra|lra]. }
  (* products *)
  assert (X1 : Rabs (val q * val t) <= 21 / 10) by (rewrite Rabs_mult; apply Rle_trans with (21 / 10 * 1); [apply Rmult_le_compat; auto using Rabs_pos|lra]).
  destruct (mul_ok q t Fq Ft) as (F3 & V3). { apply rnd_small; lra. }
  destruct (rnd_err (val q * val t)) as (d2 & e2 & D2 & E2 & R2). rewrite R2 in V3. set (p1 := Bmult mode_NE q t) in *.
  assert (Y1 : Rabs (val p1) <= 22 / 10). { rewrite V3. eapply Rle_trans; [apply Rabs_triang|]. rewrite Rabs_mult. assert (Rabs (val q * val t) * Rabs (1 + d2) <= 21 / 10 * (1 + uu)) by (apply Rmult_le_compat; auto using Rabs_pos, abs_1d). lra. }
  assert (X2 : Rabs (val p1 * val a) <= 24 / 10) by (rewrite Rabs_mult; apply Rle_trans with (22 / 10 * (17 / 16)); [apply Rmult_le_compat; auto using Rabs_pos|lra]).
  destruct (mul_ok p1 a F3 Fa) as (F4 & V4). { apply rnd_small; lra. }
  destruct (rnd_err (val p1 * val a)) as (d3 & e3 & D3 & E3 & R3). rewrite R3 in V4. set (p2 := Bmult mode_NE p1 a) in *.
  assert (Y2 : Rabs (val p2) <= 25 / 10). { rewrite V4. eapply Rle_trans; [apply Rabs_triang|]. rewrite Rabs_mult. assert (Rabs (val p1 * val a) * Rabs (1 + d3) <= 24 / 10 * (1 + uu)) by (apply Rmult_le_compat; auto using Rabs_pos, abs_1d). lra. }
  assert (X3 : Rabs (val r * val b) <= 12 / 10) by (rewrite Rabs_mult; apply Rle_trans with (11 / 10 * (17 / 16)); [apply Rmult_le_compat; auto using Rabs_pos|lra]).
  destruct (mul_ok r b Fr Fb) as (F5 & V5). { apply rnd_small; lra. }
  destruct (rnd_err (val r * val b)) as (d5 & e5 & D5 & E5 & R5). rewrite R5 in V5. set (p3 := Bmult mode_NE r b) in *.
  assert (Y3 : Rabs (val p3) <= 13 / 10). { rewrite V5. eapply Rle_trans; [apply Rabs_triang|]. rewrite Rabs_mult. assert (Rabs (val r * val b) * Rabs (1 + d5) <= 12 / 10 * (1 + uu)) by (apply Rmult_le_compat; auto using Rabs_pos, abs_1d). lra. }
  assert (X4 : Rabs (val p2 - val p3) <= 4). { unfold Rminus. eapply Rle_trans; [apply Rabs_triang|]. rewrite Rabs_Ropp. lra. }
  destruct (sub_ok p2 p3 F4 F5) as (F6 & V6). { apply rnd_small; lra. }
  destruct (rnd_err_minus (val p2) (val p3)) as (d6 & D6 & R6); [apply val_fmt|apply val_fmt|]. rewrite R6 in V6.
  split; [exact F6|]. match goal with |- Rabs (val ?w - _) <= _ => change (val w) with (val (Bminus mode_NE p2 p3)) end. rewrite V6, V5, V4, V3, Vq, Vr.
  clear - D1 D2 D3 D4 D5 D6 E2 E3 E5 Bt Ba Bb K2 U US HP HU Q1 Q2.
  set (x := val t) in *. set (y := val a) in *. set (z := val b) in *.
  set (t1 := (1 + d1) * (1 + d2) * (1 + d3) * (1 + d6)). set (t2 := (1 + d4) * (1 + d5) * (1 + d6)).
  assert (R1 : Rabs (t1 - 1) <= 41 / 10 * uu). { apply rel4. unfold t1. apply (rel_mul 3 1); [apply (rel_mul 2 1); [apply (rel_mul 1 1)|]|]; apply rel_1; auto. }
  assert (R2 : Rabs (t2 - 1) <= 41 / 10 * uu). { apply rel4. apply (rel_le 3); [lia|]. unfold t2. apply (rel_mul 2 1); [apply (rel_mul 1 1)|]; apply rel_1; auto. }
  match goal with |- Rabs ?e <= _ => replace e with
    ((2 * K - 1) / K * ((x * y) * (t1 - 1)) + - ((K - 1) / K * (z * (t2 - 1))) + (1 + d6) * (e2 * y * (1 + d3) + e3 + - e5)) by (unfold t1, t2; field; lra) end.
  assert (XY : Rabs (x * y) <= 17 / 16). { rewrite Rabs_mult. apply Rle_trans with (1 * (17 / 16)); [apply Rmult_le_compat; auto using Rabs_pos|lra]. }
  assert (T1 : Rabs ((2 * K - 1) / K * ((x * y) * (t1 - 1))) <= 2 * (17 / 16 * (41 / 10 * uu))).
  { rewrite Rabs_mult, (Rabs_mult (x * y)). apply Rmult_le_compat; auto using Rabs_pos, Rmult_le_pos; [rewrite Rabs_pos_eq; lra|apply Rmult_le_compat; auto using Rabs_pos]. }
  assert (T2 : Rabs (- ((K - 1) / K * (z * (t2 - 1)))) <= 1 * (17 / 16 * (41 / 10 * uu))).
  { rewrite Rabs_Ropp, !Rabs_mult. apply Rmult_le_compat; auto using Rabs_pos, Rmult_le_pos; [rewrite Rabs_pos_eq; lra|apply Rmult_le_compat; auto using Rabs_pos]. }
  assert (T3 : Rabs (e2 * y * (1 + d3) + e3 + - e5) <= 4 * hh).
  { eapply Rle_trans; [apply Rabs_triang|]. eapply Rle_trans; [apply Rplus_le_compat_r, Rabs_triang|]. rewrite Rabs_Ropp, !Rabs_mult.
    assert (Rabs e2 * Rabs y * Rabs (1 + d3) <= hh * (17 / 16) * (1 + uu)) by (repeat apply Rmult_le_compat; auto using Rabs_pos, Rmult_le_pos, abs_1d). nra. }
  assert (T4 : Rabs ((1 + d6) * (e2 * y * (1 + d3) + e3 + - e5)) <= 2 * (4 * hh)).
  { rewrite Rabs_mult. apply Rmult_le_compat; auto using Rabs_pos. pose proof (abs_1d d6 D6). lra. }
  eapply Rle_trans; [apply Rabs_triang|]. eapply Rle_trans; [apply Rplus_le_compat_r, Rabs_triang|]. lra.
Qed.

(** the values of the recursion *)
Section Eval.
Variable t : b64.
Hypothesis Ft : fin t.
Hypothesis Bt : Rabs (val t) <= 1.
Definition lv k : b64 := fst (fst (fst (ql2 t k))).
Definition dv k : b64 := snd (fst (ql2 t k)).
Lemma ql2_eq k : ql2 t k = (lv k, lv (S k), dv k, dv (S k)).
Proof. unfold lv, dv. cbn [ql2]. destruct (ql2 t k) as [[[a b] c] d]. reflexivity. Qed.
Lemma lv_SS k : lv (S (S k)) = q_rec t (k + 2) (lv (S k)) (lv k).
Proof. unfold lv at 1. cbn [ql2]. rewrite ql2_eq. reflexivity. Qed.
Lemma dv_SS k : dv (S (S k)) = (dv k + q_odd (k + 2) * lv (S k))%num.
Proof. unfold dv at 1. cbn [ql2]. rewrite ql2_eq. reflexivity. Qed.
Lemma p53 : (3000 <= 2 ^ 53)%nat.
Proof. apply Nat.le_trans with (2 ^ 12)%nat; [apply Nat.leb_le; vm_compute; reflexivity|apply Nat.pow_le_mono_r; lia]. Qed.
Lemma u_tiny : uu <= / 8000000000000000.
Proof. assert (E : 8000000000000000 <= 2 ^ 53) by (cbn; lra). unfold uu. apply Rinv_le_contravar; lra. Qed.
Lemma pow12 : 2 ^ 12 = 4096. Proof. cbn. ring. Qed.
Lemma pow30 : 2 ^ 30 = 1073741824. Proof. cbn. ring. Qed.
Lemma INR_1000 : INR 1000 = 1000. Proof. rewrite INR_IZR_INZ. reflexivity. Qed.
Lemma tri k : (k <= 1001)%nat -> 0 <= INR k * (INR k + 1) / 2 * (14 * uu) <= / 1000000000.
Proof.
  intros H. pose proof (pos_INR k). apply le_INR in H. replace (INR 1001) with 1001 in H by (rewrite INR_IZR_INZ; reflexivity). pose proof u_tiny. pose proof uu_pos.
  assert (INR k * (INR k + 1) <= 1001 * (1001 + 1)) by (apply Rmult_le_compat; lra). assert (0 <= INR k * (INR k + 1)) by (apply Rmult_le_pos; lra). split; [apply Rmult_le_pos; lra|].
  apply Rle_trans with (1001 * (1001 + 1) / 2 * (14 * / 8000000000000000)); [apply Rmult_le_compat; lra|lra].
Qed.
Lemma lv_step k : (k <= 1001)%nat -> (forall i, (i <= k)%nat -> fin (lv i)) /\
  (forall i, (S (S i) <= k)%nat -> Rabs (val (lv (S (S i))) - ((2 * INR i + 3) * val t * val (lv (S i)) - (INR i + 1) * val (lv i)) / (INR i + 2)) <= 14 * uu).
Proof.
  destruct one_v as (F1 & V1). pose proof uu_pos as U. induction k as [|k IH]; intros Hk.
  - split; [|intros; lia]. intros i Hi. replace i with 0%nat by lia. exact F1.
  - destruct IH as (IF & IS); [lia|]. destruct k as [|k].
    { split; [|intros; lia]. intros i Hi. destruct i as [|i]; [exact F1|]. replace i with 0%nat by lia. exact Ft. }
    assert (B : forall i, (i <= S k)%nat -> Rabs (val (lv i)) <= 17 / 16).
    { intros i Hi. assert (Hx : -1 <= val t <= 1) by (apply Rabs_le_between; auto).
      pose proof (perturbed (val t) (14 * uu) (fun i => val (lv i)) (S k) Hx ltac:(lra) V1) as P. cbv beta in P. specialize (P ltac:(change (lv 1) with t; rewrite Rminus_eq_0, Rabs_R0; lra) IS i Hi).
      pose proof (tri i ltac:(lia)). pose proof (legP_bound i (val t) Hx). replace (val (lv i)) with ((val (lv i) - legP i (val t)) + legP i (val t)) by ring. eapply Rle_trans; [apply Rabs_triang|]. lra. }
    pose proof p53. destruct (q_rec64 (k + 2) t (lv (S k)) (lv k)) as (A1 & A2); auto; try lia.
    rewrite <- lv_SS in A1, A2. rewrite plus_INR in A2. replace (INR 2) with 2 in A2 by (simpl; ring). split.
    + intros i Hi. destruct (Nat.eq_dec i (S (S k))) as [->|]; [exact A1|apply IF; lia].
    + intros i Hi. destruct (Nat.eq_dec (S (S i)) (S (S k))) as [E|]; [|apply IS; lia]. injection E as ->.
      replace (2 * INR k + 3) with (2 * (INR k + 2) - 1) by ring. replace (INR k + 1) with (INR k + 2 - 1) by ring. exact A2.
Qed.
Lemma lv_fin k : (k <= 1001)%nat -> fin (lv k).
Proof. intros H. apply (proj1 (lv_step k H)). lia. Qed.
Lemma lv_err k : (k <= 1001)%nat -> Rabs (val (lv k) - legP k (val t)) <= INR k * (INR k + 1) / 2 * (14 * uu).
Proof.
  intros Hk. assert (Hx : -1 <= val t <= 1) by (apply Rabs_le_between; auto). pose proof uu_pos. destruct one_v as (F1 & V1).
  pose proof (perturbed (val t) (14 * uu) (fun i => val (lv i)) k Hx ltac:(lra) V1) as P. cbv beta in P. apply P; auto; [change (lv 1) with t; rewrite Rminus_eq_0, Rabs_R0; lra|]. apply (lv_step k Hk).
Qed.
(** away from the ends the error grows only like the degree *)
Lemma lv_err2 k w : (1 <= k <= 1001)%nat -> 0 < w -> w * w <= 1 - val t * val t -> Rabs (val (lv k) - legP k (val t)) <= INR k * (14 * uu) / w.
Proof.
  intros Hk Hw Hw2. assert (Hx : -1 <= val t <= 1) by (apply Rabs_le_between; auto). pose proof uu_pos. destruct one_v as (F1 & V1). destruct k as [|k]; [lia|].
  pose proof (e_qf (val t) (14 * uu) (fun i => val (lv i)) (S k) Hx ltac:(lra) V1) as P. cbv beta in P. specialize (P ltac:(change (lv 1) with t; rewrite Rminus_eq_0, Rabs_R0; lra) (proj2 (lv_step (S k) ltac:(lia))) k ltac:(lia)).
  rewrite qf_right in P. set (e := val (lv (S k)) - legP (S k) (val t)) in *. apply Rle_div_r; auto.
  replace (Rabs e * w) with (Rabs (e * w)) by (rewrite Rabs_mult, (Rabs_pos_eq w); lra). apply sq_le; [apply Rmult_le_pos; [apply pos_INR|lra]|].
  match type of P with ?a * ?a + _ <= _ => pose proof (Rle_0_sqr a) as Q; unfold Rsqr in Q end.
  assert (w * w * (e * e) <= (1 - val t * val t) * (e * e)) by (apply Rmult_le_compat_r; auto; apply Rle_0_sqr). lra.
Qed.
Lemma lv_big k : (k <= 1001)%nat -> Rabs (val (lv k)) <= 1001 / 1000.
Proof.
  intros H. assert (Hx : -1 <= val t <= 1) by (apply Rabs_le_between; auto). pose proof (lv_err k H). pose proof (tri k H). pose proof (legP_bound k (val t) Hx).
  replace (val (lv k)) with ((val (lv k) - legP k (val t)) + legP k (val t)) by ring. eapply Rle_trans; [apply Rabs_triang|]. lra.
Qed.
(** one term of the derivatives *)
Lemma odd_term k : (1 <= k <= 1001)%nat -> fin (q_odd (k + 1) * lv k)%num /\ Rabs (val (q_odd (k + 1) * lv k)%num - (2 * INR k + 1) * val (lv k)) <= 202 / 100 * INR k * uu + 2 * uu.
Proof.
  intros Hk. pose proof p53. destruct (q_odd64 (k + 1) ltac:(lia) ltac:(lia)) as (Fo & Vo). rewrite plus_INR in Vo. change (INR 1) with 1 in Vo. pose proof (lv_fin k ltac:(lia)) as Fl. pose proof (lv_big k ltac:(lia)) as Bl.
  assert (K1 : 1 <= INR k <= 1001). { split; [apply (le_INR 1); lia|]. assert (A : (k <= 1001)%nat) by lia. apply le_INR in A. replace (INR 1001) with 1001 in A by (rewrite INR_IZR_INZ; reflexivity). exact A. }
  pose proof uu_pos. pose proof u_tiny. pose proof hh_pos. pose proof hh_uu.
  assert (X : Rabs (val (q_odd (k + 1) : b64) * val (lv k)) <= (2 * INR k + 1) * (1001 / 1000)). { rewrite Rabs_mult, Vo. rewrite (Rabs_pos_eq (2 * (INR k + 1) - 1)) by lra. apply Rmult_le_compat; try lra; apply Rabs_pos. }
  cbn [nmul BN B64num]. change (B64num m) with BN. destruct (mul_ok (q_odd (k + 1)) (lv k) Fo Fl) as (F & V). { apply rnd_small. apply Rle_trans with (2 ^ 12); [rewrite pow12; lra|apply pow_lit; lia]. }
  split; [exact F|]. rewrite V. destruct (rnd_err (val (q_odd (k + 1) : b64) * val (lv k))) as (d & e & D & Ee & ->).
  rewrite Vo in *. match goal with |- Rabs ?q <= _ => replace q with ((2 * (INR k + 1) - 1) * val (lv k) * d + e) by ring end. eapply Rle_trans; [apply Rabs_triang|]. rewrite (Rabs_mult _ d).
  assert (Rabs ((2 * (INR k + 1) - 1) * val (lv k)) * Rabs d <= (2 * INR k + 1) * (1001 / 1000) * uu) by (apply Rmult_le_compat; auto using Rabs_pos). nra.
Qed.
Lemma dv_big k : (k <= 1001)%nat -> (fin (dv k) /\ Rabs (val (dv k)) <= 2 * (INR k * INR k)) /\ ((S k <= 1001)%nat -> fin (dv (S k)) /\ Rabs (val (dv (S k))) <= 2 * (INR (S k) * INR (S k))).
Proof.
  destruct one_v as (F1 & V1). induction k as [|k IH]; intros Hk.
  - split; [|intros _]; unfold dv; cbn [ql2 fst snd].
    + split; [reflexivity|]. change (val (n0 : b64)) with 0. rewrite Rabs_R0. cbn [INR]. lra.
    + split; [exact F1|]. rewrite V1, Rabs_R1. cbn [INR]. lra.
  - destruct IH as ((Fa & Ba) & IH2); [lia|]. split; [apply IH2; lia|]. intros H2. rewrite dv_SS. replace (k + 2)%nat with (S k + 1)%nat by lia.
    destruct (odd_term (S k) ltac:(lia)) as (Fb & Bb). pose proof (lv_big (S k) ltac:(lia)) as Bl.
    assert (K1 : 0 <= INR k <= 1000). { split; [apply pos_INR|]. assert (A : (k <= 1000)%nat) by lia. apply le_INR in A. rewrite INR_1000 in A. exact A. }
    rewrite !S_INR in *. set (K := INR k) in *. pose proof uu_pos. pose proof u_tiny.
    set (o := (q_odd (S k + 1) * lv (S k))%num) in *. assert (Bo : Rabs (val o) <= (2 * K + 3) * (102 / 100)).
    { replace (val o) with ((val o - (2 * (K + 1) + 1) * val (lv (S k))) + (2 * (K + 1) + 1) * val (lv (S k))) by ring. eapply Rle_trans; [apply Rabs_triang|]. rewrite (Rabs_mult (2 * (K + 1) + 1)), (Rabs_pos_eq (2 * (K + 1) + 1)) by lra.
      assert ((2 * (K + 1) + 1) * Rabs (val (lv (S k))) <= (2 * (K + 1) + 1) * (1001 / 1000)) by (apply Rmult_le_compat_l; lra). nra. }
    assert (S1 : Rabs (val (dv k) + val o) <= 2 * (K * K) + (2 * K + 3) * (102 / 100)) by (eapply Rle_trans; [apply Rabs_triang|]; lra).
    cbn [nadd BN B64num]. destruct (add_ok (dv k) o Fa Fb) as (F & V). { apply rnd_small. apply Rle_trans with (2 ^ 30); [rewrite pow30; nra|apply pow_lit; lia]. }
    split; [exact F|]. rewrite V. destruct (rnd_err_plus (val (dv k)) (val o)) as (d & D & ->); try apply val_fmt. rewrite Rabs_mult. pose proof (abs_1d d D).
    apply Rle_trans with ((2 * (K * K) + (2 * K + 3) * (102 / 100)) * (1 + uu)); [apply Rmult_le_compat; auto using Rabs_pos|]. assert ((2 * (K * K) + (2 * K + 3) * (102 / 100)) * uu <= / 100) by nra. nra.
Qed.

(** q and its derivative *)
Variable N : nat.
Hypothesis HN : (3 <= N <= 1000)%nat.
Variables hs hn : R.
Hypothesis Hs : Rabs (val (lv (S N)) - legP (S N) (val t)) + Rabs (val (lv (N - 1)) - legP (N - 1) (val t)) <= hs.
Hypothesis Hn : Rabs (val (lv N) - legP N (val t)) <= hn.
Lemma N_R : 3 <= INR N <= 1000.
Proof. destruct HN as (A & B). apply le_INR in A. apply le_INR in B. rewrite INR_1000 in B. cbn [INR] in A. lra. Qed.
Lemma qe_eq : qe t N = ((lv (S N) - lv (N - 1))%num, (dv (N - 1) + q_odd (N + 1) * lv N - dv (N - 1))%num, lv N).
Proof.
  unfold qe. rewrite ql2_eq. replace (S (N - 1)) with N by lia. f_equal. f_equal. f_equal. destruct N as [|n]; [lia|]. rewrite lv_SS. replace (S n - 1)%nat with n by lia. f_equal. lia.
Qed.
Lemma q_val : fin (fst (fst (qe t N))) /\ Rabs (val (fst (fst (qe t N))) - qpol N (val t)) <= hs + 201 / 100 * uu /\ Rabs (val (fst (fst (qe t N)))) <= 3.
Proof.
  rewrite qe_eq. cbn [fst snd nsub BN B64num]. pose proof (lv_fin (S N) ltac:(lia)) as F1. pose proof (lv_fin (N - 1) ltac:(lia)) as F2. pose proof (lv_big (S N) ltac:(lia)) as B1. pose proof (lv_big (N - 1) ltac:(lia)) as B2.
  assert (X : Rabs (val (lv (S N)) - val (lv (N - 1))) <= 2002 / 1000) by (unfold Rminus; eapply Rle_trans; [apply Rabs_triang|]; rewrite Rabs_Ropp; lra). pose proof uu_pos. pose proof u_tiny.
  destruct (sub_ok (lv (S N)) (lv (N - 1)) F1 F2) as (F & V). { apply rnd_small; lra. }
  split; [exact F|]. rewrite V. destruct (rnd_err_minus (val (lv (S N))) (val (lv (N - 1)))) as (d & D & ->); try apply val_fmt.
  assert (Y : Rabs ((val (lv (S N)) - val (lv (N - 1))) * d) <= 2002 / 1000 * uu) by (rewrite Rabs_mult; apply Rmult_le_compat; auto using Rabs_pos).
  split.
  - unfold qpol. match goal with |- Rabs ?e <= _ => replace e with ((val (lv (S N)) - legP (S N) (val t)) + - (val (lv (N - 1)) - legP (N - 1) (val t)) + (val (lv (S N)) - val (lv (N - 1))) * d) by ring end.
    eapply Rle_trans; [apply Rabs_triang|]. eapply Rle_trans; [apply Rplus_le_compat_r, Rabs_triang|]. rewrite Rabs_Ropp. lra.
  - rewrite Rmult_plus_distr_l, Rmult_1_r. eapply Rle_trans; [apply Rabs_triang|]. lra.
Qed.
Lemma qp_val : fin (snd (fst (qe t N))) /\ Rabs (val (snd (fst (qe t N))) - (2 * INR N + 1) * legP N (val t)) <= (2 * INR N + 1) * hn + 5 * (INR N * INR N) * uu /\
  Rabs (val (snd (fst (qe t N)))) <= 3 * INR N.
Proof.
  rewrite qe_eq. cbn [fst snd]. pose proof N_R as NR. pose proof uu_pos. pose proof u_tiny.
  destruct (odd_term N ltac:(lia)) as (Fo & Bo). destruct (dv_big (N - 1) ltac:(lia)) as ((Fd & Bd) & _). rewrite minus_INR in Bd by lia. change (INR 1) with 1 in Bd. pose proof (lv_big N ltac:(lia)) as Bl.
  set (o := (q_odd (N + 1) * lv N)%num) in *. set (c := dv (N - 1)) in *. set (n := INR N) in *. 
  assert (Bo2 : Rabs (val o) <= (2 * n + 1) * (102 / 100)).
  { replace (val o) with ((val o - (2 * n + 1) * val (lv N)) + (2 * n + 1) * val (lv N)) by ring. eapply Rle_trans; [apply Rabs_triang|]. rewrite (Rabs_mult (2 * n + 1)), (Rabs_pos_eq (2 * n + 1)) by lra.
    assert ((2 * n + 1) * Rabs (val (lv N)) <= (2 * n + 1) * (1001 / 1000)) by (apply Rmult_le_compat_l; lra). nra. }
  assert (S1 : Rabs (val c + val o) <= 2 * ((n - 1) * (n - 1)) + (2 * n + 1) * (102 / 100)) by (eapply Rle_trans; [apply Rabs_triang|]; lra).
  cbn [nadd nsub BN B64num]. destruct (add_ok c o Fd Fo) as (F & V). { apply rnd_small. apply Rle_trans with (2 ^ 30); [rewrite pow30; nra|apply pow_lit; lia]. }
  destruct (rnd_err_plus (val c) (val o)) as (d & D & E); try apply val_fmt. rewrite E in V. clear E. set (s := Bplus mode_NE c o) in *.
  assert (Y1 : Rabs ((val c + val o) * d) <= (2 * ((n - 1) * (n - 1)) + (2 * n + 1) * (102 / 100)) * uu) by (rewrite Rabs_mult; apply Rmult_le_compat; auto using Rabs_pos).
  assert (C1 : (2 * ((n - 1) * (n - 1)) + (2 * n + 1) * (102 / 100)) <= 2 * (n * n)) by nra.
  assert (C2 : (2 * ((n - 1) * (n - 1)) + (2 * n + 1) * (102 / 100)) * uu <= 2 * (n * n) * uu) by (apply Rmult_le_compat_r; lra).
  assert (C3 : 2 * (n * n) * uu <= / 1000). { assert (n * n <= 1000 * 1000) by (apply Rmult_le_compat; lra). assert (2 * (n * n) * uu <= 2 * (1000 * 1000) * / 8000000000000000) by (apply Rmult_le_compat; nra). lra. }
  assert (S2 : Rabs (val s - val c) <= (2 * n + 1) * (102 / 100) + / 1000).
  { rewrite V. replace ((val c + val o) * (1 + d) - val c) with (val o + (val c + val o) * d) by ring. eapply Rle_trans; [apply Rabs_triang|]. lra. }
  destruct (sub_ok s c F Fd) as (F' & V'). { apply rnd_small. apply Rle_trans with (2 ^ 30); [rewrite pow30; lra|apply pow_lit; lia]. }
  destruct (rnd_err_minus (val s) (val c)) as (d' & D' & E); try apply val_fmt. rewrite E in V'. clear E.
  assert (Y2 : Rabs ((val s - val c) * d') <= ((2 * n + 1) * (102 / 100) + / 1000) * uu) by (rewrite Rabs_mult; apply Rmult_le_compat; auto using Rabs_pos).
  split; [exact F'|]. match goal with |- context [val ?w] => change (val w) with (val (Bminus mode_NE s c)) end. split.
  - rewrite V'. match goal with |- Rabs ?e <= _ => replace e with ((2 * n + 1) * (val (lv N) - legP N (val t)) + (val o - (2 * n + 1) * val (lv N)) + (val c + val o) * d + (val s - val c) * d') by (rewrite V; ring) end.
    eapply Rle_trans; [apply Rabs_triang|]. eapply Rle_trans; [apply Rplus_le_compat_r, Rabs_triang|]. eapply Rle_trans; [apply Rplus_le_compat_r, Rplus_le_compat_r, Rabs_triang|].
    rewrite (Rabs_mult (2 * n + 1)), (Rabs_pos_eq (2 * n + 1)) by lra. assert ((2 * n + 1) * Rabs (val (lv N) - legP N (val t)) <= (2 * n + 1) * hn) by (apply Rmult_le_compat_l; lra).
    assert (202 / 100 * n + 2 + ((2 * n + 1) * (102 / 100) + / 1000) + 2 * (n * n) <= 5 * (n * n)) by nra.
    assert ((202 / 100 * n + 2 + ((2 * n + 1) * (102 / 100) + / 1000) + 2 * (n * n)) * uu <= 5 * (n * n) * uu) by (apply Rmult_le_compat_r; lra). lra.
  - match goal with |- context [val ?w] => change (val w) with (val (Bminus mode_NE s c)) end. rewrite V', Rmult_plus_distr_l, Rmult_1_r. eapply Rle_trans; [apply Rabs_triang|]. nra.
Qed.
End Eval.
End GL.
