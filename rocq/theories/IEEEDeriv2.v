(** The derivative values of the Legendre basis in binary64: the whole recursion. *)
From Coquelicot Require Import Coquelicot.
From Coq Require Import ZArith Reals Lra Lia List Arith Bool.
From Flocq Require Import Core Relative BinarySingleNaN.
From Verif Require Import Num Outcome LinAlg LegendreModel LegendreSpec LegendreMath LegendreProofs StabMath IEEEModel IEEESpec IEEEProofs IEEEHorner IEEELegendre IEEESpline IEEELagrange IEEEDerivSpec IEEEDeriv.
Local Open Scope R_scope.

Lemma derr_S K e : deriv_error K (S e) = INR K * (INR K + 1) / 2 * (2 * INR (S e) * deriv_error K e + (100 + 10 * INR (S e)) * uu * INR K ^ (2 * S e)).
Proof. reflexivity. Qed.
Lemma derr_0 K : deriv_error K 0 = INR K * (INR K + 1) / 2 * (21 * uu).
Proof. reflexivity. Qed.
Lemma derr_pos K d : 0 <= deriv_error K d.
Proof.
  pose proof uu_pos. pose proof (pos_INR K). assert (0 <= INR K * (INR K + 1) / 2) by nra.
  induction d as [|e IH]; [rewrite derr_0; apply Rmult_le_pos; lra|]. rewrite derr_S. pose proof (pos_INR (S e)). apply Rmult_le_pos; auto.
  apply Rplus_le_le_0_compat; [apply Rmult_le_pos; lra|]. apply Rmult_le_pos; [apply Rmult_le_pos; lra|apply pow_le; lra].
Qed.
Lemma derr_down K e : (1 <= K)%nat -> deriv_error K (S e) <= INR K ^ (2 * S e) / 16 -> deriv_error K e <= INR K ^ (2 * e) / 16.
Proof.
  intros HK H. assert (K1 : 1 <= INR K) by (apply (le_INR 1); auto). replace (2 * S e)%nat with (2 + 2 * e)%nat in H by lia. rewrite pow_add in H.
  pose proof (derr_pos K e) as P. pose proof uu_pos. assert (E1 : 1 <= INR (S e)) by (apply (le_INR 1); lia).
  assert (L : INR K ^ 2 * deriv_error K e <= deriv_error K (S e)).
  { rewrite derr_S. assert (0 <= (100 + 10 * INR (S e)) * uu * INR K ^ (2 * S e)) by (apply Rmult_le_pos; [nra|apply pow_le; lra]).
    apply Rle_trans with (INR K * (INR K + 1) / 2 * (2 * INR (S e) * deriv_error K e)); [|apply Rmult_le_compat_l; nra].
    replace (INR K * (INR K + 1) / 2 * (2 * INR (S e) * deriv_error K e)) with (INR K * (INR K + 1) * INR (S e) * deriv_error K e) by field. apply Rmult_le_compat_r; auto. nra. }
  apply (Rmult_le_reg_l (INR K ^ 2)); [apply pow_lt; lra|]. lra.
Qed.
Lemma derr_all K d : (1 <= K)%nat -> deriv_error K d <= INR K ^ (2 * d) / 16 -> forall j, (j <= d)%nat -> deriv_error K j <= INR K ^ (2 * j) / 16.
Proof.
  intros HK. induction d as [|e IH]; intros H j Hj; [replace j with 0%nat by lia; auto|].
  destruct (Nat.eq_dec j (S e)) as [->|]; auto. apply IH; [apply derr_down; auto|lia].
Qed.
Lemma K_small K : (1 <= K)%nat -> deriv_error K 0 <= 1 / 16 -> 2 * INR K + 1 <= 2 ^ 50.
Proof.
  intros HK H. rewrite derr_0 in H. assert (K1 : 1 <= INR K) by (apply (le_INR 1); auto). pose proof uu_pos.
  assert (INR K * (21 * uu) <= 1 / 16). { eapply Rle_trans; [|exact H]. apply Rmult_le_compat_r; nra. }
  assert (E : uu * (8 * 2 ^ 50) = 1) by (unfold uu; replace (2 ^ 53) with (8 * 2 ^ 50) by (cbn; ring); apply Rinv_l; cbn; lra).
  set (w := 2 ^ 50) in *. apply (Rmult_le_reg_l uu); auto. nra.
Qed.

Section Der2.
Variable m : libm.
Local Instance BN : Num b64 := B64num m.
Variables (s : b64) (x : R) (K : nat).
Hypothesis Fs : fin s.
Hypothesis Vs : val s = x.
Hypothesis Hx : -1 <= x <= 1.
Hypothesis HK : (1 <= K)%nat.
Notation kp d := (INR K ^ (2 * d)).

Lemma kp1 d : 1 <= kp d.
Proof. apply pow_R1_Rle. apply (le_INR 1). auto. Qed.
Lemma kp_mono j d : (j <= d)%nat -> kp j <= kp d.
Proof. intros H. apply Rle_pow; [apply (le_INR 1); auto|lia]. Qed.

(** order S e from order e *)
Section Order.
Variable e : nat.
Let d := S e.
Hypothesis He : (S e <= K)%nat.
Hypothesis Low : forall j, (j <= K)%nat -> fin (gld s e j) /\ Rabs (val (gld s e j) - LD e j x) <= deriv_error K e.
Hypothesis Se : deriv_error K e <= kp e / 16.
Hypothesis Sd : deriv_error K (S e) <= kp (S e) / 16.
Hypothesis Kb : kp (S e) <= 2 ^ 900.
Hypothesis K50 : 2 * INR K + 1 <= 2 ^ 50.
Let D := 2 * INR (S e) * deriv_error K e + (100 + 10 * INR (S e)) * uu * kp (S e).
Let er j := val (gld s (S e) j) - LD (S e) j x.
Let M := 2 * kp (S e).

Lemma D_pos : 0 <= D.
Proof.
  pose proof (derr_pos K e). pose proof uu_pos. pose proof (pos_INR (S e)). pose proof (kp1 (S e)). unfold D. apply Rplus_le_le_0_compat; [apply Rmult_le_pos; lra|]. apply Rmult_le_pos; [apply Rmult_le_pos; lra|lra].
Qed.
Lemma hD : INR K * (INR K + 1) / 2 * D = deriv_error K (S e). Proof. rewrite derr_S. reflexivity. Qed.
Lemma gld_zero j : (j <= e)%nat -> fin (gld s (S e) j) /\ val (gld s (S e) j) = 0 /\ er j = 0.
Proof.
  intros Hj. unfold er. rewrite gld_low by lia. destruct (zero64 m) as (F0 & V0). split; [exact F0|]. split; [exact V0|]. rewrite LD_low by lia. assert (W : val (n0 : b64) = 0) by exact V0. rewrite W. ring.
Qed.
Lemma low_bound j : (j <= K)%nat -> INR (S e) * Rabs (val (gld s e j)) <= M.
Proof.
  intros Hj. destruct (Low j Hj) as (_ & B). apply abs_of_near in B. pose proof (LD_boundK x e j K Hx Hj) as L. pose proof (kp1 e) as P. assert (E1 : INR (S e) <= INR K) by (apply le_INR; auto). pose proof (pos_INR (S e)).
  assert (K1 : 1 <= INR K) by (apply (le_INR 1); auto). apply Rle_trans with (INR K * (2 * kp e)); [apply Rmult_le_compat; auto using Rabs_pos; lra|].
  unfold M. replace (2 * S e)%nat with (2 + 2 * e)%nat by lia. rewrite pow_add. assert (INR K <= INR K ^ 2) by nra. rewrite <- Rmult_assoc, (Rmult_comm (INR K) 2), Rmult_assoc. apply Rmult_le_compat_l; [lra|]. apply Rmult_le_compat_r; lra.
Qed.
Lemma M_range : 1 <= M <= 2 ^ 910.
Proof. unfold M. pose proof (kp1 (S e)). split; [lra|]. apply Rle_trans with (2 * 2 ^ 900); [lra|]. change (2 * 2 ^ 900) with (2 ^ 901). apply pow_lit. lia. Qed.
Lemma diag_err : fin (gld s (S e) (S e)) /\ Rabs (er (S e)) <= D.
Proof.
  unfold er. rewrite gld_diag, LD_diag. pose proof M_range as (M1 & M2). assert (E1 : INR (S e) <= INR K) by (apply le_INR; auto). assert (ES : INR (S e) = INR e + 1) by apply S_INR.
  assert (DK : dfact (S e) <= kp (S e)). { rewrite <- (LD_diag (S e) x). eapply Rle_trans; [apply Rle_abs|]. apply LD_boundK; auto. }
  destruct (aux64 m e M) as (F & q & Rq & V); [lra|unfold M; pose proof (kp1 (S e)); lra|exact M2|]. split; [exact F|].
  change (val (gaux e)) with (val (@gaux b64 (IEEEDeriv.BN m) e)). rewrite V. replace (dfact (S e) * q - dfact (S e)) with (dfact (S e) * (q - 1)) by ring. rewrite Rabs_mult.
  assert (DP : 0 <= dfact (S e)). { clear. induction (S e) as [|j IHj]; cbn [dfact]; [lra|]. pose proof (pos_INR j). nra. }
  rewrite (Rabs_pos_eq (dfact (S e))) by exact DP. pose proof uu_pos as U. pose proof (kp1 (S e)). pose proof (pos_INR e).
  assert (Q : INR (3 * e) * uu <= / 2). { rewrite mult_INR. replace (INR 3) with 3 by (cbn; ring). assert (EU : uu * (8 * 2 ^ 50) = 1) by (unfold uu; replace (2 ^ 53) with (8 * 2 ^ 50) by (cbn; ring); apply Rinv_l; cbn; lra). set (w := 2 ^ 50) in *. nra. }
  pose proof (bt_lin _ Q) as BL. rewrite mult_INR in BL. replace (INR 3) with 3 in BL by (cbn; ring). pose proof (rat_abs _ _ Rq) as RA.
  apply Rle_trans with (kp (S e) * (2 * (3 * INR e) * uu)); [apply Rmult_le_compat; auto using Rabs_pos; lra|].
  unfold D. pose proof (derr_pos K e). assert (0 <= 2 * INR (S e) * deriv_error K e) by (apply Rmult_le_pos; [pose proof (pos_INR (S e)); lra|auto]).
  assert (kp (S e) * (2 * (3 * INR e) * uu) <= (100 + 10 * INR (S e)) * uu * kp (S e)); [|lra]. rewrite (Rmult_comm (kp (S e))). apply Rmult_le_compat_r; [lra|]. apply Rmult_le_compat_r; lra.
Qed.
Lemma rec_err k : (S (S k) <= K)%nat -> (S e <= S k)%nat -> fin (gld s (S e) k) -> fin (gld s (S e) (S k)) ->
  Rabs (val (gld s (S e) k)) <= M -> Rabs (val (gld s (S e) (S k))) <= M ->
  fin (gld s (S e) (S (S k))) /\ Rabs (er (S (S k)) - ((2 * INR k + 3) * x * er (S k) - (INR k + 1) * er k) / (INR k + 2)) <= D.
Proof.
  intros Hk Hi F0 F1 B0 B1. pose proof M_range as (M1 & M2). destruct (Low (S k) ltac:(lia)) as (Fb & Bb). pose proof (pos_INR k) as Pk.
  assert (N2 : (2 * S k + 1 <= 2 ^ 53)%nat).
  { apply n53. rewrite plus_INR, mult_INR. change (INR 1) with 1. change (INR 2) with (1 + 1). assert (Q : INR (S k) <= INR K) by (apply le_INR; lia). replace (2 ^ 53) with (8 * 2 ^ 50) by (cbn; ring). set (w := 2 ^ 50) in *. pose proof (pos_INR (S k)). lra. }
  destruct (der_step64 m (S k) (S e) s (gld s e (S k)) (gld s (S e) (S k)) (gld s (S e) k) M) as (F2 & B2); [lia|exact N2|exact Fs|exact Fb|exact F1|exact F0| | |exact B1|exact B0|split; auto|].
  { rewrite Vs. apply Rabs_le; lra. }
  { apply low_bound. lia. }
  clear N2. pose proof (gld_rec s e (S k) Hi) as GR. replace (S k - 1)%nat with k in GR by lia.
  change (IEEEDeriv.BN m) with BN in F2, B2. rewrite <- GR in F2, B2. split; [exact F2|].
  unfold er. rewrite LD_rec. rewrite Vs in B2. rewrite (S_INR k) in B2.
  set (y2 := val (gld s (S e) (S (S k)))) in *. set (y1 := val (gld s (S e) (S k))) in *. set (y0 := val (gld s (S e) k)) in *. set (b := val (gld s e (S k))) in *.
  match goal with |- Rabs ?w <= _ => replace w with
    ((y2 - ((2 * (INR k + 1) + 1) * (INR (S e) * b + x * y1) - (INR k + 1) * y0) / (INR k + 1 + 1)) + (2 * INR k + 3) / (INR k + 2) * (INR (S e) * (b - LD e (S k) x))) by (rewrite ?S_INR; field; lra) end.
  eapply Rle_trans; [apply Rabs_triang|]. unfold D. rewrite Rplus_comm. apply Rplus_le_compat.
  - rewrite !Rabs_mult, Rmult_assoc. apply Rmult_le_compat; auto using Rabs_pos, Rmult_le_pos.
    + rewrite Rabs_pos_eq; [apply Rle_div_l; lra|apply Rdiv_le_0_compat; lra].
    + rewrite (Rabs_pos_eq (INR (S e))) by apply pos_INR. apply Rmult_le_compat_l; [apply pos_INR|exact Bb].
  - eapply Rle_trans; [exact B2|]. unfold M. pose proof uu_pos. pose proof (kp1 (S e)). pose proof (pos_INR (S e)).
    replace (45 * uu * (2 * kp (S e))) with (90 * uu * kp (S e)) by ring. apply Rmult_le_compat_r; [lra|]. apply Rmult_le_compat_r; lra.
Qed.
Lemma near_M j : (j <= K)%nat -> Rabs (er j) <= INR j * (INR j + 1) / 2 * D -> Rabs (val (gld s (S e) j)) <= M.
Proof.
  intros Hj B. apply abs_of_near in B. pose proof (LD_boundK x (S e) j K Hx Hj) as L. pose proof hD as HD. pose proof D_pos as DP.
  assert (INR j * (INR j + 1) / 2 * D <= INR K * (INR K + 1) / 2 * D). { apply Rmult_le_compat_r; auto. apply le_INR in Hj. pose proof (pos_INR j). nra. }
  unfold M. pose proof (kp1 (S e)). lra.
Qed.
Lemma er_0 : er 0 = 0.
Proof. apply gld_zero. lia. Qed.
Lemma er_1 : (1 <= K)%nat -> Rabs (er 1) <= D.
Proof.
  intros H1. destruct (Nat.eq_dec e 0) as [E|E].
  - pose proof diag_err as (_ & Q). replace (S e) with 1%nat in Q at 3 by lia. rewrite E in Q at 1. exact Q.
  - rewrite (proj2 (proj2 (gld_zero 1 ltac:(lia)))), Rabs_R0. apply D_pos.
Qed.
Lemma order_upto n : (n <= K)%nat ->
  (forall j, (j <= n)%nat -> fin (gld s (S e) j) /\ Rabs (val (gld s (S e) j)) <= M) /\
  (forall k, (S (S k) <= n)%nat -> Rabs (er (S (S k)) - ((2 * INR k + 3) * x * er (S k) - (INR k + 1) * er k) / (INR k + 2)) <= D).
Proof.
  pose proof M_range as (M1 & M2). pose proof D_pos as DP.
  induction n as [|n IH]; intros Hn.
  { split; [|intros; lia]. intros j Hj. destruct (gld_zero j ltac:(lia)) as (F & V & _). split; auto. rewrite V, Rabs_R0. lra. }
  destruct (IH ltac:(lia)) as (I1 & I2). clear IH.
  assert (NF : fin (gld s (S e) (S n)) /\ (forall k, (S (S k) <= S n)%nat -> Rabs (er (S (S k)) - ((2 * INR k + 3) * x * er (S k) - (INR k + 1) * er k) / (INR k + 2)) <= D)).
  { destruct (Nat.le_gt_cases (S n) e) as [L|L].
    { split; [apply gld_zero; auto|]. intros k Hk. destruct (gld_zero k ltac:(lia)) as (_ & _ & Z0). destruct (gld_zero (S k) ltac:(lia)) as (_ & _ & Z1). destruct (gld_zero (S (S k)) ltac:(lia)) as (_ & _ & Z2).
      rewrite Z0, Z1, Z2. pose proof (pos_INR k). replace (0 - _) with 0 by (field; lra). rewrite Rabs_R0. exact DP. }
    destruct (Nat.eq_dec n e) as [->|Ne].
    { destruct diag_err as (F & B). split; auto. intros k Hk. destruct (Nat.eq_dec (S k) e) as [Ek|Ek]; [|apply I2; lia].
      destruct (gld_zero k ltac:(lia)) as (_ & _ & Z0). destruct (gld_zero (S k) ltac:(lia)) as (_ & _ & Z1). rewrite Z0, Z1, Ek. pose proof (pos_INR k). replace (_ - _) with (er (S e)) by (field; lra). exact B. }
    destruct n as [|k]; [lia|]. destruct (rec_err k Hn ltac:(lia)) as (A & B); try (apply I1; lia). split; auto. intros k' Hk'. destruct (Nat.eq_dec k' k) as [->|]; auto. apply I2. lia. }
  destruct NF as (NF & NS). split; auto. intros j Hj. destruct (Nat.eq_dec j (S n)) as [->|]; [|apply I1; lia]. split; auto.
  apply near_M; auto. apply (forced x D er (S n)); auto; [apply er_0|intros; apply er_1; auto].
Qed.
Lemma order_ok j : (j <= K)%nat -> fin (gld s (S e) j) /\ Rabs (val (gld s (S e) j) - LD (S e) j x) <= deriv_error K (S e).
Proof.
  intros Hj. destruct (order_upto K (le_n _)) as (A & B). split; [apply A; auto|]. fold (er j).
  eapply Rle_trans; [apply (forced x D er K); auto; [apply D_pos|apply er_0|intros; apply er_1; auto]|]. rewrite <- hD. apply Rmult_le_compat_r; [apply D_pos|]. apply le_INR in Hj. pose proof (pos_INR j). nra.
Qed.
End Order.

Lemma gld64 d : (d <= K)%nat -> deriv_error K d <= kp d / 16 -> kp d <= 2 ^ 900 ->
  forall j, (j <= K)%nat -> fin (gld s d j) /\ Rabs (val (gld s d j) - LD d j x) <= deriv_error K d.
Proof.
  intros Hd Sd Kb. assert (K50 : 2 * INR K + 1 <= 2 ^ 50). { apply K_small; auto. pose proof (derr_all K d HK Sd 0 ltac:(lia)) as Q. cbn [Nat.mul Nat.add pow] in Q. exact Q. }
  revert Hd Sd Kb. induction d as [|e IH]; intros Hd Sd Kb j Hj.
  - destruct (leg64 m s x 0 K) with (j := j) as (F & B); auto.
    + rewrite Vs. rewrite Rminus_eq_0, Rabs_R0. lra.
    + rewrite derr_0 in Sd. cbn [Nat.mul Nat.add pow] in Sd. lra.
    + split; [exact F|]. change (LD 0 j x) with (legP j x). rewrite derr_0. eapply Rle_trans; [exact B|]. pose proof uu_pos. rewrite Rmult_0_r, Rplus_0_l. apply Rmult_le_compat_r; [lra|]. apply le_INR in Hj. pose proof (pos_INR j). nra.
  - pose proof (derr_down K e HK Sd) as Se. apply order_ok; auto. apply IH; auto; [lia|]. eapply Rle_trans; [apply (kp_mono e (S e)); lia|exact Kb].
Qed.

(** the powers of 2/tau *)
Lemma mult64 (tau : b64) d A : fin tau -> 0 < val tau -> 1 <= A -> / A <= 2 / val tau <= A -> (2 * A) ^ d <= 2 ^ 900 ->
  fin (gmult tau d) /\ exists q, rat (2 * d) q /\ val (gmult tau d) = (2 / val tau) ^ d * q.
Proof.
  intros Ft Pt HA Ht. destruct (one64 m) as (F1 & V1). destruct (two64 m) as (F2 & V2).
  induction d as [|d IH]; intros Hd.
  { cbn [gmult]. split; [exact F1|]. exists 1. split; [unfold rat; cbn; lra|]. assert (W : val (n1 : b64) = 1) by exact V1. rewrite W. cbn. ring. }
  assert (Hd' : (2 * A) ^ d <= 2 ^ 900). { eapply Rle_trans; [|exact Hd]. apply Rle_pow; [lra|lia]. }
  destruct (IH Hd') as (Fm & q & Rq & Vq). clear IH. cbn [gmult].
  assert (AB : 2 * A <= 2 ^ 900). { eapply Rle_trans; [|exact Hd]. rewrite <- (pow_1 (2 * A)) at 1. apply Rle_pow; [lra|lia]. }
  assert (BB : 2 ^ 900 <= big) by (unfold big; apply pow_lit; lia). assert (IA : 0 < / A) by (apply Rinv_0_lt_compat; lra).
  assert (B1 : bnd A (2 / val tau)) by (unfold bnd; rewrite Rabs_pos_eq; lra).
  destruct (div64 m c2 tau) as (Fd & q1 & R1 & W1); [exact F2|lra| |].
  { assert (W : val (c2 : b64) = 2) by exact V2. change (c2 (H := IEEEDeriv.BN m)) with (c2 (H := BN)). rewrite W. apply (bnd_le A); auto; lra. }
  assert (W : val (c2 : b64) = 2) by exact V2. assert (W1' : val (c2 / tau)%num = 2 / val tau * q1) by (rewrite <- W; exact W1). assert (Fd' : fin (c2 / tau)%num) by exact Fd. clear W1 Fd.
  assert (BP : bnd ((2 * A) ^ S d) (val (gmult tau d) * val (c2 / tau)%num)).
  { rewrite Vq, W1'. replace ((2 / val tau) ^ d * q * (2 / val tau * q1)) with ((2 / val tau) ^ S d * (q * q1)) by (cbn [pow]; ring).
    rewrite Rpow_mult_distr, (Rmult_comm (2 ^ S d)). apply bnd_mul; [apply pow_lt; lra|apply pow_lt; lra| |].
    - clear - B1 HA. induction (S d) as [|k IHk]; cbn [pow]; [unfold bnd; rewrite Rabs_R1; lra|]. apply bnd_mul; auto; [lra|apply pow_lt; lra].
    - apply (bnd_le (bt ^ (2 * S d))); [apply bt_pos|apply bt_2k|]. apply bnd_rat. apply (rat_le (2 * d + 1)); [lia|]. apply rat_mul; auto. }
  destruct (mul64 m (gmult tau d) (c2 / tau)%num) as (F3 & q3 & R3 & W3); [exact Fm|exact Fd'| |].
  { apply (bnd_le ((2 * A) ^ S d)); [apply pow_lt; lra|lra|exact BP]. }
  split; [exact F3|]. exists (q * q1 * q3). split; [apply (rat_le (2 * d + 1 + 1)); [lia|]; apply rat_mul; auto; apply rat_mul; auto|].
  eapply eq_trans; [exact W3|]. rewrite Vq, W1'. cbn [pow]. ring.
Qed.

(** an entry of the result *)
Lemma entry64 (tau : b64) d j : (d <= K)%nat -> (j <= K)%nat -> deriv_error K d <= kp d / 16 -> fin tau -> 0 < val tau -> (2 * spread (val tau) * INR K ^ 2) ^ d <= 2 ^ 900 ->
  fin (gld s d j * gmult tau d)%num /\ Rabs (val (gld s d j * gmult tau d)%num - LD d j x * (2 / val tau) ^ d) <= 2 * deriv_error K d * (2 / val tau) ^ d.
Proof.
  intros Hd Hj Sd Ft Pt Hb. set (A := spread (val tau)) in *. pose proof (kp1 d) as KP. pose proof uu_pos as U. pose proof uu_small as US. pose proof hh_pos as HP. pose proof hh_uu as HU.
  assert (I2 : 0 < 2 / val tau) by (apply Rdiv_lt_0_compat; lra). assert (I3 : / (2 / val tau) = val tau / 2) by (field; lra).
  assert (A1 : 2 / val tau <= A) by apply Rmax_l. assert (A2 : val tau / 2 <= A) by apply Rmax_r.
  assert (HA : 1 <= A). { destruct (Rle_lt_dec 1 (2 / val tau)); [lra|]. rewrite <- I3 in A2. assert (1 < / (2 / val tau)) by (rewrite <- Rinv_1; apply Rinv_lt_contravar; lra). lra. }
  assert (A3 : / A <= 2 / val tau). { rewrite <- (Rinv_inv (2 / val tau)). apply Rinv_le_contravar; [apply Rinv_0_lt_compat; lra|rewrite I3; lra]. }
  rewrite Rpow_mult_distr, <- pow_mult in Hb. assert (P2 : 1 <= (2 * A) ^ d) by (apply pow_R1_Rle; lra).
  assert (H1 : (2 * A) ^ d <= 2 ^ 900) by nra. assert (H2 : kp d <= 2 ^ 900) by nra.
  destruct (gld64 d Hd Sd H2 j Hj) as (Fl & Bl). destruct (mult64 tau d A Ft Pt HA (conj A3 A1) H1) as (Fm & q & Rq & Vq).
  set (g := (2 / val tau) ^ d) in *. assert (Gp : 0 < g) by (apply pow_lt; lra).
  destruct d as [|e].
  { (* the values: multiplied by 1 *)
    destruct (one64 m) as (F1 & V1). assert (W1 : val (gmult tau 0) = 1) by exact V1. assert (G1 : g = 1) by reflexivity. rewrite G1.
    assert (RV : rnd (val (gld s 0 j) * val (gmult tau 0)) = val (gld s 0 j)) by (rewrite W1, Rmult_1_r; apply rnd_fmt, val_fmt).
    destruct (mul_ok (gld s 0 j) (gmult tau 0) Fl Fm) as (F & V).
    { rewrite RV. rewrite <- (rnd_fmt _ (val_fmt (gld s 0 j))). apply rnd_big. apply abs_of_near in Bl. pose proof (LD_boundK x 0 j K Hx Hj). cbn [Nat.mul Nat.add pow] in *. unfold big. pose proof (pow_lit 0 1000 ltac:(lia)). cbn [pow] in H0. lra. }
    split; [exact F|]. rewrite RV in V. assert (V' : val (gld s 0 j * gmult tau 0)%num = val (gld s 0 j)) by exact V. rewrite V', !Rmult_1_r. pose proof (derr_pos K 0). lra. }
  set (d := S e) in *.
  assert (K50 : 2 * INR K + 1 <= 2 ^ 50). { apply K_small; auto. pose proof (derr_all K d HK Sd 0 ltac:(lia)) as Q. cbn [Nat.mul Nat.add pow] in Q. exact Q. }
  assert (EU : uu * (8 * 2 ^ 50) = 1) by (unfold uu; replace (2 ^ 53) with (8 * 2 ^ 50) by (cbn; ring); apply Rinv_l; cbn; lra). set (w := 2 ^ 50) in *.
  assert (ED : INR d <= INR K) by (apply le_INR; auto). assert (D1 : 1 <= INR d) by (apply (le_INR 1); unfold d; lia).
  assert (Q : INR (2 * d) * uu <= / 2). { rewrite mult_INR. replace (INR 2) with 2 by (cbn; ring). nra. }
  pose proof (bt_lin _ Q) as BL. rewrite mult_INR in BL. replace (INR 2) with 2 in BL by (cbn; ring). pose proof (rat_abs _ _ Rq) as RA.
  assert (DU : INR d * uu <= / 16) by nra. assert (Rq1 : Rabs (q - 1) <= 4 * INR d * uu) by lra.
  assert (Sl : Rabs (val (gld s d j)) <= 2 * kp d). { apply abs_of_near in Bl. pose proof (LD_boundK x d j K Hx Hj). lra. }
  assert (Aq : Rabs q <= 2). { replace q with ((q - 1) + 1) by ring. eapply Rle_trans; [apply Rabs_triang|]. rewrite Rabs_R1. lra. }
  assert (GA : g <= A ^ d) by (apply pow_incr; lra).
  assert (Sm : Rabs (val (gmult tau d)) <= 2 * A ^ d). { rewrite Vq, Rabs_mult, (Rabs_pos_eq g) by lra. rewrite Rmult_comm. apply Rmult_le_compat; auto using Rabs_pos; lra. }
  destruct (mulr m (gld s d j) (gmult tau d) (2 * kp d * (2 * A ^ d))) as (F & d1 & e1 & B1 & B2 & V); [exact Fl|exact Fm|apply Rmult_le_compat; auto using Rabs_pos| |].
  { rewrite Rpow_mult_distr in Hb. assert (1 <= 2 ^ d) by (apply pow_R1_Rle; lra). assert (P : 0 <= A ^ d) by (apply pow_le; lra). assert (0 <= A ^ d * kp d) by (apply Rmult_le_pos; lra).
    replace (2 ^ d * A ^ d * kp d) with (2 ^ d * (A ^ d * kp d)) in Hb by ring. assert (A ^ d * kp d <= 2 ^ 900) by nra. unfold big. pose proof (pow_lit 900 1000 ltac:(lia)). lra. }
  split; [exact F|]. assert (V' : val (gld s d j * gmult tau d)%num = val (gld s d j) * val (gmult tau d) * (1 + d1) + e1) by exact V. rewrite V', Vq. clear V V'.
  set (y := val (gld s d j)) in *. set (L := LD d j x) in *.
  replace (y * (g * q) * (1 + d1) + e1 - L * g) with (g * ((y - L) + y * (q - 1) + y * q * d1) + e1) by ring.
  assert (T1 : Rabs (y * (q - 1)) <= 2 * kp d * (4 * INR d * uu)) by (rewrite Rabs_mult; apply Rmult_le_compat; auto using Rabs_pos).
  assert (T2 : Rabs (y * q * d1) <= 2 * kp d * 2 * uu) by (rewrite !Rabs_mult; repeat apply Rmult_le_compat; auto using Rabs_pos, Rmult_le_pos).
  (* underflow *)
  assert (GL : / 2 ^ 900 <= g). { unfold g. apply Rle_trans with ((/ A) ^ d); [rewrite pow_inv; apply Rinv_le_contravar; [apply pow_lt; lra|]|apply pow_incr; split; [apply Rlt_le, Rinv_0_lt_compat; lra|lra]]. eapply Rle_trans; [|exact H1]. apply pow_incr. lra. }
  assert (HG : hh <= g * uu). { apply Rle_trans with (/ 2 ^ 900 * uu); [|apply Rmult_le_compat_r; lra]. unfold hh, uu. rewrite <- Rinv_mult, <- pow_add. apply Rinv_le_contravar; [apply pow_lt; lra|apply pow_lit; lia]. }
  (* the bound contains a rounding term *)
  assert (EB : (100 + 10 * INR d) * uu * kp d <= deriv_error K d).
  { unfold d at 3. rewrite derr_S. fold d. assert (K1 : 1 <= INR K) by lra. pose proof (derr_pos K e). assert (0 <= 2 * INR d * deriv_error K e) by (apply Rmult_le_pos; lra).
    assert (0 <= (100 + 10 * INR d) * uu * kp d) by (apply Rmult_le_pos; [apply Rmult_le_pos; lra|lra]). assert (1 <= INR K * (INR K + 1) / 2) by (clear - K1; nra). nra. }
  eapply Rle_trans; [apply Rabs_triang|]. rewrite Rabs_mult, (Rabs_pos_eq g) by lra.
  assert (T3 : Rabs (y - L + y * (q - 1) + y * q * d1) <= deriv_error K d + 2 * kp d * (4 * INR d * uu) + 2 * kp d * 2 * uu) by (eapply Rle_trans; [apply Rabs_triang|]; apply Rplus_le_compat; auto; eapply Rle_trans; [apply Rabs_triang|]; apply Rplus_le_compat; auto).
  assert (T4 : g * Rabs (y - L + y * (q - 1) + y * q * d1) <= g * (deriv_error K d + 2 * kp d * (4 * INR d * uu) + 2 * kp d * 2 * uu)) by (apply Rmult_le_compat_l; lra).
  assert (T5 : 2 * kp d * (4 * INR d * uu) + 2 * kp d * 2 * uu + uu <= deriv_error K d).
  { eapply Rle_trans; [|exact EB]. assert (UK : uu <= uu * kp d) by (rewrite <- (Rmult_1_r uu) at 1; apply Rmult_le_compat_l; lra). assert (0 <= uu * kp d * INR d) by (apply Rmult_le_pos; nra). lra. }
  assert (T6 : g * (2 * kp d * (4 * INR d * uu) + 2 * kp d * 2 * uu + uu) <= g * deriv_error K d) by (apply Rmult_le_compat_l; lra). lra.
Qed.
End Der2.
