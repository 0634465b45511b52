(** Rounding errors of the polynomial evaluation of FunModel.v in binary64. *)
From Coq Require Import ZArith Reals Lra Lia List Arith Bool.
From Flocq Require Import Core BinarySingleNaN.
From Verif Require Import Num Outcome LinAlg FunModel FunSpec FunProofs IEEEModel IEEESpec IEEEProofs.
Import ListNotations.
Local Open Scope R_scope.

Lemma abs_1d d : Rabs d <= uu -> Rabs (1 + d) <= 1 + uu.
Proof. intros H. eapply Rle_trans; [apply Rabs_triang|]. rewrite Rabs_R1. lra. Qed.
Lemma uu_lt_1 : uu < 1.
Proof. unfold uu. apply (Rmult_lt_reg_l (2 ^ 53)); [apply pow_lt; lra|]. rewrite Rinv_r by (apply pow_nonzero; lra). rewrite Rmult_1_r. apply Rlt_pow_R1; [lra|lia]. Qed.
Lemma hh_lt_1 : hh < 1.
Proof. unfold hh. apply (Rmult_lt_reg_l (2 ^ 1075)); [apply pow_lt; lra|]. rewrite Rinv_r by (apply pow_nonzero; lra). rewrite Rmult_1_r. apply Rlt_pow_R1; [lra|lia]. Qed.
Lemma pow_1u_ge1 n : 1 <= (1 + uu) ^ n.
Proof. apply pow_R1_Rle. pose proof uu_pos. lra. Qed.
Lemma pow_1u_le n m : (n <= m)%nat -> (1 + uu) ^ n <= (1 + uu) ^ m.
Proof. apply Rle_pow. pose proof uu_pos. lra. Qed.

Definition step64 (t r c : b64) : b64 := Bplus mode_NE (Bmult mode_NE r t) c.
Lemma step64_fin t r c : fin (step64 t r c) -> fin t /\ fin r /\ fin c /\
  exists d1 d2 e1, Rabs d1 <= uu /\ Rabs d2 <= uu /\ Rabs e1 <= hh /\
    val (step64 t r c) = (val r * val t * (1 + d1) + e1 + val c) * (1 + d2).
Proof.
  unfold step64. intros F. destruct (add_fin _ _ F) as (F1 & F2 & E). destruct (mul_fin _ _ F1) as (F3 & F4 & E1).
  repeat split; auto. destruct (rnd_err (val r * val t)) as (d1 & e1 & D1 & E2 & Q).
  destruct (rnd_err_plus (val (Bmult mode_NE r t)) (val c)) as (d2 & D2 & Q2); [apply val_fmt|apply val_fmt|].
  exists d1, d2, e1. repeat split; auto. rewrite E, Q2, E1, Q. reflexivity.
Qed.

Definition geo (n : nat) (t : R) : R := power_sum (repeat 1 n) t.
Definition hfold (t : R) (rest : list R) (r : R) : R := fold_left (fun r a => r * t + a) rest r.
Lemma geo_S n t : geo (S n) t = geo n t * t + 1.
Proof. unfold geo. cbn [repeat power_sum]. ring. Qed.
Lemma geo_pos n t : 0 <= t -> 0 <= geo n t.
Proof. intros H. induction n; [cbn; lra|]. rewrite geo_S. nra. Qed.
Lemma hfold_abs t rest r : Rabs (hfold t rest r) <= hfold (Rabs t) (map Rabs rest) (Rabs r).
Proof.
  unfold hfold. revert r. induction rest as [|c rest IH] using rev_ind; intros r; [cbn; lra|].
  rewrite map_app, !fold_left_app. cbn. eapply Rle_trans; [apply Rabs_triang|]. rewrite Rabs_mult.
  apply Rplus_le_compat_r. apply Rmult_le_compat_r; [apply Rabs_pos|apply IH].
Qed.

(** the error bound *)
Definition bound (k : nat) (A S : R) : R := ((1 + uu) ^ (2 * k) - 1) * A + hh * (1 + uu) ^ (2 * k) * S.
Lemma horner_error t rest r : let v := fold_left (step64 t) rest r in fin v ->
  fin r /\ (rest <> [] -> fin t) /\ Forall fin rest /\
  Rabs (val v - hfold (val t) (map val rest) (val r)) <=
    bound (length rest) (hfold (Rabs (val t)) (map (fun c => Rabs (val c)) rest) (Rabs (val r))) (geo (length rest) (Rabs (val t))).
Proof.
  cbv zeta. revert r. induction rest as [|c rest IH] using rev_ind; intros r F.
  { cbn in *. split; auto. split; [congruence|]. split; [constructor|]. rewrite Rminus_eq_0, Rabs_R0. unfold bound, geo. cbn. lra. }
  rewrite fold_left_app in F. cbn [fold_left] in F. destruct (step64_fin _ _ _ F) as (Ft & Fr & Fc & d1 & d2 & e1 & D1 & D2 & E1 & Q).
  destruct (IH r Fr) as (G1 & _ & G3 & B). split; auto. split; auto. split; [apply Forall_app; auto|].
  rewrite !map_app, fold_left_app. unfold hfold in *. rewrite !fold_left_app. cbn [fold_left map]. rewrite Q. clear Q F.
  rewrite app_length. cbn [length]. replace (length rest + 1)%nat with (S (length rest)) by lia. rewrite geo_S.
  set (k := length rest) in *. set (rh := val (fold_left (step64 t) rest r)) in *.
  pose proof (hfold_abs (val t) (map val rest) (val r)) as HA. rewrite map_map in HA. unfold hfold in HA.
  set (rr := fold_left _ (map val rest) (val r)) in *. set (A := fold_left _ _ (Rabs (val r))) in *.
  pose proof (geo_pos k (Rabs (val t)) (Rabs_pos _)) as GP. set (g := geo k (Rabs (val t))) in *.
  set (x := val t) in *. set (y := val c) in *.
  replace ((rh * x * (1 + d1) + e1 + y) * (1 + d2) - (rr * x + y))
    with ((rh - rr) * x * ((1 + d1) * (1 + d2)) + rr * x * (d1 + d2 + d1 * d2) + y * d2 + e1 * (1 + d2)) by ring.
  pose proof (abs_1d _ D1) as A1. pose proof (abs_1d _ D2) as A2. pose proof uu_pos as U. pose proof hh_pos as Hp.
  assert (T1 : Rabs ((rh - rr) * x * ((1 + d1) * (1 + d2))) <= bound k A g * Rabs x * ((1 + uu) * (1 + uu))).
  { rewrite !Rabs_mult. repeat apply Rmult_le_compat; auto using Rabs_pos, Rmult_le_pos, Rle_refl. }
  assert (T2 : Rabs (rr * x * (d1 + d2 + d1 * d2)) <= A * Rabs x * ((1 + uu) * (1 + uu) - 1)).
  { rewrite !Rabs_mult. repeat apply Rmult_le_compat; auto using Rabs_pos, Rmult_le_pos, Rle_refl.
    eapply Rle_trans; [apply Rabs_triang|]. eapply Rle_trans; [apply Rplus_le_compat_r, Rabs_triang|]. rewrite Rabs_mult.
    assert (Rabs d1 * Rabs d2 <= uu * uu) by (apply Rmult_le_compat; auto using Rabs_pos). lra. }
  assert (T3 : Rabs (y * d2) <= Rabs y * uu) by (rewrite Rabs_mult; apply Rmult_le_compat_l; auto using Rabs_pos).
  assert (T4 : Rabs (e1 * (1 + d2)) <= hh * (1 + uu)) by (rewrite Rabs_mult; apply Rmult_le_compat; auto using Rabs_pos).
  eapply Rle_trans; [apply Rabs_triang|]. eapply Rle_trans; [apply Rplus_le_compat_r; eapply Rle_trans; [apply Rabs_triang|apply Rplus_le_compat_r, Rabs_triang]|].
  assert (P : (1 + uu) ^ (2 * S k) = (1 + uu) ^ (2 * k) * ((1 + uu) * (1 + uu))) by (replace (2 * S k)%nat with (2 * k + 2)%nat by lia; rewrite pow_add; ring).
  unfold bound in *. rewrite P. set (p := (1 + uu) ^ (2 * k)) in *. assert (Pp : 1 <= p) by apply pow_1u_ge1.
  assert (HAp : 0 <= A) by (pose proof (Rabs_pos rr); lra). pose proof (Rabs_pos x). pose proof (Rabs_pos y). set (w := 1 + uu) in *. assert (Hw : 1 <= w) by (unfold w; lra). assert (Hu : uu = w - 1) by (unfold w; ring). clearbody w.
  assert (w * 1 <= p * (w * w)). { apply Rle_trans with (1 * (w * w)); [nra|apply Rmult_le_compat_r; nra]. }
  assert (W1 : uu <= p * (w * w) - 1) by lra.
  assert (W2 : hh * w <= hh * (p * (w * w))) by (apply Rmult_le_compat_l; lra).
  assert (W3 : Rabs y * uu <= Rabs y * (p * (w * w) - 1)) by (apply Rmult_le_compat_l; auto).
  nra.
Qed.

(** finiteness *)
Lemma horner_finite t rest r (T M : R) : fin t -> fin r -> Forall fin rest -> 1 <= T -> Rabs (val t) <= T ->
  M = Rabs (val r) + fold_right Rplus 0 (map (fun c => Rabs (val c)) rest) + INR (length rest) * hh ->
  (1 + uu) ^ (2 * length rest) * T ^ length rest * M < omax ->
  fin (fold_left (step64 t) rest r).
Proof.
  intros Ft Fr FF HT Ht EM HB.
  cut (fin (fold_left (step64 t) rest r) /\ Rabs (val (fold_left (step64 t) rest r)) <= (1 + uu) ^ (2 * length rest) * T ^ length rest * M); [tauto|].
  revert M EM HB. induction rest as [|c rest IH] using rev_ind; intros M EM HB.
  { cbn in *. split; auto. lra. }
  apply Forall_app in FF as (F1 & F2). inversion F2 as [|? ? Fc _]; subst. clear F2.
  rewrite fold_left_app. cbn [fold_left]. rewrite app_length in *. cbn [length] in *. replace (length rest + 1)%nat with (S (length rest)) in * by lia.
  set (k := length rest) in *. rewrite map_app, fold_right_app in HB |- *. cbn [map fold_right] in HB |- *.
  assert (FA : forall l a, fold_right Rplus a l = fold_right Rplus 0 l + a) by (induction l; intros; cbn; [ring|rewrite IHl; ring]).
  rewrite FA in HB |- *. rewrite S_INR in HB |- *. set (s := fold_right Rplus 0 _) in *.
  set (M0 := Rabs (val r) + s + INR k * hh).
  assert (Hs : 0 <= s). { unfold s. clear. induction rest; cbn; [lra|]. pose proof (Rabs_pos (val a)). lra. }
  pose proof uu_pos as U. pose proof hh_pos as Hp. pose proof (pos_INR k) as Pk. pose proof (Rabs_pos (val r)). pose proof (Rabs_pos (val c)).
  assert (HM0 : 0 <= M0) by (unfold M0; nra). set (p := (1 + uu) ^ (2 * k)) in *. assert (Pp : 1 <= p) by apply pow_1u_ge1. set (q := T ^ k) in *. assert (Pq : 1 <= q) by (apply pow_R1_Rle; auto).
  replace (Rabs (val r) + (s + (Rabs (val c) + 0)) + (INR k + 1) * hh) with (M0 + (Rabs (val c) + hh)) in HB |- * by (unfold M0; ring).
  assert (P1 : (1 + uu) ^ (2 * S k) = p * ((1 + uu) * (1 + uu))) by (replace (2 * S k)%nat with (2 * k + 2)%nat by lia; rewrite pow_add; fold p; ring).
  assert (P2 : T ^ S k = q * T) by (cbn; fold q; ring). rewrite P1, P2 in HB |- *. set (w := 1 + uu) in *.
  assert (Hw : 1 <= w) by (unfold w; lra). assert (Hpq : 1 <= p * q) by nra.
  set (Bd := p * q * M0). assert (HBd0 : 0 <= Bd) by (unfold Bd; nra).
  assert (WT : 1 <= w * T) by nra.
  assert (Key : ((Bd * T * w + hh) + Rabs (val c)) * w <= p * (w * w) * (q * T) * (M0 + (Rabs (val c) + hh))).
  { replace (p * (w * w) * (q * T) * (M0 + (Rabs (val c) + hh))) with (Bd * T * w * w + (p * q) * (w * T) * w * (hh + Rabs (val c))) by (unfold Bd; ring).
    assert (1 <= (p * q) * (w * T)) by nra. assert (0 <= w * (hh + Rabs (val c))) by nra. nra. }
  set (Big := p * (w * w) * (q * T) * (M0 + (Rabs (val c) + hh))) in *.
  assert (S1 : 0 <= Bd * T) by nra. assert (S2 : Bd * T <= Bd * T * w) by nra.
  assert (LeB : Bd <= Big). { assert (Bd <= Bd * T) by nra. assert (Bd * T * w + hh + Rabs (val c) <= (Bd * T * w + hh + Rabs (val c)) * w) by nra. lra. }
  destruct (IH F1 M0) as (Gf & Gb); [reflexivity|fold p; fold q; fold Bd; lra|]. fold p in Gb; fold q in Gb; fold Bd in Gb.
  set (rh := fold_left (step64 t) rest r) in *.
  destruct (rnd_err (val rh * val t)) as (d1 & e1 & D1 & E1 & Q1). pose proof (abs_1d _ D1) as A1.
  assert (X1 : Rabs (rnd (val rh * val t)) <= Bd * T * w + hh).
  { rewrite Q1. eapply Rle_trans; [apply Rabs_triang|]. rewrite !Rabs_mult. apply Rplus_le_compat; auto. apply Rmult_le_compat; auto using Rabs_pos, Rmult_le_pos.
    apply Rmult_le_compat; auto using Rabs_pos. }
  destruct (mul_ok rh t Gf Ft) as (Mf & Mv).
  { eapply Rle_lt_trans; [exact X1|]. eapply Rle_lt_trans; [|exact HB]. assert (Bd * T * w + hh + Rabs (val c) <= (Bd * T * w + hh + Rabs (val c)) * w) by nra. lra. }
  destruct (rnd_err_plus (val (Bmult mode_NE rh t)) (val c)) as (d2 & D2 & Q2); [apply val_fmt|apply val_fmt|]. pose proof (abs_1d _ D2) as A2.
  assert (X2 : Rabs (rnd (val (Bmult mode_NE rh t) + val c)) <= Big).
  { rewrite Q2, Rabs_mult. eapply Rle_trans; [|exact Key]. apply Rmult_le_compat; auto using Rabs_pos. eapply Rle_trans; [apply Rabs_triang|]. rewrite Mv. lra. }
  destruct (add_ok (Bmult mode_NE rh t) c Mf Fc) as (Af & Av); [lra|]. split; [exact Af|]. unfold step64. rewrite Av. exact X2.
Qed.

Lemma hfold_power_sum c cl rest t : rev c = cl :: rest -> hfold t rest cl = power_sum c t.
Proof. intros E. unfold hfold. rewrite <- horner_power_sum, E. cbn. f_equal. ring. Qed.
