(** Rounding errors of the derivative matrix of the Legendre basis and of its powers. *)
From Coquelicot Require Import Coquelicot.
From Coq Require Import ZArith Reals Lra Lia List Arith Bool Permutation.
From Flocq Require Import Core BinarySingleNaN.
From Verif Require Import Num Outcome LinAlg RSum RMat LegendreSpec LegendreMath LegendreModel LegendreProofs StabMath InterpMath2
  IEEEModel IEEESpec IEEEProofs IEEEHorner IEEELegendre IEEESpline IEEELagrange IEEEDerivSpec IEEEDeriv IEEEDeriv3 IEEEDSplineSpec DSplineGen.
Import ListNotations.
Local Open Scope R_scope.

(** ** factors near 1 *)
Definition nr (r q : R) : Prop := Rabs (q - 1) <= r - 1.
Lemma nr_ge r q : nr r q -> 1 <= r.
Proof. unfold nr. pose proof (Rabs_pos (q - 1)). lra. Qed.
Lemma nr_1 r : 1 <= r -> nr r 1.
Proof. unfold nr. intros. rewrite Rminus_diag_eq, Rabs_R0; lra. Qed.
Lemma nr_le r s q : r <= s -> nr r q -> nr s q.
Proof. unfold nr. intros. lra. Qed.
Lemma nr_mul r s p q : nr r p -> nr s q -> nr (r * s) (p * q).
Proof.
  intros Hp Hq. pose proof (nr_ge _ _ Hp). pose proof (nr_ge _ _ Hq). unfold nr in *.
  replace (p * q - 1) with ((p - 1) * q + (q - 1)) by ring. eapply Rle_trans; [apply Rabs_triang|]. rewrite Rabs_mult.
  assert (Rabs q <= s). { replace q with ((q - 1) + 1) by ring. eapply Rle_trans; [apply Rabs_triang|]. rewrite Rabs_R1. lra. }
  assert (Rabs (p - 1) * Rabs q <= (r - 1) * s) by (apply Rmult_le_compat; auto using Rabs_pos). lra.
Qed.
Lemma nr_rat k q : rat k q -> nr (bt ^ k) q.
Proof. apply rat_abs. Qed.
Lemma nr_between r q : nr r q -> 2 - r <= q <= r.
Proof. unfold nr. intros H. apply Rabs_le_between in H. lra. Qed.
Lemma term_le n (w : nat -> R) i : (forall i, (i < n)%nat -> 0 <= w i) -> (i < n)%nat -> w i <= Rsum n w.
Proof.
  induction n as [|k IH]; intros Hw Hi; [lia|]. cbn [Rsum]. destruct (Nat.eq_dec i k) as [->|Hk].
  - pose proof (Rsum_nonneg k w ltac:(intros; apply Hw; lia)). lra.
  - assert (w i <= Rsum k w) by (apply IH; [intros; apply Hw; lia|lia]). pose proof (Hw k ltac:(lia)). lra.
Qed.
(** averages *)
Lemma nr_sum n (w q : nat -> R) r : (forall i, (i < n)%nat -> 0 <= w i) -> (forall i, (i < n)%nat -> nr r (q i)) -> 1 <= r ->
  exists p, nr r p /\ Rsum n (fun i => w i * q i) = Rsum n w * p.
Proof.
  intros Hw Hq Hr. pose proof (Rsum_nonneg n w Hw) as S0. destruct (Req_dec (Rsum n w) 0) as [Z|Z].
  - exists 1. split; [apply nr_1; auto|]. rewrite Z, Rmult_0_l. apply Rsum_zero. intros i Hi.
    assert (w i = 0) as H by (pose proof (Hw i Hi); pose proof (term_le n w i Hw Hi); lra).
    rewrite H. ring.
  - exists (Rsum n (fun i => w i * q i) / Rsum n w). split; [|field; auto]. unfold nr.
    replace (Rsum n (fun i => w i * q i) / Rsum n w - 1) with ((Rsum n (fun i => w i * q i) - Rsum n w) / Rsum n w) by (field; auto).
    unfold Rdiv. rewrite Rabs_mult, Rabs_inv, (Rabs_pos_eq (Rsum n w)) by lra. apply Rle_div_l; [lra|].
    rewrite <- Rsum_minus. eapply Rle_trans; [apply InterpMath2.Rsum_abs|]. rewrite <- Rsum_scal. apply Rsum_le. intros i Hi.
    replace (w i * q i - w i) with (w i * (q i - 1)) by ring. rewrite Rabs_mult, (Rabs_pos_eq (w i)) by auto. rewrite Rmult_comm. apply Rmult_le_compat_r; auto. apply Hq; auto.
Qed.
Lemma bt_small k e : (k <= 10)%nat -> e = INR k + 1 -> bt ^ k <= 1 + e * uu.
Proof.
  intros Hk ->. pose proof uu_pos as U. pose proof uu_small as US. pose proof (pow1u_bt k). pose proof (btk_ge1 k) as G.
  assert (Be : 1 - INR k * uu <= (1 - uu) ^ k).
  { clear - U US. induction k as [|k IH]; [cbn; lra|]. rewrite S_INR. cbn [pow]. pose proof (pos_INR k). assert (0 <= INR k * uu) by (apply Rmult_le_pos; lra). assert ((1 - uu) * (1 - INR k * uu) <= (1 - uu) * (1 - uu) ^ k) by (apply Rmult_le_compat_l; lra). assert (0 <= uu * (INR k * uu)) by (apply Rmult_le_pos; lra). lra. }
  assert (K10 : 0 <= INR k <= 10) by (split; [apply pos_INR|replace 10 with (INR 10) by (cbn; lra); apply le_INR; auto]).
  assert (B1 : bt ^ k * (1 - uu) ^ k = 1). { unfold bt. rewrite <- Rpow_mult_distr, Rinv_l by lra. apply pow1. }
  assert (B2 : bt ^ k * (1 - INR k * uu) <= 1) by (rewrite <- B1; apply Rmult_le_compat_l; lra).
  assert (KU : 0 <= INR k * uu <= 10 * uu) by (split; [apply Rmult_le_pos; lra|apply Rmult_le_compat_r; lra]).
  assert (B3 : bt ^ k * (1 - INR k * uu) <= (1 + (INR k + 1) * uu) * (1 - INR k * uu)).
  { eapply Rle_trans; [exact B2|]. replace ((1 + (INR k + 1) * uu) * (1 - INR k * uu)) with (1 + uu * (1 - INR k * uu * (INR k + 1))) by ring.
    assert (INR k * uu * (INR k + 1) <= 10 * uu * 11) by (apply Rmult_le_compat; lra). assert (0 <= uu * (1 - INR k * uu * (INR k + 1))) by (apply Rmult_le_pos; lra). lra. }
  apply Rmult_le_reg_r with (1 - INR k * uu); lra.
Qed.

(** ** scalar products of nonnegative numbers *)
Lemma rat_one k : rat k 1.
Proof. pose proof (btk_ge1 k). split; [|lra]. rewrite <- Rinv_1. apply Rinv_le_contravar; lra. Qed.
Lemma rat_weigh n a b p q : 0 <= a -> 0 <= b -> rat n p -> rat n q -> exists r, rat n r /\ a * p + b * q = (a + b) * r.
Proof.
  intros Ha Hb (L1 & U1) (L2 & U2). destruct (Req_dec (a + b) 0) as [Z|Z].
  - exists 1. split; [apply rat_one|assert (a = 0) by lra; assert (b = 0) by lra; subst; ring].
  - exists ((a * p + b * q) / (a + b)). split; [|field; auto]. assert (P : 0 < a + b) by lra.
    split; [apply Rle_div_r; [exact P|]|apply Rle_div_l; [exact P|]].
    + assert (/ bt ^ n * a <= a * p) by (rewrite Rmult_comm; apply Rmult_le_compat_l; auto). assert (/ bt ^ n * b <= b * q) by (rewrite Rmult_comm; apply Rmult_le_compat_l; auto). lra.
    + assert (a * p <= bt ^ n * a) by (rewrite (Rmult_comm _ a); apply Rmult_le_compat_l; auto). assert (b * q <= bt ^ n * b) by (rewrite (Rmult_comm _ b); apply Rmult_le_compat_l; auto). lra.
Qed.
Definition plain (p : b64 * b64) : Prop := fin (fst p) /\ fin (snd p) /\ (dprod p = 0 \/ / big <= dprod p).
Lemma plain_sum l : Forall plain l -> 0 <= lsum dprod l /\ (lsum dprod l = 0 \/ / big <= lsum dprod l).
Proof.
  assert (P : 0 < / big) by (apply Rinv_0_lt_compat; pose proof big_1; lra).
  induction 1 as [|p l (_ & _ & Hp) _ (I0 & IH)]; unfold lsum in *; cbn [fold_right]; [lra|]. destruct Hp as [->|Hp]; destruct IH as [IH|IH]; lra.
Qed.
Lemma dot_pos l x : dot_of l x -> Forall plain l -> bt ^ length l * lsum dprod l <= big ->
  fin x /\ exists q, rat (length l) q /\ val x = lsum dprod l * q.
Proof.
  pose proof big_1 as B1. pose proof bt_ge1 as BT.
  induction 1 as [|a b|l l' x y Dx IHx Dy IHy|a b l x Dx IHx|l l' x Pm Dx IHx]; intros Fl Hb.
  - split; [reflexivity|]. exists 1. split; [apply rat_one|]. cbn. ring.
  - inversion Fl as [|p l' (Fa & Fb & Hp) _]; subst. cbn [fst snd length] in *. unfold lsum in *. cbn [fold_right] in *. rewrite Rplus_0_r in *. unfold dprod in *. cbn [fst snd] in *.
    rewrite pow_1 in Hb. destruct Hp as [Z|Hp].
    + destruct (mul_ok a b Fa Fb) as (Fv & V). { rewrite Z, rnd_fmt by apply generic_format_0. rewrite Rabs_R0. apply omax_pos. }
      split; [exact Fv|]. exists 1. split; [apply rat_one|]. rewrite V, Z, rnd_fmt by apply generic_format_0. ring.
    + assert (P : 0 < / big) by (apply Rinv_0_lt_compat; lra).
      assert (Hb' : val a * val b <= big). { eapply Rle_trans; [|exact Hb]. rewrite <- (Rmult_1_l (val a * val b)) at 1. apply Rmult_le_compat_r; lra. }
      destruct (mul_ok a b Fa Fb) as (Fv & V). { apply rnd_big. rewrite Rabs_pos_eq; lra. }
      split; [exact Fv|]. destruct (rnd_err_normal (val a * val b)) as (d & Dd & Q). { eapply Rle_trans; [apply normal_big|]. rewrite Rabs_pos_eq; lra. }
      exists (1 + d). split; [apply rat_1; auto|]. rewrite V, Q. reflexivity.
  - apply Forall_app in Fl as (F1 & F2). rewrite app_length, lsum_app in *. destruct (plain_sum l F1) as (P1 & _). destruct (plain_sum l' F2) as (P2 & _).
    destruct IHx as (Fx & q & Rq & Vx); auto. { eapply Rle_trans; [|exact Hb]. apply Rmult_le_compat; try lra; [apply Rlt_le, bt_pos|apply bt_le; lia]. }
    destruct IHy as (Fy & q' & Rq' & Vy); auto. { eapply Rle_trans; [|exact Hb]. apply Rmult_le_compat; try lra; [apply Rlt_le, bt_pos|apply bt_le; lia]. }
    assert (SB : Rabs (val x + val y) <= big).
    { destruct (rat_weigh (length l + length l') (lsum dprod l) (lsum dprod l') q q') as (r & (Lr & Ur) & Er); auto; try (eapply rat_le; [|eassumption]; lia).
      rewrite Vx, Vy, Er. assert (0 < / bt ^ (length l + length l')) by (apply Rinv_0_lt_compat, bt_pos). rewrite Rabs_pos_eq by (apply Rmult_le_pos; lra).
      eapply Rle_trans; [|exact Hb]. rewrite Rmult_comm. apply Rmult_le_compat_r; lra. }
    destruct (add_ok x y Fx Fy) as (Fs & Vs). { apply rnd_big. lra. }
    split; [exact Fs|]. destruct (Nat.eq_dec (length l) 0) as [Z|Z]; [|destruct (Nat.eq_dec (length l') 0) as [Z'|Z']].
    + destruct l; [|discriminate]. cbn in Vx. rewrite Rmult_0_l in Vx. rewrite Vx, Rplus_0_l, rnd_fmt in Vs by apply val_fmt. exists q'. split; [exact Rq'|]. rewrite Vs, Vy. cbn. ring.
    + destruct l'; [|discriminate]. cbn in Vy. rewrite Rmult_0_l in Vy. rewrite Vy, Rplus_0_r, rnd_fmt in Vs by apply val_fmt. exists q. split; [rewrite Nat.add_comm; exact Rq|]. rewrite Vs, Vx. cbn. ring.
    + destruct (rnd_err_plus (val x) (val y)) as (d & Dd & Q); [apply val_fmt|apply val_fmt|].
      destruct (rat_weigh (length l + length l' - 1) (lsum dprod l) (lsum dprod l') q q') as (r & Rr & Er); auto; try (eapply rat_le; [|eassumption]; lia).
      exists (r * (1 + d)). split. { apply (rat_le (length l + length l' - 1 + 1)); [lia|]. apply rat_mul; auto. apply rat_1; auto. }
      rewrite Vs, Q, Vx, Vy, Er. ring.
  - inversion Fl as [|p l' (Fa & Fb & Hp) Fl']; subst. cbn [fst snd] in *. unfold lsum in Hb |- *. cbn [fold_right length] in *. fold (lsum dprod l) in *. destruct (plain_sum l Fl') as (P1 & P2).
    assert (D0 : 0 <= dprod (a, b)) by (assert (0 < / big) by (apply Rinv_0_lt_compat; lra); destruct Hp; lra).
    destruct IHx as (Fx & q & Rq & Vx); auto. { eapply Rle_trans; [|exact Hb]. apply Rmult_le_compat; try lra; [apply Rlt_le, bt_pos|apply bt_le; lia]. }
    destruct (rat_weigh (length l) (dprod (a, b)) (lsum dprod l) 1 q) as (r & Rr & Er); auto; [apply rat_one|]. rewrite Rmult_1_r in Er.
    assert (SE : val a * val b + val x = (dprod (a, b) + lsum dprod l) * r) by (rewrite Vx, <- Er; reflexivity).
    assert (Pr : 0 < r) by (eapply rat_pos; eauto).
    assert (SB : Rabs (val a * val b + val x) <= big).
    { rewrite SE, Rabs_pos_eq by (apply Rmult_le_pos; lra). eapply Rle_trans; [|exact Hb]. rewrite Rmult_comm. apply Rmult_le_compat_r; [lra|]. destruct Rr as (_ & Ur). eapply Rle_trans; [exact Ur|]. apply (bt_le (length l) (S (length l))). lia. }
    destruct (fma_ok a b x Fa Fb Fx) as (Fs & Vs). { apply rnd_big. lra. }
    split; [exact Fs|]. destruct Hp as [Z|Hp].
    + exists q. split; [apply (rat_le (length l)); [lia|exact Rq]|]. rewrite Vs. change (val a * val b) with (dprod (a, b)). rewrite Z, !Rplus_0_l, rnd_fmt by apply val_fmt. exact Vx.
    + destruct (Rle_dec (2 * hh * 2 ^ 53) (Rabs (val a * val b + val x))) as [N|N].
      * destruct (rnd_err_normal _ N) as (d & Dd & Q). exists (r * (1 + d)). split. { apply (rat_le (length l + 1)); [lia|]. apply rat_mul; auto. apply rat_1; auto. }
        rewrite Vs, Q, SE. ring.
      * exfalso. apply N. eapply Rle_trans; [apply normal_big|]. assert (Vx0 : 0 <= val x) by (rewrite Vx; apply Rmult_le_pos; [lra|apply Rlt_le; eapply rat_pos; eauto]).
        unfold dprod in Hp. cbn [fst snd] in Hp. assert (0 < / big) by (apply Rinv_0_lt_compat; lra). rewrite Rabs_pos_eq by lra. lra.
  - assert (Fl' : Forall plain l). { rewrite Forall_forall in *. intros p Hp. apply Fl. eapply Permutation_in; eauto. }
    rewrite <- (Permutation_length Pm), <- (lsum_perm _ _ _ Pm) in *. auto.
Qed.
