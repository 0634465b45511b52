(** Properties C19 - C21: the exponential-trigonometric basis. *)
From Coquelicot Require Import Coquelicot.
From Coq Require Import Reals Lra Lia Arith List Bool ZArith.
From Verif Require Import Num Outcome LinAlg RSum RDeriv RMat LegendreModel LegendreSpec
  Basis0101Spec Basis0101Math Basis0101Model Basis0101Gram Basis0101Proofs.
Import ListNotations.
Local Open Scope R_scope.

(** ** C19 *)
Theorem C19_values : forall alpha t0 tau t b, 0 < alpha < 1 -> vlen b = 6%nat ->
  exists b', b01_eval alpha (window t0 tau t) tau b = Ok b' /\ vec_is b' 6 (fun i => b01_time (b01K alpha) t0 tau i t).
Proof. intros. apply b01_eval_R; auto. Qed.
Theorem C19_time_derivative : forall alpha t0 tau t k b, 0 < alpha < 1 -> tau <> 0 -> vlen b = 6%nat ->
  exists b' V, b01_eval_deriv alpha (window t0 tau t) tau k b = Ok b' /\ vec_is b' 6 V /\
    forall i, (i < 6)%nat -> is_derive_n (b01_time (b01K alpha) t0 tau i) k t (V i).
Proof.
  intros alpha t0 tau t k b Ha Ht L. destruct (b01_eval_deriv_R alpha (window t0 tau t) tau k b Ha L) as (b' & E & V).
  eexists b', _. split; [exact E|]. split; [exact V|]. intros i Hi. apply b01_time_derive_n; auto.
Qed.
Theorem C19_tau_derivative : forall alpha s tau k b, 0 < alpha < 1 -> vlen b = 6%nat ->
  exists b' V W, (forall th, exists bt, b01_eval_deriv alpha s th k b = Ok bt /\ vec_is bt 6 (V th)) /\
    b01_eval_deriv_tau alpha s tau k b = Ok b' /\ vec_is b' 6 W /\
    forall i, (i < 6)%nat -> is_derive (fun th => V th i) tau (W i).
Proof.
  intros alpha s tau k b Ha L. destruct (b01_eval_deriv_tau_R alpha s tau k b Ha L) as (b' & E & W).
  eexists b', (fun th i => (2 * b01K alpha) ^ k * fD k i (th * b01K alpha * s)), _. split; [|split; [exact E|split; [exact W|]]].
  - intros th. apply b01_eval_deriv_R; auto.
  - intros i Hi. apply b01_tau_derive.
Qed.
(** any arithmetic, any alpha: a buffer of six cells is enough, all six are written *)
Theorem C19_safe : forall (T : Type) (N : Num T) (alpha s tau : T) k b, vlen b = 6%nat ->
  (exists b' f, b01_eval alpha s tau b = Ok b' /\ vec_is b' 6 f) /\
  (exists b' f, b01_eval_deriv alpha s tau k b = Ok b' /\ vec_is b' 6 f) /\
  (exists b' f, b01_eval_deriv_tau alpha s tau k b = Ok b' /\ vec_is b' 6 f).
Proof.
  intros T N alpha s tau k b L. split; [|split].
  - destruct (b01_eval_gen alpha s tau b L) as (b' & E & V). eauto.
  - destruct (b01_eval_deriv_gen alpha s tau k b L) as (b' & E & V). eauto.
  - destruct (b01_eval_deriv_tau_gen alpha s tau k b L) as (b' & E & V). eauto.
Qed.
(** alpha = 1/2 (k^2 = 1/8): second and fourth derivatives at the middle of the interval *)
Lemma b01K_half : b01K (1/2) * b01K (1/2) = 1 / 8.
Proof.
  unfold b01K. replace (1 / 2 / (1 - 1 / 2)) with 1 by field. unfold Rpower. rewrite ln_1, Rmult_0_r, exp_0.
  replace (sqrt 2 / 4 * 1 * (sqrt 2 / 4 * 1)) with (sqrt 2 * sqrt 2 / 16) by field. rewrite sqrt_sqrt by lra. field.
Qed.
Example C19_nonvacuous : exists b' b'', b01_eval_deriv (1/2) (window 3 7 (13/2)) 7 2 (vnew 6) = Ok b' /\
  vget b' 0 = Some 0 /\ vget b' 1 = Some 1 /\ vget b' 3 = Some (-1) /\
  b01_eval_deriv (1/2) (window 3 7 (13/2)) 7 4 (vnew 6) = Ok b'' /\ vget b'' 0 = Some (-1).
Proof.
  pose proof b01K_half as HK.
  assert (W : forall K, 7 * K * window 3 7 (13/2) = 0) by (intros; unfold window; field).
  destruct (b01_eval_deriv_R (1/2) (window 3 7 (13/2)) 7 2 (vnew 6)) as (b' & E & _ & G); [lra|reflexivity|].
  destruct (b01_eval_deriv_R (1/2) (window 3 7 (13/2)) 7 4 (vnew 6)) as (b'' & E' & _ & G'); [lra|reflexivity|].
  exists b', b''. rewrite !G, !G' by lia. rewrite W. cbn [fD b01f pow]. rewrite ?Ropp_0, exp_0, cos_0, sin_0.
  revert HK. generalize (b01K (1/2)). intros K HK.
  split; [exact E|]. split; [f_equal; ring|]. split; [f_equal; transitivity (8 * (K * K)); [ring|lra]|].
  split; [f_equal; transitivity (- 8 * (K * K)); [ring|lra]|].
  split; [exact E'|f_equal; transitivity (- 64 * ((K * K) * (K * K))); [ring|rewrite HK; lra]].
Qed.

(** ** C20: what the order-k block really is, for every k *)
Theorem C20_block_exponent : forall alpha d, 0 < alpha < 1 ->
  exists m M, b01_derivative_matrix_impl alpha (S d) = Ok m /\ mat_is m 6 6 M /\
  forall t0 tau c t, tau <> 0 -> is_derive_n (b01_series (b01K alpha) t0 tau c) (2 ^ d) t
    (b01_series (b01K alpha) t0 tau (fun i => Rsum 6 (fun j => M i j * c j)) t).
Proof.
  intros alpha d Ha. destruct (b01_impl_R alpha d Ha) as (m & E & M). eexists m, _. split; [exact E|]. split; [exact M|].
  intros t0 tau c t Ht. apply b01_series_derive_n; auto.
Qed.
Theorem C20_block_up_to_2 : forall alpha k, 0 < alpha < 1 -> (k <= 2)%nat ->
  exists m M, b01_derivative_matrix_impl alpha k = Ok m /\ mat_is m 6 6 M /\
  forall t0 tau c t, tau <> 0 -> is_derive_n (b01_series (b01K alpha) t0 tau c) k t
    (b01_series (b01K alpha) t0 tau (fun i => Rsum 6 (fun j => M i j * c j)) t).
Proof.
  intros alpha k Ha Hk. destruct k as [|[|[|k]]]; [| | |lia].
  - exists (mident 6), mI. split; [reflexivity|]. split; [exact (mident_is 6)|].
    intros t0 tau c t Ht. exact (b01_series_derive_n (b01K alpha) t0 tau c 0 t Ht).
  - exact (C20_block_exponent alpha 0 Ha).
  - exact (C20_block_exponent alpha 1 Ha).
Qed.
(** for every alpha the order-3 block is wrong *)
Theorem C20_third_refuted : forall alpha, 0 < alpha < 1 ->
  exists m M c t, b01_derivative_matrix_impl alpha 3 = Ok m /\ mat_is m 6 6 M /\
  ~ is_derive_n (b01_series (b01K alpha) 0 2 c) 3 t
      (b01_series (b01K alpha) 0 2 (fun i => Rsum 6 (fun j => M i j * c j)) t).
Proof.
  intros alpha Ha. destruct (b01_impl_R alpha 2 Ha) as (m & E & M). eexists m, _.
  exists (fun i => if Nat.eqb i 1 then 1 else 0), 1. split; [exact E|]. split; [exact M|].
  intros D. pose proof (b01_series_derive_n (b01K alpha) 0 2 (fun i => if Nat.eqb i 1 then 1 else 0) 3 1 ltac:(lra)) as D'.
  apply is_derive_n_unique in D. apply is_derive_n_unique in D'. rewrite D in D'. clear D.
  pose proof (b01K_pos alpha) as HK. revert D' HK. generalize (b01K alpha). intros K D' HK.
  unfold b01_series, b01_time in D'. replace (2 * K * window 0 2 1) with 0 in D' by (unfold window; field).
  cbn [Rsum b01f] in D'. rewrite ?Ropp_0, exp_0, cos_0, sin_0 in D'.
  assert (X : 16 * (K * K * K) = 0).
  { transitivity (0 + 16 * (K * K * K)); [ring|]. revert D'.
    unfold mvec, mpow, mprod, mI, b01A. cbn [Rsum Nat.pow Nat.add Nat.mul nth b01_d1 Nat.eqb]. intros D'. lra. }
  assert (0 < K * K * K) by (repeat apply Rmult_lt_0_compat; auto). lra.
Qed.
Example C20_nonvacuous : exists m, b01_derivative_matrix_impl (1/2) 1 = Ok m /\ mget m 5 4 = Some (2 * b01K (1/2)) /\ mget m 4 5 = Some 0.
Proof.
  destruct (b01_impl_R (1/2) 0 ltac:(lra)) as (m & E & _ & _ & G). exists m. split; auto. rewrite !G by lia.
  unfold mpow, mprod, mI, b01A. cbn [Rsum Nat.pow Nat.add Nat.mul nth b01_d1 Nat.eqb]. split; f_equal; ring.
Qed.

(** ** C21 *)
(** the blocks as functions of their own factor k *)
Theorem C21_blocks : forall k tau i j, k <> 0 -> tau <> 0 -> (i < 6)%nat -> (j < 6)%nat ->
  (~ (i = 4 /\ j = 4)%nat -> b01_gram k tau 0 i j (b01_Q k tau i j)) /\
  b01_gram k tau 1 i j (b01_Qd1 k tau i j) /\
  b01_gram k tau 2 i j (4 / tau ^ 2 * b01_Qd2 k tau i j) /\
  b01_gram k tau 3 i j (b01_Qd3 k tau i j).
Proof. intros. repeat split; [apply Q_gram|apply Qd1_gram|apply Qd2_gram|apply Qd3_gram]; auto. Qed.
(** orders 1 and 3.  [b01_kq alpha] is the factor the C++ uses here: it writes sqrt(2)/4 as a decimal literal *)
Theorem C21_gram_orders_1_3 : forall alpha tau d m M, 0 < alpha < 1 -> tau <> 0 -> d = 1%nat \/ d = 3%nat -> mat_is m 6 6 M ->
  exists m' A, b01_add_gram alpha tau d m = Ok m' /\ mat_is m' 6 6 (fun i j => M i j + A i j) /\
  forall i j, (i < 6)%nat -> (j < 6)%nat -> b01_gram (b01_kq alpha) tau d i j (A i j).
Proof.
  intros alpha tau d m M Ha Ht Hd Mm. assert (Hk : b01_kq alpha <> 0) by (apply Rgt_not_eq, b01_kq_pos; auto).
  destruct Hd as [-> | ->]; unfold b01_add_gram; destruct (b01_add_gen m M (b01_Qd1 (b01_kq alpha) tau) Mm) as (m1 & E1 & M1);
    destruct (b01_add_gen m M (b01_Qd3 (b01_kq alpha) tau) Mm) as (m3 & E3 & M3).
  - eexists m1, _. split; [exact E1|]. split; [exact M1|]. intros; apply Qd1_gram; auto.
  - eexists m3, _. split; [exact E3|]. split; [exact M3|]. intros; apply Qd3_gram; auto.
Qed.
(** order 0: all entries but (4,4), which writes 1/3 as 0.33333333333333331 *)
Theorem C21_gram_order_0 : forall alpha tau m M, 0 < alpha < 1 -> 0 < tau -> mat_is m 6 6 M ->
  exists m' A, b01_add_gram alpha tau 0 m = Ok m' /\ mat_is m' 6 6 (fun i j => M i j + A i j) /\
  (forall i j, (i < 6)%nat -> (j < 6)%nat -> ~ (i = 4 /\ j = 4)%nat -> b01_gram (b01_kq alpha) tau 0 i j (A i j)) /\
  exists G, b01_gram (b01_kq alpha) tau 0 4 4 G /\ Rabs (A 4%nat 4%nat - G) < G / 10000000000000000.
Proof.
  intros alpha tau m M Ha Ht Mm. pose proof (b01_kq_pos alpha Ha) as Hp.
  assert (Hk : b01_kq alpha <> 0) by lra.
  unfold b01_add_gram. destruct (b01_add_gen m M (b01_Q (b01_kq alpha) tau) Mm) as (m' & E & M').
  eexists m', _. split; [exact E|]. split; [exact M'|]. split.
  - intros. apply Q_gram; auto. lra.
  - exists (tau ^ 3 * b01_kq alpha ^ 2 / 3). split; [apply Q44_gram; auto; lra|].
    cbv beta iota delta [b01_Q npown]. rnum.
    assert (0 < tau ^ 3 * b01_kq alpha ^ 2) by (apply Rmult_lt_0_compat; apply pow_lt; auto).
    simpl in H |- *. apply Rabs_def1; lra.
Qed.
Theorem C21_factor_close : forall alpha, 0 < alpha < 1 -> Rabs (b01_kq alpha / b01K alpha - 1) < 1 / 10000000000000000.
Proof. exact b01_kq_close. Qed.
(** order 2: tau^2/4 times the integrals, hence wrong unless tau = 2 *)
Theorem C21_gram_order_2_value : forall alpha tau m M, 0 < alpha < 1 -> tau <> 0 -> mat_is m 6 6 M ->
  exists m' A, b01_add_gram alpha tau 2 m = Ok m' /\ mat_is m' 6 6 (fun i j => M i j + tau ^ 2 / 4 * A i j) /\
  forall i j, (i < 6)%nat -> (j < 6)%nat -> b01_gram (b01_kq alpha) tau 2 i j (A i j).
Proof.
  intros alpha tau m M Ha Ht Mm. assert (Hk : b01_kq alpha <> 0) by (apply Rgt_not_eq, b01_kq_pos; auto).
  unfold b01_add_gram. destruct (b01_add_gen m M (b01_Qd2 (b01_kq alpha) tau) Mm) as (m' & E & M').
  exists m', (fun i j => 4 / tau ^ 2 * b01_Qd2 (b01_kq alpha) tau i j). split; [exact E|]. split.
  - eapply mat_is_ext; [exact M'|]. intros i j Hi Hj. cbv beta. rnum. field. auto.
  - intros; apply Qd2_gram; auto.
Qed.
Theorem C21_gram_order_2_refuted : forall alpha tau, 0 < alpha < 1 -> 0 < tau ->
  exists m' A, b01_add_gram alpha tau 2 (mzero 6 6) = Ok m' /\ mat_is m' 6 6 A /\
  ((forall i j, (i < 6)%nat -> (j < 6)%nat -> b01_gram (b01_kq alpha) tau 2 i j (A i j)) <-> tau = 2).
Proof.
  intros alpha tau Ha Ht. pose proof (b01_kq_pos alpha Ha) as Hp. assert (Hk : b01_kq alpha <> 0) by lra.
  unfold b01_add_gram. destruct (b01_add_gen (mzero 6 6) _ (b01_Qd2 (b01_kq alpha) tau) (mzero_isR 6 6)) as (m' & E & M').
  exists m', (b01_Qd2 (b01_kq alpha) tau). split; [exact E|]. split.
  { eapply mat_is_ext; [exact M'|]. intros i j Hi Hj. cbv beta. rnum. ring. }
  split; [|intros -> i j Hi Hj].
  - intros H. specialize (H 0%nat 2%nat ltac:(lia) ltac:(lia)).
    pose proof (Qd2_gram (b01_kq alpha) tau 0 2 Hk ltac:(lra) ltac:(lia) ltac:(lia)) as G.
    pose proof (i_unique _ _ _ _ _ H G) as X.
    assert (Y : b01_Qd2 (b01_kq alpha) tau 0 2 < 0).
    { cbv beta iota delta [b01_Qd2 npown]. rnum. set (k := b01_kq alpha) in *.
      assert (Hx : 0 < tau * k) by (apply Rmult_lt_0_compat; auto).
      pose proof (sin_lt_x (2 * (tau * k)) ltac:(lra)) as Hs. rewrite sin_2a in Hs.
      assert (0 < tau * tau * (k * k * k) * (tau * k - sin (tau * k) * cos (tau * k))).
      { apply Rmult_lt_0_compat; [|lra]. clearbody k. repeat apply Rmult_lt_0_compat; auto. }
      lra. }
    assert (Z : 4 / tau ^ 2 = 1).
    { apply (Rmult_eq_reg_r (b01_Qd2 (b01_kq alpha) tau 0 2)); [|lra]. rewrite Rmult_1_l. symmetry. exact X. }
    assert (tau ^ 2 = 4) by (transitivity (tau ^ 2 * (4 / tau ^ 2)); [rewrite Z; ring|field; lra]).
    nra.
  - pose proof (Qd2_gram (b01_kq alpha) 2 i j Hk ltac:(lra) Hi Hj) as G.
    replace (4 / 2 ^ 2) with 1 in G by field. rewrite Rmult_1_l in G. exact G.
Qed.
(** the tau-derivative of what is added, orders 1 and 3 *)
Theorem C21_gram_tau : forall alpha d m M, 0 < alpha < 1 -> d = 1%nat \/ d = 3%nat -> mat_is m 6 6 M ->
  exists A B, (forall tau, exists m', b01_add_gram alpha tau d m = Ok m' /\ mat_is m' 6 6 (fun i j => M i j + A tau i j)) /\
  (forall tau, exists m', b01_add_gram_tau alpha tau d m = Ok m' /\ mat_is m' 6 6 (fun i j => M i j + B tau i j)) /\
  forall tau i j, is_derive (fun th => A th i j) tau (B tau i j).
Proof.
  intros alpha d m M Ha Hd Mm. assert (Hk : b01_kq alpha <> 0) by (apply Rgt_not_eq, b01_kq_pos; auto).
  destruct Hd as [-> | ->].
  - exists (b01_Qd1 (b01_kq alpha)), (b01_Qd1_dtau (b01_kq alpha)).
    split; [|split]; intros; [exact (b01_add_gen m M (b01_Qd1 (b01_kq alpha) tau) Mm)|exact (b01_add_gen m M (b01_Qd1_dtau (b01_kq alpha) tau) Mm)|apply Qd1_dtau_derive; auto].
  - exists (b01_Qd3 (b01_kq alpha)), (b01_Qd3_dtau (b01_kq alpha)).
    split; [|split]; intros; [exact (b01_add_gen m M (b01_Qd3 (b01_kq alpha) tau) Mm)|exact (b01_add_gen m M (b01_Qd3_dtau (b01_kq alpha) tau) Mm)|apply Qd3_dtau_derive; auto].
Qed.
(** every other order is refused, whatever the arithmetic *)
Theorem C21_unsupported : forall (T : Type) (N : Num T) (alpha tau : T) d m,
  ((3 < d)%nat -> b01_add_gram alpha tau d m = Throw InvalidArgument) /\
  (d <> 1%nat -> d <> 3%nat -> b01_add_gram_tau alpha tau d m = Throw InvalidArgument).
Proof.
  intros T N alpha tau d m.
  split; intros; destruct d as [|[|[|[|d]]]]; first [reflexivity | lia].
Qed.
(** a concrete entry: order 1, functions 4 and 4, is the length-scaled 4 k^2 tau *)
Example C21_nonvacuous : exists m', b01_add_gram (1/2) 5 1 (mzero 6 6) = Ok m' /\
  mget m' 4 4 = Some (0 + 4 * 5 * b01_kq (1/2) ^ 2).
Proof.
  destruct (b01_add_gen (mzero 6 6) _ (b01_Qd1 (b01_kq (1/2)) 5) (mzero_isR 6 6)) as (m' & E & _ & _ & G).
  exists m'. split; [exact E|]. rewrite G by lia. apply f_equal. cbv beta iota delta [b01_Qd1 npown]. rnum. ring.
Qed.
