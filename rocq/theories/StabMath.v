(** Error propagation in Bonnet's recursion: perturbations of the recursion are not amplified on [-1, 1]. *)
From Coquelicot Require Import Coquelicot.
From Coq Require Import Reals Lra Lia Arith.
From Verif Require Import RSum LegendreSpec LegendreMath GLProofs2.
Local Open Scope R_scope.

Lemma sq_le a b : 0 <= b -> a * a <= b * b -> Rabs a <= b.
Proof. intros Hb H. apply Rsqr_le_abs_0 in H. rewrite (Rabs_pos_eq b) in H; auto. Qed.

Lemma w_pos x b : -1 <= x <= 1 -> 0 <= (1 - x * x) * (b * b).
Proof. intros Hx. apply Rmult_le_pos; [nra|apply Rle_0_sqr]. Qed.
(** the quadratic form of two consecutive terms *)
Definition qf (x a b : R) : R := a * a - 2 * x * a * b + b * b.
Lemma qf_left x a b : qf x a b = (a - x * b) * (a - x * b) + (1 - x * x) * (b * b).
Proof. unfold qf. ring. Qed.
Lemma qf_right x a b : qf x a b = (x * a - b) * (x * a - b) + (1 - x * x) * (a * a).
Proof. unfold qf. ring. Qed.
Lemma qf_pos x a b : -1 <= x <= 1 -> 0 <= qf x a b.
Proof. intros Hx. rewrite qf_left. pose proof (w_pos x b Hx). pose proof (Rle_0_sqr (a - x * b)) as P. unfold Rsqr in P. lra. Qed.
(** one step of the recursion does not increase it *)
Lemma qf_step x m a b z : -1 <= x <= 1 -> 0 < m -> (m + 1) * z = (2 * m + 1) * x * a - m * b -> qf x z a <= qf x a b.
Proof.
  intros Hx Hm E. assert (A : (m + 1) * (z - x * a) = m * (x * a - b)) by (rewrite Rmult_minus_distr_l, E; ring).
  assert (G : (m + 1) * (m + 1) * qf x z a = m * m * qf x a b + (2 * m + 1) * ((1 - x * x) * (a * a))).
  { rewrite (qf_left x z a), (qf_right x a b). replace ((m + 1) * (m + 1) * ((z - x * a) * (z - x * a) + (1 - x * x) * (a * a)))
      with ((m + 1) * (z - x * a) * ((m + 1) * (z - x * a)) + (m + 1) * (m + 1) * ((1 - x * x) * (a * a))) by ring. rewrite A. ring. }
  assert (L : (1 - x * x) * (a * a) <= qf x a b) by (rewrite qf_right; pose proof (Rle_0_sqr (x * a - b)) as P; unfold Rsqr in P; lra).
  apply (Rmult_le_reg_l ((m + 1) * (m + 1))); [nra|]. rewrite G. nra.
Qed.

(** |P_n| <= 1 *)
Lemma legP_qf x n : -1 <= x <= 1 -> qf x (legP (S n) x) (legP n x) <= 1 - x * x.
Proof.
  intros Hx. induction n as [|n IH]; [rewrite legP_0, legP_1; unfold qf; lra|].
  eapply Rle_trans; [|exact IH]. apply (qf_step x (INR n + 1)); auto; [pose proof (pos_INR n); lra|].
  replace (INR n + 1 + 1) with (INR n + 2) by ring. rewrite legP_rec. ring.
Qed.
Lemma legP_bound n x : -1 <= x <= 1 -> Rabs (legP n x) <= 1.
Proof.
  intros Hx. destruct (Req_dec x 1) as [->|N1]; [rewrite legP_at_1, Rabs_R1; lra|].
  destruct (Req_dec x (-1)) as [->|N2].
  { replace (-1) with (- (1)) by ring. rewrite legP_parity, legP_at_1, Rmult_1_r. rewrite <- RPow_abs. replace (Rabs (-1)) with 1 by (rewrite Rabs_left; lra). rewrite pow1. lra. }
  pose proof (legP_qf x n Hx) as Q. rewrite qf_left in Q. apply sq_le; [lra|]. apply (Rmult_le_reg_l (1 - x * x)); [nra|]. pose proof (Rle_0_sqr (legP (S n) x - x * legP n x)) as P. unfold Rsqr in P. lra.
Qed.

(** perturbed recursion: an error of at most D in every step *)
Section Perturbed.
Variables (x D : R) (y : nat -> R) (N : nat).
Hypothesis Hx : -1 <= x <= 1.
Hypothesis HD : 0 <= D.
Hypothesis Y0 : y 0%nat = 1.
Hypothesis Y1 : Rabs (y 1%nat - x) <= D.
Hypothesis YS : forall k, (S (S k) <= N)%nat -> Rabs (y (S (S k)) - ((2 * INR k + 3) * x * y (S k) - (INR k + 1) * y k) / (INR k + 2)) <= D.
Let e k := y k - legP k x.
Lemma e_0 : e 0%nat = 0.
Proof. unfold e. rewrite legP_0, Y0. ring. Qed.
Lemma e_qf m : (S m <= N)%nat -> qf x (e (S m)) (e m) <= (INR (S m) * D) * (INR (S m) * D).
Proof.
  induction m as [|m IH]; intros Hm.
  - rewrite e_0. unfold e. rewrite legP_1. unfold qf. replace (INR 1) with 1 by reflexivity.
    apply Rabs_le_between in Y1. assert (0 <= (D - (y 1%nat - x)) * (D + (y 1%nat - x))) by (apply Rmult_le_pos; lra). nra.
  - specialize (IH ltac:(lia)). pose proof (YS m ltac:(lia)) as B. pose proof (pos_INR m) as Pm.
    set (z := ((2 * INR m + 3) * x * e (S m) - (INR m + 1) * e m) / (INR m + 2)).
    assert (Ez : (INR m + 1 + 1) * z = (2 * (INR m + 1) + 1) * x * e (S m) - (INR m + 1) * e m) by (unfold z; field; lra).
    assert (Qz : qf x z (e (S m)) <= (INR (S m) * D) * (INR (S m) * D)) by (eapply Rle_trans; [apply (qf_step x (INR m + 1) (e (S m)) (e m) z Hx); [lra|exact Ez]|exact IH]).
    set (d := e (S (S m)) - z). assert (Bd : Rabs d <= D).
    { replace d with (y (S (S m)) - ((2 * INR m + 3) * x * y (S m) - (INR m + 1) * y m) / (INR m + 2)); auto. unfold d, z, e. rewrite (legP_SS m x). field. lra. }
    replace (e (S (S m))) with (z + d) by (unfold d; ring). set (M := INR (S m) * D) in *.
    assert (HM : 0 <= M) by (unfold M; apply Rmult_le_pos; [apply pos_INR|auto]).
    assert (A : Rabs (z - x * e (S m)) <= M). { apply sq_le; auto. rewrite qf_left in Qz. pose proof (w_pos x (e (S m)) Hx). lra. }
    replace (INR (S (S m)) * D) with (M + D) by (unfold M; rewrite (S_INR (S m)); ring).
    replace (qf x (z + d) (e (S m))) with (qf x z (e (S m)) + 2 * (d * (z - x * e (S m))) + d * d) by (unfold qf; ring).
    assert (d * (z - x * e (S m)) <= D * M). { eapply Rle_trans; [apply Rle_abs|]. rewrite Rabs_mult. apply Rmult_le_compat; auto; apply Rabs_pos. }
    assert (d * d <= D * D). { eapply Rle_trans; [apply Rle_abs|]. rewrite Rabs_mult. apply Rmult_le_compat; auto; apply Rabs_pos. }
    nra.
Qed.
Lemma perturbed m : (m <= N)%nat -> Rabs (y m - legP m x) <= INR m * (INR m + 1) / 2 * D.
Proof.
  fold (e m). induction m as [|m IH]; intros Hm; [rewrite e_0, Rabs_R0; cbn [INR]; lra|].
  specialize (IH ltac:(lia)). pose proof (e_qf m Hm) as Q. rewrite qf_left in Q. pose proof (pos_INR m) as Pm.
  assert (A : Rabs (e (S m) - x * e m) <= INR (S m) * D). { apply sq_le; [apply Rmult_le_pos; [apply pos_INR|auto]|]. pose proof (w_pos x (e m) Hx). lra. }
  replace (e (S m)) with ((e (S m) - x * e m) + x * e m) by ring. eapply Rle_trans; [apply Rabs_triang|]. rewrite Rabs_mult.
  assert (Rabs x <= 1) by (apply Rabs_le; lra). assert (Rabs x * Rabs (e m) <= 1 * Rabs (e m)) by (apply Rmult_le_compat_r; [apply Rabs_pos|auto]). rewrite S_INR in *. nra.
Qed.
End Perturbed.
