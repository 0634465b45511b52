(** Proofs about the basis0101 model. *)
From Coquelicot Require Import Coquelicot.
From Coq Require Import Reals Lra Lia Arith List Bool ZArith.
From Verif Require Import Num Outcome LinAlg RSum RDeriv RMat LegendreModel LegendreSpec
  Basis0101Spec Basis0101Math Basis0101Model Basis0101Gram.
Import ListNotations.

(** ** any arithmetic *)
Section Gen.
Context {T : Type} `{Num T}.
Local Open Scope nat_scope.
Local Open Scope num_scope.

Definition gb01 (p : T) (i : nat) : T :=
  match i with
  | 0 => nexp p * ncos p
  | 1 => nexp p * nsin p
  | 2 => ncos p / nexp p
  | 3 => nsin p / nexp p
  | 4 => p
  | _ => n1
  end.
Definition grot (f : nat -> T) (i : nat) : T :=
  match i with
  | 0 => f 0%nat - f 1%nat
  | 1 => f 0%nat + f 1%nat
  | 2 => - f 2%nat - f 3%nat
  | 3 => f 2%nat - f 3%nat
  | 4 => f 5%nat
  | _ => n0
  end.
Fixpoint gfD (a p : T) (d : nat) (i : nat) : T :=
  match d with
  | O => gb01 p i
  | S e => grot (gfD a p e) i * a
  end.

Lemma b01_eval_gen (alpha s tau : T) (b : vec T) : vlen b = 6 ->
  exists b', b01_eval alpha s tau b = Ok b' /\ vec_is b' 6 (gb01 (tau * b01_k alpha * s)).
Proof.
  intros L. unfold b01_eval.
  repeat (rewrite vwrite_lt by (cbn [vlen]; rewrite L; lia); cbn [bind vlen vget]).
  eexists. split; [reflexivity|]. split; [exact L|].
  intros i Hi. cbn [vget]. do 6 (destruct i as [|i]; [reflexivity|]). lia.
Qed.

Lemma b01_step_gen f (b : vec T) g : vec_is b 6 g ->
  exists b', b01_step f b = Ok b' /\ vec_is b' 6 (fun i => grot g i * f).
Proof.
  intros [L G]. unfold b01_step.
  repeat (first [ rewrite vwrite_lt by (cbn [vlen]; rewrite L; lia)
                | erewrite vread_get by (cbn [vlen vget Nat.eqb]; first [rewrite L; lia | apply G; lia | reflexivity]) ];
          cbn [bind vlen vget Nat.eqb]).
  eexists. split; [reflexivity|]. split; [exact L|].
  intros i Hi. cbn [vget vscale vlen].
  do 6 (destruct i as [|i]; [reflexivity|]). lia.
Qed.

Lemma b01_eval_deriv_gen (alpha s tau : T) d (b : vec T) : vlen b = 6 ->
  exists b', b01_eval_deriv alpha s tau d b = Ok b' /\
    vec_is b' 6 (gfD (b01_k alpha * c2) (tau * b01_k alpha * s) d).
Proof.
  intros L. unfold b01_eval_deriv.
  destruct (b01_eval_gen alpha s tau b L) as (b1 & E1 & V1). rewrite E1. cbn [bind].
  match goal with |- context [for_ 1 (S d) ?f b1] =>
    destruct (for_ok (fun i (v : vec T) => vec_is v 6 (gfD (b01_k alpha * c2) (tau * b01_k alpha * s) (i - 1))) f 1 (S d) b1)
      as (b2 & E2 & V2) end.
  - lia.
  - exact V1.
  - intros i v Hi V. destruct (b01_step_gen (b01_k alpha * c2) v _ V) as (v' & E & V'). exists v'. split; auto.
    replace (S i - 1)%nat with (S (i - 1)) by lia. exact V'.
  - exists b2. split; auto. replace (S d - 1)%nat with d in V2 by lia. exact V2.
Qed.

Lemma b01_eval_deriv_tau_gen (alpha s tau : T) d (b : vec T) : vlen b = 6 ->
  exists b', b01_eval_deriv_tau alpha s tau d b = Ok b' /\
    vec_is b' 6 (fun i => grot (gfD (b01_k alpha * c2) (tau * b01_k alpha * s) d) i * (s * b01_k alpha)).
Proof.
  intros L. unfold b01_eval_deriv_tau.
  destruct (b01_eval_deriv_gen alpha s tau d b L) as (b1 & E1 & V1). rewrite E1. cbn [bind].
  apply b01_step_gen. exact V1.
Qed.

Definition gD1 (a : T) (i j : nat) : T := nofZ (nth (i + 6 * j)%nat b01_d1 0%Z) * a.
Fixpoint gsq (a : T) (d : nat) : nat -> nat -> T :=
  match d with
  | O => gD1 a
  | S e => fun i j => nsum 6 (fun l => gsq a e i l * gsq a e l j)
  end.

Lemma b01_impl_gen (alpha : T) d : exists m, b01_derivative_matrix_impl alpha (S d) = Ok m /\
  mat_is m 6 6 (gsq (b01_k alpha * c2) d).
Proof.
  unfold b01_derivative_matrix_impl.
  match goal with |- context [for_ 2 (S (S d)) ?f ?v] =>
    destruct (for_ok (fun i (m : mat T) => mat_is m 6 6 (gsq (b01_k alpha * c2) (i - 2))) f 2 (S (S d)) v)
      as (m & E & M) end.
  - lia.
  - apply mscale_is. split; [reflexivity|]. split; [reflexivity|]. intros i j Hi Hj. cbn [mget].
    rewrite (nth_error_nth' b01_d1 0%Z); [reflexivity|]. change (length b01_d1) with 36%nat. lia.
  - intros i m Hi M. destruct (mmul_is m m 6 6 6 _ _ M M) as (m' & E & M'). exists m'. split; auto.
    replace (S i - 2)%nat with (S (i - 2)) by lia. exact M'.
  - exists m. split; auto. replace (S (S d) - 2)%nat with d in M by lia. exact M.
Qed.

Lemma b01_add_gen (m : mat T) M blk : mat_is m 6 6 M ->
  exists m', b01_add m blk = Ok m' /\ mat_is m' 6 6 (fun i j => M i j + blk i j).
Proof.
  intros (Hr & Hc & G). unfold b01_add. rewrite Hr, Hc. cbn [Nat.eqb andb].
  eexists. split; [reflexivity|]. split; [reflexivity|]. split; [reflexivity|].
  intros i j Hi Hj. cbn [mget]. rewrite G; auto.
Qed.
End Gen.

(** ** reals *)
Local Open Scope R_scope.

Lemma Rpower_inv x z : 0 < x -> Rpower (/ x) z = / Rpower x z.
Proof. intros Hx. unfold Rpower. rewrite ln_Rinv by auto. rewrite <- exp_Ropp. f_equal. ring. Qed.
Lemma quarter : 25 / 100 = / 4.
Proof. field. Qed.

Lemma b01_k_R alpha : 0 < alpha < 1 -> b01_k alpha = b01K alpha.
Proof.
  intros Ha. unfold b01_k, b01K, nquarter. rnum. rewrite quarter. unfold Rdiv.
  rewrite <- (Rpower_mult_distr alpha (/ (1 - alpha))), Rpower_inv by (try apply Rinv_0_lt_compat; lra). ring.
Qed.
Lemma b01_kq_R alpha : 0 < alpha < 1 -> b01_kq alpha = 35355339059327379 / 100000000000000000 * Rpower (alpha / (1 - alpha)) (/ 4).
Proof.
  intros Ha. unfold b01_kq, nquarter. rnum. rewrite quarter. unfold Rdiv. rewrite Rmult_1_l.
  rewrite <- (Rpower_mult_distr alpha (/ (1 - alpha))) by (try apply Rinv_0_lt_compat; lra). ring.
Qed.
Lemma b01K_pos alpha : 0 < b01K alpha.
Proof.
  unfold b01K. apply Rmult_lt_0_compat; [|apply exp_pos]. pose proof (sqrt_lt_R0 2 ltac:(lra)). lra.
Qed.
Lemma b01_kq_pos alpha : 0 < alpha < 1 -> 0 < b01_kq alpha.
Proof. intros Ha. rewrite b01_kq_R by auto. apply Rmult_lt_0_compat; [lra|apply exp_pos]. Qed.

(** the literal of the blocks is sqrt(2)/4 to a relative 10^-16 *)
Lemma b01_kq_close alpha : 0 < alpha < 1 -> Rabs (b01_kq alpha / b01K alpha - 1) < 1 / 10000000000000000.
Proof.
  intros Ha. rewrite b01_kq_R by auto. unfold b01K.
  assert (Hp : Rpower (alpha / (1 - alpha)) (/ 4) <> 0) by (apply Rgt_not_eq, exp_pos).
  pose proof (sqrt_lt_R0 2 ltac:(lra)) as Hs. pose proof (sqrt_sqrt 2 ltac:(lra)) as Hq.
  set (p := Rpower (alpha / (1 - alpha)) (/ 4)) in *. set (r := sqrt 2) in *.
  assert (Hl : 141421356237309504 / 100000000000000000 < r).
  { apply Rnot_le_lt. intros Hle. assert (r * r <= 141421356237309504 / 100000000000000000 * (141421356237309504 / 100000000000000000)) by
      (apply Rmult_le_compat; lra). lra. }
  assert (Hu : r < 141421356237309506 / 100000000000000000).
  { apply Rnot_le_lt. intros Hle. assert (141421356237309506 / 100000000000000000 * (141421356237309506 / 100000000000000000) <= r * r) by
      (apply Rmult_le_compat; lra). lra. }
  replace (35355339059327379 / 100000000000000000 * p / (r / 4 * p) - 1)
    with ((141421356237309516 / 100000000000000000 - r) / r) by (field; split; lra).
  unfold Rdiv at 1. rewrite Rabs_mult, (Rabs_right (/ r)) by (apply Rle_ge, Rlt_le, Rinv_0_lt_compat; lra).
  apply (Rmult_lt_reg_r r); [lra|]. rewrite Rmult_assoc, Rinv_l by lra.
  rewrite Rmult_1_r. apply Rabs_def1; lra.
Qed.

Lemma gb01_R p i : (i < 6)%nat -> gb01 p i = b01f i p.
Proof.
  intros Hi. do 6 (destruct i as [|i]; [unfold gb01, b01f; rnum; rewrite ?exp_Ropp; unfold Rdiv; try reflexivity; apply Rmult_comm|]). lia.
Qed.
Lemma gfD_R a p d : forall i, (i < 6)%nat -> gfD a p d i = a ^ d * fD d i p.
Proof.
  induction d as [|d IH]; intros i Hi.
  - cbn [gfD fD pow]. rewrite gb01_R by auto. ring.
  - cbn [gfD fD pow]. do 6 (destruct i as [|i]; [cbn [grot]; rnum; rewrite ?IH by lia; ring|]). lia.
Qed.
Lemma grot_R a p d i : (i < 6)%nat -> grot (gfD a p d) i = a ^ d * fD (S d) i p.
Proof.
  intros Hi. do 6 (destruct i as [|i]; [cbn [grot fD]; rnum; rewrite ?gfD_R by lia; ring|]). lia.
Qed.

Lemma b01_eval_R alpha s tau b : 0 < alpha < 1 -> vlen b = 6%nat ->
  exists b', b01_eval alpha s tau b = Ok b' /\ vec_is b' 6 (fun i => b01f i (tau * b01K alpha * s)).
Proof.
  intros Ha L. destruct (b01_eval_gen alpha s tau b L) as (b' & E & V). exists b'. split; auto.
  eapply vec_is_ext; [exact V|]. intros i Hi. cbv beta. rewrite gb01_R by auto. rnum. now rewrite b01_k_R.
Qed.
Lemma b01_eval_deriv_R alpha s tau d b : 0 < alpha < 1 -> vlen b = 6%nat ->
  exists b', b01_eval_deriv alpha s tau d b = Ok b' /\
    vec_is b' 6 (fun i => (2 * b01K alpha) ^ d * fD d i (tau * b01K alpha * s)).
Proof.
  intros Ha L. destruct (b01_eval_deriv_gen alpha s tau d b L) as (b' & E & V). exists b'. split; auto.
  eapply vec_is_ext; [exact V|]. intros i Hi. cbv beta. rewrite gfD_R by auto. unfold c2. rnum.
  rewrite b01_k_R by auto. now rewrite (Rmult_comm (b01K alpha) 2).
Qed.
Lemma b01_eval_deriv_tau_R alpha s tau d b : 0 < alpha < 1 -> vlen b = 6%nat ->
  exists b', b01_eval_deriv_tau alpha s tau d b = Ok b' /\
    vec_is b' 6 (fun i => (2 * b01K alpha) ^ d * (fD (S d) i (tau * b01K alpha * s) * (s * b01K alpha))).
Proof.
  intros Ha L. destruct (b01_eval_deriv_tau_gen alpha s tau d b L) as (b' & E & V). exists b'. split; auto.
  eapply vec_is_ext; [exact V|]. intros i Hi. cbv beta. rewrite grot_R by auto. unfold c2. rnum.
  rewrite b01_k_R by auto. rewrite (Rmult_comm (b01K alpha) 2). ring.
Qed.

(** ** differentiation matrix *)
Lemma mpow_add n A p q i j : (i < n)%nat -> (j < n)%nat -> mpow n A (p + q) i j = mprod n (mpow n A p) (mpow n A q) i j.
Proof.
  intros Hi. revert j. induction q as [|q IH]; intros j Hj.
  - rewrite Nat.add_0_r. cbn [mpow]. now rewrite mprod_1r.
  - replace (p + S q)%nat with (S (p + q)) by lia. cbn [mpow].
    rewrite <- mprod_assoc. apply mprod_ext; auto.
Qed.

Definition b01A (K : R) : fmat := fun i j => IZR (nth (i + 6 * j)%nat b01_d1 0%Z) * (2 * K).

Lemma b01_series_derive K t0 tau c t : tau <> 0 ->
  is_derive (b01_series K t0 tau c) t (b01_series K t0 tau (mvec 6 (b01A K) c) t).
Proof.
  intros Ht. unfold b01_series. eapply is_derive_eq.
  - apply (is_derive_Rsum 6 (fun i t => c i * b01_time K t0 tau i t)
      (fun i => c i * ((2 * K) ^ 1 * fD 1 i (tau * K * window t0 tau t)))).
    intros i Hi. apply d_scal. exact (b01_time_derive_n K t0 tau 1 i t Ht).
  - unfold mvec, b01A, b01_time. cbn [Rsum fD b01f pow nth b01_d1 Nat.add Nat.mul]. ring.
Qed.
Lemma b01_series_derive_n K t0 tau c n t : tau <> 0 ->
  is_derive_n (b01_series K t0 tau c) n t (b01_series K t0 tau (mvec 6 (mpow 6 (b01A K) n) c) t).
Proof.
  intros Ht. eapply is_derive_n_ext; [|apply (is_derive_n_chain (fun j => b01_series K t0 tau (mvec 6 (mpow 6 (b01A K) j) c)))].
  - intros u. unfold b01_series. apply Rsum_ext. intros i Hi. cbn [mpow]. rewrite mvec_I by auto. reflexivity.
  - intros j y. eapply is_derive_eq; [apply b01_series_derive; auto|]. unfold b01_series. apply Rsum_ext. intros i Hi.
    apply (f_equal (fun v => v * b01_time K t0 tau i y)). rewrite <- mvec_mprod. apply mvec_ext; auto.
    intros l Hl. symmetry. apply mpow_comm; auto.
Qed.

Lemma gsq_R K d : forall i j, (i < 6)%nat -> (j < 6)%nat -> gsq (2 * K) d i j = mpow 6 (b01A K) (2 ^ d) i j.
Proof.
  induction d as [|d IH]; intros i j Hi Hj.
  - change (2 ^ 0)%nat with 1%nat. rewrite mpow_1 by auto. reflexivity.
  - cbn [gsq]. rewrite nsum_R. replace (2 ^ S d)%nat with (2 ^ d + 2 ^ d)%nat by (cbn [Nat.pow]; lia).
    rewrite mpow_add by auto. unfold mprod. apply Rsum_ext. intros l Hl. rnum. rewrite !IH by auto. reflexivity.
Qed.
Lemma b01_impl_R alpha d : 0 < alpha < 1 -> exists m, b01_derivative_matrix_impl alpha (S d) = Ok m /\
  mat_is m 6 6 (mpow 6 (b01A (b01K alpha)) (2 ^ d)).
Proof.
  intros Ha. destruct (b01_impl_gen alpha d) as (m & E & M). exists m. split; auto.
  eapply mat_is_ext; [exact M|]. intros i j Hi Hj. rewrite <- gsq_R by auto.
  unfold c2. rnum. rewrite b01_k_R by auto. now rewrite (Rmult_comm (b01K alpha) 2).
Qed.

(** ** Gram blocks *)
Lemma Qd3_gram k tau i j : k <> 0 -> tau <> 0 -> (i < 6)%nat -> (j < 6)%nat -> b01_gram k tau 3 i j (b01_Qd3 k tau i j).
Proof. intros. apply (gram_closed k tau 3 i j (fun th => b01_Qd3 k th i j)); auto using Qd3_0. intros; apply Qd3_derive; auto. Qed.
Lemma Qd1_gram k tau i j : k <> 0 -> tau <> 0 -> (i < 6)%nat -> (j < 6)%nat -> b01_gram k tau 1 i j (b01_Qd1 k tau i j).
Proof. intros. apply (gram_closed k tau 1 i j (fun th => b01_Qd1 k th i j)); auto using Qd1_0. intros; apply Qd1_derive; auto. Qed.
Lemma Q_gram k tau i j : k <> 0 -> tau <> 0 -> (i < 6)%nat -> (j < 6)%nat -> ~ (i = 4 /\ j = 4)%nat ->
  b01_gram k tau 0 i j (b01_Q k tau i j).
Proof. intros. apply (gram_closed k tau 0 i j (fun th => b01_Q k th i j)); auto using Q_0. intros; apply Q_derive; auto. Qed.
Lemma Q44_gram k tau : k <> 0 -> tau <> 0 -> b01_gram k tau 0 4 4 (tau ^ 3 * k ^ 2 / 3).
Proof.
  intros. apply (gram_closed k tau 0 4 4 (fun th => th ^ 3 * k ^ 2 / 3)); auto.
  - intros th. eapply is_derive_eq; [auto_derive; auto|]. cbn [fD b01f pow]. field.
  - field.
Qed.
Lemma Qd2_gram k tau i j : k <> 0 -> tau <> 0 -> (i < 6)%nat -> (j < 6)%nat ->
  b01_gram k tau 2 i j (4 / tau ^ 2 * b01_Qd2 k tau i j).
Proof.
  intros. rewrite Qd2_G2. replace (4 / tau ^ 2 * (tau ^ 2 / 4 * b01_G2 k tau i j)) with (b01_G2 k tau i j) by (field; auto).
  apply (gram_closed k tau 2 i j (fun th => b01_G2 k th i j)); auto using G2_0. intros; apply G2_derive; auto.
Qed.
