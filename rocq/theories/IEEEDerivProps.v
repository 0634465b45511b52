(** Property C67: rounding in the derivatives of the Legendre basis. *)
From Coquelicot Require Import Coquelicot.
From Coq Require Import ZArith Reals Lra Lia List Arith Bool.
From Flocq Require Import Core BinarySingleNaN.
From Verif Require Import Num Outcome LinAlg LegendreModel LegendreSpec LegendreMath LegendreProofs StabMath
  IEEEModel IEEESpec IEEEProofs IEEEHorner IEEELegendre IEEEProps IEEEDerivSpec IEEEDeriv IEEEDeriv2 IEEEDeriv3.
Import ListNotations.
Local Open Scope R_scope.

(** ** C67 *)
Theorem C67_derivatives m dim deg (s tau : b64) (buff : vec b64) : (2 <= dim)%nat -> (deg < dim)%nat -> vlen buff = dim ->
  fin s -> -1 <= val s <= 1 -> fin tau -> 0 < val tau ->
  deriv_error (dim - 1) deg <= INR (dim - 1) ^ (2 * deg) / 16 -> (2 * spread (val tau) * INR (dim - 1) ^ 2) ^ deg <= 2 ^ 900 ->
  exists b, leg_eval_deriv (H := B64num m) dim s tau deg buff = Ok b /\ vlen b = dim /\
    forall k, (k < dim)%nat -> exists v, vget b k = Some v /\ fin v /\
      forall t0 t, window t0 (val tau) t = val s ->
        Rabs (val v - Derive_n (fun t => legP k (window t0 (val tau) t)) deg t) <= 2 * deriv_error (dim - 1) deg * (2 / val tau) ^ deg.
Proof.
  intros Hd Hg L Fs Hx Ft Pt HE HB. destruct (leg_eval_deriv_gen (H := B64num m) dim s tau deg buff Hd Hg L) as (b & E & Vb & Gb).
  exists b. split; [exact E|]. split; [exact Vb|]. intros k Hk. eexists. split; [apply Gb; auto|].
  destruct (entry64 m s (val s) (dim - 1) Fs eq_refl Hx ltac:(lia) tau deg k ltac:(lia) ltac:(lia) HE Ft Pt HB) as (F & B).
  split; [exact F|]. intros t0 t W. rewrite (is_derive_n_unique _ _ _ _ (legP_time_derive deg k t0 (val tau) t)).
  rewrite W, (Rmult_comm ((2 / val tau) ^ deg)). exact B.
Qed.

Lemma third_window : -1 <= val third64 <= 1.
Proof.
  assert (T3 : val third64 = 6004799503160661 * / 2 ^ 54).
  { unfold val. replace (B2R third64) with (F2R (Float radix2 6004799503160661 (-54))) by (vm_compute; reflexivity). unfold F2R. cbn [Fnum Fexp]. f_equal. change (-54)%Z with (- Z.of_nat 54)%Z. rewrite bpow_opp, bpow_pow. reflexivity. }
  rewrite T3. lra.
Qed.
Lemma derr53 : deriv_error 5 3 <= / 10 ^ 6.
Proof. assert (U : uu <= / 10 ^ 15) by (unfold uu; apply Rinv_le_contravar; lra). unfold deriv_error. cbn [INR Nat.mul Nat.add pow]. lra. Qed.
(** third derivatives of six polynomials at the number nearest to 1/3, interval length 3 *)
Example C67_case m : exists b, leg_eval_deriv (H := B64num m) 6 third64 (b64_of_Z 3) 3 (vnew 6) = Ok b /\
  forall k, (k < 6)%nat -> exists v, vget b k = Some v /\ fin v /\
    forall t0 t, window t0 3 t = val third64 -> Rabs (val v - Derive_n (fun t => legP k (window t0 3 t)) 3 t) <= / 10 ^ 6.
Proof.
  assert (T : val (b64_of_Z 3) = 3) by (apply (ofZ_ok 3); cbn; lia).
  pose proof third_window as X. pose proof derr53 as DE.
  destruct (C67_derivatives m 6 3 third64 (b64_of_Z 3) (vnew 6)) as (b & E & _ & G); auto; try lia; try reflexivity; rewrite ?T; try lra.
  { cbn [Nat.sub Nat.mul Nat.add]. replace (INR 5 ^ 6) with (5 ^ 6) by (simpl INR; f_equal; lra). lra. }
  { unfold spread. rewrite Rmax_right by lra. replace (INR (6 - 1)) with 5 by (simpl; lra). apply Rle_trans with (2 ^ 20); [lra|]. apply Rle_pow; [lra|lia]. }
  rewrite T in G. exists b. split; [exact E|]. intros k Hk. destruct (G k Hk) as (v & Gv & Fv & Bv). exists v. split; [exact Gv|]. split; [exact Fv|].
  intros t0 t W. eapply Rle_trans; [exact (Bv t0 t W)|]. cbn [Nat.sub]. lra.
Qed.

(** derivatives with respect to the interval length, the window coordinate being kept *)
Theorem C67_tau_derivatives m dim deg (s tau : b64) (buff : vec b64) : (2 <= dim)%nat -> (deg < dim)%nat -> vlen buff = dim ->
  fin s -> -1 <= val s <= 1 -> fin tau -> 0 < val tau ->
  deriv_error (dim - 1) deg <= INR (dim - 1) ^ (2 * deg) / 16 -> (2 * spread (val tau) * INR (dim - 1) ^ 2) ^ S deg <= 2 ^ 900 ->
  exists b, leg_eval_deriv_tau (H := B64num m) dim s tau deg buff = Ok b /\ vlen b = dim /\
    forall k, (k < dim)%nat -> exists v, vget b k = Some v /\ fin v /\
      Rabs (val v - Derive (fun th => (2 / th) ^ deg * Derive_n (legP k) deg (val s)) (val tau))
        <= 3 * deriv_error (dim - 1) deg * (2 / val tau) ^ deg * (INR deg / val tau).
Proof.
  intros Hd Hg L Fs Hx Ft Pt HE HB. destruct (leg_eval_deriv_gen (H := B64num m) dim s tau deg buff Hd Hg L) as (b & E & V).
  unfold leg_eval_deriv_tau. rewrite E. cbn [bind]. eexists. split; [reflexivity|].
  pose proof (vscale_is (H := B64num m) b dim _ (tfac m tau deg) V) as (Vl & Vg). split; [exact Vl|]. intros k Hk. eexists. split; [exact (Vg k Hk)|].
  destruct (tau_entry64 m s (val s) (dim - 1) Fs eq_refl Hx ltac:(lia) tau deg k ltac:(lia) ltac:(lia) HE Ft Pt HB) as (F & B).
  split; [exact F|]. rewrite (is_derive_n_unique _ _ _ _ (LD_derive_n deg k (val s))).
  assert (Q : Derive (fun th => (2 / th) ^ deg * LD deg k (val s)) (val tau) = (2 / val tau) ^ deg * LD deg k (val s) * (- (1 / 2) * INR deg * (2 / val tau))) by (apply is_derive_unique, leg_tau_derive; lra).
  rewrite Q.
  replace ((2 / val tau) ^ deg * LD deg k (val s) * (- (1 / 2) * INR deg * (2 / val tau))) with (LD deg k (val s) * (2 / val tau) ^ deg * (- (INR deg / val tau))) by (field; lra).
  exact B.
Qed.
Example C67_tau_case m : exists b, leg_eval_deriv_tau (H := B64num m) 6 third64 (b64_of_Z 3) 3 (vnew 6) = Ok b /\
  forall k, (k < 6)%nat -> exists v, vget b k = Some v /\ fin v /\
    Rabs (val v - Derive (fun th => (2 / th) ^ 3 * Derive_n (legP k) 3 (val third64)) 3) <= / 10 ^ 6.
Proof.
  assert (T : val (b64_of_Z 3) = 3) by (apply (ofZ_ok 3); cbn; lia).
  destruct (C67_tau_derivatives m 6 3 third64 (b64_of_Z 3) (vnew 6)) as (b & E & _ & G); auto; try lia; try reflexivity; rewrite ?T; try lra.
  { exact third_window. }
  { cbn [Nat.sub Nat.mul Nat.add]. replace (INR 5 ^ 6) with (5 ^ 6) by (simpl INR; f_equal; lra). pose proof derr53. lra. }
  { unfold spread. rewrite Rmax_right by lra. replace (INR (6 - 1)) with 5 by (simpl; lra). apply Rle_trans with (2 ^ 40); [lra|]. apply Rle_pow; [lra|lia]. }
  rewrite T in G. exists b. split; [exact E|]. intros k Hk. destruct (G k Hk) as (v & Gv & Fv & Bv). exists v. split; [exact Gv|]. split; [exact Fv|].
  eapply Rle_trans; [exact Bv|]. cbn [Nat.sub INR]. pose proof derr53. lra.
Qed.
