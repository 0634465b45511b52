(** Property C72: linear scaling of a Legendre spline in binary64. *)
From Coquelicot Require Import Coquelicot.
From Coq Require Import ZArith Reals Lra Lia List Arith Bool.
From Flocq Require Import Core BinarySingleNaN.
From Verif Require Import Num Outcome LinAlg RSum LegendreSpec LegendreMath StabMath InterpMath2
  BasisModel ToolsModel GSplineModel GSplineProofs GSplineProofs2 GSplineProofs5 SplineSpec IEEEModel IEEESpec IEEEProofs IEEEHorner IEEELegendre IEEESpline IEEEProps2
  IEEEInterpSpec IEEEScaleSpec.
Import ListNotations.
Local Open Scope R_scope.

(** three roundings *)
Lemma three_rel d1 d2 d3 : Rabs d1 <= uu -> Rabs d2 <= uu -> Rabs d3 <= uu -> Rabs (/ (1 + d1) * (1 + d2) * (1 + d3) - 1) <= 4 * uu.
Proof.
  intros H1 H2 H3. pose proof uu_pos as U. pose proof uu_small as US.
  apply Rabs_le_between in H1. assert (P : 0 < 1 + d1) by lra.
  replace (/ (1 + d1) * (1 + d2) * (1 + d3) - 1) with ((d2 + d3 + d2 * d3 - d1) / (1 + d1)) by (field; lra).
  unfold Rdiv. rewrite Rabs_mult, Rabs_inv, (Rabs_pos_eq (1 + d1)) by lra.
  apply Rle_div_l; [lra|].
  assert (H23 : Rabs (d2 * d3) <= uu * uu) by (rewrite Rabs_mult; apply Rmult_le_compat; auto using Rabs_pos).
  apply Rabs_le_between in H2. apply Rabs_le_between in H3. apply Rabs_le_between in H23.
  assert (A : Rabs (d2 + d3 + d2 * d3 - d1) <= 3 * uu + uu * uu) by (apply Rabs_le; lra).
  eapply Rle_trans; [exact A|]. apply Rle_trans with (4 * uu * (1 - uu)); [|apply Rmult_le_compat_l; lra].
  assert (uu * uu <= uu * / 100) by (apply Rmult_le_compat_l; lra). lra.
Qed.
Lemma normal_low x : / 2 ^ 1001 <= x -> 2 * hh * 2 ^ 53 <= Rabs x.
Proof.
  intros H. assert (P : 0 < / 2 ^ 1001) by (apply Rinv_0_lt_compat, pow_lt; lra). rewrite Rabs_pos_eq by lra. eapply Rle_trans; [|exact H].
  unfold hh. replace (2 ^ 1075) with (2 ^ 1001 * 2 ^ 74) by (rewrite <- pow_add; reflexivity). rewrite Rinv_mult.
  rewrite <- (Rmult_1_r (/ 2 ^ 1001)) at 2. replace (2 * (/ 2 ^ 1001 * / 2 ^ 74) * 2 ^ 53) with (/ 2 ^ 1001 * (2 * / 2 ^ 74 * 2 ^ 53)) by ring.
  apply Rmult_le_compat_l; [lra|]. lra.
Qed.

Section Scale.
Variable m : libm.
Local Instance BN : Num b64 := B64num m.
Variables (g : gspline b64) (dim n codom : nat) (t0 t1 L : b64) (tf cf : nat -> b64) (gram : list (mat b64)).
Hypothesis Fin : finite_spline g n codom t0 tf cf.
Hypothesis Leg : gs_basis g = BLegendre dim gram.
Hypothesis Dom : gs_dom g = (t0, t1).
Hypothesis F1 : fin t1.
Hypothesis FL : fin L.
Hypothesis Le : val (ten_m 8) <= val L.
Let T0 := val t0.
Let tau i := val (tf i).
Let F := ratio T0 (val t1) (val L).
Hypothesis Sc : scalable n T0 (val t1) (val L) tau.

Lemma factor_ok : let f := ndiv L (nsub t1 t0) in fin f /\ exists d1 d2, Rabs d1 <= uu /\ Rabs d2 <= uu /\ val f = F * (/ (1 + d1) * (1 + d2)).
Proof.
  cbv zeta. destruct Sc as (Ht & B0 & B1 & BL & HF & _ & _). destruct Fin as (_ & _ & _ & F0 & _). fold F in HF.
  pose proof uu_pos as U. pose proof uu_small as US. pose proof big_1 as BG.
  destruct (sub_ok t1 t0 F1 F0) as (Fs & Vs).
  { apply rnd_big. fold T0. unfold Rminus. eapply Rle_trans; [apply Rabs_triang|]. rewrite Rabs_Ropp. lra. }
  destruct (rnd_err_minus (val t1) (val t0)) as (d1 & D1 & Q1); [apply val_fmt|apply val_fmt|]. rewrite Q1 in Vs. fold T0 in Vs.
  set (w := Bminus mode_NE t1 t0) in *. pose proof D1 as D1'. apply Rabs_le_between in D1'.
  assert (Pw : 0 < val w) by (rewrite Vs; apply Rmult_lt_0_compat; lra).
  assert (Q : val L / val w = F * / (1 + d1)) by (rewrite Vs; unfold F, ratio; field; lra).
  assert (P0 : 0 < / 2 ^ 1000) by (apply Rinv_0_lt_compat, pow_lt; lra).
  assert (I2 : / 2 <= / (1 + d1) <= 2) by (split; [apply Rinv_le_contravar; lra|rewrite <- (Rinv_inv 2); apply Rinv_le_contravar; lra]).
  assert (R1 : / 2 ^ 1001 <= F * / (1 + d1) <= 2 * 2 ^ 1000).
  { split.
    - replace (/ 2 ^ 1001) with (/ 2 ^ 1000 * / 2) by (rewrite <- Rinv_mult; f_equal; cbn [pow]; ring). apply Rmult_le_compat; lra.
    - rewrite (Rmult_comm 2). apply Rmult_le_compat; lra. }
  destruct (div_ok L w FL) as (Fq & Vq); [lra| |].
  { apply rnd_big. rewrite Q. rewrite Rabs_pos_eq by (assert (0 < / 2 ^ 1001) by (apply Rinv_0_lt_compat, pow_lt; lra); lra). fold big in R1. lra. }
  destruct (rnd_err_normal (val L / val w)) as (d2 & D2 & Q2). { apply normal_low. rewrite Q. apply R1. }
  split; [exact Fq|]. exists d1, d2. split; [exact D1|]. split; [exact D2|].
  change (val (Bdiv mode_NE L w) = F * (/ (1 + d1) * (1 + d2))). rewrite Vq, Q2, Q. ring.
Qed.
Let f := ndiv L (nsub t1 t0).
Let tf' i := nmul (tf i) f.

Lemma length_ok i : (i < n)%nat -> fin (tf' i) /\ Rabs (val (tf' i) - F * tau i) <= 4 * uu * (F * tau i).
Proof.
  intros Hi. destruct factor_ok as (Ff & d1 & d2 & D1 & D2 & Vf). fold f in Ff, Vf.
  destruct Sc as (_ & _ & _ & _ & HF & Hl & HB). destruct Fin as (_ & _ & _ & _ & Htf & _). fold F in HF, Hl, HB.
  destruct (Htf i Hi) as (Fi & Pi). fold (tau i) in Pi. pose proof uu_pos as U. pose proof uu_small as US. pose proof big_1 as BG.
  assert (P0 : 0 < / 2 ^ 1000) by (apply Rinv_0_lt_compat, pow_lt; lra). specialize (Hl i Hi).
  set (x := F * tau i) in *. pose proof D1 as D1'. apply Rabs_le_between in D1'. pose proof D2 as D2'. apply Rabs_le_between in D2'.
  assert (Xb : x <= big).
  { apply Rle_trans with (Rabs T0 + 2 * Rsum n (fun i => F * tau i)).
    - assert (NN : forall j, (j < n)%nat -> 0 <= F * tau j) by (intros j Hj; apply Rmult_le_pos; [lra|apply Rlt_le, Htf, Hj]).
      assert (x <= Rsum n (fun i => F * tau i)).
      { clear - Hi NN. unfold x. clear x. revert NN. induction n as [|k IH]; intros NN; [lia|]. cbn [Rsum]. destruct (Nat.eq_dec i k) as [->|Hk].
        - pose proof (Rsum_nonneg k (fun i => F * tau i) ltac:(intros; apply NN; lia)). lra.
        - specialize (IH ltac:(lia) ltac:(intros; apply NN; lia)). pose proof (NN k ltac:(lia)). lra. }
      pose proof (Rabs_pos T0). lra.
    - eapply Rle_trans; [|exact HB]. pose proof (pow_1u_ge1 (S n)). rewrite <- (Rmult_1_l (Rabs T0 + _)) at 1. apply Rmult_le_compat_r; [|lra].
      assert (0 <= Rsum n (fun i => F * tau i)) by (apply Rsum_nonneg; intros j Hj; apply Rmult_le_pos; [lra|apply Rlt_le, Htf, Hj]). pose proof (Rabs_pos T0). lra. }
  assert (Q : val (tf i) * val f = x * (/ (1 + d1) * (1 + d2))) by (rewrite Vf; unfold x, tau; ring).
  pose proof (three_rel d1 d2 0 D1 D2 ltac:(rewrite Rabs_R0; lra)) as T3. rewrite Rplus_0_r, Rmult_1_r in T3. apply Rabs_le_between in T3.
  assert (R1 : / 2 ^ 1001 <= x * (/ (1 + d1) * (1 + d2)) <= 2 * big).
  { split.
    - replace (/ 2 ^ 1001) with (/ 2 ^ 1000 * / 2) by (rewrite <- Rinv_mult; f_equal; cbn [pow]; ring). apply Rmult_le_compat; lra.
    - rewrite (Rmult_comm 2). apply Rmult_le_compat; lra. }
  assert (P1 : 0 < / 2 ^ 1001) by (apply Rinv_0_lt_compat, pow_lt; lra).
  destruct (mul_ok (tf i) f Fi Ff) as (Fm & Vm). { apply rnd_big. rewrite Q, Rabs_pos_eq by lra. lra. }
  destruct (rnd_err_normal (val (tf i) * val f)) as (d3 & D3 & Q3). { apply normal_low. rewrite Q. apply R1. }
  split; [exact Fm|]. change (Rabs (val (Bmult mode_NE (tf i) f) - x) <= 4 * uu * x). rewrite Vm, Q3, Q.
  replace (x * (/ (1 + d1) * (1 + d2)) * (1 + d3) - x) with (x * (/ (1 + d1) * (1 + d2) * (1 + d3) - 1)) by ring.
  rewrite Rabs_mult, (Rabs_pos_eq x) by lra. rewrite (Rmult_comm (4 * uu)). apply Rmult_le_compat_l; [lra|]. apply three_rel; auto.
Qed.
Lemma F_pos : 0 < F.
Proof. destruct Sc as (_ & _ & _ & _ & HF & _). fold F in HF. assert (0 < / 2 ^ 1000) by (apply Rinv_0_lt_compat, pow_lt; lra). lra. Qed.
Lemma length_bounds i : (i < n)%nat -> 0 < F * tau i /\ F * tau i * (1 - 4 * uu) <= val (tf' i) <= F * tau i * (1 + 4 * uu) /\ 0 < val (tf' i).
Proof.
  intros Hi. destruct (length_ok i Hi) as (_ & B). apply Rabs_le_between in B. pose proof F_pos as PF. destruct Fin as (_ & _ & _ & _ & Htf & _). destruct (Htf i Hi) as (_ & Pi). fold (tau i) in Pi.
  pose proof uu_pos as U. pose proof uu_small as US. assert (P : 0 < F * tau i) by (apply Rmult_lt_0_compat; auto). split; [exact P|].
  assert (0 < F * tau i * (1 - 4 * uu)) by (apply Rmult_lt_0_compat; lra). lra.
Qed.

(** the scaled object: same coefficients and basis, new domain and lengths *)
Theorem C72_scaled : exists g' t1' tf', gs_linear_scaling g L = Ok g' /\
  finite_spline g' n codom t0 tf' cf /\ gs_basis g' = BLegendre dim gram /\ gs_dom g' = (t0, t1') /\
  fin t1' /\ Rabs (val t1' - (T0 + val L)) <= uu * Rabs (T0 + val L) /\
  forall i, (i < n)%nat -> Rabs (val (tf' i) - F * tau i) <= 4 * uu * (F * tau i).
Proof.
  pose proof Fin as (W & Hn & E0 & F0 & Htf & _). pose proof W as (B & Cd & Vt & Vc & Lb).
  destruct Sc as (_ & B0 & _ & BL & _ & _ & HB). fold F in HB.
  assert (F8 : fin (ten_m 8 : b64)) by (vm_compute; reflexivity).
  unfold gs_linear_scaling. rewrite Dom. cbn [fst snd].
  assert (E8 : nltb L (ten_m 8) = false).
  { cbn [nltb BN B64num]. change (Bltb L (ten_m 8) = false). rewrite ltb_val by auto. apply Rltb_false. exact Le. }
  rewrite E8. unfold gs_rescale. rewrite Leg.
  assert (D : gs_dim g = dim) by (unfold gs_dim; rewrite Leg; reflexivity). rewrite D in *.
  unfold gs_ctor. cbn [b_dim].
  assert (En : gs_n g = n) by apply (proj1 Vt). rewrite En, Cd, (proj1 Vc), Nat.eqb_refl.
  destruct (add_ok t0 L F0 FL) as (Fa & Va). { apply rnd_big. eapply Rle_trans; [apply Rabs_triang|]. fold T0. pose proof big_1. lra. }
  destruct (rnd_err_plus (val t0) (val L)) as (d & Dd & Qd); [apply val_fmt|apply val_fmt|]. rewrite Qd in Va. fold T0 in Va.
  eexists _, (Bplus mode_NE t0 L), tf'. split; [reflexivity|]. split; [|split; [reflexivity|split; [reflexivity|split; [exact Fa|split]]]].
  - split; [|split; [exact Hn|split; [reflexivity|split; [exact F0|split]]]].
    + split; [rewrite Leg in B; exact B|]. split; [reflexivity|]. split.
      * cbn [gs_tau]. apply (vscale_is _ _ _ f Vt).
      * split; [exact Vc|reflexivity].
    + intros i Hi. split; [apply length_ok; auto|apply length_bounds; auto].
    + eapply Rle_trans; [|exact HB]. apply Rmult_le_compat_l; [pose proof (pow_1u_ge1 (S n)); lra|]. fold T0. apply Rplus_le_compat_l.
      rewrite <- Rsum_scal. apply Rsum_le. intros i Hi. destruct (length_bounds i Hi) as (P & Bt & Pt). rewrite Rabs_pos_eq by lra. pose proof uu_pos. pose proof uu_small.
      eapply Rle_trans; [apply Bt|]. rewrite (Rmult_comm 2). apply Rmult_le_compat_l; lra.
  - rewrite Va. replace ((T0 + val L) * (1 + d) - (T0 + val L)) with (d * (T0 + val L)) by ring. rewrite Rabs_mult. apply Rmult_le_compat_r; [apply Rabs_pos|exact Dd].
  - intros i Hi. apply length_ok; auto.
Qed.

(** ** Values *)
Let C iv cc := piece_size dim codom (fun i => val (cf i)) iv cc.
Let dl := scaled_time_error T0 F tau n.
Hypothesis Fc : forall i, (i < n * dim * codom)%nat -> fin (cf i).
Hypothesis Sz : forall iv cc, (iv < n)%nat -> (cc < codom)%nat -> C iv cc <= 2 ^ 990.
Hypothesis Sm : forall iv, (iv < n)%nat -> leg_error (window_error dl (F * tau iv)) (dim - 1) <= / 16.

(** moving lengths by a relative 4u moves times by at most 4u of the whole *)
Lemma sums_near (a b : nat -> R) e k : (forall i, (i < k)%nat -> Rabs (b i - a i) <= e * a i) -> Rabs (Rsum k b - Rsum k a) <= e * Rsum k a.
Proof.
  intros H. rewrite <- Rsum_minus. eapply Rle_trans; [apply InterpMath2.Rsum_abs|]. rewrite <- Rsum_scal. apply Rsum_le. exact H.
Qed.

(** The scaled spline at t takes the value of the exact original spline at a time near the one that belongs to t. *)
Theorem C72_value : exists g' tf', gs_linear_scaling g L = Ok g' /\ vec_is (gs_tau g') n tf' /\
  let dl' := time_error T0 (fun i => val (tf' i)) n in
  forall pts pf np, vec_is pts np pf ->
    (forall i, (i < np)%nat -> fin (pf i) /\ T0 <= val (pf i) <= bp T0 (fun i => val (tf' i)) n + dl') ->
  exists M, gs_value g' pts = Ok M /\ mrows M = np /\ mcols M = codom /\
  forall i cc, (i < np)%nat -> (cc < codom)%nat -> exists v iv s, mget M i cc = Some v /\ fin v /\ (iv < n)%nat /\
    bp T0 tau iv <= s <= bp T0 tau (S iv) /\
    Rabs (s - original_time T0 F (val (pf i))) <= dl / F + 4 * uu * Rsum n tau /\
    Rabs (val v - piece (DLeg dim) codom T0 tau (fun k => val (cf k)) iv cc s) <=
      value_error dim (window_error dl (F * tau iv)) * C iv cc + INR dim * / 2 ^ 1074.
Proof.
  destruct C72_scaled as (g' & t1' & tf2 & E & Fin' & Leg' & _ & _ & _ & Near). pose proof Fin' as ((_ & _ & Vt' & _) & Hn & _ & _ & Htf' & _).
  exists g', tf2. split; [exact E|]. split; [exact Vt'|]. cbv zeta. intros pts pf np Vp Hp.
  pose proof uu_pos as U. pose proof uu_small as US. pose proof F_pos as PF. destruct Fin as (_ & _ & _ & _ & Htf & _).
  set (tau2 := fun i => val (tf2 i)) in *. set (dl2 := time_error T0 tau2 n) in *.
  assert (PT : forall i, (i < n)%nat -> 0 < F * tau i) by (intros i Hi; apply Rmult_lt_0_compat; [auto|apply Htf; auto]).
  assert (Bt : forall i, (i < n)%nat -> F * tau i * (1 - 4 * uu) <= tau2 i <= F * tau i * (1 + 4 * uu)).
  { intros i Hi. specialize (Near i Hi). apply Rabs_le_between in Near. unfold tau2. lra. }
  assert (K0 : 0 <= (1 + uu) ^ S n - 1) by (pose proof (pow_1u_ge1 (S n)); lra).
  set (S1 := Rsum n (fun i => F * tau i)) in *.
  assert (S1p : 0 <= S1) by (apply Rsum_nonneg; intros; apply Rlt_le, PT; auto).
  assert (DL : dl = 2 * (((1 + uu) ^ S n - 1) * (Rabs T0 + S1))).
  { unfold dl, scaled_time_error, time_error. do 3 f_equal. apply Rsum_ext. intros i Hi. apply Rabs_pos_eq. apply Rlt_le, PT; auto. }
  assert (DL2 : dl2 <= ((1 + uu) ^ S n - 1) * ((1 + 4 * uu) * (Rabs T0 + S1))).
  { unfold dl2, time_error. apply Rmult_le_compat_l; [exact K0|]. rewrite Rmult_plus_distr_l. apply Rplus_le_compat.
    - rewrite <- (Rmult_1_l (Rabs T0)) at 1. apply Rmult_le_compat_r; [apply Rabs_pos|lra].
    - unfold S1. rewrite <- Rsum_scal. apply Rsum_le. intros i Hi. destruct (Bt i Hi). rewrite Rabs_pos_eq; [lra|]. apply Rlt_le. apply Htf'; auto. }
  set (KM := ((1 + uu) ^ S n - 1) * (Rabs T0 + S1)) in *. assert (KM0 : 0 <= KM) by (apply Rmult_le_pos; [exact K0|pose proof (Rabs_pos T0); lra]).
  assert (DLd : dl2 * 2 <= dl * (1 + 4 * uu)) by (rewrite DL; unfold KM in *; lra).
  assert (DLe : dl2 <= dl * (1 - 4 * uu)). { assert (dl * (1 + 4 * uu) <= 2 * (dl * (1 - 4 * uu))); [|lra]. assert (0 <= dl) by (rewrite DL; lra). assert (dl * uu <= dl * / 100) by (apply Rmult_le_compat_l; lra). lra. }
  assert (DL0 : 0 <= dl2) by (unfold dl2, time_error; apply Rmult_le_pos; [exact K0|]; pose proof (Rabs_pos T0); pose proof (Rsum_nonneg n (fun i => Rabs (tau2 i)) ltac:(intros; apply Rabs_pos)); lra).
  assert (DLl : dl2 <= dl) by (assert (0 <= dl * uu) by (apply Rmult_le_pos; [rewrite DL; lra|lra]); lra).
  assert (WE : forall iv, (iv < n)%nat -> window_error dl2 (tau2 iv) <= window_error dl (F * tau iv)).
  { intros iv Hiv. unfold window_error. apply Rplus_le_compat_r. pose proof (PT iv Hiv) as P. destruct (Bt iv Hiv) as (Bl & _).
    assert (P2 : 0 < tau2 iv) by (apply Htf'; auto). apply Rle_div_l; [exact P2|].
    apply Rle_trans with (4 * dl / (F * tau iv) * (F * tau iv * (1 - 4 * uu))).
    - replace (4 * dl / (F * tau iv) * (F * tau iv * (1 - 4 * uu))) with (4 * (dl * (1 - 4 * uu))) by (field; split; [apply Rgt_not_eq; apply Htf; auto|lra]). lra.
    - apply Rmult_le_compat_l; [apply Rdiv_le_0_compat; [rewrite DL; lra|exact P]|exact Bl]. }
  assert (LE : forall iv, (iv < n)%nat -> leg_error (window_error dl2 (tau2 iv)) (dim - 1) <= leg_error (window_error dl (F * tau iv)) (dim - 1)).
  { intros iv Hiv. unfold leg_error. apply Rmult_le_compat_l; [|pose proof (WE iv Hiv); lra]. pose proof (pos_INR (dim - 1)). apply Rmult_le_pos; [|lra]. apply Rmult_le_pos; lra. }
  destruct (C62_value m g' dim n codom t0 tf2 cf gram Fin' Leg' Fc Sz) with (pts := pts) (pf := pf) (np := np) as (M & EM & R1 & R2 & G); auto.
  { intros iv Hiv. eapply Rle_trans; [apply LE, Hiv|apply Sm, Hiv]. }
  exists M. split; [exact EM|]. split; [exact R1|]. split; [exact R2|]. intros i cc Hi Hcc.
  destruct (G i cc Hi Hcc) as (v & iv & t' & Gv & Fv & Hiv & Ht' & Hd & Bv). fold T0 in Ht', Bv, Hd. change (fun i => val (tf2 i)) with tau2 in Ht', Bv, Hd. fold dl2 in Hd, Bv. change (val (tf2 iv)) with (tau2 iv) in Bv.
  assert (BS : forall th j, bp T0 th (S j) = bp T0 th j + th j) by (intros; unfold bp; cbn [Rsum]; ring).
  assert (P2 : 0 < tau2 iv) by (apply Htf'; auto). rewrite BS in Ht'.
  set (x := (t' - bp T0 tau2 iv) / tau2 iv). assert (Hx : 0 <= x <= 1).
  { unfold x. split; [apply Rdiv_le_0_compat; lra|apply Rle_div_l; lra]. }
  assert (Pt : 0 < tau iv) by (apply Htf; auto).
  set (s := bp T0 tau iv + x * tau iv).
  assert (Hs : bp T0 tau iv <= s <= bp T0 tau iv + tau iv) by (unfold s; clear - Hx Pt; nra).
  exists v, iv, s. split; [exact Gv|]. split; [exact Fv|]. split; [exact Hiv|]. split; [rewrite BS; exact Hs|]. split.
  - (* times *)
    set (A := Rsum iv tau). set (A2 := Rsum iv tau2).
    assert (Ex : t' = T0 + A2 + x * tau2 iv) by (unfold x, bp, A2; field; lra).
    assert (Es : s = T0 + A + x * tau iv) by (unfold s, bp, A; ring).
    assert (NA : Rabs (A2 - F * A) <= 4 * uu * (F * A)).
    { unfold A2, A. rewrite <- Rsum_scal. apply (sums_near (fun i => F * tau i) tau2). intros j Hj. apply Near. lia. }
    assert (NT : Rabs (tau2 iv - F * tau iv) <= 4 * uu * (F * tau iv)) by (apply Near; auto).
    assert (AA : A + tau iv <= Rsum n tau).
    { change (Rsum (S iv) tau <= Rsum n tau). clear - Hiv Htf. induction Hiv as [|k Hk IH]; [lra|]. cbn [Rsum] in *. assert (0 < tau k) by (apply Htf; lia). specialize (IH ltac:(intros; apply Htf; lia)). lra. }
    assert (A0 : 0 <= A) by (apply Rsum_nonneg; intros; apply Rlt_le, Htf; lia).
    unfold original_time. set (t := val (pf i)) in *.
    replace (s - (T0 + (t - T0) / F)) with ((t' - t) / F + (- ((A2 - F * A) / F) - x * ((tau2 iv - F * tau iv) / F))) by (rewrite Ex, Es; field; lra).
    assert (X1 : Rabs ((t' - t) / F) <= dl / F). { unfold Rdiv. rewrite Rabs_mult, Rabs_inv, (Rabs_pos_eq F) by lra. apply Rmult_le_compat_r; [apply Rlt_le, Rinv_0_lt_compat, PF|]. fold t in Hd. lra. }
    assert (X2 : Rabs ((A2 - F * A) / F) <= 4 * uu * A).
    { unfold Rdiv. rewrite Rabs_mult, Rabs_inv, (Rabs_pos_eq F) by lra. apply Rle_div_l; [exact PF|]. lra. }
    assert (X3 : Rabs ((tau2 iv - F * tau iv) / F) <= 4 * uu * tau iv).
    { unfold Rdiv. rewrite Rabs_mult, Rabs_inv, (Rabs_pos_eq F) by lra. apply Rle_div_l; [exact PF|]. lra. }
    assert (X4 : Rabs (x * ((tau2 iv - F * tau iv) / F)) <= 4 * uu * tau iv).
    { rewrite Rabs_mult, (Rabs_pos_eq x) by lra. pose proof (Rabs_pos ((tau2 iv - F * tau iv) / F)). apply Rle_trans with (1 * (4 * uu * tau iv)); [apply Rmult_le_compat; lra|lra]. }
    assert (X5 : 4 * uu * (A + tau iv) <= 4 * uu * Rsum n tau) by (apply Rmult_le_compat_l; lra).
    eapply Rle_trans; [apply Rabs_triang|]. apply Rplus_le_compat; [exact X1|].
    unfold Rminus at 1. eapply Rle_trans; [apply Rabs_triang|]. rewrite !Rabs_Ropp. lra.
  - (* values *)
    assert (EP : piece (DLeg dim) codom T0 tau2 (fun k => val (cf k)) iv cc t' = piece (DLeg dim) codom T0 tau (fun k => val (cf k)) iv cc s).
    { unfold piece, tphi. cbn [d_dim phi]. apply Rsum_ext. intros k _. do 2 f_equal. unfold window, s, x. field. split; lra. }
    rewrite EP in Bv. eapply Rle_trans; [exact Bv|]. apply Rplus_le_compat_r. change (Rsum dim _) with (C iv cc).
    apply Rmult_le_compat_r; [apply Rsum_nonneg; intros; apply Rabs_pos|]. unfold value_error. apply Rplus_le_compat_r. apply LE, Hiv.
Qed.
End Scale.

(** A new duration below the double nearest to 1e-8 throws. *)
Theorem C72_throws m (g : gspline b64) (L : b64) : fin L -> val L < val (ten_m (H := B64num m) 8) -> gs_linear_scaling (H := B64num m) g L = Throw InvalidArgument.
Proof.
  intros FL Lt. assert (F8 : fin (ten_m (H := B64num m) 8)) by (vm_compute; reflexivity).
  unfold gs_linear_scaling. assert (E : nltb (Num := B64num m) L (ten_m (H := B64num m) 8) = true); [|rewrite E; reflexivity].
  cbn [nltb B64num]. rewrite ltb_val by auto. unfold Rltb. destruct (Rlt_dec _ _); auto; contradiction.
Qed.

(** Scaling to the duration that the domain reports keeps every length, bit for bit... *)
Theorem C72_same m (g : gspline b64) dim n codom t0 t1 tf cf gram : let L := Bminus mode_NE t1 t0 in
  finite_spline g n codom t0 tf cf -> gs_basis g = BLegendre dim gram -> gs_dom g = (t0, t1) ->
  fin t1 -> Rabs (val t0) <= big -> Rabs (val t1) <= big -> val (ten_m (H := B64num m) 8) <= val L ->
  exists g' tf', gs_linear_scaling (H := B64num m) g L = Ok g' /\ vec_is (gs_tau g') n tf' /\ forall i, (i < n)%nat -> fin (tf' i) /\ val (tf' i) = val (tf i).
Proof.
  intros L (W & Hn & E0 & F0 & Htf & _) Leg Dom F1 B0 B1 HL. pose proof W as (B & Cd & Vt & Vc & Lb).
  assert (F8 : fin (ten_m (H := B64num m) 8)) by (vm_compute; reflexivity). pose proof big_1 as BG.
  destruct (sub_ok t1 t0 F1 F0) as (FL & VL). { apply rnd_big. unfold Rminus. eapply Rle_trans; [apply Rabs_triang|]. rewrite Rabs_Ropp. lra. }
  fold L in FL, VL. assert (P8 : 0 < val (ten_m (H := B64num m) 8)).
  { assert (Z0 : val (z64 0) = 0) by (rewrite z64v; [reflexivity|cbn; lia]). rewrite <- Z0. apply Rltb_true. rewrite <- ltb_val; [vm_compute; reflexivity|reflexivity|exact F8]. }
  unfold gs_linear_scaling. rewrite Dom. cbn [fst snd].
  assert (E8 : nltb (Num := B64num m) L (ten_m (H := B64num m) 8) = false).
  { cbn [nltb B64num]. rewrite ltb_val by auto. apply Rltb_false. exact HL. }
  rewrite E8. unfold gs_rescale. rewrite Leg.
  assert (D : gs_dim g = dim) by (unfold gs_dim; rewrite Leg; reflexivity). rewrite D in *.
  unfold gs_ctor. cbn [b_dim].
  assert (En : gs_n g = n) by apply (proj1 Vt). rewrite En, Cd, (proj1 Vc), Nat.eqb_refl.
  assert (One : rnd 1 = 1) by (apply rnd_fmt; replace 1 with (val (z64 1)) by (rewrite z64v; [reflexivity|cbn; lia]); apply val_fmt).
  destruct (div_ok L L FL) as (Fq & Vq); [lra| |].
  { apply rnd_big. replace (val L / val L) with 1 by (field; lra). rewrite Rabs_R1. lra. }
  replace (val L / val L) with 1 in Vq by (field; lra). rewrite One in Vq.
  eexists _, (fun i => Bmult mode_NE (tf i) (Bdiv mode_NE L L)). split; [reflexivity|]. split; [apply (vscale_is (H := B64num m) _ _ _ (Bdiv mode_NE L L) Vt)|].
  intros i Hi. destruct (Htf i Hi) as (Fi & _). assert (Q : rnd (val (tf i) * val (Bdiv mode_NE L L)) = val (tf i)) by (rewrite Vq, Rmult_1_r; apply rnd_fmt, val_fmt).
  destruct (mul_ok (tf i) (Bdiv mode_NE L L) Fi Fq) as (Fm & Vm); [rewrite Q; unfold val; apply (abs_B2R_lt_emax 53 1024)|]. split; [exact Fm|]. congruence.
Qed.
(** ...but can move the end of the domain: the claim "it is the same spline again" is false. *)
Theorem C72_same_refuted m : exists (g : gspline b64) n codom t0 t1 tf cf g', finite_spline g n codom t0 tf cf /\ gs_dom g = (t0, t1) /\ fin t1 /\
  gs_linear_scaling (H := B64num m) g (Bminus mode_NE t1 t0) = Ok g' /\ val (snd (gs_dom g')) < val t1.
Proof.
  set (e := Bdiv mode_NE (z64 1) (z64 (2 ^ 60))).
  set (tfl := fun i => nth i [z64 1] (z64 1)). set (cfl := fun i => nth i [z64 1; z64 0] (z64 0)).
  assert (Em : val (z64 (-1)) = -1) by (rewrite z64v; [reflexivity|cbn; lia]).
  assert (E1 : val (z64 1) = 1) by (rewrite z64v; [reflexivity|cbn; lia]).
  eexists (leg64_spline m 2 (z64 (-1)) e 1 [z64 1] [z64 1; z64 0]), 1%nat, 1%nat, (z64 (-1)), e, tfl, cfl, _.
  split; [|split; [reflexivity|split; [vm_compute; reflexivity|split]]].
  - split; [|split; [lia|split; [reflexivity|split; [reflexivity|split]]]].
    + split; [cbn; lia|]. split; [reflexivity|]. split; [apply (vec_of_list_is [z64 1] (z64 1))|]. split; [apply (vec_of_list_is [z64 1; z64 0] (z64 0))|reflexivity].
    + intros [|i] Hi; [|lia]. unfold tfl. cbn [nth]. split; [reflexivity|]. lra.
    + cbn [Rsum]. unfold tfl. cbn [nth]. rewrite E1, Em, Rabs_R1. replace (Rabs (-1)) with 1 by (rewrite Rabs_left; lra). pose proof (pow_1u_lin 2) as P. cbn [INR] in P. pose proof uu_small. specialize (P ltac:(lra)).
      apply Rle_trans with (2 ^ 3); [lra|]. apply pow_lit. lia.
  - unfold gs_linear_scaling. cbn [gs_dom leg64_spline fst snd].
    assert (E8 : nltb (Num := B64num m) (Bminus mode_NE e (z64 (-1))) (ten_m (H := B64num m) 8) = false) by (vm_compute; reflexivity). rewrite E8.
    unfold gs_rescale. cbn [gs_basis leg64_spline]. reflexivity.
  - cbn [gs_dom snd]. apply Rltb_true. rewrite <- ltb_val; vm_compute; reflexivity.
Qed.

(** the spline of C62_case on [1, 4], scaled to duration 7: the lengths are not exactly representable *)
Lemma ex64_scalable : scalable 2 (val (z64 1)) (val (z64 4)) (val (z64 7)) (fun i => val (tau64 i)) /\ ratio (val (z64 1)) (val (z64 4)) (val (z64 7)) = 7 / 3.
Proof.
  pose proof small_case as P. pose proof uu_small as US. pose proof uu_pos as UP.
  assert (B3 : 2 ^ 5 <= big) by (apply pow_lit; lia).
  assert (EF : ratio (val (z64 1)) (val (z64 4)) (val (z64 7)) = 7 / 3) by (unfold ratio; rewrite !z64v by (cbn; lia); field).
  assert (P2 : / 2 ^ 1000 <= / 2). { apply Rinv_le_contravar; [lra|]. rewrite <- (pow_1 2) at 1. apply pow_lit. lia. }
  split; [|exact EF]. unfold scalable. rewrite EF. fold big in *. rewrite !(Rabs_pos_eq (val (z64 _))) by (rewrite z64v by (cbn; lia); lra). rewrite !z64v by (cbn; lia).
  split; [lra|]. split; [lra|]. split; [lra|]. split; [lra|]. split; [lra|]. split.
  - intros [|[|i]] Hi; [| |lia]; unfold tau64; cbn [nth]; rewrite z64v by (cbn; lia); lra.
  - cbn [Rsum]. unfold tau64. cbn [nth]. rewrite !z64v by (cbn; lia). apply Rle_trans with (2 * 16); [|lra]. pose proof (pow_1u_ge1 3); apply Rmult_le_compat; lra.
Qed.
Example C72_case m : exists g' M v s, gs_linear_scaling (H := B64num m) (ex64 m) (z64 7) = Ok g' /\
  gs_value (H := B64num m) g' (vec_of_list [z64 5]) = Ok M /\ mget M 0 0 = Some v /\ fin v /\
  Rabs (s - 19 / 7) <= 60 * uu /\ exists iv, (iv < 2)%nat /\
  Rabs (val v - piece (DLeg 3) 1 1 (fun i => val (tau64 i)) (fun i => val (cf64 i)) iv 0 s) <= 20000 * uu.
Proof.
  pose proof uu_small as US. pose proof uu_pos as UP. destruct ex64_hyps as (Hf & CS & _). destruct ex64_scalable as (Sc & EF). pose proof small_case as P3.
  assert (L8 : val (ten_m (H := B64num m) 8) <= val (z64 7)) by (apply Rleb_true; rewrite <- leb_val; vm_compute; reflexivity).
  assert (T0 : forall i, (i < 2)%nat -> 1 <= val (tau64 i)) by (intros [|[|i]] Hi; [| |lia]; unfold tau64; cbn [nth]; rewrite z64v by (cbn; lia); lra).
  set (dl := scaled_time_error (val (z64 1)) (ratio (val (z64 1)) (val (z64 4)) (val (z64 7))) (fun i => val (tau64 i)) 2).
  assert (DL : 0 <= dl <= 96 * uu).
  { unfold dl. rewrite EF. unfold scaled_time_error, time_error. cbn [Rsum]. unfold tau64. cbn [nth]. rewrite !z64v by (cbn; lia). rewrite !Rabs_pos_eq by lra. pose proof (pow_1u_ge1 3). split; lra. }
  assert (LE : forall iv, (iv < 2)%nat -> leg_error (window_error dl (ratio (val (z64 1)) (val (z64 4)) (val (z64 7)) * val (tau64 iv))) 2 <= 2000 * uu).
  { intros iv Hiv. rewrite EF. specialize (T0 iv Hiv). unfold window_error. assert (4 * dl / (7 / 3 * val (tau64 iv)) <= 165 * uu) by (apply Rle_div_l; [lra|]; apply Rle_trans with (165 * uu * (7 / 3)); [lra|]; apply Rmult_le_compat_l; lra). unfold leg_error. cbn [INR]. lra. }
  destruct (C72_value m (ex64 m) 3 2 1 (z64 1) (z64 4) (z64 7) tau64 cf64 [] (ex64_ok m) eq_refl eq_refl eq_refl eq_refl L8 Sc Hf) as (g' & tf' & E & Vt' & G).
  - intros iv cc Hiv Hcc. unfold piece_size. rewrite CS by auto. apply Rle_trans with (2 ^ 3); [lra|]. apply pow_lit. lia.
  - intros iv Hiv. specialize (LE iv Hiv). fold dl. cbn [Nat.sub]. lra.
  - destruct (C72_scaled m (ex64 m) 3 2 1 (z64 1) (z64 4) (z64 7) tau64 cf64 [] (ex64_ok m) eq_refl eq_refl eq_refl eq_refl L8 Sc) as (g2 & t1' & tf2 & E2 & Fin2 & _ & _ & _ & _ & Near).
    assert (g2 = g') by congruence. subst g2. destruct Fin2 as ((_ & _ & Vt2 & _) & _). rewrite EF in Near.
    assert (TT : forall i, (i < 2)%nat -> tf' i = tf2 i) by (intros i Hi; destruct Vt' as (_ & V1); destruct Vt2 as (_ & V2); specialize (V1 i Hi); specialize (V2 i Hi); congruence).
    cbv zeta in G. destruct (G (vec_of_list [z64 5]) (fun i => nth i [z64 5] (z64 5)) 1%nat) as (M & EM & _ & _ & GG).
    + apply (vec_of_list_is [z64 5] (z64 5)).
    + intros i Hi. replace i with 0%nat by lia. cbn [nth]. split; [reflexivity|]. rewrite (z64v 5), (z64v 1) by (cbn; lia).
      pose proof (delta_pos (z64 1) tf' 2) as DP. unfold tdelta in DP. rewrite (z64v 1) in DP by (cbn; lia). change (0 <= time_error 1 (fun i => val (tf' i)) 2) in DP. split; [lra|].
      unfold bp. cbn [Rsum]. rewrite !TT by lia. pose proof (Near 0%nat ltac:(lia)) as N0. pose proof (Near 1%nat ltac:(lia)) as N1. unfold tau64 in N0, N1. cbn [nth] in N0, N1. rewrite !z64v in N0, N1 by (cbn; lia). apply Rabs_le_between in N0. apply Rabs_le_between in N1. lra.
    + destruct (GG 0%nat 0%nat ltac:(lia) ltac:(lia)) as (v & iv & s & Gv & Fv & Hiv & _ & Hs & Bv). exists g', M, v, s. split; [exact E|]. split; [exact EM|]. split; [exact Gv|]. split; [exact Fv|].
      fold dl in Hs, Bv. split.
      * cbn [nth] in Hs. unfold original_time in Hs. rewrite EF in Hs. cbn [Rsum] in Hs. unfold tau64 in Hs at 1 2. cbn [nth] in Hs. rewrite !z64v in Hs by (cbn; lia).
        replace (1 + (5 - 1) / (7 / 3)) with (19 / 7) in Hs by field. eapply Rle_trans; [exact Hs|]. lra.
      * exists iv. split; [exact Hiv|]. rewrite (z64v 1) in Bv by (cbn; lia). eapply Rle_trans; [exact Bv|]. unfold piece_size. rewrite CS by (auto; lia). specialize (LE iv Hiv). unfold value_error. rewrite (z64v 1) in LE by (cbn; lia).
        pose proof hh_uu as H. unfold hh in H. change (2 ^ 1075) with (2 * 2 ^ 1074) in H. rewrite Rinv_mult in H. cbn [Nat.sub Nat.add INR]. lra.
Qed.
