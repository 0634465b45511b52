(** Sturm comparison with sin, and the differential equation of sin^(3/2) P_N'(-cos). *)
From Coquelicot Require Import Coquelicot.
From Coq Require Import Arith Reals Lra Lia Psatz.
From Verif Require Import RDeriv LegendreSpec LegendreMath LobattoRoots NewtonMath.
Local Open Scope R_scope.

Section Sturm.
Variables (w w1 Q : R -> R) (a b m : R).
Hypothesis Hab : a < b.
Hypothesis Hm : 0 < m.
Hypothesis D0 : forall t, a < t < b -> is_derive w t (w1 t).
Hypothesis D1 : forall t, a < t < b -> is_derive w1 t (- (Q t * w t)).
Hypothesis C0 : forall t, a <= t <= b -> continuous w t.
Hypothesis C1 : forall t, a <= t <= b -> continuous w1 t.
Hypothesis Wa : w a = 0.
Hypothesis Wb : w b = 0.
Hypothesis Wp : forall t, a < t < b -> 0 < w t.

Definition wr (t : R) : R := w1 t * sin (m * (t - a)) - w t * (m * cos (m * (t - a))).
Lemma d_arg t : is_derive (fun u => m * (u - a)) t m.
Proof. eapply is_derive_eq; [apply d_scal, d_minus; [apply d_id|apply d_const]|ring]. Qed.
Lemma d_sarg t : is_derive (fun u => sin (m * (u - a))) t (m * cos (m * (t - a))).
Proof. eapply is_derive_eq; [apply (d_comp sin (fun u => m * (u - a))); [apply is_derive_sin|apply d_arg]|ring]. Qed.
Lemma d_carg t : is_derive (fun u => m * cos (m * (u - a))) t (- (m * m * sin (m * (t - a)))).
Proof. eapply is_derive_eq; [apply d_scal, (d_comp cos (fun u => m * (u - a))); [apply is_derive_cos|apply d_arg]|ring]. Qed.
Lemma wr_derive t : a < t < b -> is_derive wr t ((m * m - Q t) * w t * sin (m * (t - a))).
Proof.
  intros Ht. eapply is_derive_eq; [apply d_minus; [apply d_mult; [apply D1; auto|apply d_sarg]|apply d_mult; [apply D0; auto|apply d_carg]]|]. cbv beta. ring.
Qed.
Lemma wr_cont t : a <= t <= b -> continuous wr t.
Proof.
  intros Ht. apply c_minus; apply c_mult; auto.
  - exact (derive_continuous _ _ _ (d_sarg t)).
  - exact (derive_continuous _ _ _ (d_carg t)).
Qed.
Lemma wr_a : wr a = 0.
Proof. unfold wr. rewrite Wa. replace (m * (a - a)) with 0 by ring. rewrite sin_0. ring. Qed.
Lemma slope_b : w1 b <= 0.
Proof.
  apply Rnot_lt_le. intros L.
  destruct (C1 b ltac:(lra) (fun y => 0 < y)) as (e & He).
  { exists (mkposreal _ L). intros y Hy. change (Rabs (y - w1 b) < w1 b) in Hy. apply Rabs_def2 in Hy. lra. }
  set (t := Rmax ((a + b) / 2) (b - e / 2)). pose proof (cond_pos e) as Pe.
  assert (Ht : a < t < b). { unfold t. split; [apply (Rlt_le_trans _ ((a + b) / 2)); [lra|apply Rmax_l]|apply Rmax_lub_lt; lra]. }
  assert (Hb : b - e / 2 <= t) by apply Rmax_r.
  destruct (mvt_in w w1 t b) as (c & Hc & E); [lra|intros; apply D0; lra|intros; apply C0; lra|].
  assert (Pc : 0 < w1 c). { apply He. change (Rabs (c - b) < e). rewrite Rabs_left; lra. }
  rewrite Wb in E. pose proof (Wp t Ht). assert (0 < w1 c * (b - t)) by (apply Rmult_lt_0_compat; lra). lra.
Qed.
Lemma arg_range t : b - a <= PI / m -> a < t < b -> 0 < m * (t - a) < PI.
Proof.
  intros L Ht. split; [apply Rmult_lt_0_compat; lra|]. apply (Rlt_le_trans _ (m * (b - a))); [apply Rmult_lt_compat_l; lra|].
  apply (Rle_trans _ (m * (PI / m))); [apply Rmult_le_compat_l; lra|]. right. field. lra.
Qed.
(** zeros are far apart when Q is small *)
Lemma sturm_far : (forall t, a < t < b -> Q t < m * m) -> PI / m < b - a.
Proof.
  intros HQ. apply Rnot_le_lt. intros L.
  assert (I : wr a < wr b).
  { apply (mono_strict wr (fun t => (m * m - Q t) * w t * sin (m * (t - a)))); auto; [apply wr_derive|apply wr_cont|].
    intros t Ht. pose proof (arg_range t L Ht). specialize (HQ t Ht). apply Rmult_lt_0_compat; [apply Rmult_lt_0_compat; [lra|auto]|apply sin_gt_0; lra]. }
  rewrite wr_a in I. unfold wr in I. rewrite Wb in I. pose proof slope_b as Sb.
  assert (Sn : 0 <= sin (m * (b - a))).
  { apply sin_ge_0; [apply Rmult_le_pos; lra|]. apply (Rle_trans _ (m * (PI / m))); [apply Rmult_le_compat_l; lra|]. right. field. lra. }
  assert (0 <= - w1 b * sin (m * (b - a))) by (apply Rmult_le_pos; lra). lra.
Qed.
(** zeros are close when Q is large *)
Lemma sturm_near : (forall t, a < t < b -> m * m <= Q t) -> b - a <= PI / m.
Proof.
  intros HQ. apply Rnot_lt_le. intros L. set (c := a + PI / m). pose proof PI_RGT_0 as Pp.
  assert (Hpm : 0 < PI / m) by (apply Rdiv_lt_0_compat; lra).
  assert (I : - wr a <= - wr c).
  { apply (mono_in (fun t => - wr t) (fun t => - ((m * m - Q t) * w t * sin (m * (t - a))))); [unfold c; lra| | |].
    - intros t Ht. apply d_opp, wr_derive. unfold c in Ht. lra.
    - intros t Ht. apply (continuous_opp wr), wr_cont. unfold c in Ht. lra.
    - intros t Ht. unfold c in Ht. assert (0 < m * (t - a) < PI).
      { split; [apply Rmult_lt_0_compat; lra|]. apply (Rlt_le_trans _ (m * (PI / m))); [apply Rmult_lt_compat_l; lra|right; field; lra]. }
      specialize (HQ t ltac:(lra)). replace (- ((m * m - Q t) * w t * sin (m * (t - a)))) with ((Q t - m * m) * w t * sin (m * (t - a))) by ring.
      apply Rmult_le_pos; [apply Rmult_le_pos; [lra|apply Rlt_le, Wp; lra]|apply Rlt_le, sin_gt_0; lra]. }
  rewrite wr_a in I. unfold wr, c in I. replace (m * (a + PI / m - a)) with PI in I by (field; lra). rewrite sin_PI, cos_PI in I.
  assert (0 < w (a + PI / m) * m) by (apply Rmult_lt_0_compat; auto; apply Wp; lra). lra.
Qed.
End Sturm.

(** ** the function whose zeros are the nodes, in the angle *)
Lemma leg_ode2 n x : 2 * x * LD 1 n x + (x * x - 1) * LD 2 n x = INR n * (INR n + 1) * legP n x.
Proof.
  assert (D : is_derive (fun y => (y * y - 1) * LD 1 n y) x (((1 * x + x * 1) - 0) * LD 1 n x + (x * x - 1) * LD 2 n x)).
  { apply (d_mult (fun y => y * y - 1)); [apply d_minus; [apply (d_mult (fun y => y) (fun y => y)); apply d_id|apply d_const]|apply LD_derive]. }
  pose proof (d_unique _ _ _ _ D (leg_ode n x)). lra.
Qed.
Lemma leg_ode3 n x : 2 * LD 1 n x + 4 * x * LD 2 n x + (x * x - 1) * LD 3 n x = INR n * (INR n + 1) * LD 1 n x.
Proof.
  assert (D : is_derive (fun y => 2 * y * LD 1 n y + (y * y - 1) * LD 2 n y) x ((2 * 1) * LD 1 n x + (2 * x) * LD 2 n x + (((1 * x + x * 1) - 0) * LD 2 n x + (x * x - 1) * LD 3 n x))).
  { apply d_plus.
    - apply (d_mult (fun y => 2 * y)); [apply d_scal, d_id|apply LD_derive].
    - apply (d_mult (fun y => y * y - 1)); [apply d_minus; [apply (d_mult (fun y => y) (fun y => y)); apply d_id|apply d_const]|apply LD_derive]. }
  assert (D' : is_derive (fun y => 2 * y * LD 1 n y + (y * y - 1) * LD 2 n y) x (INR n * (INR n + 1) * LD 1 n x)).
  { apply (is_derive_ext (fun y => INR n * (INR n + 1) * legP n y)); [intros; symmetry; apply leg_ode2|]. apply d_scal, legP_derive. }
  pose proof (d_unique _ _ _ _ D D'). lra.
Qed.
Definition lw (N : nat) (t : R) : R := sin t * sqrt (sin t) * LD 1 N (- cos t).
Definition lw1 (N : nat) (t : R) : R := sqrt (sin t) * (3 / 2 * cos t * LD 1 N (- cos t) + sin t ^ 2 * LD 2 N (- cos t)).
Definition lQ (N : nat) (t : R) : R := (INR N + 1 / 2) ^ 2 - 3 / (4 * sin t ^ 2).
Lemma d_sqrt_sin t : 0 < sin t -> is_derive (fun u => sqrt (sin u)) t (cos t / (2 * sqrt (sin t))).
Proof. intros P. apply (is_derive_sqrt sin); [apply is_derive_sin|exact P]. Qed.
Lemma d_LDc k n t : is_derive (fun u => LD k n (- cos u)) t (LD (S k) n (- cos t) * sin t).
Proof. apply (d_comp (LD k n) (fun u => - cos u)); [apply LD_derive|]. eapply is_derive_eq; [apply d_opp, is_derive_cos|ring]. Qed.
Lemma sqrt_pos_sin t : 0 < sin t -> 0 < sqrt (sin t) /\ sqrt (sin t) * sqrt (sin t) = sin t.
Proof. intros P. split; [apply sqrt_lt_R0; auto|apply sqrt_sqrt; lra]. Qed.
Lemma lw_derive N t : 0 < t < PI -> is_derive (lw N) t (lw1 N t).
Proof.
  intros Ht. pose proof (sin_gt_0 t ltac:(lra) ltac:(lra)) as P. destruct (sqrt_pos_sin t P) as (Sp & Ss).
  eapply is_derive_eq; [apply d_mult; [apply d_mult; [apply is_derive_sin|apply d_sqrt_sin; auto]|apply d_LDc]|]. cbv beta. unfold lw1.
  set (s := sqrt (sin t)) in *. rewrite <- !Ss. field. lra.
Qed.
Lemma lw1_derive N t : 0 < t < PI -> is_derive (lw1 N) t (- (lQ N t * lw N t)).
Proof.
  intros Ht. pose proof (sin_gt_0 t ltac:(lra) ltac:(lra)) as P. destruct (sqrt_pos_sin t P) as (Sp & Ss).
  eapply is_derive_eq; [apply d_mult; [apply d_sqrt_sin; auto|apply d_plus; [apply d_mult; [apply d_scal, is_derive_cos|apply d_LDc]|apply d_mult; [apply d_pow, is_derive_sin|apply d_LDc]]]|].
  cbv beta. unfold lQ, lw. pose proof (leg_ode3 N (- cos t)) as O. pose proof (sin2_cos2 t) as T. unfold Rsqr in T.
  set (s := sqrt (sin t)) in *. set (p := LD 1 N (- cos t)) in *. set (p2 := LD 2 N (- cos t)) in *. set (p3 := LD 3 N (- cos t)) in *.
  set (c := cos t) in *. set (S := sin t) in *. set (L := INR N * (INR N + 1)) in *.
  assert (O' : S * S * p3 = - 4 * c * p2 - (L - 2) * p). { replace (S * S) with (1 - c * c) by lra. lra. }
  assert (X : forall e, 2 * s * e = 0 -> e = 0) by (intros e He; apply Rmult_integral in He; destruct He; auto; lra).
  apply Rminus_diag_uniq. apply X.
  replace ((INR N + 1 / 2) ^ 2) with (L + 1 / 4) by (unfold L; field). simpl pred. simpl pow.
  transitivity (c * (3 / 2 * c * p + S * S * p2) + 2 * (s * s) * (3 / 2 * - S * p + 3 / 2 * c * (p2 * S) + 2 * S * c * p2 + S * (S * S * p3)) + 2 * (s * s) * (L + 1 / 4 - 3 / (4 * (S * S))) * S * p).
  { simpl INR. field. split; lra. }
  rewrite Ss, O'. transitivity (3 / 2 * (S * S + c * c - 1) * p); [field; lra|rewrite T; ring].
Qed.
Lemma lw_cont N t : continuous (lw N) t.
Proof.
  apply c_mult; [apply c_mult|].
  - apply continuous_sin.
  - apply (c_comp sqrt sin); [apply continuous_sin|apply continuous_sqrt].
  - exact (derive_continuous _ _ _ (d_LDc 1 N t)).
Qed.
Lemma lw1_cont N t : continuous (lw1 N) t.
Proof.
  apply c_mult; [apply (c_comp sqrt sin); [apply continuous_sin|apply continuous_sqrt]|]. apply c_plus; apply c_mult.
  - apply c_mult; [apply c_const|apply continuous_cos].
  - exact (derive_continuous _ _ _ (d_LDc 1 N t)).
  - apply (derive_continuous _ _ (INR 2 * cos t * sin t ^ pred 2)). apply d_pow, is_derive_sin.
  - exact (derive_continuous _ _ _ (d_LDc 2 N t)).
Qed.
