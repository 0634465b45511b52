(** The numerical integral in binary64: sums over points and over intervals. *)
From Coquelicot Require Import Coquelicot.
From Coq Require Import ZArith Reals Lra Lia List Arith Bool Psatz.
From Flocq Require Import Core Relative BinarySingleNaN.
From Verif Require Import Num Outcome LinAlg LegendreModel GLModel RSum IEEEModel IEEESpec IEEEProofs IEEEHorner IEEELegendre IEEESpline GLSpec GL64 Int64.
Local Open Scope R_scope.

Lemma Rsum_le' n f g : (forall i, (i < n)%nat -> f i <= g i) -> Rsum n f <= Rsum n g.
Proof. induction n as [|n IH]; intros H; cbn [Rsum]; [lra|]. pose proof (IH ltac:(intros; apply H; lia)). pose proof (H n ltac:(lia)). lra. Qed.
Lemma Rsum_cst n x : Rsum n (fun _ => x) = INR n * x.
Proof. induction n as [|n IH]; [cbn; ring|]. rewrite S_INR. cbn [Rsum]. rewrite IH. ring. Qed.
Lemma Rsum_dist n f g e : (forall i, (i < n)%nat -> Rabs (f i - g i) <= e i) -> Rabs (Rsum n f - Rsum n g) <= Rsum n e.
Proof.
  intros H. replace (Rsum n f - Rsum n g) with (Rsum n (fun i => f i - g i)) by (induction n as [|n IH]; cbn [Rsum]; [ring|rewrite IH by (intros; apply H; lia); ring]).
  eapply Rle_trans; [apply InterpMath2.Rsum_abs|]. now apply Rsum_le'.
Qed.

Lemma p900 : 16 * 2 ^ 900 <= 16 * big. Proof. apply Rmult_le_compat_l; [lra|]. unfold big. apply p2. lia. Qed.
Lemma p400_900 : 2 ^ 400 * 2 ^ 400 <= 2 ^ 900. Proof. rewrite <- pow_add. apply p2. lia. Qed.
Lemma p400_900' : 16 * 2 ^ 400 <= 2 ^ 900. Proof. replace (16 * 2 ^ 400) with (2 ^ 404) by (change (2 ^ 404) with (2 ^ (4 + 400)); rewrite pow_add; ring). apply p2. lia. Qed.

Section Sums.
Variable m : libm.
Local Instance BN : Num b64 := B64num m.
Variables (np : nat) (w v : nat -> b64) (beta : R).
Hypothesis Hnp : (np <= 1001)%nat.
Hypothesis Fw : forall i, (i < np)%nat -> fin (w i).
Hypothesis Fv : forall i, (i < np)%nat -> fin (v i).
Hypothesis Sw : Rsum np (fun i => Rabs (val (w i))) <= 2001 / 1000.
Hypothesis Bv : forall i, (i < np)%nat -> Rabs (val (v i)) <= beta.
Hypothesis B1 : / 2 ^ 500 <= beta.
Hypothesis B2 : beta <= 2 ^ 400.

Lemma beta_pos : 0 < beta. Proof. assert (0 < / 2 ^ 500) by (apply Rinv_0_lt_compat, pow_lt; lra). lra. Qed.
(** an underflow is small against everything else *)
Lemma hh_beta len : / 2 ^ 453 <= len -> 1000000 * hh <= uu * beta * len.
Proof.
  intros Hl. unfold hh, uu. replace (/ 2 ^ 1075) with (/ 2 ^ 53 * / 2 ^ 500 * / 2 ^ 453 * / 2 ^ 69) by (rewrite <- !i2_split; reflexivity).
  assert (P : forall k, 0 < / 2 ^ k) by (intros; apply Rinv_0_lt_compat, pow_lt; lra). assert (S69 : 1000000 * / 2 ^ 69 <= 1). { apply Rmult_le_reg_r with (2 ^ 69); [apply pow_lt; lra|]. rewrite Rmult_assoc, Rinv_l by (apply pow_nonzero; lra). apply Rle_trans with (2 ^ 20); [simpl; lra|rewrite Rmult_1_l; apply p2; lia]. }
  pose proof (P 53%nat) as P1. pose proof (P 500%nat) as P5. pose proof (P 453%nat) as P4. pose proof (P 69%nat) as P6.
  apply Rle_trans with (/ 2 ^ 53 * / 2 ^ 500 * / 2 ^ 453 * 1); [|rewrite Rmult_1_r; apply Rmult_le_compat; [apply Rmult_le_pos; lra|lra|apply Rmult_le_compat_l; lra|lra]].
  replace (1000000 * (/ 2 ^ 53 * / 2 ^ 500 * / 2 ^ 453 * / 2 ^ 69)) with (/ 2 ^ 53 * / 2 ^ 500 * / 2 ^ 453 * (1000000 * / 2 ^ 69)) by ring. apply Rmult_le_compat_l; [|exact S69]. apply Rmult_le_pos; [|lra]. apply Rmult_le_pos; lra.
Qed.
Lemma hh_beta1 : 1000000 * hh <= uu * beta.
Proof. rewrite <- (Rmult_1_r (uu * beta)). apply hh_beta. rewrite <- Rinv_1. apply Rinv_le_contravar; [lra|apply pow_R1_Rle; lra]. Qed.
Lemma np_R : 0 <= INR np <= 1001 /\ INR np * uu <= / 1000000.
Proof. pose proof u1. pose proof (pos_INR np). assert (INR np <= 1001) by (replace 1001 with (INR 1001) by (rewrite INR_IZR_INZ; reflexivity); apply le_INR; exact Hnp). split; [lra|]. apply Rle_trans with (1001 * uu); [apply Rmult_le_compat_r; lra|lra]. Qed.

Definition dot64 : b64 := acc m n0 (fun i => nmul (v i) (w i)) np.
Lemma dot_ok : fin dot64 /\ Rabs (val dot64 - Rsum np (fun i => val (v i) * val (w i))) <= 203 / 100 * (INR np + 1) * uu * beta /\ Rabs (val dot64) <= 2002 / 1000 * beta.
Proof.
  pose proof u1 as U. pose proof beta_pos as BP. pose proof hh_beta1 as HB. destruct np_R as (NR & NU). pose proof p400_900' as P9. pose proof p900 as P16.
  assert (W1 : forall i, (i < np)%nat -> Rabs (val (w i)) <= 2001 / 1000). { intros i Hi. eapply Rle_trans; [|exact Sw]. clear -Hi. induction np as [|k IH]; [lia|]. cbn [Rsum]. pose proof (Rsum_nonneg k (fun i => Rabs (val (w i))) ltac:(intros; apply Rabs_pos)). pose proof (Rabs_pos (val (w k))). destruct (Nat.eq_dec i k) as [->|]; [lra|]. specialize (IH ltac:(lia)). lra. }
  assert (T : forall i, (i < np)%nat -> fin (nmul (v i) (w i)) /\ Rabs (val (nmul (v i) (w i) : b64) - val (v i) * val (w i)) <= uu * (beta * Rabs (val (w i))) + hh).
  { intros i Hi. specialize (W1 i Hi). specialize (Bv i Hi). pose proof (Rabs_pos (val (v i))). pose proof (Rabs_pos (val (w i))).
    assert (M1 : Rabs (val (v i) * val (w i)) <= beta * Rabs (val (w i))) by (rewrite Rabs_mult; apply Rmult_le_compat_r; lra). assert (M2 : beta * Rabs (val (w i)) <= beta * (2001 / 1000)) by (apply Rmult_le_compat_l; lra).
    destruct (mul_ok (v i) (w i) (Fv i Hi) (Fw i Hi)) as (F & V). { apply no_over4. pose proof p400. lra. }
    split; [exact F|]. cbn [nmul BN B64num]. rewrite V. destruct (rnd_err (val (v i) * val (w i))) as (d & e & Dd & De & ->).
    replace (val (v i) * val (w i) * (1 + d) + e - val (v i) * val (w i)) with (val (v i) * val (w i) * d + e) by ring. eapply Rle_trans; [apply Rabs_triang|]. rewrite Rabs_mult.
    assert (Rabs (val (v i) * val (w i)) * Rabs d <= beta * Rabs (val (w i)) * uu) by (apply Rmult_le_compat; auto using Rabs_pos). lra. }
  set (Sm := Rsum np (fun i => Rabs (val (w i)))) in *. assert (S0 : 0 <= Sm) by (apply Rsum_nonneg; intros; apply Rabs_pos).
  assert (bS : beta * Sm <= 2001 / 1000 * beta) by (replace (2001 / 1000 * beta) with (beta * (2001 / 1000)) by ring; apply Rmult_le_compat_l; lra). assert (bS0 : 0 <= beta * Sm) by (apply Rmult_le_pos; lra).
  assert (E1 : Rsum np (fun i => uu * (beta * Rabs (val (w i))) + hh) = uu * (beta * Sm) + INR np * hh). { unfold Sm. rewrite <- Rsum_cst. rewrite <- !Rsum_scal, <- Rsum_plus. reflexivity. }
  assert (NH : INR np * hh <= / 900 * (uu * beta)). { assert (0 <= hh) by (unfold hh; apply Rlt_le, Rinv_0_lt_compat, pow_lt; lra). apply Rle_trans with (1001 * hh); [apply Rmult_le_compat_r; lra|lra]. }
  assert (uB : 0 <= uu * beta <= / 1000000 * beta) by (split; [apply Rmult_le_pos; lra|apply Rmult_le_compat_r; lra]).
  assert (ubS : uu * (beta * Sm) <= uu * (2001 / 1000 * beta)) by (apply Rmult_le_compat_l; lra).
  set (f := fun i => nmul (v i) (w i) : b64) in *. assert (D1 : Rabs (Rsum np (fun i => val (f i)) - Rsum np (fun i => val (v i) * val (w i))) <= uu * (beta * Sm) + INR np * hh). { rewrite <- E1. apply Rsum_dist. intros i Hi. apply T; auto. }
  assert (V0 : val (n0 : b64) = 0) by reflexivity.
  assert (MG : mag (val (n0 : b64)) (fun i => val (f i)) np <= 2002 / 1000 * beta).
  { unfold mag. rewrite V0, Rabs_R0, Rplus_0_l. apply Rle_trans with (Rsum np (fun i => beta * Rabs (val (w i)) + (uu * (beta * Rabs (val (w i))) + hh))).
    - apply Rsum_le'. intros i Hi. destruct (T i Hi) as (_ & B). specialize (Bv i Hi). assert (M1 : Rabs (val (v i) * val (w i)) <= beta * Rabs (val (w i))) by (rewrite Rabs_mult; apply Rmult_le_compat_r; [apply Rabs_pos|lra]).
      replace (val (f i)) with (val (v i) * val (w i) + (val (f i) - val (v i) * val (w i))) by ring. eapply Rle_trans; [apply Rabs_triang|]. unfold f in *. lra.
    - rewrite Rsum_plus, E1, Rsum_scal. fold Sm. lra. }
  set (M := mag (val (n0 : b64)) (fun i => val (f i)) np) in *. assert (M0 : 0 <= M) by apply mag_pos. pose proof (pow_1u_lin2 np ltac:(lra)) as PW. pose proof (pow_1u_ge1 np) as PG.
  assert (PM : (1 + uu) ^ np * M <= 2 * (2002 / 1000 * beta)) by (apply Rmult_le_compat; lra).
  assert (HM : (1 + uu) ^ np * M <= big) by lra.
  destruct (acc_ok m n0 f np (proj1 (zero64 m)) (fun i Hi => proj1 (T i Hi)) HM np ltac:(lia)) as (FA & EA). change (fin dot64) in FA. change (Rabs (val dot64 - (val (n0 : b64) + Rsum np (fun i => val (f i)))) <= ((1 + uu) ^ np - 1) * M) in EA. rewrite V0, Rplus_0_l in EA.
  assert (PM2 : ((1 + uu) ^ np - 1) * M <= 101 / 100 * (INR np * uu) * (2002 / 1000 * beta)) by (apply Rmult_le_compat; lra).
  assert (NuB : 0 <= INR np * uu * beta <= / 1000000 * beta) by (split; [apply Rmult_le_pos; [apply Rmult_le_pos; lra|lra]|apply Rmult_le_compat_r; lra]).
  assert (T1 : Rabs (val dot64 - Rsum np (fun i => val (v i) * val (w i))) <= 203 / 100 * (INR np + 1) * uu * beta).
  { replace (val dot64 - Rsum np (fun i => val (v i) * val (w i))) with ((val dot64 - Rsum np (fun i => val (f i))) + (Rsum np (fun i => val (f i)) - Rsum np (fun i => val (v i) * val (w i)))) by ring. eapply Rle_trans; [apply Rabs_triang|]. lra. }
  split; [exact FA|]. split; [exact T1|].
  assert (SV : Rabs (Rsum np (fun i => val (v i) * val (w i))) <= 2001 / 1000 * beta). { eapply Rle_trans; [apply InterpMath2.Rsum_abs|]. eapply Rle_trans; [|exact bS]. unfold Sm. rewrite <- Rsum_scal. apply Rsum_le'. intros i Hi. rewrite Rabs_mult. apply Rmult_le_compat_r; [apply Rabs_pos|auto]. }
  replace (val dot64) with (Rsum np (fun i => val (v i) * val (w i)) + (val dot64 - Rsum np (fun i => val (v i) * val (w i)))) by ring. eapply Rle_trans; [apply Rabs_triang|]. lra.
Qed.
(** times the length, halved *)
Variables (ll : b64) (len l : R).
Hypothesis Fl : fin ll.
Hypothesis El : val ll = len * (1 + l).
Hypothesis Hl : Rabs l <= 201 / 100 * uu.
Hypothesis L1 : / 2 ^ 453 <= len.
Hypothesis L2 : len <= 2 * 2 ^ 400.
Definition part64 : b64 := ndiv (nmul dot64 ll) c2.
Lemma part_ok : fin part64 /\ Rabs (val part64 - len / 2 * Rsum np (fun i => val (v i) * val (w i))) <= 1018 / 1000 * (INR np + 5) * uu * beta * len /\ Rabs (val part64) <= 1002 / 1000 * beta * len.
Proof.
  pose proof u1 as U. pose proof beta_pos as BP. pose proof (hh_beta len L1) as HB. destruct np_R as (NR & NU). destruct dot_ok as (Fs & Es & As). destruct (two_v m) as (F2 & V2). change (@c2 b64 (GL64.BN m)) with (@c2 b64 BN) in *.
  assert (Lp : 0 < len) by (assert (0 < / 2 ^ 453) by (apply Rinv_0_lt_compat, pow_lt; lra); lra). unfold part64. set (s := dot64) in *. clearbody s. set (t := c2 : b64) in *. clearbody t. set (Sg := Rsum np (fun i => val (v i) * val (w i))) in *. clearbody Sg.
  assert (bl : 0 < beta * len) by (apply Rmult_lt_0_compat; lra). assert (blM : beta * len <= 2 ^ 400 * (2 * 2 ^ 400)) by (apply Rmult_le_compat; lra). pose proof p400_900 as P9. assert (ubl : 0 <= uu * (beta * len) <= / 1000000 * (beta * len)) by (split; [apply Rmult_le_pos; lra|apply Rmult_le_compat_r; lra]).
  assert (l1 : Rabs l <= / 1000) by lra. pose proof l1 as l2. apply Rabs_le_between in l2.
  assert (Ep : val s * val ll = val s * len * (1 + l)) by (rewrite El; ring). assert (Asl : Rabs (val s * len) <= 201 / 100 * (beta * len)) by (rewrite Rabs_mult, (Rabs_pos_eq len) by lra; replace (201 / 100 * (beta * len)) with (201 / 100 * beta * len) by ring; apply Rmult_le_compat_r; lra).
  assert (Ap : Rabs (val s * val ll) <= 202 / 100 * (beta * len)). { rewrite Ep, Rabs_mult, (Rabs_pos_eq (1 + l)) by lra. apply Rle_trans with (201 / 100 * (beta * len) * (1001 / 1000)); [apply Rmult_le_compat; try lra; apply Rabs_pos|lra]. }
  destruct (mul_ok s ll Fs Fl) as (Fz & Vz). { apply no_over. lra. } destruct (rnd_err (val s * val ll)) as (d1 & e1 & D1 & E1 & ER). rewrite ER in Vz. clear ER. cbn [nmul ndiv BN B64num]. set (z := Bmult mode_NE s ll) in *. clearbody z.
  assert (Az : Rabs (val z - val s * val ll) <= 203 / 100 * uu * (beta * len)). { rewrite Vz. replace (val s * val ll * (1 + d1) + e1 - val s * val ll) with (val s * val ll * d1 + e1) by ring. eapply Rle_trans; [apply Rabs_triang|]. rewrite Rabs_mult. assert (Rabs (val s * val ll) * Rabs d1 <= 202 / 100 * (beta * len) * uu) by (apply Rmult_le_compat; auto using Rabs_pos). lra. }
  assert (Az2 : Rabs (val z) <= 203 / 100 * (beta * len)). { replace (val z) with (val s * val ll + (val z - val s * val ll)) by ring. eapply Rle_trans; [apply Rabs_triang|]. lra. }
  assert (Ez2 : Rabs (val z / 2) <= 1015 / 1000 * (beta * len)). { unfold Rdiv. rewrite Rabs_mult, (Rabs_pos_eq (/ 2)) by lra. lra. }
  destruct (div_ok z t Fz ltac:(rewrite V2; lra)) as (Fq & Vq). { rewrite V2. apply no_over. lra. } rewrite V2 in Vq. destruct (rnd_err (val z / 2)) as (d2 & e2 & D2 & E2 & ER). rewrite ER in Vq. clear ER. set (q := Bdiv mode_NE z t) in *. clearbody q. split; [exact Fq|].
  assert (Aq : Rabs (val q - val z / 2) <= 1016 / 1000 * uu * (beta * len)). { rewrite Vq. replace (val z / 2 * (1 + d2) + e2 - val z / 2) with (val z / 2 * d2 + e2) by ring. eapply Rle_trans; [apply Rabs_triang|]. rewrite Rabs_mult. assert (Rabs (val z / 2) * Rabs d2 <= 1015 / 1000 * (beta * len) * uu) by (apply Rmult_le_compat; auto using Rabs_pos). lra. }
  assert (Al : Rabs (val s * val ll - val s * len) <= 404 / 100 * (beta * len) * uu + 1 / 1000 * (uu * (beta * len))). { rewrite Ep. replace (val s * len * (1 + l) - val s * len) with (val s * len * l) by ring. rewrite Rabs_mult. assert (Rabs (val s * len) * Rabs l <= 201 / 100 * (beta * len) * (201 / 100 * uu)) by (apply Rmult_le_compat; auto using Rabs_pos). lra. }
  assert (AS : Rabs (val s * len - Sg * len) <= 203 / 100 * (INR np + 1) * uu * beta * len). { replace (val s * len - Sg * len) with ((val s - Sg) * len) by ring. rewrite Rabs_mult, (Rabs_pos_eq len) by lra. apply Rmult_le_compat_r; lra. }
  assert (NP : 0 <= INR np * (uu * (beta * len)) <= / 1000000 * (beta * len)). { split; [apply Rmult_le_pos; lra|]. rewrite <- Rmult_assoc. apply Rmult_le_compat_r; lra. }
  assert (T1 : Rabs (val q - len / 2 * Sg) <= 1018 / 1000 * (INR np + 5) * uu * beta * len).
  { replace (val q - len / 2 * Sg) with ((val q - val z / 2) + ((val z - val s * val ll) + (val s * val ll - val s * len) + (val s * len - Sg * len)) * / 2) by field. eapply Rle_trans; [apply Rabs_triang|].
    assert (Rabs (((val z - val s * val ll) + (val s * val ll - val s * len) + (val s * len - Sg * len)) * / 2) <= (203 / 100 * uu * (beta * len) + (404 / 100 * (beta * len) * uu + 1 / 1000 * (uu * (beta * len))) + 203 / 100 * (INR np + 1) * uu * beta * len) * / 2).
    { rewrite Rabs_mult, (Rabs_pos_eq (/ 2)) by lra. apply Rmult_le_compat_r; [lra|]. eapply Rle_trans; [apply Rabs_triang|]. apply Rplus_le_compat; [|exact AS]. eapply Rle_trans; [apply Rabs_triang|]. apply Rplus_le_compat; [exact Az|exact Al]. }
    lra. }
  split; [exact T1|].
  assert (As2 : Rabs (val s * len) <= 2002 / 1000 * (beta * len)) by (rewrite Rabs_mult, (Rabs_pos_eq len) by lra; replace (2002 / 1000 * (beta * len)) with (2002 / 1000 * beta * len) by ring; apply Rmult_le_compat_r; lra).
  replace (val q) with ((val q - val z / 2) + ((val z - val s * val ll) + (val s * val ll - val s * len) + val s * len) * / 2) by field. eapply Rle_trans; [apply Rabs_triang|].
  assert (Rabs (((val z - val s * val ll) + (val s * val ll - val s * len) + val s * len) * / 2) <= (203 / 100 * uu * (beta * len) + (404 / 100 * (beta * len) * uu + 1 / 1000 * (uu * (beta * len))) + 2002 / 1000 * (beta * len)) * / 2).
  { rewrite Rabs_mult, (Rabs_pos_eq (/ 2)) by lra. apply Rmult_le_compat_r; [lra|]. eapply Rle_trans; [apply Rabs_triang|]. apply Rplus_le_compat; [|exact As2]. eapply Rle_trans; [apply Rabs_triang|]. apply Rplus_le_compat; [exact Az|exact Al]. }
  lra.
Qed.
End Sums.
