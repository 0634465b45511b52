(** Rounding errors of the evaluation of a Legendre spline in binary64: sums, interval search, window coordinate, value. *)
From Coquelicot Require Import Coquelicot.
From Coq Require Import ZArith Reals Lra Lia Permutation List Arith Bool.
From Flocq Require Import Core Mult_error BinarySingleNaN.
From Verif Require Import Num Outcome LinAlg RSum LegendreModel LegendreSpec LegendreMath LegendreProofs InterpMath2
  BasisModel GSplineModel GSplineProofs SplineSpec StabMath IEEEModel IEEESpec IEEEProofs IEEEHorner IEEELegendre.
Import ListNotations.
Local Open Scope R_scope.

(** magnitudes up to which no operation overflows *)
Lemma big_omax : 16 * big < omax.
Proof. unfold big, omax. change 1024%Z with (Z.of_nat 1024). rewrite bpow_pow. replace 16 with (2 ^ 4) by (cbn; ring). rewrite <- pow_add. apply Rlt_pow; [lra|lia]. Qed.
Lemma big_1 : 1 <= big.
Proof. apply pow_R1_Rle. lra. Qed.
Lemma fmt_bpow_nat k : (k <= 1023)%nat -> fmt (2 ^ k).
Proof. intros H. rewrite <- bpow_pow. apply generic_format_bpow. unfold FLT_exp. lia. Qed.
Lemma rnd_big x : Rabs x <= 16 * big -> Rabs (rnd x) < omax.
Proof.
  intros H. assert (F : fmt (16 * big)). { replace (16 * big) with (2 ^ 1004) by (unfold big; replace 16 with (2 ^ 4) by (cbn; ring); now rewrite <- pow_add). apply fmt_bpow_nat. lia. }
  apply Rabs_le_between in H. pose proof (rnd_le _ _ (proj1 H)) as L. pose proof (rnd_le _ _ (proj2 H)) as U. rewrite rnd_opp in L. rewrite (rnd_fmt _ F) in L, U.
  apply Rle_lt_trans with (16 * big); [apply Rabs_le; lra|apply big_omax].
Qed.

Section Sp.
Variable m : libm.
Local Instance BN : Num b64 := B64num m.

(** ** Sums from left to right *)
Fixpoint acc (a0 : b64) (f : nat -> b64) (k : nat) : b64 := match k with O => a0 | S j => nadd (acc a0 f j) (f j) end.
Definition mag (A0 : R) (F : nat -> R) (k : nat) : R := Rabs A0 + Rsum k (fun i => Rabs (F i)).
Lemma mag_pos A0 F k : 0 <= mag A0 F k.
Proof. unfold mag. pose proof (Rabs_pos A0). pose proof (Rsum_nonneg k (fun i => Rabs (F i)) ltac:(intros; apply Rabs_pos)). lra. Qed.
Lemma mag_S A0 F k : mag A0 F (S k) = mag A0 F k + Rabs (F k).
Proof. unfold mag. cbn [Rsum]. ring. Qed.
Lemma mag_le A0 F k n : (k <= n)%nat -> mag A0 F k <= mag A0 F n.
Proof. induction 1; [lra|]. rewrite mag_S. pose proof (Rabs_pos (F m0)). lra. Qed.

Lemma acc_ok a0 (f : nat -> b64) n : fin a0 -> (forall i, (i < n)%nat -> fin (f i)) ->
  (1 + uu) ^ n * mag (val a0) (fun i => val (f i)) n <= big ->
  forall k, (k <= n)%nat -> fin (acc a0 f k) /\
    Rabs (val (acc a0 f k) - (val a0 + Rsum k (fun i => val (f i)))) <= ((1 + uu) ^ k - 1) * mag (val a0) (fun i => val (f i)) k.
Proof.
  intros F0 Ff HB k Hk. induction k as [|k IH].
  { cbn [acc Rsum pow]. split; auto. replace (val a0 - (val a0 + 0)) with 0 by ring. rewrite Rabs_R0. lra. }
  destruct (IH ltac:(lia)) as (Fk & Bk). clear IH. specialize (Ff k ltac:(lia)). cbn [acc]. pose proof uu_pos as U.
  set (M := mag (val a0) (fun i => val (f i))) in *. pose proof (mag_pos (val a0) (fun i => val (f i)) k) as MP. fold M in MP.
  assert (MS : M (S k) = M k + Rabs (val (f k))) by apply mag_S.
  assert (MN : M (S k) <= M n) by (apply mag_le; auto). pose proof (pow_1u_ge1 k) as P1. pose proof (pow_1u_le (S k) n Hk) as P2.
  set (a := val (acc a0 f k)) in *. set (y := val (f k)) in *. set (E := val a0 + Rsum k (fun i => val (f i))) in *.
  assert (HE : Rabs E <= M k).
  { unfold E, M, mag. eapply Rle_trans; [apply Rabs_triang|]. apply Rplus_le_compat_l. apply InterpMath2.Rsum_abs. }
  assert (Ha : Rabs a <= (1 + uu) ^ k * M k) by (apply abs_of_near in Bk; lra).
  assert (Hay : Rabs (a + y) <= (1 + uu) ^ k * M (S k)). { eapply Rle_trans; [apply Rabs_triang|]. rewrite MS. pose proof (Rabs_pos y). nra. }
  assert (MSp : 0 <= M (S k)) by apply mag_pos.
  assert (Hb : (1 + uu) ^ k * M (S k) <= big).
  { eapply Rle_trans; [|exact HB]. apply Rmult_le_compat; auto; [lra|]. apply pow_1u_le. lia. }
  destruct (add_ok (acc a0 f k) (f k) Fk Ff) as (A & B). { apply rnd_big. fold a y. pose proof big_1. lra. }
  split; [exact A|]. cbn [nadd BN B64num]. rewrite B. fold a y. destruct (rnd_err_plus a y) as (d & Dd & ->); [apply val_fmt|apply val_fmt|].
  cbn [Rsum]. replace ((a + y) * (1 + d) - (val a0 + (Rsum k (fun i => val (f i)) + val (f k)))) with ((a - E) + (a + y) * d) by (unfold E, y; ring).
  eapply Rle_trans; [apply Rabs_triang|]. rewrite Rabs_mult. fold M.
  assert (Rabs (a + y) * Rabs d <= (1 + uu) ^ k * M (S k) * uu) by (apply Rmult_le_compat; auto using Rabs_pos).
  cbn [pow]. rewrite MS in *. set (p := (1 + uu) ^ k) in *. pose proof (Rabs_pos y). nra.
Qed.
Lemma nsum_acc f k : nsum k f = acc n0 f k.
Proof. induction k as [|k IH]; cbn [nsum acc]; auto. now rewrite IH. Qed.
Lemma zero64 : fin (n0 : b64) /\ val (n0 : b64) = 0.
Proof. split; reflexivity. Qed.

(** ** Interval search *)
Section Search.
Variables (t0 : b64) (tf : nat -> b64) (n : nat) (t : b64).
Let T0 := val t0.
Let tau i := val (tf i).
Hypothesis Hn : (1 <= n)%nat.
Hypothesis F0 : fin t0.
Hypothesis Ft : fin t.
Hypothesis Ff : forall i, (i < n)%nat -> fin (tf i).
Hypothesis Tp : forall i, (i < n)%nat -> 0 < tau i.
Let M := mag T0 tau n.
Hypothesis HM : (1 + uu) ^ S n * M <= big.
Definition tdelta : R := ((1 + uu) ^ S n - 1) * mag (val t0) (fun i => val (tf i)) n.
Let delta := tdelta.
Hypothesis Lo : T0 <= val t.
Hypothesis Hi : val t <= bp T0 tau n + delta.

Lemma delta_pos : 0 <= delta.
Proof. unfold delta, tdelta. apply Rmult_le_pos; [|apply mag_pos]. pose proof (pow_1u_ge1 (S n)). lra. Qed.
Lemma brk_ok k : (k <= n)%nat -> fin (acc t0 tf k) /\ Rabs (val (acc t0 tf k) - bp T0 tau k) <= delta.
Proof.
  intros Hk. destruct (acc_ok t0 tf n F0 Ff) with (k := k) as (A & B); auto.
  { eapply Rle_trans; [|exact HM]. apply Rmult_le_compat_r; [apply mag_pos|]. apply pow_1u_le. lia. }
  split; auto. eapply Rle_trans; [exact B|]. unfold delta, tdelta. apply Rmult_le_compat; [|apply mag_pos| |apply mag_le; auto].
  - pose proof (pow_1u_ge1 k). lra.
  - pose proof (pow_1u_le k (S n) ltac:(lia)). lra.
Qed.
Lemma gscan_ok : forall k i, (i + k = n)%nat -> val (acc t0 tf i) < val t ->
  match gscan tf t (acc t0 tf i) i k with
  | Some j => (i <= j < n)%nat /\ val (acc t0 tf j) < val t <= val (acc t0 tf (S j))
  | None => val (acc t0 tf n) < val t
  end.
Proof.
  induction k as [|k IH]; intros i Hk Hl; cbn [gscan]; [replace n with i by lia; auto|].
  change (acc t0 tf i + tf i)%num with (acc t0 tf (S i)). cbn [nltb nleb BN B64num].
  rewrite ltb_val, leb_val; try apply brk_ok; auto; try lia.
  destruct (Rltb_true (val (acc t0 tf i)) (val t)) as (_ & ->); auto. cbn [andb].
  destruct (Rleb (val t) (val (acc t0 tf (S i)))) eqn:E.
  - apply Rleb_true in E. split; [lia|]. lra.
  - apply Rleb_false in E. specialize (IH (S i) ltac:(lia) E). destruct (gscan tf t (acc t0 tf (S i)) (S i) k) as [j|]; auto. split; [lia|]. apply IH.
Qed.
Lemma bp_S64 k : bp T0 tau (S k) = bp T0 tau k + tau k.
Proof. unfold bp. cbn [Rsum]. ring. Qed.
(** the interval found contains the point up to delta *)
Lemma search_ok : let iv := gint t0 tf n t in (iv < n)%nat /\ bp T0 tau iv - delta <= val t <= bp T0 tau (S iv) + delta.
Proof.
  cbv zeta. pose proof delta_pos as DP. unfold gint. cbn [nleb BN B64num]. rewrite leb_val by auto. fold T0.
  destruct (Rleb (val t) T0) eqn:E.
  - apply Rleb_true in E. split; [lia|]. rewrite bp_S64. unfold bp. cbn [Rsum]. specialize (Tp 0%nat ltac:(lia)). lra.
  - apply Rleb_false in E. pose proof (gscan_ok n 0 eq_refl E) as G. change (acc t0 tf 0) with t0 in G.
    destruct (gscan tf t t0 0 n) as [j|].
    + destruct G as (Hj & L & U). split; [lia|].
      destruct (brk_ok j) as (_ & B1); [lia|]. destruct (brk_ok (S j)) as (_ & B2); [lia|]. apply Rabs_le_between in B1. apply Rabs_le_between in B2. lra.
    + split; [lia|]. destruct (brk_ok n (le_n _)) as (_ & B). apply Rabs_le_between in B. destruct n as [|k]; [lia|]. replace (S k - 1)%nat with k by lia.
      split; [|exact Hi]. rewrite bp_S64 in B. specialize (Tp k ltac:(lia)). lra.
Qed.

(** ** Window coordinate *)
Lemma rnd_double x : fmt x -> rnd (2 * x) = 2 * x.
Proof. intros F. apply rnd_fmt. replace (2 * x) with (x * bpow radix2 1) by (cbn; ring). apply mult_bpow_pos_exact_FLT; [exact F|lia]. Qed.

Lemma window_ok iv : (iv < n)%nat -> bp T0 tau iv - delta <= val t <= bp T0 tau (S iv) + delta -> 4 * delta / tau iv <= / 16 ->
  exists t', bp T0 tau iv <= t' <= bp T0 tau (S iv) /\ Rabs (t' - val t) <= delta /\
    fin (gwin t0 tf iv t) /\ Rabs (val (gwin t0 tf iv t) - window (bp T0 tau iv) (tau iv) t') <= 4 * delta / tau iv + 6 * uu.
Proof.
  intros Hiv Ht Hd. pose proof delta_pos as DP. pose proof uu_pos as U. pose proof uu_small as US. pose proof hh_pos as HP. pose proof hh_uu as HU.
  pose proof (Tp iv Hiv) as Hp. pose proof big_1 as B1.
  set (b := bp T0 tau iv) in *. assert (EbS : bp T0 tau (S iv) = b + tau iv) by apply bp_S64. rewrite EbS in *.
  (* left end *)
  destruct (acc_ok n0 tf iv) with (k := iv) as (Fsum & Bsum); auto.
  { apply zero64. } { intros i Hi'. apply Ff. lia. }
  { eapply Rle_trans; [|exact HM]. apply Rmult_le_compat; [pose proof (pow_1u_ge1 iv); lra|apply mag_pos|apply pow_1u_le; lia|].
    apply Rle_trans with (mag T0 tau iv); [|apply mag_le; lia]. unfold mag. rewrite (proj2 zero64), Rabs_R0. pose proof (Rabs_pos T0). unfold tau. lra. }
  rewrite <- nsum_acc in Fsum, Bsum. rewrite (proj2 zero64) in Bsum. unfold mag in Bsum. rewrite Rabs_R0, !Rplus_0_l in Bsum.
  set (sm := nsum iv tf) in *. set (Sm := Rsum iv (fun i => Rabs (val (tf i)))) in *. set (S0 := Rsum iv (fun i => val (tf i))) in *.
  assert (SmP : Rabs S0 <= Sm) by apply InterpMath2.Rsum_abs. assert (Eb : b = T0 + S0) by reflexivity.
  set (p := (1 + uu) ^ iv) in *. assert (P1 : 1 <= p) by apply pow_1u_ge1.
  assert (MM : Rabs T0 + Sm <= M). { unfold M. apply Rle_trans with (mag T0 tau iv); [unfold mag, Sm, tau; lra|apply mag_le; lia]. }
  assert (Sm0 : 0 <= Sm) by (pose proof (Rabs_pos S0); lra).
  assert (PW : p * (1 + uu) <= (1 + uu) ^ S n). { replace (p * (1 + uu)) with ((1 + uu) ^ S iv) by (cbn [pow]; unfold p; ring). apply pow_1u_le. lia. }
  assert (Hsm : Rabs (val sm) <= p * Sm) by (apply abs_of_near in Bsum; lra).
  assert (MP : 0 <= M) by apply mag_pos. set (pn := (1 + uu) ^ S n) in *. assert (PN1 : 1 <= pn) by apply pow_1u_ge1.
  assert (HL0 : Rabs (T0 + val sm) <= pn * M).
  { eapply Rle_trans; [apply Rabs_triang|]. pose proof (Rabs_pos T0). assert (1 * Rabs T0 <= p * Rabs T0) by (apply Rmult_le_compat_r; lra). apply Rle_trans with (p * (Rabs T0 + Sm)); [lra|]. assert (p * 1 <= p * (1 + uu)) by (apply Rmult_le_compat_l; lra). apply Rmult_le_compat; lra. }
  destruct (add_ok t0 sm F0 Fsum) as (FL & VL). { apply rnd_big. fold T0. lra. }
  destruct (rnd_err_plus (val t0) (val sm)) as (d0 & D0 & Q0); [apply val_fmt|apply val_fmt|]. rewrite Q0 in VL. fold T0 in VL. set (L := Bplus mode_NE t0 sm) in *.
  assert (BL : Rabs (val L - b) <= delta).
  { rewrite VL, Eb. replace ((T0 + val sm) * (1 + d0) - (T0 + S0)) with ((val sm - S0) * (1 + d0) + (T0 + S0) * d0) by ring.
    eapply Rle_trans; [apply Rabs_triang|]. rewrite !Rabs_mult.
    assert (Rabs (val sm - S0) * Rabs (1 + d0) <= (p - 1) * Sm * (1 + uu)) by (apply Rmult_le_compat; auto using Rabs_pos, abs_1d).
    assert (Rabs (T0 + S0) * Rabs d0 <= (Rabs T0 + Sm) * uu). { apply Rmult_le_compat; auto using Rabs_pos. eapply Rle_trans; [apply Rabs_triang|]. lra. }
    apply Rle_trans with ((p * (1 + uu) - 1) * (Rabs T0 + Sm)); [assert (0 <= (p - 1) * (1 + uu) * Rabs T0) by (apply Rmult_le_pos; [apply Rmult_le_pos; lra|apply Rabs_pos]); lra|]. unfold delta, tdelta. fold T0. change (fun i => val (tf i)) with tau. fold M pn.
    apply Rmult_le_compat; auto; [assert (p * 1 <= p * (1 + uu)) by (apply Rmult_le_compat_l; lra); lra|pose proof (Rabs_pos T0); lra|lra]. }
  apply Rabs_le_between in BL.
  assert (tM : tau iv <= M). { unfold M. apply Rle_trans with (mag T0 tau (S iv)); [|apply mag_le; lia]. rewrite mag_S. rewrite (Rabs_pos_eq (tau iv)) by lra. pose proof (mag_pos T0 tau iv). lra. }
  assert (dt : delta <= tau iv * / 64). { apply (Rmult_le_reg_l (4 / tau iv)); [apply Rdiv_lt_0_compat; lra|]. replace (4 / tau iv * delta) with (4 * delta / tau iv) by (field; lra). replace (4 / tau iv * (tau iv * / 64)) with (/ 16) by (field; lra). exact Hd. }
  assert (bM : M <= big) by nra.
  (* t - L *)
  assert (X1 : Rabs (val t - val L) <= tau iv + 2 * delta) by (apply Rabs_le; lra).
  destruct (sub_ok t L Ft FL) as (F1 & V1). { apply rnd_big. lra. }
  destruct (rnd_err_minus (val t) (val L)) as (d1 & D1 & Q1); [apply val_fmt|apply val_fmt|]. rewrite Q1 in V1. set (w1 := Bminus mode_NE t L) in *.
  assert (Y1 : Rabs (val w1) <= 2 * tau iv). { rewrite V1, Rabs_mult. apply Rle_trans with ((tau iv + 2 * delta) * (1 + uu)); [apply Rmult_le_compat; auto using Rabs_pos, abs_1d|]. nra. }
  (* doubled *)
  assert (F2 : fin (c2 : b64)) by apply (two64 m). assert (V2 : val (c2 : b64) = 2) by apply (two64 m).
  assert (R2 : rnd (2 * val w1) = 2 * val w1) by (apply rnd_double, val_fmt).
  destruct (mul_ok c2 w1 F2 F1) as (F3 & V3). { rewrite V2. apply rnd_big. rewrite Rabs_mult, Rabs_pos_eq by lra. lra. }
  rewrite V2, R2 in V3. set (w2 := Bmult mode_NE c2 w1) in *. assert (W2 : val w2 = 2 * val w1) by exact V3.
  (* divided *)
  assert (Q3 : val w2 / tau iv = 2 * (val t - val L) / tau iv * (1 + d1)) by (rewrite W2, V1; field; lra).
  set (rho := 2 * (val t - val L) / tau iv) in *.
  assert (Rr : Rabs (rho - 1) <= 1 + / 16). { unfold rho. replace (2 * (val t - val L) / tau iv - 1) with ((2 * (val t - val L) - tau iv) / tau iv) by (field; lra).
    unfold Rdiv. rewrite Rabs_mult, (Rabs_inv (tau iv)), (Rabs_pos_eq (tau iv)) by lra. apply Rle_div_l; [lra|]. apply Rabs_le. lra. }
  assert (Rr2 : Rabs rho <= 2 + / 16) by (apply abs_of_near in Rr; rewrite Rabs_R1 in Rr; lra).
  assert (X4 : Rabs (val w2 / tau iv) <= 3). { rewrite Q3, Rabs_mult. apply Rle_trans with ((2 + / 16) * (1 + uu)); [apply Rmult_le_compat; auto using Rabs_pos, abs_1d|]. nra. }
  destruct (div_ok w2 (tf iv) F3) as (F4 & V4). { fold (tau iv). lra. } { apply rnd_big. fold (tau iv). lra. }
  destruct (rnd_err (val w2 / tau iv)) as (d3 & e3 & D3 & E3 & Q4). fold (tau iv) in V4. rewrite Q4, Q3 in V4. set (w3 := Bdiv mode_NE w2 (tf iv)) in *.
  (* minus one *)
  assert (Fo : fin (n1 : b64)) by apply (one64 m). assert (Vo : val (n1 : b64) = 1) by apply (one64 m).
  assert (Y4 : Rabs (val w3) <= 4). { rewrite V4. eapply Rle_trans; [apply Rabs_triang|]. rewrite Rabs_mult. rewrite Q3 in X4.
    assert (Rabs (rho * (1 + d1)) * Rabs (1 + d3) <= 3 * (1 + uu)) by (apply Rmult_le_compat; auto using Rabs_pos, abs_1d). lra. }
  destruct (sub_ok w3 n1 F4 Fo) as (F5 & V5). { rewrite Vo. apply rnd_big. unfold Rminus. eapply Rle_trans; [apply Rabs_triang|]. rewrite Rabs_Ropp, Rabs_R1. lra. }
  destruct (rnd_err_minus (val w3) (val (n1 : b64))) as (d4 & D4 & Q5); [apply val_fmt|apply val_fmt|]. rewrite Q5, Vo, V4 in V5.
  assert (Ws : fin (gwin t0 tf iv t) /\ val (gwin t0 tf iv t) = (rho * (1 + d1) * (1 + d3) + e3 - 1) * (1 + d4)) by (split; [exact F5|exact V5]).
  destruct Ws as (Fs & Vs).
  assert (Es : Rabs (val (gwin t0 tf iv t) - (rho - 1)) <= 6 * uu).
  { rewrite Vs. replace ((rho * (1 + d1) * (1 + d3) + e3 - 1) * (1 + d4) - (rho - 1)) with (rho * ((d1 + d3 + d1 * d3) * (1 + d4)) + (rho - 1) * d4 + e3 * (1 + d4)) by ring.
    pose proof (abs_1d _ D4) as A4.
    assert (Rabs (d1 + d3 + d1 * d3) <= 2 * uu + uu * uu).
    { eapply Rle_trans; [apply Rabs_triang|]. rewrite Rabs_mult. assert (Rabs d1 * Rabs d3 <= uu * uu) by (apply Rmult_le_compat; auto using Rabs_pos). pose proof (Rabs_triang d1 d3). lra. }
    assert (Rabs (rho * ((d1 + d3 + d1 * d3) * (1 + d4))) <= (2 + / 16) * ((2 * uu + uu * uu) * (1 + uu))).
    { rewrite !Rabs_mult. apply Rmult_le_compat; auto using Rabs_pos, Rmult_le_pos. apply Rmult_le_compat; auto using Rabs_pos. }
    assert (Rabs ((rho - 1) * d4) <= (1 + / 16) * uu) by (rewrite Rabs_mult; apply Rmult_le_compat; auto using Rabs_pos).
    assert (Rabs (e3 * (1 + d4)) <= hh * (1 + uu)) by (rewrite Rabs_mult; apply Rmult_le_compat; auto using Rabs_pos).
    eapply Rle_trans; [apply Rabs_triang|]. eapply Rle_trans; [apply Rplus_le_compat_r, Rabs_triang|]. assert (uu * uu <= / 1000 * uu) by nra. nra. }
  (* the clamped time *)
  set (t' := Rmax b (Rmin (b + tau iv) (val t))). exists t'.
  assert (Ht' : b <= t' <= b + tau iv). { unfold t'. split; [apply Rmax_l|]. apply Rmax_lub; [lra|apply Rmin_l]. }
  assert (Hdt : Rabs (t' - val t) <= delta). { unfold t'. apply Rabs_le. unfold Rmax, Rmin. repeat destruct (Rle_dec _ _); lra. }
  split; [exact Ht'|]. split; [exact Hdt|]. split; [exact Fs|].
  assert (Ew : Rabs ((rho - 1) - window b (tau iv) t') <= 4 * delta / tau iv).
  { unfold window, rho. replace (2 * (val t - val L) / tau iv - 1 - (2 * (t' - b) / tau iv - 1)) with ((2 * ((val t - t') - (val L - b))) / tau iv) by (field; lra).
    unfold Rdiv. rewrite Rabs_mult, (Rabs_inv (tau iv)), (Rabs_pos_eq (tau iv)) by lra. apply Rmult_le_compat_r; [apply Rlt_le, Rinv_0_lt_compat; lra|].
    apply Rabs_le_between in Hdt. apply Rabs_le. lra. }
  apply Rabs_le_between in Es. apply Rabs_le_between in Ew. apply Rabs_le. lra.
Qed.
End Search.

(** ** Scalar product *)
Lemma fma_ok x y z : fin x -> fin y -> fin z -> Rabs (rnd (val x * val y + val z)) < omax -> fin (Bfma mode_NE x y z) /\ val (Bfma mode_NE x y z) = rnd (val x * val y + val z).
Proof. intros Fx Fy Fz L. pose proof (Bfma_correct 53 1024 _ _ mode_NE x y z Fx Fy Fz) as C. cbv zeta in C. rewrite Rlt_bool_true in C by exact L. split; apply C. Qed.
(** exact value, sum of magnitudes *)
Definition lsum (f : b64 * b64 -> R) (l : list (b64 * b64)) : R := fold_right (fun p s => f p + s) 0 l.
Definition dprod (p : b64 * b64) : R := val (fst p) * val (snd p).
Definition dmag (p : b64 * b64) : R := Rabs (dprod p).
Lemma lsum_app f l l' : lsum f (l ++ l') = lsum f l + lsum f l'.
Proof. unfold lsum. induction l as [|a l IH]; cbn [app fold_right]; [ring|]. rewrite IH. ring. Qed.
Lemma lsum_perm f l l' : Permutation l l' -> lsum f l = lsum f l'.
Proof. unfold lsum. induction 1; cbn [fold_right]; try lra. Qed.
Lemma lsum_abs l : Rabs (lsum dprod l) <= lsum dmag l.
Proof. unfold lsum. induction l as [|a l IH]; cbn [fold_right]; [rewrite Rabs_R0; lra|]. eapply Rle_trans; [apply Rabs_triang|]. unfold dmag at 1. lra. Qed.
Lemma lmag_pos l : 0 <= lsum dmag l.
Proof. eapply Rle_trans; [apply Rabs_pos|apply lsum_abs]. Qed.
Definition dot_bound (l : list (b64 * b64)) : R := (1 + uu) ^ length l * (lsum dmag l + INR (length l) * hh).
Definition dot_err (l : list (b64 * b64)) : R := ((1 + uu) ^ length l - 1) * lsum dmag l + (1 + uu) ^ length l * (INR (length l) * hh).
Lemma dot_total l x : Rabs (x - lsum dprod l) <= dot_err l -> Rabs x <= dot_bound l.
Proof. intros E. apply abs_of_near in E. pose proof (lsum_abs l). unfold dot_err, dot_bound in *. lra. Qed.
Lemma dot_err_le l k : (length l <= k)%nat -> dot_err l <= ((1 + uu) ^ k - 1) * lsum dmag l + (1 + uu) ^ k * (INR (length l) * hh).
Proof.
  intros Hk. unfold dot_err. pose proof (pow_1u_le _ _ Hk). pose proof (lmag_pos l). pose proof hh_pos. pose proof (pos_INR (length l)).
  apply Rplus_le_compat; apply Rmult_le_compat_r; try lra. apply Rmult_le_pos; lra.
Qed.
Lemma dot_bound_le l k B : (k <= length l)%nat -> 0 <= B -> B <= lsum dmag l + INR (length l) * hh -> dot_bound l <= big -> (1 + uu) ^ k * B <= big.
Proof.
  intros Hk HB HL Hb. eapply Rle_trans; [|exact Hb]. unfold dot_bound. pose proof (pow_1u_le _ _ Hk). pose proof (pow_1u_ge1 k). apply Rmult_le_compat; lra.
Qed.
Lemma dot_of_ok l x : dot_of l x -> Forall (fun p => fin (fst p) /\ fin (snd p)) l -> dot_bound l <= big ->
  fin x /\ Rabs (val x - lsum dprod l) <= dot_err l.
Proof.
  pose proof uu_pos as U. pose proof hh_pos as HP. pose proof big_1 as B1. pose proof uu_small as US.
  induction 1 as [|a b|l l' x y Dx IHx Dy IHy|a b l x Dx IHx|l l' x Pm Dx IHx]; intros Fl Hb.
  - split; [reflexivity|]. cbn. rewrite Rminus_0_r, Rabs_R0. unfold dot_err. cbn. lra.
  - inversion Fl as [|p l' (Fa & Fb) _]; subst. cbn [fst snd] in *. unfold dot_bound, dot_err, lsum, dmag, dprod in *. cbn [length fold_right fst snd INR pow] in *. pose proof (Rabs_pos (val a * val b)).
    assert (BB : Rabs (val a * val b) <= big). { eapply Rle_trans; [|exact Hb]. set (q := Rabs (val a * val b)) in *. replace ((1 + uu) * 1 * (q + 0 + 1 * hh)) with (q + uu * q + (1 + uu) * hh) by ring. assert (0 <= uu * q) by (apply Rmult_le_pos; lra). assert (0 <= (1 + uu) * hh) by (apply Rmult_le_pos; lra). lra. }
    destruct (mul_ok a b Fa Fb) as (Fv & V). { apply rnd_big. lra. }
    split; [exact Fv|]. rewrite V. destruct (rnd_err (val a * val b)) as (d & e & Dd & De & ->).
    replace (val a * val b * (1 + d) + e - (val a * val b + 0)) with (val a * val b * d + e) by ring.
    eapply Rle_trans; [apply Rabs_triang|]. rewrite Rabs_mult.
    assert (Rabs (val a * val b) * Rabs d <= Rabs (val a * val b) * uu) by (apply Rmult_le_compat_l; auto). nra.
  - apply Forall_app in Fl as (F1 & F2). unfold dot_bound in Hb. rewrite app_length, lsum_app, plus_INR in Hb. pose proof (lmag_pos l) as M1. pose proof (lmag_pos l') as M2. pose proof (pos_INR (length l)) as L1. pose proof (pos_INR (length l')) as L2.
    assert (LH1 : 0 <= INR (length l) * hh) by (apply Rmult_le_pos; lra). assert (LH2 : 0 <= INR (length l') * hh) by (apply Rmult_le_pos; lra).
    destruct IHx as (Fx & Ex); auto.
    { unfold dot_bound. eapply Rle_trans; [|exact Hb]. pose proof (pow_1u_le (length l) (length l + length l') ltac:(lia)). pose proof (pow_1u_ge1 (length l)). apply Rmult_le_compat; lra. }
    destruct IHy as (Fy & Ey); auto.
    { unfold dot_bound. eapply Rle_trans; [|exact Hb]. pose proof (pow_1u_le (length l') (length l + length l') ltac:(lia)). pose proof (pow_1u_ge1 (length l')). apply Rmult_le_compat; lra. }
    assert (Bx := dot_total _ _ Ex). assert (By := dot_total _ _ Ey).
    assert (BB : Rabs (val x + val y) <= big).
    { eapply Rle_trans; [apply Rabs_triang|]. eapply Rle_trans; [apply Rplus_le_compat; eassumption|]. eapply Rle_trans; [|exact Hb]. unfold dot_bound.
      pose proof (pow_1u_le (length l) (length l + length l') ltac:(lia)). pose proof (pow_1u_le (length l') (length l + length l') ltac:(lia)).
      set (P := (1 + uu) ^ (length l + length l')) in *.
      assert ((1 + uu) ^ length l * (lsum dmag l + INR (length l) * hh) <= P * (lsum dmag l + INR (length l) * hh)) by (apply Rmult_le_compat_r; lra).
      assert ((1 + uu) ^ length l' * (lsum dmag l' + INR (length l') * hh) <= P * (lsum dmag l' + INR (length l') * hh)) by (apply Rmult_le_compat_r; lra). lra. }
    destruct (add_ok x y Fx Fy) as (Fv & V). { apply rnd_big. lra. }
    split; [exact Fv|]. rewrite V, lsum_app.
    destruct l as [|p l].
    { cbn in Ex. unfold dot_err, lsum in Ex. cbn in Ex. assert (Zx : val x = 0). { destruct (Req_dec (val x) 0); auto. pose proof (Rabs_pos_lt (val x)). rewrite Rminus_0_r in Ex. lra. }
      rewrite Zx, Rplus_0_l, (rnd_fmt _ (val_fmt _)). cbn [app lsum fold_right]. rewrite Rplus_0_l. exact Ey. }
    destruct l' as [|p' l'].
    { unfold dot_err, lsum in Ey. cbn in Ey. assert (Zy : val y = 0). { destruct (Req_dec (val y) 0); auto. pose proof (Rabs_pos_lt (val y)). rewrite Rminus_0_r in Ey. lra. }
      rewrite Zy, Rplus_0_r, (rnd_fmt _ (val_fmt _)). rewrite app_nil_r. replace (lsum dprod (p :: l) + lsum dprod []) with (lsum dprod (p :: l)) by (cbn; ring). exact Ex. }
    set (l1 := p :: l) in *. set (l2 := p' :: l') in *. assert (H1 : (1 <= length l1)%nat) by (cbn; lia). assert (H2 : (1 <= length l2)%nat) by (cbn; lia).
    destruct (rnd_err_plus (val x) (val y) (val_fmt _) (val_fmt _)) as (d & Dd & ->).
    set (N := (length l1 + length l2 - 1)%nat). pose proof (dot_err_le l1 N ltac:(unfold N; lia)) as E1. pose proof (dot_err_le l2 N ltac:(unfold N; lia)) as E2.
    unfold dot_err at 1. rewrite app_length, lsum_app, plus_INR. replace (length l1 + length l2)%nat with (S N) by (unfold N; lia). cbn [pow].
    set (X := lsum dprod l1) in *. set (Y := lsum dprod l2) in *. pose proof (lsum_abs l1) as AX. pose proof (lsum_abs l2) as AY. fold X in AX. fold Y in AY.
    replace ((val x + val y) * (1 + d) - (X + Y)) with (((val x - X) + (val y - Y)) * (1 + d) + (X + Y) * d) by ring.
    eapply Rle_trans; [apply Rabs_triang|]. rewrite !Rabs_mult.
    assert (T1 : Rabs (val x - X + (val y - Y)) * Rabs (1 + d) <= (dot_err l1 + dot_err l2) * (1 + uu)).
    { apply Rmult_le_compat; auto using Rabs_pos, abs_1d. eapply Rle_trans; [apply Rabs_triang|]. lra. }
    assert (T2 : Rabs (X + Y) * Rabs d <= (lsum dmag l1 + lsum dmag l2) * uu).
    { apply Rmult_le_compat; auto using Rabs_pos. eapply Rle_trans; [apply Rabs_triang|]. lra. }
    set (P := (1 + uu) ^ N) in *. set (A1 := lsum dmag l1) in *. set (A2 := lsum dmag l2) in *. set (Q1 := INR (length l1) * hh) in *. set (Q2 := INR (length l2) * hh) in *.
    assert (T3 : (dot_err l1 + dot_err l2) * (1 + uu) <= (((P - 1) * A1 + P * Q1) + ((P - 1) * A2 + P * Q2)) * (1 + uu)) by (apply Rmult_le_compat_r; lra).
    replace ((INR (length l1) + INR (length l2)) * hh) with (Q1 + Q2) by (unfold Q1, Q2; ring). lra.
  - inversion Fl as [|p l' (Fa & Fb) Fl']; subst. cbn [fst snd] in *. unfold dot_bound in Hb. cbn [length] in Hb. rewrite S_INR in Hb. cbn [lsum fold_right] in Hb. change (fold_right (fun p s => dmag p + s) 0 l) with (lsum dmag l) in Hb.
    pose proof (lmag_pos l) as M1. pose proof (pos_INR (length l)) as L1. assert (LH1 : 0 <= INR (length l) * hh) by (apply Rmult_le_pos; lra).
    assert (Mp : 0 <= dmag (a, b)) by apply Rabs_pos. pose proof (pow_1u_ge1 (length l)) as P1.
    destruct IHx as (Fx & Ex); auto.
    { unfold dot_bound. eapply Rle_trans; [|exact Hb]. pose proof (pow_1u_le (length l) (S (length l)) ltac:(lia)). apply Rmult_le_compat; lra. }
    assert (Bx := dot_total _ _ Ex). unfold dot_bound in Bx.
    assert (BB : Rabs (val a * val b + val x) <= big).
    { eapply Rle_trans; [apply Rabs_triang|]. change (Rabs (val a * val b)) with (dmag (a, b)). eapply Rle_trans; [|exact Hb]. cbn [pow].
      set (P := (1 + uu) ^ length l) in *. set (Q := INR (length l) * hh) in *. set (A := lsum dmag l) in *. set (D := dmag (a, b)) in *.
      assert (P <= (1 + uu) * P) by nra. assert (P * (A + Q) <= (1 + uu) * P * (A + Q)) by (apply Rmult_le_compat_r; lra).
      assert (1 * D <= (1 + uu) * P * D) by (apply Rmult_le_compat_r; lra). assert (0 <= (1 + uu) * P * hh) by (apply Rmult_le_pos; nra). unfold Q in *. lra. }
    destruct (fma_ok a b x Fa Fb Fx) as (Fv & V). { apply rnd_big. lra. }
    split; [exact Fv|]. rewrite V. destruct (rnd_err (val a * val b + val x)) as (d & e & Dd & De & ->).
    unfold dot_err in Ex |- *. cbn [length]. rewrite S_INR. cbn [lsum fold_right pow]. change (fold_right (fun p s => dmag p + s) 0 l) with (lsum dmag l). change (fold_right (fun p s => dprod p + s) 0 l) with (lsum dprod l).
    unfold dprod at 1. cbn [fst snd]. set (X := lsum dprod l) in *. pose proof (lsum_abs l) as AX. fold X in AX.
    replace ((val a * val b + val x) * (1 + d) + e - (val a * val b + X)) with ((val x - X) * (1 + d) + (val a * val b + X) * d + e) by ring.
    eapply Rle_trans; [apply Rabs_triang|]. eapply Rle_trans; [apply Rplus_le_compat_r, Rabs_triang|]. rewrite !Rabs_mult.
    set (P := (1 + uu) ^ length l) in *. set (Q := INR (length l) * hh) in *. set (A := lsum dmag l) in *.
    assert (T1 : Rabs (val x - X) * Rabs (1 + d) <= ((P - 1) * A + P * Q) * (1 + uu)) by (apply Rmult_le_compat; auto using Rabs_pos, abs_1d).
    assert (T2 : Rabs (val a * val b + X) * Rabs d <= (dmag (a, b) + A) * uu).
    { apply Rmult_le_compat; auto using Rabs_pos. eapply Rle_trans; [apply Rabs_triang|]. change (Rabs (val a * val b)) with (dmag (a, b)). lra. }
    set (D := dmag (a, b)) in *. assert (D * (1 + uu) <= D * ((1 + uu) * P)) by (apply Rmult_le_compat_l; auto; nra). assert (1 * hh <= (1 + uu) * P * hh) by (apply Rmult_le_compat_r; nra).
    replace ((INR (length l) + 1) * hh) with (Q + hh) by (unfold Q; ring). lra.
  - destruct IHx as (Fx & Ex).
    + apply Permutation_sym in Pm. rewrite Forall_forall in *. intros p Hp. apply Fl. eapply Permutation_in; [|exact Hp]. now apply Permutation_sym.
    + unfold dot_bound in *. rewrite (Permutation_length Pm), (lsum_perm _ _ _ Pm). exact Hb.
    + split; [exact Fx|]. unfold dot_err in *. rewrite <- (Permutation_length Pm), <- !(lsum_perm _ _ _ Pm). exact Ex.
Qed.

(** pairs given by two functions, the second bounded *)
Definition pairs (c p : nat -> b64) (n : nat) : list (b64 * b64) := map (fun i => (c i, p i)) (seq 0 n).
Lemma pairs_S c p n : pairs c p (S n) = pairs c p n ++ [(c n, p n)].
Proof. unfold pairs. rewrite seq_S, map_app. reflexivity. Qed.
Lemma lsum_pairs f c p n : lsum f (pairs c p n) = Rsum n (fun i => f (c i, p i)).
Proof. induction n as [|n IH]; [reflexivity|]. rewrite pairs_S, lsum_app, IH. cbn. ring. Qed.
Lemma pairs_length c p n : length (pairs c p n) = n.
Proof. unfold pairs. now rewrite map_length, seq_length. Qed.
Lemma dot_ok (c p : nat -> b64) n B v : (forall i, (i < n)%nat -> fin (c i) /\ fin (p i) /\ Rabs (val (p i)) <= B) -> 0 <= B ->
  (1 + uu) ^ S n * (Rsum n (fun i => Rabs (val (c i))) * B + INR n * hh) <= big -> dot_of (pairs c p n) v ->
  fin v /\ Rabs (val v - Rsum n (fun i => val (c i) * val (p i))) <=
    ((1 + uu) ^ S n - 1) * (Rsum n (fun i => Rabs (val (c i))) * B) + (1 + uu) ^ n * (INR n * hh).
Proof.
  intros Hi HB HL Hv. pose proof uu_pos as U. pose proof hh_pos as HP. set (C := Rsum n (fun i => Rabs (val (c i)))) in *.
  assert (C0 : 0 <= C) by (apply Rsum_nonneg; intros; apply Rabs_pos). pose proof (pos_INR n) as Pn. pose proof (pow_1u_ge1 n) as P0. pose proof (pow_1u_le n (S n) ltac:(lia)) as P1.
  assert (nhp : 0 <= INR n * hh) by (apply Rmult_le_pos; lra).
  assert (MC : lsum dmag (pairs c p n) <= C * B).
  { rewrite lsum_pairs. unfold C. rewrite <- Rsum_scal_r. apply Rsum_le. intros i Hin. unfold dmag, dprod. cbn [fst snd]. rewrite Rabs_mult. apply Rmult_le_compat_l; [apply Rabs_pos|apply Hi; auto]. }
  pose proof (lmag_pos (pairs c p n)) as M0. destruct (dot_of_ok _ _ Hv) as (Fv & Ev).
  - apply Forall_forall. intros q Hq. apply in_map_iff in Hq as (i & <- & Hq). apply in_seq in Hq. cbn [fst snd]. destruct (Hi i) as (A & D & _); [lia|auto].
  - unfold dot_bound. rewrite pairs_length. eapply Rle_trans; [|exact HL]. apply Rmult_le_compat; lra.
  - split; [exact Fv|]. replace (Rsum n (fun i => val (c i) * val (p i))) with (lsum dprod (pairs c p n)) by (rewrite lsum_pairs; reflexivity).
    eapply Rle_trans; [exact Ev|]. unfold dot_err. rewrite pairs_length. apply Rplus_le_compat; [|lra]. apply Rmult_le_compat; lra.
Qed.
(** the order of the model *)
Lemma nsum_dot c p n : dot_of (pairs c p n) (nsum n (fun i => nmul (c i) (p i))).
Proof.
  induction n as [|n IH]; [exact dot_none|]. rewrite pairs_S. cbn [nsum]. apply (dot_add _ _ _ _ IH). apply dot_mul.
Qed.
End Sp.
