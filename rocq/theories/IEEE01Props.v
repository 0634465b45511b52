(** Property C74: rounding in the exponential-trigonometric basis and in the value of its splines. *)
From Coquelicot Require Import Coquelicot.
From Coq Require Import ZArith Reals Lra Lia List Arith Bool SpecFloat.
From Flocq Require Import Core BinarySingleNaN.
From Verif Require Import Num Outcome LinAlg RSum LegendreModel LegendreSpec InterpMath2 Basis0101Spec Basis0101Math Basis0101Model Basis0101Proofs
  BasisModel GSplineModel GSplineProofs GSplineProofs2 GSplineProofs5 SplineSpec IEEEModel IEEESpec IEEEProofs IEEEHorner IEEELegendre IEEESpline IEEEProps2 IEEELagrange
  IEEEFunSpec IEEEFunProofs2 IEEEFunProps IEEE01Spec IEEE01 IEEE01Entry IEEE01Deriv.
Import ListNotations.
Local Open Scope R_scope.

(** ** C74 *)
(** results rounded to nearest are accurate enough *)
Theorem C74_nearest : accurate_root nearest (2 * uu).
Proof.
  intros x y Fx Hx Fy Hy. cbn [m_pow nearest]. rewrite Hy. pose proof (root_bnd (val x) ltac:(split; [apply pos_min; [exact Fx|lra]|lra])) as (L & U). set (r := Rpower (val x) (/ 4)) in *.
  assert (P : 0 < / 2 ^ 269) by (apply Rinv_0_lt_compat, pow_lt; lra). pose proof big_ge1 as B1. pose proof uu_pos as U0.
  destruct (of_R_ok r) as (F & V); [apply IEEEFunProofs2.rnd_small; rewrite Rabs_right; lra|]. split; [exact F|]. rewrite V.
  destruct (rnd_err_normal r) as (d & Hd & ->).
  { rewrite Rabs_right by lra. eapply Rle_trans; [exact normal_big|]. eapply Rle_trans; [|exact L]. apply Rinv_le_contravar; [apply pow_lt; lra|apply big_of; lia]. }
  replace (r * (1 + d) - r) with (d * r) by ring. rewrite Rabs_mult, (Rabs_right r) by lra. apply Rmult_le_compat_r; lra.
Qed.

Section B.
Variable m : libm.
Local Instance BN : Num b64 := B64num m.
Variable eps : R.
Hypothesis HA : accurate m eps.
Hypothesis HR : accurate_root m eps.
Hypothesis He : eps <= 2 * uu.

(** the factor k: relative error *)
Theorem C74_factor alpha : fin alpha -> 0 < val alpha < 1 -> fin (b01_k alpha) /\ Rabs (val (b01_k alpha) - b01K (val alpha)) <= 12 * uu * b01K (val alpha).
Proof.
  intros Fa Ha. destruct (IEEE01.k64 m eps HR He alpha Fa Ha) as (F & (q & Rq & V) & _). split; [exact F|]. change (val (b01_k alpha) = b01K (val alpha) * q) in V. rewrite V. pose proof (K_pos (val alpha)) as P.
  replace (b01K (val alpha) * q - b01K (val alpha)) with ((q - 1) * b01K (val alpha)) by ring. rewrite Rabs_mult, (Rabs_right (b01K (val alpha))) by lra. apply Rmult_le_compat_r; [lra|].
  eapply Rle_trans; [apply (rat_abs _ _ Rq)|]. pose proof (bt_lin1 11) as L. cbn [INR] in L. assert (E : 1 + 1 + 1 + 1 + 1 + 1 + 1 + 1 + 1 + 1 + 1 = 11) by ring. rewrite E in L. pose proof uu_15. pose proof uu_pos. lra.
Qed.
(** the six values *)
Theorem C74_values alpha s tau b : fin alpha -> 0 < val alpha < 1 -> fin tau -> fin s -> vlen b = 6%nat -> let K := b01K (val alpha) in
  / 2 ^ 900 <= val tau * K <= 2 ^ 900 -> let p := val tau * K * val s in Rabs p <= 450 ->
  exists b' v, b01_eval alpha s tau b = Ok b' /\ vec_is b' 6 v /\ forall i, (i < 6)%nat -> fin (v i) /\ Rabs (val (v i) - b01f i p) <= b01_error p.
Proof.
  intros Fa Ha Ft Fs L K HK p Hp. destruct (b01_eval_gen alpha s tau b L) as (b' & E & V). eexists b', _. split; [exact E|]. split; [exact V|]. intros i Hi.
  destruct (p64 m eps HR He alpha tau s Fa Ha Ft Fs HK Hp) as (Fp & Bp). apply (IEEE01Entry.entry64 m eps HA He _ p Fp Hp Bp i Hi).
Qed.
(** derivatives with respect to time *)
Lemma pow_between a d j : 0 < a -> (j <= d)%nat -> Rmin 1 (a ^ d) <= a ^ j <= Rmax 1 (a ^ d).
Proof.
  intros Pa Hj. destruct (Rle_dec 1 a) as [G|G].
  - split; [apply Rle_trans with 1; [apply Rmin_l|apply pow_R1_Rle; exact G]|]. eapply Rle_trans; [|apply Rmax_r]. apply Rle_pow; auto.
  - assert (D : a ^ d <= a ^ j). { replace d with ((d - j) + j)%nat by lia. rewrite pow_add. rewrite <- (Rmult_1_l (a ^ j)) at 2. apply Rmult_le_compat_r; [apply pow_le; lra|]. rewrite <- (pow1 (d - j)). apply pow_incr. lra. }
    split; [eapply Rle_trans; [apply Rmin_r|exact D]|]. eapply Rle_trans; [|apply Rmax_l]. rewrite <- (pow1 j). apply pow_incr. lra.
Qed.
Theorem C74_derivatives alpha s tau d b t0 t : fin alpha -> 0 < val alpha < 1 -> fin tau -> fin s -> vlen b = 6%nat -> let K := b01K (val alpha) in
  / 2 ^ 900 <= val tau * K <= 2 ^ 900 -> let p := val tau * K * val s in Rabs p <= 450 -> INR d <= 2 ^ 20 ->
  / 2 ^ 900 <= (4 * K) ^ d -> (4 * K) ^ d * exp (Rabs p) <= 2 ^ 900 -> window t0 (val tau) t = val s ->
  exists b' v, b01_eval_deriv alpha s tau d b = Ok b' /\ vec_is b' 6 v /\
    forall i, (i < 6)%nat -> fin (v i) /\ exists y, is_derive_n (b01_time K t0 (val tau) i) d t y /\ Rabs (val (v i) - y) <= b01_deriv_error K p d.
Proof.
  intros Fa Ha Ft Fs L K HK p Hp Hd Lo Up Hw. destruct (b01_eval_deriv_gen alpha s tau d b L) as (b' & E & V). eexists b', _. split; [exact E|]. split; [exact V|]. intros i Hi.
  destruct (p64 m eps HR He alpha tau s Fa Ha Ft Fs HK Hp) as (Fp & Bp). fold p in Bp. destruct (a64 m eps HR He alpha Fa Ha) as (F2 & q & Hq & V2). fold K in V2. pose proof (K_pos (val alpha)) as PK. fold K in PK.
  assert (P9 : 0 < / 2 ^ 900) by (apply Rinv_0_lt_compat, pow_lt; lra). destruct (exp_abs p) as (_ & _ & E1). pose proof (Rabs_pos p) as P0.
  assert (I450 : INR 450 = 450) by (rewrite INR_IZR_INZ; reflexivity).
  destruct (exp_range (Rabs p) 450 ltac:(rewrite I450, Rabs_Rabsolu; exact Hp)) as (_ & U2). rewrite pow4 in U2. change (2 * 450)%nat with 900%nat in U2.
  assert (HM : forall j, (j <= d)%nat -> / 2 ^ 900 <= (2 * (2 * K)) ^ j * exp (Rabs p) <= 2 ^ 900).
  { intros j Hj. replace (2 * (2 * K)) with (4 * K) by ring. destruct (pow_between (4 * K) d j ltac:(lra) Hj) as (A & B). set (x := (4 * K) ^ d) in *. set (y := (4 * K) ^ j) in *. set (e := exp (Rabs p)) in *.
    assert (Ly : / 2 ^ 900 <= y). { eapply Rle_trans; [|exact A]. apply Rmin_glb; [|exact Lo]. rewrite <- Rinv_1. apply Rinv_le_contravar; [lra|]. apply pow_R1_Rle. lra. }
    split; [apply Rle_trans with (y * 1); [lra|apply Rmult_le_compat_l; lra]|]. apply Rle_trans with (Rmax 1 x * e); [apply Rmult_le_compat_r; lra|]. unfold Rmax. destruct (Rle_dec 1 x); lra. }
  destruct (gfD64 m eps HA He _ (nmul (b01_k alpha) c2) p (2 * K) q d Fp Hp Bp F2 ltac:(lra) Hq V2 Hd HM d (le_n d) i Hi) as (F & B). split; [exact F|].
  assert (N : val tau <> 0). { intros Z. rewrite Z, Rmult_0_l in HK. lra. }
  eexists. split; [apply b01_time_derive_n; exact N|]. rewrite Hw. fold p. eapply Rle_trans; [exact B|]. unfold b01_deriv_error. replace (2 * (2 * K)) with (4 * K) by ring. right. ring.
Qed.

Section Value.
Variables (g : gspline b64) (n codom : nat) (t0 alpha : b64) (tf cf : nat -> b64).
Hypothesis Fin : finite_spline g n codom t0 tf cf.
Hypothesis Bas : gs_basis g = B0101 alpha.
Hypothesis Fa : fin alpha.
Hypothesis Ha : 0 < val alpha < 1.
Hypothesis Fc : forall i, (i < n * 6 * codom)%nat -> fin (cf i).
Let T0 := val t0.
Let tau i := val (tf i).
Let K := b01K (val alpha).
Let P iv := tau iv * K * (9 / 8).
Let C iv cc := Rsum 6 (fun k => Rabs (val (cf ((iv * codom + cc) * 6 + k)%nat))).
Hypothesis Sk : forall iv, (iv < n)%nat -> / 2 ^ 900 <= tau iv * K /\ P iv <= 450.
Hypothesis Sz : forall iv cc, (iv < n)%nat -> (cc < codom)%nat -> C iv cc * exp (P iv) <= 2 ^ 990.
Let dl := time_error T0 tau n.
Hypothesis Sm : forall iv, (iv < n)%nat -> 4 * dl / tau iv <= / 16.

Lemma evalue64 (t : b64) cc : fin t -> T0 <= val t <= bp T0 tau n + dl -> (cc < codom)%nat ->
  let iv := gint t0 tf n t in (iv < n)%nat /\ exists v t',
    (forall k, (k < 6)%nat -> bval (B0101 alpha) (gwin t0 tf iv t) (tf iv) k = v k) /\ Rabs (t' - val t) <= 3 * dl + 3 * uu * tau iv /\
    forall y, dot_of (pairs (fun k => cf (iv * 6 * codom + 6 * cc + k)%nat) v 6) y -> fin y /\
     Rabs (val y - piece (D01 (val alpha)) codom T0 tau (fun i => val (cf i)) iv cc t') <= b01_value_error (P iv) * C iv cc + 6 * / 2 ^ 1074.
Proof.
  intros Ft Ht Hcc. cbv zeta. destruct Fin as (W & Hn & E0 & F0 & Htf & HM).
  assert (Ff : forall i, (i < n)%nat -> fin (tf i)) by (intros; apply Htf; auto). assert (Tp : forall i, (i < n)%nat -> 0 < tau i) by (intros; apply Htf; auto).
  destruct (search_ok m t0 tf n t Hn F0 Ft Ff Tp HM) as (Hiv & Hin); try tauto. set (iv := gint t0 tf n t) in *.
  change (tdelta t0 tf n) with dl in Hin. specialize (Sm iv Hiv). destruct (Sk iv Hiv) as (Sk1 & Sk2). specialize (Sz iv cc Hiv Hcc).
  assert (DP : 0 <= dl) by (apply (delta_pos t0 tf n)). pose proof uu_pos as U. pose proof uu_small as US. pose proof (Tp iv Hiv) as Hp. pose proof uu_15 as U15.
  destruct (window_ok m t0 tf n t Hn F0 Ft Ff Tp HM iv Hiv) as (t1 & Ht1 & Hdt & Fw & Bww); auto.
  change (tdelta t0 tf n) with dl in *. fold T0 in Ht1, Bww. change (fun i => val (tf i)) with tau in Ht1, Bww. change (val (tf iv)) with (tau iv) in Bww. split; [exact Hiv|].
  set (s := gwin t0 tf iv t) in *. set (x1 := window (bp T0 tau iv) (tau iv) t1) in *.
  assert (Hx : -1 <= x1 <= 1).
  { unfold x1, window. assert (EbS : bp T0 tau (S iv) = bp T0 tau iv + tau iv) by apply bp_S64. rewrite EbS in Ht1. split.
    - assert (0 <= 2 * (t1 - bp T0 tau iv) / tau iv) by (apply Rdiv_le_0_compat; lra). lra.
    - assert (2 * (t1 - bp T0 tau iv) / tau iv <= 2) by (apply Rle_div_l; lra). lra. }
  assert (Hs : Rabs (val s) <= 9 / 8). { pose proof Bww as B1. apply Rabs_le_between in B1. apply Rabs_le. lra. }
  set (t2 := bp T0 tau iv + tau iv * (val s + 1) / 2).
  assert (Ew : window (bp T0 tau iv) (tau iv) t2 = val s) by (unfold window, t2; field; lra).
  assert (P9 : 0 < / 2 ^ 900) by (apply Rinv_0_lt_compat, pow_lt; lra).
  assert (PP : 0 < P iv) by (unfold P; lra). set (p := tau iv * K * val s).
  assert (Hp1 : Rabs p <= P iv). { unfold p, P. rewrite Rabs_mult, (Rabs_right (tau iv * K)) by lra. apply Rmult_le_compat_l; [lra|exact Hs]. }
  assert (U9 : tau iv * K <= 2 ^ 900). { apply Rle_trans with (2 ^ 9); [unfold P in Sk2; lra|apply Rle_pow; [lra|lia]]. }
  destruct (C74_values alpha s (tf iv) (vnew 6) Fa Ha (Ff iv Hiv) Fw eq_refl ltac:(split; assumption) ltac:(fold K; fold (tau iv); fold p; lra)) as (b' & v & Ev & Vv & Er).
  fold K in Er. change (val (tf iv)) with (tau iv) in Er. fold p in Er. exists v, t2. split.
  { intros k Hk. apply (bval_is (B0101 alpha) s (tf iv) b' v); cbn [b_eval b_dim]; auto. }
  split.
  { replace (t2 - val t) with ((t2 - t1) + (t1 - val t)) by ring. eapply Rle_trans; [apply Rabs_triang|].
    assert (Et : t2 - t1 = tau iv / 2 * (val s - x1)) by (unfold t2, x1, window; field; lra).
    assert (Rabs (t2 - t1) <= tau iv / 2 * (4 * dl / tau iv + 6 * uu)). { rewrite Et, Rabs_mult, (Rabs_pos_eq (tau iv / 2)) by lra. apply Rmult_le_compat_l; [lra|exact Bww]. }
    replace (tau iv / 2 * (4 * dl / tau iv + 6 * uu)) with (2 * dl + 3 * uu * tau iv) in H by (field; lra). lra. }
  intros y Hv. set (c := fun k => cf (iv * 6 * codom + 6 * cc + k)%nat) in *.
  assert (Ec : forall k, c k = cf ((iv * codom + cc) * 6 + k)%nat) by (intros k; unfold c; f_equal; ring).
  assert (Hidx : forall k, (k < 6)%nat -> ((iv * codom + cc) * 6 + k < n * 6 * codom)%nat).
  { intros k Hk. assert ((iv * codom + cc) * 6 + k < (iv * codom + codom) * 6)%nat by nia. assert ((iv * codom + codom) * 6 <= n * codom * 6)%nat by (apply Nat.mul_le_mono_r; nia). nia. }
  assert (EC : Rsum 6 (fun k => Rabs (val (c k))) = C iv cc) by (apply Rsum_ext; intros k _; rewrite Ec; reflexivity).
  assert (C0 : 0 <= C iv cc) by (apply Rsum_nonneg; intros; apply Rabs_pos).
  assert (Fck : forall k, (k < 6)%nat -> fin (c k)) by (intros k Hk; rewrite Ec; apply Fc; auto).
  set (E := exp (P iv)) in *. assert (E1 : 1 <= E). { unfold E. pose proof (exp_ineq1_le (P iv)). lra. }
  assert (Ep : exp (Rabs p) <= E). { unfold E. destruct Hp1 as [L|L]; [left; apply exp_increasing; exact L|rewrite L; lra]. }
  pose proof (exp_pos (Rabs p)) as Pe. pose proof (Rabs_pos p) as Pp.
  assert (BE : b01_error p <= uu * E * (30 * P iv + 6)). { unfold b01_error. apply Rmult_le_compat; [apply Rmult_le_pos; lra|lra|apply Rmult_le_compat_l; lra|lra]. }
  assert (BS : uu * E * (30 * P iv + 6) <= / 1000 * E). { apply Rle_trans with (/ 1000000000000000 * E * 13506); [apply Rmult_le_compat; [apply Rmult_le_pos; lra|lra|apply Rmult_le_compat_r; lra|lra]|lra]. }
  assert (fB : forall k, (k < 6)%nat -> Rabs (b01f k p) <= E). { intros k Hk. pose proof (fD_bound 0 k p Hk) as Q. cbn [fD pow] in Q. lra. }
  assert (PB : forall k, (k < 6)%nat -> fin (c k) /\ fin (v k) /\ Rabs (val (v k)) <= 1001 / 1000 * E).
  { intros k Hk. split; [auto|]. destruct (Er k Hk) as (Fk & Bk). split; [auto|]. replace (val (v k)) with (b01f k p + (val (v k) - b01f k p)) by ring. eapply Rle_trans; [apply Rabs_triang|]. pose proof (fB k Hk). lra. }
  pose proof hh_pos as HP. assert (hs : hh <= / 1000000). { pose proof (hh_uup 0 ltac:(lia)) as H. rewrite pow_O, Rinv_1 in H. lra. }
  pose proof (pow_1u_lin 7) as PL. cbn [INR] in PL. assert (E7 : 1 + 1 + 1 + 1 + 1 + 1 + 1 = 7) by ring. rewrite E7 in PL. specialize (PL ltac:(lra)). pose proof (pow_1u_le 6 7 ltac:(lia)) as PM. pose proof (pow_1u_ge1 6) as P1. pose proof (pow_1u_ge1 7) as P7.
  assert (I6 : INR 6 = 6) by (cbn [INR]; ring).
  destruct (dot_ok c v 6 (1001 / 1000 * E) y PB) as (Fv & Bv); [lra| |exact Hv|].
  { rewrite EC, I6. assert (CE : 0 <= C iv cc * E) by (apply Rmult_le_pos; lra). assert (A1 : C iv cc * (1001 / 1000 * E) + 6 * hh <= 2 ^ 990 * 2).
    { assert (1 <= 2 ^ 990) by (apply pow_R1_Rle; lra). set (zz := 2 ^ 990) in *. lra. }
    apply Rle_trans with (2 * (2 ^ 990 * 2)).
    - apply Rmult_le_compat; [lra| |lra|exact A1]. lra.
    - replace (2 * (2 ^ 990 * 2)) with (2 ^ 992); [apply big_of; lia|]. change 992%nat with (990 + 2)%nat. rewrite pow_add. set (zz := 2 ^ 990). cbn [pow]. ring. }
  rewrite EC, I6 in Bv. split; [exact Fv|]. unfold piece. cbn [d_dim]. unfold tphi. rewrite Ew. cbn [phi]. fold K. fold p.
  set (V := val y) in *. set (Y := Rsum 6 (fun k => val (c k) * val (v k))) in *.
  set (Z := Rsum 6 (fun bb => val (cf ((iv * codom + cc) * 6 + bb)%nat) * b01f bb p)).
  assert (YZ : Rabs (Y - Z) <= uu * E * (30 * P iv + 6) * C iv cc).
  { unfold Y, Z. rewrite <- Rsum_minus. eapply Rle_trans; [apply InterpMath2.Rsum_abs|]. unfold C. rewrite <- Rsum_scal. apply Rsum_le. intros k Hk.
    rewrite Ec. rewrite <- Rmult_minus_distr_l, Rabs_mult. rewrite Rmult_comm. apply Rmult_le_compat_r; [apply Rabs_pos|]. eapply Rle_trans; [apply (Er k Hk)|exact BE]. }
  replace (V - Z) with ((V - Y) + (Y - Z)) by ring. eapply Rle_trans; [apply Rabs_triang|].
  assert (H1074 : / 2 ^ 1074 = 2 * hh). { unfold hh. replace (2 ^ 1075) with (2 * 2 ^ 1074) by reflexivity. rewrite Rinv_mult. field. }
  rewrite H1074. unfold b01_value_error. fold E.
  assert (A1 : ((1 + uu) ^ 7 - 1) * (C iv cc * (1001 / 1000 * E)) <= 14 * uu * (C iv cc * (1001 / 1000 * E))). { apply Rmult_le_compat_r; [apply Rmult_le_pos; lra|lra]. }
  assert (A2 : (1 + uu) ^ 6 * (6 * hh) <= 2 * (6 * hh)) by (apply Rmult_le_compat_r; lra).
  assert (A3 : 0 <= uu * E * C iv cc) by (apply Rmult_le_pos; [apply Rmult_le_pos; lra|exact C0]).
  replace (14 * uu * (C iv cc * (1001 / 1000 * E))) with (14 * (1001 / 1000) * (uu * E * C iv cc)) in A1 by ring. replace (uu * E * (30 * P iv + 6) * C iv cc) with (uu * E * (30 * P iv) * C iv cc + 6 * (uu * E * C iv cc)) in YZ by ring.
  replace (uu * E * (30 * P iv + 21) * C iv cc) with (uu * E * (30 * P iv) * C iv cc + 21 * (uu * E * C iv cc)) by ring. lra.
Qed.
(** the exact piece at a time nearby *)
Theorem C74_spline ts pf np : vec_is ts np pf -> (forall i, (i < np)%nat -> fin (pf i) /\ T0 <= val (pf i) <= bp T0 tau n + dl) ->
  exists M, gs_value g ts = Ok M /\ mrows M = np /\ mcols M = codom /\
  forall i cc, (i < np)%nat -> (cc < codom)%nat -> exists v iv t', mget M i cc = Some v /\ fin v /\ (iv < n)%nat /\ Rabs (t' - val (pf i)) <= 3 * dl + 3 * uu * tau iv /\
     Rabs (val v - piece (D01 (val alpha)) codom T0 tau (fun k => val (cf k)) iv cc t') <= b01_value_error (P iv) * C iv cc + 6 * / 2 ^ 1074.
Proof.
  intros V Hp. destruct Fin as (W & Hn & E0 & _). destruct (value_gen g n codom tf cf ts pf np W Hn V) as (M & E & R1 & R2 & Gt). rewrite E0 in Gt.
  exists M. split; [exact E|]. split; [exact R1|]. split; [exact R2|]. intros i cc Hi Hcc. destruct (Hp i Hi) as (Ft & Ht).
  destruct (evalue64 (pf i) cc Ft Ht Hcc) as (H1 & v & t' & Pv & Ht' & Hv). set (iv := gint t0 tf n (pf i)) in *.
  eexists. exists iv, t'. split; [apply Gt; auto|]. rewrite Bas. unfold gpt. cbn [b_dim]. fold iv.
  destruct (Hv (nsum 6 (fun k => nmul (cf (iv * 6 * codom + 6 * cc + k)%nat) (v k)))) as (Fv & Bv); [apply (nsum_dot m)|].
  match goal with |- fin ?w /\ _ => replace w with (nsum 6 (fun k => nmul (cf (iv * 6 * codom + 6 * cc + k)%nat) (v k))) end; [auto|].
  apply nsum_ext. intros k Hk. f_equal. symmetry. apply Pv; auto.
Qed.
End Value.
End B.

(** ** A case: alpha = 1/2, an interval of length 2 from 0, coefficients 1 to 6, at 3/2; the library rounds to nearest *)
Definition half64 : b64 := Bdiv mode_NE (z64 1) (z64 2).
Lemma half64_v : fin half64 /\ val half64 = / 2.
Proof. split; [reflexivity|]. rewrite (val_sf half64 false 4503599627370496 (-53)) by (vm_compute; reflexivity). cbn [cond_Zopp]. change (-53)%Z with (- (Z.of_nat 53))%Z. rewrite bpow_opp, bpow_pow. field. Qed.
Definition th64 : b64 := Bdiv mode_NE (z64 3) (z64 2).
Lemma th64_v : fin th64 /\ val th64 = 3 / 2.
Proof. split; [reflexivity|]. rewrite (val_sf th64 false 6755399441055744 (-52)) by (vm_compute; reflexivity). cbn [cond_Zopp]. change (-52)%Z with (- (Z.of_nat 52))%Z. rewrite bpow_opp, bpow_pow. field. Qed.
Definition e01_spline (m : libm) : gspline b64 :=
  mkgs (z64 0, z64 2) 1 (vec_of_list [z64 1; z64 2; z64 3; z64 4; z64 5; z64 6]) (vec_of_list [z64 2]) (B0101 half64) (bs_init (H := B64num m) (B0101 half64)) (vnew 6).
Definition e01_c (i : nat) : b64 := nth i [z64 1; z64 2; z64 3; z64 4; z64 5; z64 6] (z64 0).
Definition e01_t (i : nat) : b64 := nth i [z64 2] (z64 0).
Lemma K_half : b01K (val half64) = sqrt 2 / 4 /\ 1 <= sqrt 2 <= 3 / 2.
Proof.
  destruct half64_v as (_ & ->). split.
  - unfold b01K. replace (/ 2 / (1 - / 2)) with 1 by field. unfold Rpower. rewrite ln_1, Rmult_0_r, exp_0. ring.
  - split; [rewrite <- sqrt_1 at 1; apply sqrt_le_1; lra|]. replace (3 / 2) with (sqrt (3 / 2 * (3 / 2))) by (apply sqrt_square; lra). apply sqrt_le_1; lra.
Qed.
Lemma e01_ok m : finite_spline (e01_spline m) 1 1 (z64 0) e01_t e01_c.
Proof.
  split; [|split; [lia|split; [reflexivity|split; [reflexivity|split]]]].
  - split; [exact I|split; [reflexivity|split; [apply (vec_of_list_is [z64 2] (z64 0))|split; [apply (vec_of_list_is [z64 1; z64 2; z64 3; z64 4; z64 5; z64 6] (z64 0))|reflexivity]]]].
  - intros i Hi. replace i with 0%nat by lia. unfold e01_t. cbn [nth]. split; [reflexivity|rewrite z64v by (cbn; lia); lra].
  - cbn [Rsum]. unfold e01_t. cbn [nth]. rewrite !z64v by (cbn; lia). rewrite !Rabs_pos_eq by lra. pose proof (pow_1u_lin 2) as P. cbn [INR] in P. pose proof uu_small. specialize (P ltac:(lra)). pose proof uu_pos.
    apply Rle_trans with (2 ^ 3); [lra|]. apply big_of. lia.
Qed.
Lemma small_900 y : / 2 <= y -> / 2 ^ 900 <= y.
Proof. intros H. apply Rle_trans with (/ 2); [|exact H]. apply Rinv_le_contravar; [lra|]. rewrite <- (pow_1 2) at 1. apply Rle_pow; [lra|lia]. Qed.
Lemma exp_1_3 y : y <= 1 -> exp y <= 3.
Proof. intros H. apply Rle_trans with (exp 1); [destruct H as [L|L]; [left; apply exp_increasing; exact L|rewrite L; lra]|apply exp_le_3]. Qed.
Example C74_case : exists M v t', gs_value (H := B64num nearest) (e01_spline nearest) (vec_of_list [th64]) = Ok M /\ mget M 0 0 = Some v /\ fin v /\
  Rabs (t' - 3 / 2) <= 100 * uu /\
  let p := sqrt 2 / 2 * (t' - 1) in Rabs (val v - (exp p * cos p + 2 * (exp p * sin p) + 3 * (exp (- p) * cos p) + 4 * (exp (- p) * sin p) + 5 * p + 6)) <= 4000 * uu.
Proof.
  pose proof uu_small as US. pose proof uu_pos as UP. pose proof hh_pos as HP. pose proof hh_uu as HU. destruct half64_v as (FH & VH). destruct th64_v as (FT & VT). destruct K_half as (EK & S2).
  assert (DL : time_error (val (z64 0)) (fun i => val (e01_t i)) 1 <= 8 * uu /\ 0 <= time_error (val (z64 0)) (fun i => val (e01_t i)) 1).
  { split; [|apply (delta_pos (z64 0) e01_t 1)]. unfold time_error, e01_t. cbn [Rsum nth]. rewrite !z64v by (cbn; lia). rewrite !Rabs_pos_eq by lra. pose proof (pow_1u_lin 2) as P. cbn [INR] in P. specialize (P ltac:(lra)). lra. }
  assert (T2 : val (e01_t 0%nat) = 2) by (unfold e01_t; cbn [nth]; apply z64v; cbn; lia).
  assert (SC : Rsum 6 (fun k => Rabs (val (e01_c ((0 * 1 + 0) * 6 + k)%nat))) = 21).
  { cbn [Rsum Nat.add Nat.mul]. unfold e01_c. cbn [nth]. rewrite !z64v by (cbn; lia). rewrite !Rabs_pos_eq by lra. ring. }
  assert (PV : 2 * (sqrt 2 / 4) * (9 / 8) <= 1) by lra.
  destruct (C74_spline nearest (2 * uu) C66_nearest C74_nearest ltac:(lra) (e01_spline nearest) 1 1 (z64 0) half64 e01_t e01_c (e01_ok nearest) eq_refl FH) with (ts := vec_of_list [th64]) (pf := fun i => nth i [th64] th64) (np := 1%nat) as (M & E & _ & _ & G).
  - lra.
  - intros i Hi. do 6 (destruct i as [|i]; [reflexivity|]). lia.
  - intros iv Hi. replace iv with 0%nat by lia. rewrite T2, EK. split; [apply small_900; lra|lra].
  - intros iv cc Hi Hc. replace iv with 0%nat by lia. replace cc with 0%nat by lia. rewrite SC, T2, EK. pose proof (exp_1_3 _ PV). apply Rle_trans with (2 ^ 6); [lra|apply Rle_pow; [lra|lia]].
  - intros iv Hi. replace iv with 0%nat by lia. rewrite T2. lra.
  - apply (vec_of_list_is [th64] th64).
  - intros i Hi. replace i with 0%nat by lia. cbn [nth]. split; [reflexivity|]. rewrite VT. set (d := time_error _ _ _) in *. unfold bp. cbn [Rsum]. rewrite T2, !z64v by (cbn; lia). lra.
  - destruct (G 0%nat 0%nat ltac:(lia) ltac:(lia)) as (v & iv & t' & Gv & Fv & Hiv & Ht & Hv). replace iv with 0%nat in * by lia. clear G. cbn [nth] in Ht. rewrite VT, T2 in Ht.
    assert (Ht2 : Rabs (t' - 3 / 2) <= 100 * uu) by lra. exists M, v, t'. split; [exact E|]. split; [exact Gv|]. split; [exact Fv|]. split; [exact Ht2|]. cbv zeta.
    rewrite SC, T2 in Hv. unfold piece in Hv. cbn [d_dim] in Hv. unfold tphi in Hv. cbn [phi Rsum Nat.add Nat.mul] in Hv. rewrite T2 in Hv.
    assert (B0 : bp (val (z64 0)) (fun i => val (e01_t i)) 0 = 0) by (unfold bp; cbn [Rsum]; rewrite z64v by (cbn; lia); lra). rewrite B0 in Hv.
    unfold window in Hv. rewrite EK in Hv. replace (2 * (sqrt 2 / 4) * (2 * (t' - 0) / 2 - 1)) with (sqrt 2 / 2 * (t' - 1)) in Hv by field. set (p := sqrt 2 / 2 * (t' - 1)) in *.
    unfold e01_c in Hv. cbn [nth b01f] in Hv. rewrite !z64v in Hv by (cbn; lia).
    match type of Hv with Rabs (_ - ?y) <= _ => replace y with (exp p * cos p + 2 * (exp p * sin p) + 3 * (exp (- p) * cos p) + 4 * (exp (- p) * sin p) + 5 * p + 6) in Hv by ring end.
    eapply Rle_trans; [exact Hv|]. assert (H1074 : / 2 ^ 1074 = 2 * hh). { unfold hh. replace (2 ^ 1075) with (2 * 2 ^ 1074) by reflexivity. rewrite Rinv_mult. field. } rewrite H1074.
    unfold b01_value_error. pose proof (exp_1_3 _ PV) as X3. pose proof (exp_pos (2 * (sqrt 2 / 4) * (9 / 8))) as X0. set (e := exp (2 * (sqrt 2 / 4) * (9 / 8))) in *.
    assert (uu * e * (30 * (2 * (sqrt 2 / 4) * (9 / 8)) + 21) <= uu * 3 * 51). { apply Rmult_le_compat; [apply Rmult_le_pos; lra|lra|apply Rmult_le_compat_l; lra|lra]. } lra.
Qed.
(** third derivatives at the window coordinate 1/2 of the interval [0, 2] *)
Example C74_derivatives_case : exists b' v, b01_eval_deriv (H := B64num nearest) half64 half64 (z64 2) 3 (vnew 6) = Ok b' /\ vec_is b' 6 v /\
  forall i, (i < 6)%nat -> fin (v i) /\ exists y, is_derive_n (b01_time (sqrt 2 / 4) 0 2 i) 3 (3 / 2) y /\ Rabs (val (v i) - y) <= 1000 * uu.
Proof.
  pose proof uu_pos as UP. destruct half64_v as (FH & VH). destruct K_half as (EK & S2). assert (S22 : sqrt 2 * sqrt 2 = 2) by (apply sqrt_sqrt; lra).
  assert (V2 : val (z64 2) = 2) by (apply z64v; cbn; lia).
  assert (Ep : val (z64 2) * b01K (val half64) * val half64 = sqrt 2 / 4) by (rewrite EK, VH, V2; field).
  assert (E4 : (4 * b01K (val half64)) ^ 3 = 2 * sqrt 2). { rewrite EK. replace (4 * (sqrt 2 / 4)) with (sqrt 2) by field. cbn [pow]. rewrite Rmult_1_r, S22. ring. }
  destruct (C74_derivatives nearest (2 * uu) C66_nearest C74_nearest ltac:(lra) half64 half64 (z64 2) 3 (vnew 6) 0 (3 / 2) FH ltac:(lra) eq_refl FH eq_refl) as (b' & v & E & V & G).
  - rewrite EK, V2. split; [apply small_900; lra|]. apply Rle_trans with (2 ^ 1); [lra|apply Rle_pow; [lra|lia]].
  - rewrite Ep, Rabs_right; lra.
  - cbn [INR]. apply Rle_trans with (2 ^ 2); [lra|apply Rle_pow; [lra|lia]].
  - rewrite E4. apply small_900. lra.
  - rewrite E4, Ep. pose proof (exp_1_3 (Rabs (sqrt 2 / 4)) ltac:(rewrite Rabs_right; lra)) as X3. pose proof (exp_pos (Rabs (sqrt 2 / 4))). apply Rle_trans with (3 * 3); [apply Rmult_le_compat; lra|]. apply Rle_trans with (2 ^ 4); [lra|apply Rle_pow; [lra|lia]].
  - unfold window. rewrite V2, VH. field.
  - exists b', v. split; [exact E|]. split; [exact V|]. intros i Hi. destruct (G i Hi) as (F & y & Dy & By). rewrite EK, V2 in Dy. split; [exact F|]. exists y. split; [exact Dy|]. eapply Rle_trans; [exact By|].
    unfold b01_deriv_error. rewrite Ep, E4. pose proof (exp_1_3 (Rabs (sqrt 2 / 4)) ltac:(rewrite Rabs_right; lra)) as X3. pose proof (exp_pos (Rabs (sqrt 2 / 4))) as X0. rewrite (Rabs_right (sqrt 2 / 4)) in * by lra. set (e := exp (sqrt 2 / 4)) in *. cbn [INR].
    assert (uu * (2 * sqrt 2) * e * (30 * (sqrt 2 / 4) + 6 + 16 * (1 + 1 + 1)) <= uu * 3 * 3 * 66); [|lra].
    assert (0 <= uu * (2 * sqrt 2)) by (apply Rmult_le_pos; lra). apply Rmult_le_compat; [apply Rmult_le_pos; lra|lra| |lra]. apply Rmult_le_compat; try lra. apply Rmult_le_compat_l; lra.
Qed.
