(** The computed Gauss-Lobatto points and weights against the exact ones. *)
From Coquelicot Require Import Coquelicot.
From Coq Require Import Arith Reals Lra Lia Psatz.
From Verif Require Import Num RSum RDeriv RPoly LegendreSpec LegendreMath GLSpec QuadSpec QuadMath LobattoRoots GLModel GLProofs GLProofs2 NewtonMath SturmMath LobattoLocate GLConv.
Local Open Scope R_scope.
Local Opaque gl_iters.

Lemma cos_range g a b : 0 <= a -> a <= g <= b -> b <= 15 / 10 ->
  1 - b ^ 2 / 2 + b ^ 4 / 24 - b ^ 6 / 720 <= cos g <= 1 - a ^ 2 / 2 + a ^ 4 / 24.
Proof.
  intros Ha Hg Hb. pose proof pi_lo as PL. pose proof (cos_bound b 1 ltac:(lra) ltac:(lra)) as [B _]. pose proof (cos_bound a 0 ltac:(lra) ltac:(lra)) as [_ A].
  pose proof (cos_decr_1 a g ltac:(lra) ltac:(lra) ltac:(lra) ltac:(lra) ltac:(lra)) as D1. pose proof (cos_decr_1 g b ltac:(lra) ltac:(lra) ltac:(lra) ltac:(lra) ltac:(lra)) as D2.
  unfold cos_approx, sum_f_R0, cos_term in A, B. simpl in A, B. simpl. split; lra.
Qed.
Section Small.
Variables (x : nat -> R).
Lemma guess_3 : lobatto_nodes 3 x -> x 0%nat = -1 -> x 3%nat = 1 -> incr 4 x ->
  start 3 x 1 (- cos ((INR 1 + 1 / 4) * PI / INR 3 - 3 / (8 * INR 3 * PI) * (1 / (INR 1 + 1 / 4)))).
Proof.
  intros HX X0 X1 HI. set (g := (INR 1 + 1 / 4) * PI / INR 3 - 3 / (8 * INR 3 * PI) * (1 / (INR 1 + 1 / 4))).
  pose proof (zz_zero 3 x 1 ltac:(lia) HX ltac:(lia) ltac:(lia)) as Z. pose proof (zz_neg 3 x 1 ltac:(lia) HX X0 X1 HI ltac:(lia) ltac:(lia)) as Zn.
  pose proof (range_j 3 x 1 ltac:(lia) X0 X1 HI ltac:(lia) ltac:(lia)) as Rj. fold (zz x 1) in Rj.
  pose proof (ss_sq 3 x 1 ltac:(lia) HX ltac:(lia) ltac:(lia)) as Ss. pose proof (ss_pos 3 x 1 ltac:(lia) HX X0 X1 HI ltac:(lia) ltac:(lia)) as Sp.
  pose proof (rt_sq 3 ltac:(lia)) as Rs. pose proof (rt_pos 3 ltac:(lia)) as Rp. pose proof (qq_rt 3 x 1 ltac:(lia)) as Qr. pose proof (qq_pos 3 x 1 ltac:(lia) HX X0 X1 HI ltac:(lia) ltac:(lia)) as Qp.
  set (z := zz x 1) in *. set (s := ss x 1) in *. set (r := rt 3) in *. set (q := qq 3 x 1) in *.
  assert (P2 : forall t, legP 2 t = (3 * t * t - 1) / 2) by (intros t; rewrite legP_SS, legP_1, legP_0; simpl; field).
  assert (P3 : forall t, legP 3 t = (5 * t * t * t - 3 * t) / 2) by (intros t; rewrite legP_SS, P2, legP_1; simpl; field).
  assert (P4 : forall t, legP 4 t = (35 * t * t * t * t - 30 * t * t + 3) / 8) by (intros t; rewrite legP_SS, P3, P2; simpl; field).
  assert (Z2 : z * z = 1 / 5).
  { unfold qpol in Z. simpl Nat.sub in Z. rewrite P4, P2 in Z. assert (Y : (z * z - 1) * (z * z - 1 / 5) = 0) by lra. apply Rmult_integral in Y. destruct Y as [Y|Y]; [nra|lra]. }
  assert (Zl : 447 / 1000 <= - z <= 448 / 1000) by (split; apply Rnot_lt_le; intros L; nra).
  assert (Sl : 894 / 1000 <= s) by (apply Rnot_lt_le; intros L; nra).
  assert (Ru : r <= 3465 / 1000) by (simpl in Rs; apply Rnot_lt_le; intros L; nra).
  assert (Ql : 258 / 1000 <= q) by (apply Rnot_lt_le; intros L; assert (q * r < 258 / 1000 * (3465 / 1000)) by (apply Rmult_le_0_lt_compat; lra || nra); lra).
  assert (G : 127 / 100 <= g <= 129 / 100).
  { pose proof pi_lo as PL. pose proof pi_hi as PH. assert (Eg : g = 5 / 12 * PI - 1 / 10 * / PI) by (unfold g; simpl; field; lra).
    assert (1 / 4 <= / PI <= 1 / 3). { split; [replace (1 / 4) with (/ 4) by lra|replace (1 / 3) with (/ 3) by lra]; apply Rinv_le_contravar; lra. } lra. }
  pose proof (cos_range g (127 / 100) (129 / 100) ltac:(lra) G ltac:(lra)) as Cg.
  left. unfold Rg. fold z. fold q. split; lra.
Qed.
Lemma guess_4 : lobatto_nodes 4 x -> x 0%nat = -1 -> x 4%nat = 1 -> incr 5 x ->
  start 4 x 1 (- cos ((INR 1 + 1 / 4) * PI / INR 4 - 3 / (8 * INR 4 * PI) * (1 / (INR 1 + 1 / 4)))).
Proof.
  intros HX X0 X1 HI. set (g := (INR 1 + 1 / 4) * PI / INR 4 - 3 / (8 * INR 4 * PI) * (1 / (INR 1 + 1 / 4))).
  pose proof (zz_zero 4 x 1 ltac:(lia) HX ltac:(lia) ltac:(lia)) as Z. pose proof (zz_neg 4 x 1 ltac:(lia) HX X0 X1 HI ltac:(lia) ltac:(lia)) as Zn.
  pose proof (range_j 4 x 1 ltac:(lia) X0 X1 HI ltac:(lia) ltac:(lia)) as Rj. fold (zz x 1) in Rj.
  pose proof (ss_sq 4 x 1 ltac:(lia) HX ltac:(lia) ltac:(lia)) as Ss. pose proof (ss_pos 4 x 1 ltac:(lia) HX X0 X1 HI ltac:(lia) ltac:(lia)) as Sp.
  pose proof (rt_sq 4 ltac:(lia)) as Rs. pose proof (rt_pos 4 ltac:(lia)) as Rp. pose proof (qq_rt 4 x 1 ltac:(lia)) as Qr. pose proof (qq_pos 4 x 1 ltac:(lia) HX X0 X1 HI ltac:(lia) ltac:(lia)) as Qp.
  set (z := zz x 1) in *. set (s := ss x 1) in *. set (r := rt 4) in *. set (q := qq 4 x 1) in *.
  assert (P2 : forall t, legP 2 t = (3 * t * t - 1) / 2) by (intros t; rewrite legP_SS, legP_1, legP_0; simpl; field).
  assert (P3 : forall t, legP 3 t = (5 * t * t * t - 3 * t) / 2) by (intros t; rewrite legP_SS, P2, legP_1; simpl; field).
  assert (P4 : forall t, legP 4 t = (35 * t * t * t * t - 30 * t * t + 3) / 8) by (intros t; rewrite legP_SS, P3, P2; simpl; field).
  assert (P5 : forall t, legP 5 t = (63 * t * t * t * t * t - 70 * t * t * t + 15 * t) / 8) by (intros t; rewrite legP_SS, P4, P3; simpl; field).
  assert (Z2 : z * z = 3 / 7).
  { unfold qpol in Z. simpl Nat.sub in Z. rewrite P5, P3 in Z. assert (Y : z * ((z * z - 1) * (z * z - 3 / 7)) = 0) by lra. apply Rmult_integral in Y. destruct Y as [Y|Y]; [lra|]. apply Rmult_integral in Y. destruct Y as [Y|Y]; [nra|lra]. }
  assert (Zl : 654 / 1000 <= - z <= 655 / 1000) by (split; apply Rnot_lt_le; intros L; nra).
  assert (Sl : 755 / 1000 <= s) by (apply Rnot_lt_le; intros L; nra).
  assert (Ru : r <= 4473 / 1000) by (simpl in Rs; apply Rnot_lt_le; intros L; nra).
  assert (Ql : 168 / 1000 <= q) by (apply Rnot_lt_le; intros L; assert (q * r < 168 / 1000 * (4473 / 1000)) by (apply Rmult_le_0_lt_compat; lra || nra); lra).
  assert (G : 95 / 100 <= g <= 97 / 100).
  { pose proof pi_lo as PL. pose proof pi_hi as PH. assert (Eg : g = 5 / 16 * PI - 3 / 40 * / PI) by (unfold g; simpl; field; lra).
    assert (1 / 4 <= / PI <= 1 / 3). { split; [replace (1 / 4) with (/ 4) by lra|replace (1 / 3) with (/ 3) by lra]; apply Rinv_le_contravar; lra. } lra. }
  pose proof (cos_range g (95 / 100) (97 / 100) ltac:(lra) G ltac:(lra)) as Cg.
  left. unfold Rg. fold z. fold q. split; lra.
Qed.
End Small.

Section All.
Variables (N : nat) (x : nat -> R) (j : nat).
Hypothesis HN : (3 <= N)%nat.
Hypothesis HX : lobatto_nodes N x.
Hypothesis X0 : x 0%nat = -1.
Hypothesis X1 : x N = 1.
Hypothesis HI : incr (S N) x.
Hypothesis Hj : (1 <= j)%nat.
Hypothesis Hj2 : (2 * j < N)%nat.
Lemma guess_start : start N x j (gl_guess N j).
Proof.
  unfold gl_guess. rewrite !nofnat_INR. destruct (le_lt_dec 5 N) as [L|L]; [apply guess_5; auto|].
  assert (j = 1)%nat by lia. assert (HNN : (N = 3 \/ N = 4)%nat) by lia. subst j. destruct HNN as [-> | ->]; [apply guess_3|apply guess_4]; auto.
Qed.
Lemma inv_slope u : inv N x j u -> legP N u <> 0.
Proof.
  assert (Nz : legP N (x j) <> 0). { destruct N as [|n0] eqn:EN; [lia|]. apply (nodes_weight n0 x HX j). lia. }
  assert (Pz : 0 < Rabs (legP N (x j))) by (apply Rabs_pos_lt; auto). intros H Z.
  destruct H as [H|H].
  - destruct (right_step N x j HN HX X0 X1 HI Hj Hj2 u (103 / 100) 1 H) as [_ [A _]]; try lra. unfold zz in A. rewrite Z, Rabs_R0 in A.
    assert (0 < Rabs (legP N (x j)) * (1 - 103 / 100 * (103 / 100) / 2)) by (apply Rmult_lt_0_compat; lra). lra.
  - destruct (left_step N x j HN HX X0 X1 HI Hj Hj2 u (78 / 100) 2 H) as [_ [A _]]; try lra. unfold zz in A. rewrite Z, Rabs_R0 in A.
    match type of A with _ * ?c <= _ => assert (0 < Rabs (legP N (x j)) * c) by (apply Rmult_lt_0_compat; [auto|lra]) end. lra.
Qed.
Lemma iter_slope i : legP N (niter N i (gl_guess N j)) <> 0.
Proof. apply inv_slope, inv_iter; auto. apply guess_start. Qed.
(** what the loop returns for node j, and the iterate before it *)
Lemma gX_result : exists u, inv N x j u /\ gX N j = nmap N u /\ inv' N x j (gX N j) /\
  (exists m, (m <= 9)%nat /\ u = niter N m (gl_guess N j)) /\
  Rabs (gX N j - u) < / 10 ^ 9 * Rabs (gX N j) /\ Rabs (gX N j - x j) <= Rabs (gX N j - u) /\ Rabs (u - x j) <= Rabs (gX N j - u).
Proof.
  pose proof guess_start as G. destruct (node_conv N x j HN HX X0 X1 HI Hj Hj2 _ G) as (m & Hm & E & S). fold (gX (T := R) N j) in *.
  exists (niter N m (gl_guess N j)). pose proof (inv_iter N x j HN HX X0 X1 HI Hj Hj2 _ m G) as I.
  destruct (inv_step N x j HN HX X0 X1 HI Hj Hj2 _ I) as (I' & A & B). unfold zz in A, B.
  replace (gX N j) with (nmap N (niter N m (gl_guess N j))) in * by (symmetry; exact E).
  split; [exact I|]. split; [reflexivity|]. split; [exact I'|]. split; [exists m; auto|]. auto.
Qed.
Lemma gX_bounds : Rabs (gX N j - x j) < / 10 ^ 9 * Rabs (gX N j) /\ -1 < gX N j < 0 /\ x j - 78 / 100 * qq N x j <= gX N j <= x j + 94 / 100 * qq N x j.
Proof.
  destruct gX_result as (u & I & E & I' & _ & S & A & B). set (v := gX N j) in *.
  assert (Q : Rabs (v - x j) < / 10 ^ 9 * Rabs v) by lra. split; [exact Q|].
  pose proof (zz_neg N x j HN HX X0 X1 HI Hj Hj2) as Zn. pose proof (left_gap N x j HN HX X0 X1 HI Hj Hj2) as LG. pose proof (qq_pos N x j HN HX X0 X1 HI Hj Hj2) as Qp. unfold zz in *.
  assert (W : x j - 78 / 100 * qq N x j <= v <= x j + 94 / 100 * qq N x j). { destruct I' as [[C D]|[C D]]; unfold zz in *; lra. }
  pose proof (x_range N x ltac:(lia) HX (j - 1) ltac:(lia)) as Xr. split; [|exact W]. split; [lra|].
  apply Rnot_le_lt. intros L. rewrite (Rabs_pos_eq v) in Q by auto. replace (/ 10 ^ 9) with (1 / 1000000000) in Q by (simpl; field). apply Rabs_def2 in Q. lra.
Qed.
(** third-order accuracy once the second-order scale of the problem is resolved *)
Definition eps : R := M N * M N / 2 / 1000000000.
Lemma gX_sharp : eps <= 11 / 100 -> Rabs (gX N j - x j) <= 2 / 5 * eps ^ 3 * qq N x j.
Proof.
  intros He. destruct gX_result as (u & I & E & I' & _ & S & A & B). destruct gX_bounds as (_ & V & _). set (v := gX N j) in *.
  pose proof (qq_pos N x j HN HX X0 X1 HI Hj Hj2) as Qp. set (q := qq N x j) in *.
  pose proof (rt_pos N HN) as Rp. pose proof (rt_M N HN) as RM. pose proof (ss_pos N x j HN HX X0 X1 HI Hj Hj2) as Sp. pose proof (ss_lo N x j HN HX X0 X1 HI Hj Hj2) as SL. pose proof (Mp N HN) as MP. pose proof (qq_rt N x j HN) as QR. fold q in QR.
  set (h := Rabs (u - x j)) in *. assert (Hh : 0 <= h) by apply Rabs_pos.
  assert (Hh9 : h <= 1 / 1000000000).
  { apply (Rle_trans _ _ _ B). apply Rlt_le. apply (Rlt_le_trans _ _ _ S). rewrite (Rabs_left v) by lra. replace (/ 10 ^ 9) with (1 / 1000000000) by (simpl; field). lra. }
  set (Y := h / q). assert (Yh : Y * q = h) by (unfold Y; field; lra). assert (Y0 : 0 <= Y) by (apply Rdiv_le_0_compat; lra).
  assert (Ye : Y <= eps).
  { apply (Rmult_le_reg_r q); auto. rewrite Yh. apply (Rle_trans _ _ _ Hh9). unfold eps. apply (Rmult_le_reg_r (1000000000 * rt N)); [lra|].
    replace (M N * M N / 2 / 1000000000 * q * (1000000000 * rt N)) with (M N * (M N * (q * rt N)) / 2) by field. rewrite QR.
    assert (M N * 2 <= M N * (M N * ss x j)) by (apply Rmult_le_compat_l; lra). lra. }
  assert (Y2 : 0 <= Y * Y <= 11 / 100 * (11 / 100)) by (split; [apply Rmult_le_pos|apply Rmult_le_compat]; lra).
  assert (K : Rabs (v - x j) <= 2 / 5 * (Y * Y) * h).
  { rewrite E. assert (Nr : near N x j Y u) by (apply near_abs; unfold zz; fold q; rewrite Yh; unfold h; lra).
    assert (Yq : 0 <= 2 / 5 * (Y * Y)) by lra. destruct Nr as [[C D]|[C D]]; unfold zz in *.
    - destruct (right_step N x j HN HX X0 X1 HI Hj Hj2 u Y (2 / 5 * (Y * Y))) as [[F G] _]; try lra; [split; assumption| |].
      + assert (2 / 5 * (Y * Y) * (1 - 11 / 100 * (11 / 100) / 2) <= 2 / 5 * (Y * Y) * (1 - Y * Y / 2)) by (apply Rmult_le_compat_l; lra). lra.
      + unfold zz in *. unfold h. rewrite (Rabs_pos_eq (u - x j)), Rabs_left1 by lra. lra.
    - destruct (left_step N x j HN HX X0 X1 HI Hj Hj2 u Y (2 / 5 * (Y * Y))) as [[F G] _]; try lra; [split; assumption| |].
      + assert (2 / 5 * (Y * Y) * (1 - 61 / 100 * (11 / 100) - 11 / 100 * (11 / 100) / 12 - 11 / 100 * (11 / 100) / 2) <= 2 / 5 * (Y * Y) * (1 - 61 / 100 * Y - Y * Y / 12 - Y * Y / 2)) by (apply Rmult_le_compat_l; lra). lra.
      + unfold zz in *. unfold h. rewrite (Rabs_left1 (u - x j)), Rabs_pos_eq by lra. lra. }
  apply (Rle_trans _ _ _ K). rewrite <- Yh. replace (2 / 5 * (Y * Y) * (Y * q)) with (2 / 5 * (Y ^ 3) * q) by ring.
  apply Rmult_le_compat_r; [lra|]. apply Rmult_le_compat_l; [lra|]. apply pow_incr. lra.
Qed.
Lemma slope Y v : near N x j Y v -> 0 <= Y -> Y <= 11 / 100 -> Rabs (legP N (x j)) * (1 - 55 / 100 * (Y * Y)) <= Rabs (legP N v) <= Rabs (legP N (x j)).
Proof.
  intros H Y0 Y1. assert (Y2 : 0 <= Y * Y <= 11 / 100 * (11 / 100)) by (split; [apply Rmult_le_pos|apply Rmult_le_compat]; lra). assert (Pz : 0 <= Rabs (legP N (x j))) by apply Rabs_pos.
  destruct H as [H|H].
  - destruct (right_step N x j HN HX X0 X1 HI Hj Hj2 v Y 1 H) as [_ [A B]]; try lra. unfold zz in *. split; [|exact B].
    apply (Rle_trans _ _ _) with (2 := A). apply Rmult_le_compat_l; lra.
  - destruct (left_step N x j HN HX X0 X1 HI Hj Hj2 v Y 1 H) as [_ [A B]]; try lra. unfold zz in *. split; [|exact B].
    apply (Rle_trans _ _ _) with (2 := A). apply Rmult_le_compat_l; auto. set (D := 1 - 61 / 100 * Y - Y * Y / 12) in *. assert (D1 : 93 / 100 <= D) by (unfold D; lra).
    assert (Y * Y / D <= Y * Y * (11 / 10)); [|lra]. unfold Rdiv. apply Rmult_le_compat_l; [lra|]. replace (11 * / 10) with (/ (10 / 11)) by field. apply Rinv_le_contravar; lra.
Qed.
Lemma weight_ratio (P Q k : R) : P <> 0 -> 0 <= k -> k <= 1 / 100 -> Rabs P * (1 - k) <= Rabs Q <= Rabs P -> 0 <= / Q ^ 2 - / P ^ 2 <= 21 / 10 * k * / P ^ 2.
Proof.
  intros NP Hk Hk1 [A B]. assert (Pp : 0 < Rabs P) by (apply Rabs_pos_lt; auto). assert (Qp : 0 < Rabs Q) by (assert (0 < Rabs P * (1 - k)) by (apply Rmult_lt_0_compat; lra); lra).
  rewrite <- (pow2_abs Q), <- (pow2_abs P). set (p := Rabs P) in *. set (q := Rabs Q) in *.
  assert (p2 : 0 < p ^ 2) by (apply pow_lt; auto). assert (q2 : 0 < q ^ 2) by (apply pow_lt; auto).
  assert (L1 : q ^ 2 <= p ^ 2) by (apply pow_incr; lra). assert (L2 : (p * (1 - k)) ^ 2 <= q ^ 2) by (apply pow_incr; split; [apply Rmult_le_pos; lra|auto]).
  assert (I1 : / p ^ 2 <= / q ^ 2) by (apply Rinv_le_contravar; auto). split; [lra|].
  assert (I2 : / q ^ 2 <= (1 + 21 / 10 * k) * / p ^ 2); [|lra].
  apply (Rmult_le_reg_r (q ^ 2)); auto. rewrite Rinv_l by lra. apply (Rle_trans _ ((1 + 21 / 10 * k) * / p ^ 2 * (p * (1 - k)) ^ 2)).
  - replace ((1 + 21 / 10 * k) * / p ^ 2 * (p * (1 - k)) ^ 2) with ((1 + 21 / 10 * k) * (1 - k) ^ 2) by (field; lra). nra.
  - apply Rmult_le_compat_l; auto. apply Rmult_le_pos; [lra|]. apply Rlt_le, Rinv_0_lt_compat; auto.
Qed.
Lemma gX_weight : eps <= 11 / 100 -> 0 <= lob_weight N (gX N j) - lob_weight N (x j) <= eps ^ 6 * lob_weight N (x j).
Proof.
  intros He. pose proof (gX_sharp He) as S. assert (E0 : 0 <= eps) by (unfold eps; pose proof (Mp N HN); apply Rmult_le_pos; [|lra]; apply Rmult_le_pos; [|lra]; apply Rmult_le_pos; lra).
  assert (E3 : 0 <= eps ^ 3 <= (11 / 100) ^ 3) by (split; [apply pow_le; auto|apply pow_incr; lra]). set (Y := 2 / 5 * eps ^ 3) in *.
  assert (Y1 : 0 <= Y <= 1 / 1000) by (unfold Y; simpl in *; lra).
  assert (Nr : near N x j Y (gX N j)) by (apply near_abs; exact S).
  pose proof (slope Y _ Nr ltac:(lra) ltac:(lra)) as Sl.
  assert (Nz : legP N (x j) <> 0). { destruct N as [|n0] eqn:EN; [lia|]. apply (nodes_weight n0 x HX j). lia. }
  assert (Y2 : 0 <= Y * Y <= 1 / 1000 * (1 / 1000)) by (split; [apply Rmult_le_pos|apply Rmult_le_compat]; lra).
  pose proof (weight_ratio _ _ (55 / 100 * (Y * Y)) Nz ltac:(lra) ltac:(lra) Sl) as W. pose proof (N3 N HN) as H3.
  assert (Wl : forall t, lob_weight N t = 2 / (INR N * (INR N + 1)) * / legP N t ^ 2 \/ legP N t = 0).
  { intros t. destruct (Req_dec (legP N t) 0) as [Z|Z]; [right; exact Z|left]. unfold lob_weight. field. split; [|lra]; auto; split; lra. }
  assert (Nv : legP N (gX N j) <> 0).
  { intros Z. rewrite Z, Rabs_R0 in Sl. assert (0 < Rabs (legP N (x j))) by (apply Rabs_pos_lt; auto). assert (0 < Rabs (legP N (x j)) * (1 - 55 / 100 * (Y * Y))) by (apply Rmult_lt_0_compat; lra). lra. }
  destruct (Wl (x j)) as [-> | ?]; [|contradiction]. destruct (Wl (gX N j)) as [-> | ?]; [|contradiction].
  assert (Cp : 0 < 2 / (INR N * (INR N + 1))) by (apply Rdiv_lt_0_compat; [lra|apply Rmult_lt_0_compat; lra]). set (c := 2 / (INR N * (INR N + 1))) in *.
  assert (Ip : 0 < / legP N (x j) ^ 2) by (apply Rinv_0_lt_compat; rewrite <- pow2_abs; apply pow_lt, Rabs_pos_lt; auto).
  rewrite <- Rmult_minus_distr_l. split; [apply Rmult_le_pos; lra|].
  replace (eps ^ 6 * (c * / legP N (x j) ^ 2)) with (c * (eps ^ 6 * / legP N (x j) ^ 2)) by ring. apply Rmult_le_compat_l; [lra|].
  apply (Rle_trans _ _ _ (proj2 W)). apply Rmult_le_compat_r; [lra|]. replace (Y * Y) with (4 / 25 * eps ^ 6) by (unfold Y; field).
  assert (0 <= eps ^ 6) by (apply pow_le; auto). lra.
Qed.
End All.
