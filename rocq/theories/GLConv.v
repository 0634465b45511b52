(** Newton's method from the first guess of the code, near an interior node of the left half. *)
From Coquelicot Require Import Coquelicot.
From Coq Require Import Arith Reals Lra Lia Psatz.
From Verif Require Import Num RSum RDeriv RPoly LegendreSpec LegendreMath GLSpec QuadSpec QuadMath LobattoRoots GLModel GLProofs GLProofs2 NewtonMath SturmMath LobattoLocate.
Local Open Scope R_scope.

Lemma pi_lo : 314 / 100 <= PI.
Proof. pose proof (PI_2_3_7_ineq 2) as [A _]. unfold sum_f_R0, tg_alt, PI_2_3_7_tg, Ratan_seq in A. simpl in A. lra. Qed.
Lemma pi_hi : PI <= 315 / 100.
Proof. pose proof (PI_2_3_7_ineq 2) as [_ A]. unfold sum_f_R0, tg_alt, PI_2_3_7_tg, Ratan_seq in A. simpl in A. lra. Qed.
Lemma sin_tan t : 0 <= t <= PI -> t * cos t <= sin t.
Proof.
  intros Ht. destruct (Req_dec t 0) as [->|N0]; [rewrite sin_0; lra|].
  destruct (mvt_in sin cos 0 t) as (c1 & H1 & E1); [lra|intros; apply is_derive_sin|intros; apply continuous_sin|].
  rewrite sin_0 in E1. pose proof (cos_decr_1 c1 t ltac:(lra) ltac:(lra) ltac:(lra) ltac:(lra) ltac:(lra)) as D.
  assert (t * cos t <= t * cos c1) by (apply Rmult_le_compat_l; lra). lra.
Qed.
(** the chord of the cosine is at least the trapezoid under the sine *)
Lemma cos_trap a b : 0 <= a -> a <= b -> b <= PI -> (b - a) / 2 * (sin a + sin b) <= cos a - cos b.
Proof.
  intros Ha Hab Hb. rewrite form2, form3. set (u := (b - a) / 2). replace ((a - b) / 2) with (- u) by (unfold u; field).
  rewrite cos_neg, sin_neg. pose proof (sin_tan u ltac:(unfold u; lra)) as S. assert (0 <= sin ((a + b) / 2)) by (apply sin_ge_0; lra).
  assert (u * cos u * sin ((a + b) / 2) <= sin u * sin ((a + b) / 2)) by (apply Rmult_le_compat_r; auto). lra.
Qed.

Lemma legP_cont N t : continuous (qpol N) t.
Proof.
  unfold qpol. apply (derive_continuous _ _ (LD 1 (S N) t - LD 1 (N - 1) t)). apply d_minus; apply legP_derive.
Qed.

Section Node.
Variables (N : nat) (x : nat -> R) (j : nat).
Hypothesis HN : (3 <= N)%nat.
Hypothesis HX : lobatto_nodes N x.
Hypothesis X0 : x 0%nat = -1.
Hypothesis X1 : x N = 1.
Hypothesis HI : incr (S N) x.
Hypothesis Hj : (1 <= j)%nat.
Hypothesis Hj2 : (2 * j < N)%nat.

Definition rt : R := sqrt (INR N * (INR N + 1)).
Definition zz : R := x j.
Definition tt : R := th x j.
Definition ss : R := sin tt.
Definition qq : R := ss / rt.
Notation MM := (M N).
Notation dl := (PI / M N).

Lemma N3 : 3 <= INR N.
Proof. replace 3 with (INR 3) by (simpl; lra). apply le_INR. exact HN. Qed.
Lemma rt_sq : rt * rt = INR N * (INR N + 1).
Proof. unfold rt. apply sqrt_sqrt. pose proof N3. apply Rmult_le_pos; lra. Qed.
Lemma rt_pos : 0 < rt.
Proof. unfold rt. apply sqrt_lt_R0. pose proof N3. apply Rmult_lt_0_compat; lra. Qed.
Lemma rt_12 : 12 <= rt * rt.
Proof. rewrite rt_sq. pose proof N3. nra. Qed.
Lemma rt_M : rt < MM.
Proof. pose proof rt_sq. pose proof rt_pos. pose proof N3. unfold M. apply Rnot_le_lt. intros L. assert ((INR N + 1 / 2) * (INR N + 1 / 2) <= rt * rt) by (apply Rmult_le_compat; lra). lra. Qed.
Lemma rt_M2 : 989 / 1000 * MM <= rt.
Proof.
  pose proof rt_sq as E. pose proof rt_pos. pose proof N3. unfold M. apply Rnot_lt_le. intros L.
  assert (rt * rt <= 989 / 1000 * (INR N + 1 / 2) * (989 / 1000 * (INR N + 1 / 2))) by (apply Rmult_le_compat; lra). nra.
Qed.
Lemma j1 : 1 <= INR j.
Proof. apply (le_INR 1). exact Hj. Qed.
Lemma jN : 2 * INR j + 1 <= INR N.
Proof. replace (2 * INR j + 1) with (INR (2 * j + 1)) by (rewrite plus_INR, mult_INR; simpl; ring). apply le_INR. lia. Qed.
Lemma Mp : 7 / 2 <= MM.
Proof. unfold M. pose proof N3. lra. Qed.
Lemma dl_pos : 0 < dl.
Proof. apply Rdiv_lt_0_compat; [apply PI_RGT_0|pose proof Mp; lra]. Qed.
Lemma dl_M : MM * dl = PI.
Proof. pose proof Mp. field. lra. Qed.
Lemma tt_angle : (INR j + 1 / 4 - Ex j) * dl <= tt <= (INR j + 1 / 4) * dl.
Proof. apply (node_angle N x ltac:(lia) HX X0 X1 HI (N - 2 * j) j); auto; lia. Qed.
Lemma tt_lo : 17 / 16 * dl <= tt.
Proof.
  pose proof tt_angle as [A _]. pose proof dl_pos. pose proof j1. apply (Rle_trans _ _ _) with (2 := A). apply Rmult_le_compat_r; [lra|].
  assert (Ex j <= 3 / 16); [|lra]. unfold Ex. apply (Rmult_le_reg_r (16 * (2 * INR j - 1))); [lra|]. unfold Rdiv at 1. rewrite Rmult_assoc, Rinv_l by lra. lra.
Qed.
Lemma tt_hi : tt <= PI / 2 - dl / 2.
Proof.
  pose proof tt_angle as [_ A]. pose proof dl_pos as D. pose proof jN as J. pose proof dl_M as E. unfold M in E at 1.
  assert (B : (INR j + 1 / 4) * dl <= (INR N / 2 - 1 / 4) * dl) by (apply Rmult_le_compat_r; lra). lra.
Qed.
Lemma tt_pos : 0 < tt.
Proof. pose proof tt_lo. pose proof dl_pos. lra. Qed.
Lemma zz_cos : cos tt = - zz.
Proof. apply (th_cos N x ltac:(lia) HX). lia. Qed.
Lemma cc_lo : 1 <= MM * - zz.
Proof.
  rewrite <- zz_cos. rewrite <- (sin_shift tt). pose proof tt_hi. pose proof tt_pos. pose proof dl_pos. pose proof Mp. pose proof PI_RGT_0.
  pose proof (sin_chord (PI / 2 - tt) ltac:(lra)) as C. apply (Rle_trans _ (MM * (2 * (PI / 2 - tt) / PI))); [|apply Rmult_le_compat_l; lra].
  apply (Rle_trans _ (MM * (2 * (dl / 2) / PI))); [right; field; lra|]. apply Rmult_le_compat_l; [lra|]. apply Rmult_le_compat_r; [apply Rlt_le, Rinv_0_lt_compat; auto|]. lra.
Qed.
Lemma zz_neg : zz < 0.
Proof. pose proof cc_lo. pose proof Mp. destruct (Rle_lt_dec 0 zz) as [L|L]; auto. assert (MM * - zz <= 0); [|lra]. assert (0 <= MM * zz) by (apply Rmult_le_pos; lra). lra. Qed.
Lemma ss_pos : 0 < ss.
Proof. unfold ss. pose proof tt_pos. pose proof tt_hi. pose proof dl_pos. apply sin_gt_0; lra. Qed.
Lemma ss_sq : ss * ss = 1 - zz * zz.
Proof. unfold ss. pose proof (sin2_cos2 tt) as E. unfold Rsqr in E. rewrite zz_cos in E. lra. Qed.
Lemma ss_lo : 2 <= MM * ss.
Proof. pose proof (sin_th N x ltac:(lia) HX X0 X1 HI j ltac:(lia)) as S. fold tt in S. fold ss in S. pose proof j1. lra. Qed.
Lemma ss_1 : ss <= 1.
Proof. apply SIN_bound. Qed.
Lemma qq_pos : 0 < qq.
Proof. apply Rdiv_lt_0_compat; [apply ss_pos|apply rt_pos]. Qed.
Lemma qq_rt : qq * rt = ss.
Proof. unfold qq. field. pose proof rt_pos. lra. Qed.
(** 2 |z| / rt <= 0.61 s: the change of 1 - x^2 to the left of the node *)
Lemma cot_bound : 2 * - zz <= 61 / 100 * (ss * rt).
Proof.
  pose proof zz_cos as Z. pose proof tt_pos. pose proof tt_hi. pose proof dl_pos. pose proof (sin_tan tt ltac:(lra)) as S. fold ss in S. rewrite Z in S.
  pose proof tt_lo as L. pose proof rt_M2 as RM. pose proof rt_pos. pose proof pi_lo. pose proof dl_M as E. pose proof zz_neg.
  assert (A : 329 / 100 <= tt * rt).
  { apply (Rle_trans _ (17 / 16 * dl * (989 / 1000 * MM))); [|apply Rmult_le_compat; lra || (pose proof Mp; lra)].
    replace (17 / 16 * dl * (989 / 1000 * MM)) with (17 / 16 * (989 / 1000) * (MM * dl)) by ring. rewrite E. lra. }
  assert (B : 329 / 100 * - zz <= tt * rt * - zz) by (apply Rmult_le_compat_r; lra).
  assert (C : tt * - zz * rt <= ss * rt) by (apply Rmult_le_compat_r; lra). lra.
Qed.

(** neighbouring nodes *)
Lemma right_gap : 104 / 100 * qq <= x (S j) - zz.
Proof.
  pose proof (gap_far N x ltac:(lia) HX X1 HI j ltac:(lia)) as G. fold tt in G.
  pose proof (th_range N x ltac:(lia) HX (S j) ltac:(lia)) as R1. pose proof tt_pos as R0. pose proof ss_pos as SP. pose proof rt_pos as RP. pose proof rt_M2 as RM. pose proof pi_lo. pose proof dl_pos. pose proof Mp.
  assert (Hi : th x (S j) <= PI - tt).
  { unfold tt. rewrite <- (th_sym N x) by (auto; lia). destruct (Nat.eq_dec (S j) (N - j)) as [<-|Ne]; [lra|].
    pose proof (th_incr N x ltac:(lia) HX HI (S j) (N - j) ltac:(lia) ltac:(lia)). lra. }
  pose proof (sin_mid tt (th x (S j)) ltac:(lra) ltac:(lra)) as Sm. fold ss in Sm.
  pose proof (cos_trap tt (th x (S j)) ltac:(lra) ltac:(lra) ltac:(lra)) as Tr. fold ss in Tr. rewrite zz_cos, (th_cos N x ltac:(lia) HX) in Tr by lia.
  apply (Rle_trans _ ((th x (S j) - tt) / 2 * (ss + sin (th x (S j))))); [|lra].
  apply (Rle_trans _ (dl / 2 * (ss + ss))); [|apply Rmult_le_compat; lra].
  apply (Rmult_le_reg_r rt); auto. replace (104 / 100 * qq * rt) with (104 / 100 * ss) by (rewrite <- qq_rt; ring).
  replace (dl / 2 * (ss + ss) * rt) with (dl * rt * ss) by (field; lra). apply Rmult_le_compat_r; [lra|].
  assert (dl * (989 / 1000 * MM) <= dl * rt) by (apply Rmult_le_compat_l; lra). pose proof dl_M. lra.
Qed.
Lemma left_gap : 104 / 100 * qq <= zz - x (j - 1)%nat.
Proof.
  pose proof (gap_far N x ltac:(lia) HX X1 HI (j - 1) ltac:(lia)) as G. replace (S (j - 1)) with j in G by lia. fold tt in G.
  pose proof (th_range N x ltac:(lia) HX (j - 1) ltac:(lia)) as R1. pose proof tt_pos as R0. pose proof ss_pos as SP. pose proof rt_pos as RP. pose proof rt_M2 as RM. pose proof pi_lo. pose proof dl_pos. pose proof Mp. pose proof tt_hi.
  assert (Sm : 0 <= sin (th x (j - 1))) by (apply sin_ge_0; lra).
  pose proof (cos_trap (th x (j - 1)) tt ltac:(lra) ltac:(lra) ltac:(lra)) as Tr. fold ss in Tr. rewrite zz_cos, (th_cos N x ltac:(lia) HX) in Tr by lia.
  apply (Rle_trans _ ((tt - th x (j - 1)) / 2 * (sin (th x (j - 1)) + ss))); [|lra].
  apply (Rle_trans _ (dl / 2 * (0 + ss))); [|apply Rmult_le_compat; lra].
  apply (Rmult_le_reg_r rt); auto. replace (104 / 100 * qq * rt) with (104 / 100 * ss) by (rewrite <- qq_rt; ring).
  replace (dl / 2 * (0 + ss) * rt) with (dl / 2 * rt * ss) by (field; lra). apply Rmult_le_compat_r; [lra|].
  assert (dl * (989 / 1000 * MM) <= dl * rt) by (apply Rmult_le_compat_l; lra). pose proof dl_M. lra.
Qed.
Lemma xincr a b : (a <= N)%nat -> (b <= N)%nat -> x a < x b -> (a < b)%nat.
Proof.
  intros Ha Hb L. destruct (le_lt_dec b a) as [K|K]; auto. exfalso. destruct (Nat.eq_dec b a) as [->|Ne]; [lra|]. pose proof (HI b a ltac:(lia) ltac:(lia)). lra.
Qed.
Lemma free t : x (j - 1)%nat < t < x (S j) -> t <> zz -> qpol N t <> 0.
Proof.
  intros Ht Nt Z. rewrite qpol_factor in Z by lia.
  assert (L : lobatto N t = 0).
  { unfold lobatto. rewrite (is_derive_unique _ _ _ (legP_derive N t)). pose proof N3. apply Rmult_integral in Z. destruct Z as [Z|Z]; auto. exfalso.
    assert (0 < (2 * INR N + 1) / (INR N * (INR N + 1))) by (apply Rdiv_lt_0_compat; [lra|apply Rmult_lt_0_compat; lra]). lra. }
  destruct (zero_node N x ltac:(lia) HX X1 HI t L) as (k & Hk & ->).
  pose proof (xincr (j - 1) k ltac:(lia) Hk (proj1 Ht)). pose proof (xincr k (S j) Hk ltac:(lia) (proj2 Ht)). apply Nt. unfold zz. f_equal. lia.
Qed.
Lemma zz_zero : qpol N zz = 0.
Proof.
  rewrite qpol_factor by lia. pose proof (proj1 HX j ltac:(lia)) as L. unfold lobatto in L. rewrite (is_derive_unique _ _ _ (legP_derive N _)) in L. fold zz in L. rewrite L. ring.
Qed.
Definition fK (t : R) : R := INR N * (INR N + 1) / (1 - t * t).
Definition f1 (t : R) : R := (2 * INR N + 1) * legP N t.
Lemma f1_derive t : -1 < t < 1 -> is_derive f1 t (- (fK t * qpol N t)).
Proof.
  intros Ht. unfold f1. pose proof N3. eapply is_derive_eq; [apply d_scal, legP_derive|]. rewrite qpol_factor by lia. unfold fK. field. repeat split; try lra. nra.
Qed.
Lemma nmap_f1 u : nmap N u = u - qpol N u / f1 u.
Proof. reflexivity. Qed.
Lemma nmap_zz : nmap N zz = zz.
Proof. rewrite nmap_f1, zz_zero. unfold Rdiv. ring. Qed.
Lemma shrink_le k h h' C A : shrink k h h' -> 0 <= h -> k * h ^ 2 <= A -> A < 2 -> 0 <= C -> A / 3 <= C * (1 - A / 2) -> 0 <= h' <= C * h.
Proof.
  intros [P Q] Hh HA A2 HC HB. split; auto. apply (Rle_trans _ _ _ Q). rewrite (Rmult_comm C). apply Rmult_le_compat_l; auto.
  set (a := k * h ^ 2) in *. apply (Rmult_le_reg_r (1 - a / 2)); [lra|]. unfold Rdiv at 1. rewrite Rmult_assoc, Rinv_l by lra.
  assert (C * (1 - A / 2) <= C * (1 - a / 2)) by (apply Rmult_le_compat_l; lra). lra.
Qed.
Lemma range_j : -1 < x j < 1.
Proof. pose proof (HI 0%nat j ltac:(lia) ltac:(lia)). pose proof (HI j N ltac:(lia) ltac:(lia)). lra. Qed.

Lemma right_step u Y C : zz <= u <= zz + Y * qq -> 0 <= Y -> Y <= 103 / 100 -> 0 <= C -> Y * Y / 3 <= C * (1 - Y * Y / 2) ->
  0 <= zz - nmap N u <= C * (u - zz) /\ Rabs (legP N zz) * (1 - Y * Y / 2) <= Rabs (legP N u) <= Rabs (legP N zz).
Proof.
  intros Hu HY HY1 HC HB. pose proof qq_pos as Qp. pose proof N3 as H3. pose proof ss_pos as Sp. pose proof rt_pos as Rp.
  assert (YY : Y * Y <= 103 / 100 * (103 / 100)) by (apply Rmult_le_compat; lra). assert (Y0 : 0 <= Y * Y) by (apply Rmult_le_pos; auto).
  destruct (Req_dec u zz) as [->|Ne].
  { rewrite nmap_zz. split; [lra|]. split; [|lra]. rewrite <- (Rmult_1_r (Rabs (legP N zz))) at 2. apply Rmult_le_compat_l; [apply Rabs_pos|lra]. }
  assert (Yq : Y * qq <= 103 / 100 * qq) by (apply Rmult_le_compat_r; lra).
  pose proof right_gap as G. pose proof left_gap as GL. pose proof zz_neg as Zn. pose proof range_j as Rg. fold zz in Rg.
  assert (Hmid : u <= - zz).
  { (* 1.03 q <= 2 |z| *)
    assert (103 / 100 * qq <= 2 * - zz); [|lra]. pose proof cc_lo as C1. pose proof ss_1. pose proof rt_M2 as RM. pose proof Mp.
    apply (Rmult_le_reg_r rt); auto. replace (103 / 100 * qq * rt) with (103 / 100 * ss) by (rewrite <- qq_rt; ring).
    assert (2 * - zz * (989 / 1000 * MM) <= 2 * - zz * rt) by (apply Rmult_le_compat_l; lra). lra. }
  assert (Hk : INR N * (INR N + 1) / (1 - zz * zz) * (u - zz) ^ 2 <= Y * Y).
  { rewrite <- rt_sq, <- ss_sq. replace (rt * rt / (ss * ss) * (u - zz) ^ 2) with (((u - zz) / qq) * ((u - zz) / qq)) by (unfold qq; field; lra).
    assert (0 <= (u - zz) / qq <= Y).
    { split; [apply Rdiv_le_0_compat; lra|]. apply (Rmult_le_reg_r qq); auto. unfold Rdiv. rewrite Rmult_assoc, Rinv_l by lra. lra. }
    apply Rmult_le_compat; lra. }
  destruct (newton_right (qpol N) f1 fK zz u (INR N * (INR N + 1) / (1 - zz * zz))) as (A & B & D & E); try lra.
  - intros; apply legP_cont.
  - intros; apply qpol_derive; lia.
  - intros; apply f1_derive; lra.
  - intros t Ht. unfold fK. assert (t * t <= zz * zz) by nra. assert (zz * zz < 1) by nra. split.
    + apply Rdiv_le_0_compat; [apply Rmult_le_pos; lra|lra].
    + unfold Rdiv. apply Rmult_le_compat_l; [apply Rmult_le_pos; lra|]. apply Rinv_le_contravar; lra.
  - apply zz_zero.
  - intros t Ht. apply free; lra.
  - split.
    + rewrite nmap_f1. apply (shrink_le _ _ _ C (Y * Y) B); lra.
    + unfold f1 in D. rewrite !Rabs_mult in D. assert (Fp : 0 < Rabs (2 * INR N + 1)) by (apply Rabs_pos_lt; lra). destruct D as [D1 D2].
      assert (Pz : 0 <= Rabs (legP N zz)) by apply Rabs_pos.
      split; apply (Rmult_le_reg_l (Rabs (2 * INR N + 1))); auto.
      apply (Rle_trans _ _ _) with (2 := D1). rewrite <- Rmult_assoc. apply Rmult_le_compat_l; [apply Rmult_le_pos; lra|]. lra.
Qed.
Lemma left_step u Y C : zz - Y * qq <= u <= zz -> 0 <= Y -> Y <= 4 / 5 -> 0 <= C -> let D := 1 - 61 / 100 * Y - Y * Y / 12 in Y * Y / 3 <= C * (D - Y * Y / 2) ->
  0 <= nmap N u - zz <= C * (zz - u) /\ Rabs (legP N zz) * (1 - Y * Y / D / 2) <= Rabs (legP N u) <= Rabs (legP N zz).
Proof.
  intros Hu HY HY1 HC D HB. pose proof qq_pos as Qp. pose proof N3 as H3. pose proof ss_pos as Sp. pose proof rt_pos as Rp.
  assert (YY : Y * Y <= 4 / 5 * Y) by (apply Rmult_le_compat_r; lra). assert (Y0 : 0 <= Y * Y) by (apply Rmult_le_pos; auto).
  assert (Dp : 0 < D) by (unfold D; lra). assert (D2 : Y * Y / 2 < D) by (unfold D; lra).
  assert (Yd : 0 <= Y * Y / D < 2). { split; [apply Rdiv_le_0_compat; lra|]. apply (Rmult_lt_reg_r D); auto. unfold Rdiv. rewrite Rmult_assoc, Rinv_l by lra. lra. }
  destruct (Req_dec u zz) as [->|Ne].
  { rewrite nmap_zz. split; [lra|]. split; [|lra]. rewrite <- (Rmult_1_r (Rabs (legP N zz))) at 2. apply Rmult_le_compat_l; [apply Rabs_pos|lra]. }
  assert (Yq : Y * qq <= 4 / 5 * qq) by (apply Rmult_le_compat_r; lra).
  pose proof right_gap as G. pose proof left_gap as GL. pose proof zz_neg as Zn. pose proof range_j as Rg. fold zz in Rg.
  assert (X1l : -1 <= x (j - 1)%nat) by (apply (x_range N x ltac:(lia) HX); lia).
  assert (Hs : ss * ss * D <= 1 - u * u).
  { set (h := zz - u). assert (Hh : 0 <= h <= Y * qq) by (unfold h; lra). replace (1 - u * u) with (ss * ss - 2 * - zz * h - h * h) by (rewrite ss_sq; unfold h; ring).
    assert (A1 : 2 * - zz * h <= 61 / 100 * Y * (ss * ss)).
    { pose proof cot_bound as CB. apply (Rle_trans _ (61 / 100 * (ss * rt) * (Y * qq))); [apply Rmult_le_compat; lra|]. rewrite <- qq_rt. right. ring. }
    assert (A2 : h * h <= Y * Y / 12 * (ss * ss)).
    { apply (Rle_trans _ (Y * qq * (Y * qq))); [apply Rmult_le_compat; lra|]. pose proof rt_12 as R12. rewrite <- qq_rt.
      replace (Y * Y / 12 * (qq * rt * (qq * rt))) with (Y * qq * (Y * qq) * (rt * rt / 12)) by field. rewrite <- (Rmult_1_r (Y * qq * (Y * qq))) at 1.
      apply Rmult_le_compat_l; [apply Rmult_le_pos; apply Rmult_le_pos; lra|lra]. }
    unfold D. lra. }
  assert (Sd : 0 < ss * ss * D) by (apply Rmult_lt_0_compat; [apply Rmult_lt_0_compat|]; auto).
  assert (Hk : INR N * (INR N + 1) / (ss * ss * D) * (zz - u) ^ 2 <= Y * Y / D).
  { rewrite <- rt_sq. replace (rt * rt / (ss * ss * D) * (zz - u) ^ 2) with (((zz - u) / qq) * ((zz - u) / qq) / D) by (unfold qq; field; lra).
    apply Rmult_le_compat_r; [apply Rlt_le, Rinv_0_lt_compat; auto|].
    assert (0 <= (zz - u) / qq <= Y).
    { split; [apply Rdiv_le_0_compat; lra|]. apply (Rmult_le_reg_r qq); auto. unfold Rdiv. rewrite Rmult_assoc, Rinv_l by lra. lra. }
    apply Rmult_le_compat; lra. }
  destruct (newton_left (qpol N) f1 fK zz u (INR N * (INR N + 1) / (ss * ss * D))) as (A & B & F & E); try lra.
  - intros; apply legP_cont.
  - intros; apply qpol_derive; lia.
  - intros; apply f1_derive; lra.
  - intros t Ht. unfold fK. assert (t * t <= u * u) by nra. split.
    + apply Rdiv_le_0_compat; [apply Rmult_le_pos; lra|lra].
    + unfold Rdiv. apply Rmult_le_compat_l; [apply Rmult_le_pos; lra|]. apply Rinv_le_contravar; lra.
  - apply zz_zero.
  - intros t Ht. apply free; lra.
  - split.
    + rewrite nmap_f1. apply (shrink_le _ _ _ C (Y * Y / D) B); try lra.
      apply (Rmult_le_reg_r D); auto. replace (Y * Y / D / 3 * D) with (Y * Y / 3) by (field; lra). replace (C * (1 - Y * Y / D / 2) * D) with (C * (D - Y * Y / 2)) by (field; lra). exact HB.
    + unfold f1 in F. rewrite !Rabs_mult in F. assert (Fp : 0 < Rabs (2 * INR N + 1)) by (apply Rabs_pos_lt; lra). destruct F as [F1 F2].
      assert (Pz : 0 <= Rabs (legP N zz)) by apply Rabs_pos.
      split; apply (Rmult_le_reg_l (Rabs (2 * INR N + 1))); auto.
      apply (Rle_trans _ _ _) with (2 := F1). rewrite <- Rmult_assoc. apply Rmult_le_compat_l; [apply Rmult_le_pos; lra|]. lra.
Qed.

(** positions relative to the node, in units of qq *)
Definition Rg (Y u : R) : Prop := zz <= u <= zz + Y * qq.
Definition Lf (Y u : R) : Prop := zz - Y * qq <= u <= zz.
Definition near (Y u : R) : Prop := Rg Y u \/ Lf Y u.
Lemma near_mono Y Y' u : Y <= Y' -> near Y u -> near Y' u.
Proof.
  intros L [H|H]; [left|right]; unfold Rg, Lf in *; pose proof qq_pos; assert (Y * qq <= Y' * qq) by (apply Rmult_le_compat_r; lra); lra.
Qed.
Lemma near_abs Y u : near Y u <-> Rabs (u - zz) <= Y * qq.
Proof.
  split.
  - intros [[A B]|[A B]]; apply Rabs_le; lra.
  - intros A. apply Rabs_le_between in A. destruct (Rle_dec zz u); [left|right]; unfold Rg, Lf; lra.
Qed.
Lemma R_step Y C u : 0 <= Y -> Y <= 103 / 100 -> 0 <= C -> Y * Y / 3 <= C * (1 - Y * Y / 2) -> Rg Y u -> Lf (C * Y) (nmap N u).
Proof.
  intros H0 H1 H2 H3 H. destruct (right_step u Y C H H0 H1 H2 H3) as [[A B] _]. unfold Rg, Lf in *.
  assert (C * (u - zz) <= C * (Y * qq)) by (apply Rmult_le_compat_l; lra). lra.
Qed.
Lemma L_step Y C u : 0 <= Y -> Y <= 4 / 5 -> 0 <= C -> Y * Y / 3 <= C * (1 - 61 / 100 * Y - Y * Y / 12 - Y * Y / 2) -> Lf Y u -> Rg (C * Y) (nmap N u).
Proof.
  intros H0 H1 H2 H3 H. destruct (left_step u Y C H H0 H1 H2 H3) as [[A B] _]. unfold Rg, Lf in *.
  assert (C * (zz - u) <= C * (Y * qq)) by (apply Rmult_le_compat_l; lra). lra.
Qed.
Lemma R_le Y Y' u : Y <= Y' -> Rg Y u -> Rg Y' u.
Proof. intros L [A B]. pose proof qq_pos. assert (Y * qq <= Y' * qq) by (apply Rmult_le_compat_r; lra). split; lra. Qed.
Lemma L_le Y Y' u : Y <= Y' -> Lf Y u -> Lf Y' u.
Proof. intros L [A B]. pose proof qq_pos. assert (Y * qq <= Y' * qq) by (apply Rmult_le_compat_r; lra). split; lra. Qed.
Lemma step1 u : Rg (103 / 100) u -> Lf (78 / 100) (nmap N u).
Proof. intros H. apply (L_le (754 / 1000 * (103 / 100))); [lra|]. apply R_step; auto; lra. Qed.
Lemma step2 u : Lf (78 / 100) u -> Rg (94 / 100) (nmap N u).
Proof. intros H. apply (R_le (12 / 10 * (78 / 100))); [lra|]. apply L_step; auto; lra. Qed.
Lemma step3 u : Rg (94 / 100) u -> Lf (1 / 2) (nmap N u).
Proof. intros H. apply (L_le (53 / 100 * (94 / 100))); [lra|]. apply R_step; auto; lra. Qed.
Lemma step4 u : Lf (1 / 2) u -> Rg (11 / 100) (nmap N u).
Proof. intros H. apply (R_le (152 / 1000 * (1 / 2))); [lra|]. apply L_step; auto; lra. Qed.
Lemma near_step Y u : 0 <= Y -> Y <= 11 / 100 -> near Y u -> near (Y / 100) (nmap N u).
Proof.
  intros H0 H1. assert (Q : 0 <= Y * Y <= 11 / 100 * (11 / 100)) by (split; [apply Rmult_le_pos|apply Rmult_le_compat]; lra).
  intros [H|H]; [right; apply (L_le (1 / 100 * Y)); [lra|]; apply R_step|left; apply (R_le (1 / 100 * Y)); [lra|]; apply L_step]; auto; lra.
Qed.
(** the set the iterates stay in *)
Definition inv (u : R) : Prop := Rg (103 / 100) u \/ Lf (78 / 100) u.
Definition inv' (u : R) : Prop := Rg (94 / 100) u \/ Lf (78 / 100) u.
Definition start (u : R) : Prop := Rg (1029 / 1000) u \/ Lf (11 / 100) u.
Lemma inv_step u : inv u -> inv' (nmap N u) /\ Rabs (nmap N u - zz) <= Rabs (nmap N u - u) /\ Rabs (u - zz) <= Rabs (nmap N u - u).
Proof.
  intros [H|H].
  - pose proof (step1 u H) as G. split; [right; exact G|]. destruct H as [A B]. destruct G as [C D].
    rewrite (Rabs_left1 (nmap N u - zz)), (Rabs_left1 (nmap N u - u)), (Rabs_pos_eq (u - zz)) by lra. lra.
  - pose proof (step2 u H) as G. split; [left; exact G|]. destruct H as [A B]. destruct G as [C D].
    rewrite (Rabs_pos_eq (nmap N u - zz)), (Rabs_pos_eq (nmap N u - u)), (Rabs_left1 (u - zz)) by lra. lra.
Qed.
Lemma inv'_inv u : inv' u -> inv u.
Proof. intros [H|H]; [left; apply (R_le (94 / 100)); auto; lra|right; exact H]. Qed.
Lemma start_inv u : start u -> inv u.
Proof. intros [H|H]; [left; apply (R_le (1029 / 1000)); auto; lra|right; apply (L_le (11 / 100)); auto; lra]. Qed.
Lemma inv_iter u k : start u -> inv (niter N k u).
Proof.
  intros H. induction k as [|k IH]; [apply start_inv; exact H|]. rewrite niter_last. apply inv'_inv, inv_step, IH.
Qed.
Lemma four u : start u -> near (11 / 100) (niter N 4 u).
Proof.
  intros H. change (niter N 4 u) with (nmap N (nmap N (nmap N (nmap N u)))). destruct H as [H|H].
  - left. apply step4, step3, step2, step1, (R_le (1029 / 1000)); auto; lra.
  - assert (St : forall v, near (11 / 100) v -> near (11 / 100) (nmap N v)).
    { intros v Hv. apply (near_mono (11 / 100 / 100)); [lra|]. apply near_step; auto; lra. }
    do 4 apply St. right. exact H.
Qed.
Lemma later u i : start u -> near (11 / 100 / 100 ^ i) (niter N (4 + i) u).
Proof.
  intros H. induction i as [|i IH]; [replace (11 / 100 / 100 ^ 0) with (11 / 100) by (simpl; field); apply four; exact H|].
  replace (4 + S i)%nat with (S (4 + i)) by lia. rewrite niter_last. assert (P : 1 <= 100 ^ i) by (apply pow_R1_Rle; lra).
  replace (11 / 100 / 100 ^ S i) with (11 / 100 / 100 ^ i / 100) by (simpl; field; lra). apply near_step; auto.
  - apply Rlt_le, Rdiv_lt_0_compat; lra.
  - apply (Rmult_le_reg_r (100 ^ i)); [lra|]. unfold Rdiv at 1. rewrite Rmult_assoc, Rinv_l by lra. lra.
Qed.
Lemma qq_zz : qq <= 102 / 100 * - zz.
Proof.
  pose proof rt_pos as Rp. pose proof rt_M2 as RM. pose proof cc_lo as C. pose proof ss_1. pose proof zz_neg. pose proof Mp.
  apply (Rmult_le_reg_r rt); auto. rewrite qq_rt. apply (Rle_trans _ (102 / 100 * - zz * (989 / 1000 * MM))); [lra|]. apply Rmult_le_compat_l; lra.
Qed.
Lemma small_nine u : start u -> Rabs (niter N 10 u - niter N 9 u) < / 10 ^ 9 * Rabs (niter N 10 u).
Proof.
  intros H. pose proof (later u 5 H) as A. pose proof (later u 6 H) as B. rewrite near_abs in A, B. change (4 + 5)%nat with 9%nat in A. change (4 + 6)%nat with 10%nat in B.
  set (a := niter N 9 u) in *. set (b := niter N 10 u) in *. pose proof qq_zz. pose proof zz_neg. pose proof qq_pos.
  replace (100 ^ 5) with 10000000000 in A by (simpl; ring). replace (100 ^ 6) with 1000000000000 in B by (simpl; ring). replace (/ 10 ^ 9) with (1 / 1000000000) by (simpl; field).
  apply Rabs_le_between in A. apply Rabs_le_between in B. rewrite (Rabs_left b) by lra. apply Rabs_def1; lra.
Qed.
(** the loop stops by its test after at most ten steps *)
Lemma node_conv u : start u -> exists m, (m <= 9)%nat /\ gn gl_iters N u = nmap N (niter N m u) /\
  Rabs (gn gl_iters N u - niter N m u) < / 10 ^ 9 * Rabs (gn gl_iters N u).
Proof.
  intros H. destruct (gn_run N gl_iters ltac:(lia) u) as (k & Hk & Ek & S1 & S2).
  assert (Hk10 : (k <= 10)%nat). { destruct (le_lt_dec k 10) as [L|L]; auto. exfalso. apply (S1 9%nat); [lia|]. exact (small_nine u H). }
  destruct S2 as [E|(m & Em & Hm)].
  - exfalso. change gl_iters with 100%nat in E. lia.
  - subst k. exists m. split; [lia|]. rewrite Ek. split; [apply niter_last|exact Hm].
Qed.
Definition found : R := gn gl_iters N (- cos ((INR j + 1 / 4) * PI / INR N - 3 / (8 * INR N * PI) * (1 / (INR j + 1 / 4)))).

(** the first guess *)
Lemma cos_quad d : 1 - d * d / 2 <= cos d.
Proof.
  replace d with (2 * (d / 2)) at 3 by field. rewrite cos_2a_sin. 
  assert (A : Rabs (sin (d / 2)) <= Rabs (d / 2)).
  { destruct (Rtotal_order (d / 2) 0) as [L|[L|L]].
    - rewrite (Rabs_left (d / 2)) by auto. rewrite <- Rabs_Ropp, <- sin_neg. destruct (Rle_dec (- (d / 2)) 1) as [Q|Q].
      + pose proof (sin_lt_x (- (d / 2)) ltac:(lra)). rewrite Rabs_pos_eq; [lra|]. apply sin_ge_0; [lra|]. pose proof pi_lo. lra.
      + pose proof (SIN_bound (- (d / 2))). apply Rabs_le. lra.
    - rewrite L, sin_0, Rabs_R0. lra.
    - rewrite (Rabs_right (d / 2)) by lra. destruct (Rle_dec (d / 2) 1) as [Q|Q].
      + pose proof (sin_lt_x (d / 2) ltac:(lra)). rewrite Rabs_pos_eq; [lra|]. apply sin_ge_0; [lra|]. pose proof pi_lo. lra.
      + pose proof (SIN_bound (d / 2)). apply Rabs_le. lra. }
  assert (B : sin (d / 2) * sin (d / 2) <= d / 2 * (d / 2)). { apply Rsqr_le_abs_1 in A. exact A. }
  lra.
Qed.
Lemma sin_le_x d : 0 <= d -> sin d <= d.
Proof. intros [L|<-]; [apply Rlt_le, sin_lt_x, L|rewrite sin_0; lra]. Qed.
Lemma start_of d : - (34 / 1000) * dl <= d <= 2875 / 10000 * dl -> start (- cos (tt + d)).
Proof.
  intros Hd. pose proof dl_pos as Dp. pose proof dl_M as DM. pose proof tt_lo as TL. pose proof tt_hi as TH. pose proof zz_cos as ZC. pose proof zz_neg as ZN. pose proof ss_pos as SP. pose proof rt_pos as RP. pose proof rt_M as RM. pose proof pi_hi as PH. pose proof Mp as MP.
  pose proof (sin_tan tt ltac:(lra)) as ST. fold ss in ST. rewrite ZC in ST.
  assert (DP : dl < PI / 2) by lra.
  destruct (Rle_dec 0 d) as [L|L]; [left|right].
  - split.
    + pose proof (cos_decr_1 tt (tt + d) ltac:(lra) ltac:(lra) ltac:(lra) ltac:(lra) ltac:(lra)). lra.
    + rewrite cos_plus, ZC. fold ss. pose proof (cos_quad d) as CQ. pose proof (sin_le_x d L) as SX.
      assert (A1 : - zz * (1 - d * d / 2) <= - zz * cos d) by (apply Rmult_le_compat_l; lra). assert (A2 : ss * sin d <= ss * d) by (apply Rmult_le_compat_l; lra).
      (* ss d + |z| d^2/2 <= ss d (1 + d/(2 tt)) <= 1.029 ss / rt *)
      assert (A3 : - zz * (d * d / 2) <= ss * d * (1354 / 10000)).
      { assert (B1 : d / 2 <= 1354 / 10000 * tt) by lra. assert (B2 : - zz * (d / 2) <= - zz * (1354 / 10000 * tt)) by (apply Rmult_le_compat_l; lra).
        assert (B3 : - zz * (d / 2) <= 1354 / 10000 * ss) by lra. assert (B4 : - zz * (d / 2) * d <= 1354 / 10000 * ss * d) by (apply Rmult_le_compat_r; lra). lra. }
      assert (A4 : ss * d * (11354 / 10000) <= 1029 / 1000 * qq).
      { apply (Rmult_le_reg_r rt); auto. replace (1029 / 1000 * qq * rt) with (1029 / 1000 * ss) by (rewrite <- qq_rt; ring).
        assert (B1 : d * rt <= 2875 / 10000 * dl * MM) by (apply Rmult_le_compat; lra). assert (B2 : d * rt <= 9057 / 10000) by lra.
        assert (B3 : ss * (d * rt) <= ss * (9057 / 10000)) by (apply Rmult_le_compat_l; lra). lra. }
      lra.
  - set (e := - d). assert (He : 0 <= e <= 34 / 1000 * dl) by (unfold e; lra). replace (tt + d) with (tt - e) by (unfold e; ring). split.
    + rewrite cos_minus, ZC. fold ss. pose proof (COS_bound e) as CB. pose proof (sin_le_x e ltac:(lra)) as SX.
      assert (A1 : - zz * cos e <= - zz * 1) by (apply Rmult_le_compat_l; lra). assert (A2 : ss * sin e <= ss * e) by (apply Rmult_le_compat_l; lra).
      assert (A4 : ss * e <= 11 / 100 * qq).
      { apply (Rmult_le_reg_r rt); auto. replace (11 / 100 * qq * rt) with (11 / 100 * ss) by (rewrite <- qq_rt; ring).
        assert (B1 : e * rt <= 34 / 1000 * dl * MM) by (apply Rmult_le_compat; lra). assert (B2 : e * rt <= 11 / 100) by lra.
        assert (B3 : ss * (e * rt) <= ss * (11 / 100)) by (apply Rmult_le_compat_l; lra). lra. }
      lra.
    + pose proof (cos_decr_1 (tt - e) tt ltac:(lra) ltac:(lra) ltac:(lra) ltac:(lra) ltac:(lra)). lra.
Qed.
Lemma guess_5 : (5 <= N)%nat -> start (- cos ((INR j + 1 / 4) * PI / INR N - 3 / (8 * INR N * PI) * (1 / (INR j + 1 / 4)))).
Proof.
  intros H5. set (b := INR j + 1 / 4). set (g := b * PI / INR N - 3 / (8 * INR N * PI) * (1 / b)).
  pose proof dl_pos as Dp. pose proof j1 as J1. pose proof jN as JN. pose proof pi_lo as PL. pose proof pi_hi as PH. pose proof tt_angle as [TA TB]. fold b in TA, TB.
  assert (N5 : 5 <= INR N) by (replace 5 with (INR 5) by (simpl; lra); apply le_INR; exact H5).
  assert (Hb : 5 / 4 <= b) by (unfold b; lra).
  set (a := 1 / (2 * INR N)). set (e := 3 / (8 * b * (PI * PI))).
  assert (Ha : 0 < a <= 1 / 10). { unfold a. split; [apply Rdiv_lt_0_compat; lra|]. apply (Rmult_le_reg_r (2 * INR N)); [lra|]. unfold Rdiv at 1. rewrite Rmult_assoc, Rinv_l by lra. lra. }
  assert (PP : 98596 / 10000 <= PI * PI <= 99225 / 10000) by (split; [apply (Rle_trans _ (314 / 100 * (314 / 100))); [lra|]; apply Rmult_le_compat; lra|apply (Rle_trans _ (315 / 100 * (315 / 100))); [apply Rmult_le_compat; lra|lra]]).
  assert (Eg : g = (1 + a) * (b - e) * dl). { unfold g, a, e, M. field. pose proof PI_RGT_0. repeat split; lra. }
  assert (He : 0 < e). { unfold e. apply Rdiv_lt_0_compat; [lra|]. apply Rmult_lt_0_compat; lra. }
  assert (Ele : e * (b * (PI * PI)) = 3 / 8) by (unfold e; field; pose proof PI_RGT_0; split; lra).
  assert (Hab : a * b <= 1 / 4).
  { unfold a. apply (Rmult_le_reg_r (2 * INR N)); [lra|]. replace (1 / (2 * INR N) * b * (2 * INR N)) with b by (field; lra). unfold b. lra. }
  replace g with (tt + (g - tt)) by ring. apply start_of. split.
  - (* lower *)
    assert (U : - (34 / 1000) <= (1 + a) * (b - e) - b).
    { assert (E1 : e <= 3 / 8 / (5 / 4) / (98596 / 10000)).
      { assert (Q : 5 / 4 * (98596 / 10000) <= b * (PI * PI)) by (apply Rmult_le_compat; lra).
        assert (e * (5 / 4 * (98596 / 10000)) <= 3 / 8) by (rewrite <- Ele; apply Rmult_le_compat_l; lra). lra. }
      assert (0 <= a * b) by (apply Rmult_le_pos; lra). assert (a * e <= 1 / 10 * e) by (apply Rmult_le_compat_r; lra). lra. }
    assert (V : - (34 / 1000) * dl <= ((1 + a) * (b - e) - b) * dl) by (apply Rmult_le_compat_r; lra). lra.
  - assert (U : (1 + a) * (b - e) - (b - Ex j) <= 2875 / 10000).
    { assert (0 <= a * e) by (apply Rmult_le_pos; lra).
      destruct (Nat.eq_dec j 1) as [J|J]; [|destruct (Nat.eq_dec j 2) as [J'|J']].
      - assert (Eb : b = 5 / 4) by (unfold b; rewrite J; simpl; lra). assert (EE : Ex j = 3 / 16) by (unfold Ex; rewrite J; simpl; field). rewrite EE, Eb in *.
        assert (E1 : 3 / 8 / (5 / 4) / (99225 / 10000) <= e).
        { assert (e * (5 / 4 * (PI * PI)) <= e * (5 / 4 * (99225 / 10000))) by (apply Rmult_le_compat_l; lra). lra. }
        lra.
      - assert (Eb : b = 9 / 4) by (unfold b; rewrite J'; simpl; lra). assert (EE : Ex j = 1 / 16) by (unfold Ex; rewrite J'; simpl; field). rewrite EE, Eb in *. lra.
      - assert (J3 : 3 <= INR j) by (replace 3 with (INR 3) by (simpl; lra); apply le_INR; lia).
        assert (EE : Ex j <= 3 / 80). { unfold Ex. apply (Rmult_le_reg_r (16 * (2 * INR j - 1))); [lra|]. unfold Rdiv at 1. rewrite Rmult_assoc, Rinv_l by lra. lra. }
        lra. }
    assert (V : ((1 + a) * (b - e) - (b - Ex j)) * dl <= 2875 / 10000 * dl) by (apply Rmult_le_compat_r; lra). lra.
Qed.
End Node.
