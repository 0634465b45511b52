(** C78: Gauss-Lobatto points and weights computed in binary64. *)
From Coquelicot Require Import Coquelicot.
From Coq Require Import List Arith Lia Bool ZArith Reals Lra Psatz.
From Flocq Require Import Core Relative BinarySingleNaN.
From Verif Require Import Num Outcome LinAlg RSum RDeriv RPoly LegendreSpec LegendreMath LegendreModel IEEEModel IEEESpec IEEEProofs IEEELegendre IEEEFunSpec IEEEFunProps
  ToolsModel GLModel GLSpec GLProofs GLProofs2 QuadSpec QuadMath LobattoRoots IntegralProps GLConvSpec GLConv GLConv2 GLConv3 GLConvProps GLConvProps2 GL64 GL64Spec GL64Weight GL64Nodes.
Import ListNotations.
Local Open Scope R_scope.
Local Opaque gX gl_iters.

Section C78.
Variable m : libm.
Local Instance BN : Num b64 := B64num m.
Lemma points_b64 n p w pf wf : gl_points_weights (T := b64) n = Ok (p, w) -> vec_is p n pf -> vec_is w n wf ->
  (2 <= n)%nat /\ forall i, (i < n)%nat -> pf i = gpoint (T := b64) (n - 1) i /\ wf i = gwf2 (T := b64) (n - 1) i.
Proof.
  intros E P W. assert (Hn : (2 <= n)%nat). { destruct (le_lt_dec 2 n); auto. rewrite gl_ub in E by auto. discriminate. }
  split; [exact Hn|]. destruct (gl_ok (T := b64) n Hn) as (p' & w' & E' & P' & W'). rewrite E in E'. injection E' as <- <-.
  intros i Hi. pose proof (proj2 P i Hi) as A. rewrite (proj2 P' i Hi) in A. injection A as <-. pose proof (proj2 W i Hi) as B. rewrite (proj2 W' i Hi) in B. injection B as <-. auto.
Qed.

(** ** C78 *)
(** every point and every weight is a finite number near the node and the weight of the exact rule, up to 1001 points *)
Theorem C78_points n p w pf wf z eps i : gl_points_weights (T := b64) n = Ok (p, w) -> vec_is p n pf -> vec_is w n wf -> (n <= 1001)%nat ->
  accurate_pi m -> accurate_cos m eps -> eps <= 1 / 1000000000 -> rule_nodes (n - 1) z -> (i < n)%nat ->
  fin (pf i) /\ Rabs (val (pf i) - z i) <= node_error (n - 1).
Proof.
  intros E P W Hm HP HC He Hz Hi. destruct (points_b64 n p w pf wf E P W) as (Hn & G). rewrite (proj1 (G i Hi)). pose proof (rule_incr _ _ Hz) as I. destruct Hz as (L & Z0 & Z1 & _).
  apply (point64 m (n - 1) z eps); auto; lia.
Qed.
Theorem C78_weights n p w pf wf z eps i : gl_points_weights (T := b64) n = Ok (p, w) -> vec_is p n pf -> vec_is w n wf -> (n <= 1001)%nat ->
  accurate_pi m -> accurate_cos m eps -> eps <= 1 / 1000000000 -> rule_nodes (n - 1) z -> (i < n)%nat ->
  fin (wf i) /\ Rabs (val (wf i) - lob_weight (n - 1) (z i)) <= weight_error (n - 1) * lob_weight (n - 1) (z i).
Proof.
  intros E P W Hm HP HC He Hz Hi. destruct (points_b64 n p w pf wf E P W) as (Hn & G). rewrite (proj2 (G i Hi)). pose proof (rule_incr _ _ Hz) as I. destruct Hz as (L & Z0 & Z1 & _).
  apply (weight64 m (n - 1) z eps); auto; lia.
Qed.
(** the points increase strictly from -1 to 1 and mirror each other exactly, as do the weights *)
Theorem C78_ordered n p w pf wf eps : gl_points_weights (T := b64) n = Ok (p, w) -> vec_is p n pf -> vec_is w n wf -> (n <= 1001)%nat ->
  accurate_pi m -> accurate_cos m eps -> eps <= 1 / 1000000000 ->
  val (pf 0%nat) = -1 /\ val (pf (n - 1)%nat) = 1 /\
  (forall i j, (i < j)%nat -> (j < n)%nat -> val (pf i) < val (pf j)) /\
  (forall i, (i < n)%nat -> val (pf (n - 1 - i)%nat) = - val (pf i) /\ wf (n - 1 - i)%nat = wf i /\ 0 < val (wf i)).
Proof.
  intros E P W Hm HP HC He. destruct (points_b64 n p w pf wf E P W) as (Hn & G). destruct (rule_nodes_exist (n - 1) ltac:(lia)) as (z & Hz).
  assert (HN : (1 <= n - 1 <= 1000)%nat) by lia. destruct (one_v m) as (F1 & V1). change (@Num.n1 b64 (GL64.BN m)) with (@Num.n1 b64 BN) in *.
  assert (VO : forall v : b64, val (nopp v) = - val v) by (intros v; apply B2R_Bopp).
  split; [|split; [|split]].
  - rewrite (proj1 (G 0%nat ltac:(lia))). unfold gpoint. cbn [Nat.eqb]. rewrite VO, V1. ring.
  - rewrite (proj1 (G (n - 1)%nat ltac:(lia))). unfold gpoint. destruct (Nat.eqb_spec (n - 1) 0); [lia|]. rewrite Nat.eqb_refl. exact V1.
  - intros i j Hij Hj. rewrite (proj1 (G i ltac:(lia))), (proj1 (G j Hj)). pose proof (rule_incr _ _ Hz) as I. destruct Hz as (L & Z0 & Z1 & _). apply (order64 m (n - 1) z eps); auto; lia.
  - intros i Hi. split; [|split].
    + rewrite (proj1 (G i Hi)), (proj1 (G (n - 1 - i)%nat ltac:(lia))). unfold gpoint. nb; rewrite ?VO, ?V1; try (replace (n - 1 - (n - 1 - i))%nat with i by lia); try ring; [change (val (n0 : b64)) with 0; ring].
    + rewrite (proj2 (G i Hi)), (proj2 (G (n - 1 - i)%nat ltac:(lia))). unfold gwf2, gweight. replace (n - 1 - (n - 1 - i))%nat with i by lia. nb; try reflexivity; exfalso; lia.
    + destruct (C78_weights n p w pf wf z eps i E P W Hm HP HC He Hz Hi) as (_ & B).
      destruct (lobatto_weights (n - 1) z ltac:(lia) (proj1 Hz)) as (Wz & _). destruct (Wz i ltac:(lia)) as (_ & Pz). pose proof (c_R (n - 1) HN) as CR. set (v := lob_weight (n - 1) (z i)) in *.
      assert (WE : weight_error (n - 1) <= / 2). { unfold weight_error. change (/ 2 ^ 53) with uu. cbv zeta in CR. lra. }
      assert (weight_error (n - 1) * v <= / 2 * v) by (apply Rmult_le_compat_r; lra). apply Rabs_le_between in B. lra.
Qed.
(** read as exact numbers, the computed rule integrates polynomials of degree at most 2 n - 3 up to these errors, over any interval split in k parts *)
Theorem C78_rule n p w pf wf eps a b k F K B : gl_points_weights (T := b64) n = Ok (p, w) -> vec_is p n pf -> vec_is w n wf -> (n <= 1001)%nat ->
  accurate_pi m -> accurate_cos m eps -> eps <= 1 / 1000000000 -> a <= b -> (1 <= k)%nat ->
  (forall s t, a <= s <= b -> a <= t <= b -> Rabs (F s - F t) <= K * Rabs (s - t)) -> (forall s, a <= s <= b -> Rabs (F s) <= B) -> poly (2 * n - 3) F ->
  exists v, is_RInt F a b v /\
    Rabs (quad n k (fun i => val (pf i)) (fun i => val (wf i)) a b F - v) <= (b - a) * (B * weight_error (n - 1) + K * ((b - a) / INR k / 2) * node_error (n - 1)).
Proof.
  intros E P W Hm HP HC He Hab Hk Lip Bd HF. destruct (points_b64 n p w pf wf E P W) as (Hn & G). destruct (rule_nodes_exist (n - 1) ltac:(lia)) as (z & Hz).
  assert (HN : (1 <= n - 1 <= 1000)%nat) by lia. destruct (C78_ordered n p w pf wf eps E P W Hm HP HC He) as (P0 & P1 & PI & _).
  destruct (lobatto_weights (n - 1) z ltac:(lia) (proj1 Hz)) as (Wz & Sz). replace (S (n - 1)) with n in * by lia.
  exists (quad n k z (fun i => lob_weight (n - 1) (z i)) a b F). split.
  - apply (quad_exact (2 * S (n - 2))); auto.
    + intros H HH. destruct n as [|[|q]]; [lia|lia|]. destruct Hz as (L & _). replace (S (S q) - 1)%nat with (S q) in * by lia. replace (S (S q) - 2)%nat with q in HH by lia. exact (lobatto_exact q z L H HH).
    + replace (2 * S (n - 2))%nat with (S (2 * n - 3)) by lia. apply poly_isPoly; auto.
  - apply quad_perturb; auto.
    + apply (ne_R (n - 1) HN).
    + pose proof (c_R (n - 1) HN) as CR. cbv zeta in CR. unfold weight_error. change (/ 2 ^ 53) with uu. lra.
    + intros i Hi. destruct (Wz i Hi) as (Rz & Pz). split.
      { split; [destruct (Nat.eq_dec i 0) as [->|]; [lra|pose proof (PI 0%nat i ltac:(lia) Hi); lra]|destruct (Nat.eq_dec i (n - 1)) as [->|]; [lra|pose proof (PI i (n - 1)%nat ltac:(lia) ltac:(lia)); lra]]. }
      split; [exact Rz|]. split; [apply (C78_points n p w pf wf z eps i); auto|]. split; [lra|]. apply (C78_weights n p w pf wf z eps i); auto.
Qed.
End C78.

(** rounding the exact cosine and the exact pi meets the hypotheses *)
Theorem C78_nearest : accurate_pi nearest /\ accurate_cos nearest (2 * uu) /\ 2 * uu <= 1 / 1000000000.
Proof.
  pose proof uu_pos. pose proof u_tiny. split; [|split; [|lra]].
  - pose proof PI_4. pose proof PI_RGT_0. destruct (of_R_ok PI) as (F & V). { apply IEEELegendre.rnd_small. rewrite Rabs_pos_eq by lra. apply Rle_trans with (2 ^ 2); [lra|apply Rle_pow; [lra|lia]]. }
    split; [exact F|]. cbn [m_pi nearest]. rewrite V. destruct (rnd_rel PI) as (d & Hd & ->). { rewrite Rabs_pos_eq by lra. apply Rle_trans with 1; [|pose proof PI2_1; lra]. rewrite <- Rinv_1. apply Rinv_le_contravar; [lra|apply pow_R1_Rle; lra]. }
    replace (PI * (1 + d) - PI) with (PI * d) by ring. rewrite Rabs_mult, (Rabs_pos_eq PI) by lra. apply Rmult_le_compat; try lra. apply Rabs_pos.
  - intros t Ft. apply (proj1 (proj2 C66_nearest) t Ft).
Qed.

(** ten points: nodes within 432 and weights within 7776 half units in the last place of 1 *)
Example C78_case : exists p w pf wf z, gl_points_weights (H := B64num nearest) 10 = Ok (p, w) /\ vec_is p 10 pf /\ vec_is w 10 wf /\ rule_nodes 9 z /\
  fin (pf 3%nat) /\ Rabs (val (pf 3%nat) - z 3%nat) <= 432 * uu /\ Rabs (val (wf 3%nat) - lob_weight 9 (z 3%nat)) <= 7776 * uu * lob_weight 9 (z 3%nat) /\
  val (pf 3%nat) < val (pf 4%nat) /\ val (pf 6%nat) = - val (pf 3%nat).
Proof.
  destruct (gl_ok (HN := B64num nearest) 10 ltac:(lia)) as (p & w & E & P & W). destruct (rule_nodes_exist 9 ltac:(lia)) as (z & Hz). destruct C78_nearest as (HP & HC & He).
  exists p, w, (gpoint (HN := B64num nearest) 9), (gwf2 (HN := B64num nearest) 9), z. split; [exact E|]. split; [exact P|]. split; [exact W|]. split; [exact Hz|].
  destruct (C78_points nearest 10 p w _ _ z (2 * uu) 3 E P W ltac:(lia) HP HC He Hz ltac:(lia)) as (F & A). destruct (C78_weights nearest 10 p w _ _ z (2 * uu) 3 E P W ltac:(lia) HP HC He Hz ltac:(lia)) as (_ & B).
  destruct (C78_ordered nearest 10 p w _ _ (2 * uu) E P W ltac:(lia) HP HC He) as (_ & _ & O & S). replace (10 - 1)%nat with 9%nat in * by reflexivity.
  assert (S9 : sqrt (INR 9) = 3) by (replace (INR 9) with (3 * 3) by (simpl; lra); apply sqrt_square; lra). assert (E9 : INR 9 = 9) by (simpl; lra).
  unfold node_error in A. unfold weight_error in B. rewrite S9, E9 in *. change (/ 2 ^ 53) with uu in *. replace (16 * (9 * 3) * uu) with (432 * uu) in A by ring. replace (32 * (9 * 9 * 3) * uu) with (7776 * uu) in B by ring.
  split; [exact F|]. split; [exact A|]. split; [exact B|]. split; [apply O; lia|]. apply (S 3%nat). lia.
Qed.
(** four points integrate the fourth power over [-1, 1] *)
Example C78_rule_case : exists p w pf wf, gl_points_weights (H := B64num nearest) 4 = Ok (p, w) /\ vec_is p 4 pf /\ vec_is w 4 wf /\
  Rabs (quad 4 1 (fun i => val (pf i)) (fun i => val (wf i)) (-1) 1 (fun t => t ^ 4) - 2 / 5) <= 1920 * uu.
Proof.
  destruct (gl_ok (HN := B64num nearest) 4 ltac:(lia)) as (p & w & E & P & W). destruct C78_nearest as (HP & HC & He). exists p, w, (gpoint (HN := B64num nearest) 3), (gwf2 (HN := B64num nearest) 3). split; [exact E|]. split; [exact P|]. split; [exact W|].
  destruct (C78_rule nearest 4 p w _ _ (2 * uu) (-1) 1 1 (fun t => t ^ 4) 4 1 E P W ltac:(lia) HP HC He ltac:(lra) ltac:(lia)) as (v & V & B).
  - intros s t Hs Ht. replace (s ^ 4 - t ^ 4) with ((s * s + t * t) * (s + t) * (s - t)) by ring. rewrite Rabs_mult. apply Rmult_le_compat_r; [apply Rabs_pos|]. rewrite Rabs_mult.
    replace 4 with (2 * 2) by ring. apply Rmult_le_compat; try apply Rabs_pos; apply Rabs_le; [split; nra|lra].
  - intros s Hs. rewrite <- RPow_abs. assert (A : Rabs s <= 1) by (apply Rabs_le; lra). pose proof (Rabs_pos s). rewrite <- (pow1 4). apply pow_incr. lra.
  - exists (fun k => nth k [0; 0; 0; 0; 1; 0] 0). intros t. change (S (2 * 4 - 3)) with 6%nat. cbn [Rsum nth pow]. ring.
  - assert (Ev : v = 2 / 5). { rewrite <- (is_RInt_unique _ _ _ _ V). apply is_RInt_unique. replace (2 / 5) with (1 ^ 5 / 5 - (-1) ^ 5 / 5) by field. apply (i_ftc (fun t => t ^ 5 / 5) (fun t => t ^ 4)); [intros t; auto_derive; auto; field|]. intros t. apply (ex_derive_continuous (fun t => t ^ 4)). auto_derive; auto. }
    rewrite Ev in B. replace (4 - 1)%nat with 3%nat in * by reflexivity. eapply Rle_trans; [exact B|]. unfold node_error, weight_error. change (/ 2 ^ 53) with uu. assert (E3 : INR 3 = 3) by (simpl; lra). rewrite E3. simpl (INR 1).
    assert (S3 : sqrt 3 <= 2) by (rewrite <- (sqrt_square 2) by lra; apply sqrt_le_1; lra). pose proof (sqrt_pos 3). pose proof uu_pos. assert (sqrt 3 * uu <= 2 * uu) by (apply Rmult_le_compat_r; lra). lra.
Qed.
