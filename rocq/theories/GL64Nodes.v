(** Gauss-Lobatto points and weights in binary64: every point, every weight. *)
From Coquelicot Require Import Coquelicot.
From Coq Require Import ZArith Reals Lra Lia List Arith Bool Psatz.
From Flocq Require Import Core Relative BinarySingleNaN.
From Verif Require Import Num Outcome LinAlg RSum RDeriv RPoly LegendreModel LegendreSpec LegendreMath LegendreProofs StabMath IEEEModel IEEESpec IEEEProofs IEEEHorner IEEELegendre
  GLSpec QuadSpec QuadMath LobattoRoots ToolsModel GLModel GLProofs GLProofs2 NewtonMath SturmMath LobattoLocate GLConv GLConv2 GLConv3 GL64Math GL64 GL64Step GL64Spec GL64Guess GL64Weight.
Local Open Scope R_scope.
Local Opaque gX gl_iters.

Ltac nb := repeat match goal with
  | |- context [Nat.eqb ?a ?b] => destruct (Nat.eqb_spec a b) as [?Eq|?Nq]; try lia
  | |- context [Nat.ltb ?a ?b] => destruct (Nat.ltb_spec a b) as [?Eq|?Nq]; try lia end.
Lemma opp64 (v : b64) : fin v -> fin (Bopp v) /\ val (Bopp v) = - val v.
Proof. intros F. split; [unfold fin in *; rewrite is_finite_Bopp; exact F|apply B2R_Bopp]. Qed.

Section GL.
Variable m : libm.
Local Instance BN : Num b64 := B64num m.
Variables (N : nat) (x : nat -> R) (eps : R).
Hypothesis HN : (1 <= N <= 1000)%nat.
Hypothesis HX : lobatto_nodes N x.
Hypothesis X0 : x 0%nat = -1.
Hypothesis X1 : x N = 1.
Hypothesis HI : incr (S N) x.
Hypothesis HP : accurate_pi m.
Hypothesis HC : accurate_cos m eps.
Hypothesis He : eps <= 1 / 1000000000.
Let n := INR N.
Let s := sqrt n.
Lemma ne_R : 0 <= node_error N <= / 10000000000.
Proof.
  pose proof (nN N HN) as NR. fold n in NR. unfold node_error. fold n. fold s. change (/ 2 ^ 53) with uu. pose proof u_tiny. pose proof uu_pos. assert (S0 : 0 <= s) by apply sqrt_pos.
  assert (S1 : s <= 32). { assert (E : s * s = n) by (apply sqrt_sqrt; lra). apply Rnot_lt_le. intros C. assert (32 * 32 < s * s) by (apply Rmult_le_0_lt_compat; lra). lra. }
  assert (P : 0 <= n * s) by (apply Rmult_le_pos; lra). assert (n * s <= 1000 * 32) by (apply Rmult_le_compat; lra). split; [apply Rmult_le_pos; lra|]. apply Rle_trans with (16 * (1000 * 32) * / 8000000000000000); [apply Rmult_le_compat; lra|lra].
Qed.
Lemma x_mid i : (2 * i = N)%nat -> x i = 0.
Proof. intros E. pose proof (x_sym N x (proj1 HN) HX X1 HI i ltac:(lia)) as S. replace (N - i)%nat with i in S by lia. lra. Qed.
Lemma point64 i : (i <= N)%nat -> fin (gpoint (T := b64) N i) /\ Rabs (val (gpoint (T := b64) N i) - x i) <= node_error N.
Proof.
  intros Hi. pose proof ne_R as NE. destruct (one_v m) as (F1 & V1). change (@n1 b64 (GL64.BN m)) with (@n1 b64 BN) in *. unfold gpoint. nb.
  - subst i. destruct (opp64 n1 F1) as (A & B). split; [exact A|]. cbn [nopp BN B64num]. change (B64num m) with BN. rewrite B, V1, X0. replace (- (1) - -1) with 0 by ring. rewrite Rabs_R0. lra.
  - subst i. split; [exact F1|]. rewrite V1, X1, Rminus_eq_0, Rabs_R0. lra.
  - split; [reflexivity|]. rewrite x_mid by auto. change (val (n0 : b64)) with 0. rewrite Rminus_eq_0, Rabs_R0. lra.
  - apply (gX64 m HP N x i eps); auto; lia.
  - destruct (gX64 m HP N x (N - i) eps) as (A & B); auto; try lia. change (gX (HN := GL64Guess.BN m)) with (gX (HN := BN)) in *. set (g := gX (T := b64) N (N - i)) in *. clearbody g. destruct (opp64 _ A) as (C & D). split; [exact C|]. cbn [nopp BN B64num]. change (B64num m) with BN. rewrite D.
    pose proof (x_sym N x (proj1 HN) HX X1 HI i Hi) as S. replace (- val g - x i) with (- (val g - x (N - i)%nat)) by (rewrite S; ring). rewrite Rabs_Ropp. exact B.
Qed.

(** weights *)
Lemma qe_l t : snd (qe (T := b64) t N) = lv m t N.
Proof. unfold qe. change BN with (GL64.BN m). rewrite ql2_eq. replace (S (N - 1)) with N by lia. reflexivity. Qed.
Lemma s_R : 1 <= s <= 32 /\ s * s = n.
Proof.
  pose proof (nN N HN) as NR. fold n in NR. assert (S0 : 0 <= s) by apply sqrt_pos. assert (E : s * s = n) by (apply sqrt_sqrt; lra). split; auto. split.
  - apply Rnot_lt_le. intros C. assert (s * s < 1 * 1) by (apply Rmult_le_0_lt_compat; lra). lra.
  - apply Rnot_lt_le. intros C. assert (32 * 32 < s * s) by (apply Rmult_le_0_lt_compat; lra). lra.
Qed.
Let c := n * n * s * uu.
Lemma c_R : 0 < c <= / 200000000.
Proof.
  pose proof (nN N HN) as NR. fold n in NR. destruct s_R as (S & _). pose proof u_tiny. pose proof uu_pos. assert (n * n <= 1000 * 1000) by (apply Rmult_le_compat; lra). assert (0 < n * n) by (apply Rmult_lt_0_compat; lra).
  assert (n * n * s <= 1000 * 1000 * 32) by (apply Rmult_le_compat; lra). assert (0 < n * n * s) by (apply Rmult_lt_0_compat; lra). unfold c. split; [apply Rmult_lt_0_compat; lra|].
  apply Rle_trans with (1000 * 1000 * 32 * / 8000000000000000); [apply Rmult_le_compat; lra|lra].
Qed.
Lemma lam_inv lam : 0 < lam -> 1 <= 2 * n * (lam * lam) -> 7 * (n * (n + 1)) * uu <= 7 * (1 + / n) * (14143 / 10000) * c * lam.
Proof.
  intros L0 L2. pose proof (nN N HN) as NR. fold n in NR. destruct s_R as (S & SS). pose proof uu_pos.
  assert (G : 1 <= 14143 / 10000 * s * lam). { assert (0 <= 14143 / 10000 * s * lam) by (repeat apply Rmult_le_pos; lra). apply Rnot_lt_le. intros C. assert (14143 / 10000 * s * lam * (14143 / 10000 * s * lam) < 1 * 1) by (apply Rmult_le_0_lt_compat; lra).
    replace (14143 / 10000 * s * lam * (14143 / 10000 * s * lam)) with (14143 / 10000 * (14143 / 10000) * (s * s * (lam * lam))) in * by ring. rewrite SS in *. lra. }
  unfold c. replace (7 * (1 + / n) * (14143 / 10000) * (n * n * s * uu) * lam) with (7 * (n * (n + 1)) * uu * (14143 / 10000 * s * lam)) by (field; lra).
  rewrite <- (Rmult_1_r (7 * (n * (n + 1)) * uu)) at 1. apply Rmult_le_compat_l; [|exact G]. repeat apply Rmult_le_pos; lra.
Qed.
Definition is_weight (w : b64) (i : nat) : Prop := fin w /\ Rabs (val w - lob_weight N (x i)) <= weight_error N * lob_weight N (x i).
Lemma lw_sq y : lob_weight N y = 2 / (n * (n + 1) * (Rabs (legP N y) * Rabs (legP N y))).
Proof. unfold lob_weight. fold n. rewrite <- Rabs_mult, Rabs_pos_eq by apply Rle_0_sqr. replace (legP N y ^ 2) with (legP N y * legP N y) by ring. reflexivity. Qed.
Lemma weight_any l i rho : fin l -> let lam := Rabs (legP N (x i)) in (i <= N)%nat -> (2 <= N)%nat -> 1 <= 2 * n * (lam * lam) -> Rabs (Rabs (val l) - lam) <= rho * lam -> rho <= 1487 / 100 * c -> is_weight (gl_w (T := b64) N l) i.
Proof.
  intros Fl lam Hi H2 L2 Hl Hr. pose proof (nN N HN) as NR. fold n in NR. pose proof c_R as CR. assert (L0 : 0 <= lam) by apply Rabs_pos. assert (Lp : 0 < lam) by (destruct L0 as [L0|L0]; auto; rewrite <- L0 in L2; lra).
  assert (Rx : -1 <= x i <= 1). { split; [destruct (Nat.eq_dec i 0) as [->|]; [lra|rewrite <- X0; apply Rlt_le, HI; lia]|destruct (Nat.eq_dec i N) as [->|]; [lra|rewrite <- X1; apply Rlt_le, HI; lia]]. }
  assert (L1 : lam <= 1) by (apply legP_bound; auto).
  destruct (w_64 m N HN l lam rho Fl Lp L1 L2 Hl ltac:(lra)) as (F & E). split; [exact F|]. rewrite lw_sq. fold lam. fold n in E. eapply Rle_trans; [exact E|].
  apply Rmult_le_compat_r. { apply Rlt_le, Rdiv_lt_0_compat; [lra|]. repeat apply Rmult_lt_0_compat; lra. }
  unfold weight_error. fold n. fold s. change (/ 2 ^ 53) with uu. fold c. replace (32 * (n * n * s) * uu) with (32 * c) by (unfold c; ring).
  assert (N2 : 2 <= n) by (apply (le_INR 2); exact H2). destruct s_R as (S & _). pose proof uu_pos. assert (U4 : 4 * uu <= c). { unfold c. apply Rmult_le_compat_r; [lra|]. apply Rle_trans with (2 * 2 * 1); [lra|]. apply Rmult_le_compat; try lra. nra. } lra.
Qed.
Lemma abs_diff a b : Rabs (Rabs a - Rabs b) <= Rabs (a - b).
Proof. apply Rabs_triang_inv2. Qed.
Lemma weight_mid i : (2 * i = N)%nat -> is_weight (gl_w (T := b64) N (snd (qe (T := b64) n0 N))) i.
Proof.
  intros Ei. rewrite qe_l. assert (F0 : fin (n0 : b64)) by reflexivity. assert (V0 : val (n0 : b64) = 0) by reflexivity. set (t := n0 : b64) in *. clearbody t.
  assert (B0 : Rabs (val t) <= 1) by (rewrite V0, Rabs_R0; lra). pose proof (lv_err m t F0 B0 N ltac:(lia)) as E. fold n in E. rewrite V0 in E. pose proof (lv_fin m t F0 B0 N ltac:(lia)) as F.
  pose proof (nN N HN) as NR. fold n in NR. assert (N2 : 2 <= n) by (apply (le_INR 2); lia). pose proof c_R as CR.
  assert (L2 : 1 <= 2 * n * (Rabs (legP N 0) * Rabs (legP N 0))).
  { rewrite <- Rabs_mult, Rabs_pos_eq by apply Rle_0_sqr. pose proof (legP_zero_even (i - 1)) as Z. replace (2 * S (i - 1))%nat with N in Z by lia. fold n in Z. replace (legP N 0 * legP N 0) with (legP N 0 ^ 2) by ring. exact Z. }
  apply (weight_any _ i (7 * (1 + / n) * (14143 / 10000) * c)); auto; try lia; rewrite ?x_mid by auto; auto.
  - assert (L0 : 0 < Rabs (legP N 0)) by (pose proof (Rabs_pos (legP N 0)) as P; destruct P as [P|P]; auto; rewrite <- P in L2; lra). pose proof (lam_inv _ L0 L2). eapply Rle_trans; [apply abs_diff|]. lra.
  - assert (/ n <= / 2) by (apply Rinv_le_contravar; lra). assert (7 * (1 + / n) * (14143 / 10000) <= 1486 / 100) by lra. apply Rle_trans with (1486 / 100 * c); [apply Rmult_le_compat_r; lra|lra].
Qed.
Lemma weight_left i : (1 <= i)%nat -> (2 * i < N)%nat -> is_weight (gl_w (T := b64) N (snd (qe (T := b64) (gX N i) N))) i.
Proof.
  intros H1 H2. rewrite qe_l. assert (H3 : (3 <= N <= 1000)%nat) by lia. destruct (gX64 m HP N x i eps H3 HX X0 X1 HI H1 H2 HC He) as (F0 & E0). change (gX (HN := GL64Guess.BN m)) with (gX (HN := BN)) in *. set (t := gX (T := b64) N i) in *. clearbody t.
  pose proof ne_R as NE. pose proof (qq_lo N x i H3 HX X0 X1 HI H1 H2) as QL. fold n in QL. pose proof (qq_abs N x i H3 HX X0 X1 HI H1 H2) as QA. pose proof (nN N HN) as NR. fold n in NR. assert (N3 : 3 <= n) by exact (proj1 (N_R N H3)).
  assert (HN3 : (3 <= N)%nat) by lia. set (Y := node_error N / qq N x i). assert (Y0 : 0 <= Y <= / 1000). { unfold Y. split; [apply Rdiv_le_0_compat; lra|]. apply Rle_div_l; lra. }
  assert (Nr : near N x i Y (val t)). { apply near_abs; auto. unfold Y. replace (node_error N / qq N x i * qq N x i) with (node_error N) by (field; lra). exact E0. }
  assert (Fr : far N x i (val t)). { apply (stage_far N x i HN3 HX X0 X1 HI H1 H2 0 ltac:(lra) 5). apply (near_mono N x i HN3 HX X0 X1 HI H1 H2 Y); [lra|exact Nr]. }
  pose proof (far_range N x i HN3 HX X0 X1 HI H1 H2 _ Fr) as Rt. assert (B0 : Rabs (val t) <= 1) by (apply Rabs_le; lra).
  destruct (slope N x i HN3 HX X0 X1 HI H1 H2 Y (val t) Nr ltac:(lra) ltac:(lra)) as (S1 & S2).
  pose proof (lv_err m t F0 B0 N ltac:(lia)) as E. fold n in E. pose proof (lv_fin m t F0 B0 N ltac:(lia)) as F. pose proof c_R as CR.
  pose proof (lam_sq N x i HN3 HX X0 X1 HI H1 H2) as L2. pose proof (lam_pos N x i HN3 HX X0 X1 HI H1 H2) as L0. change (zz x i) with (x i) in *. fold n in L2.
  apply (weight_any _ i (7 * (1 + / n) * (14143 / 10000) * c + 55 / 100 * (Y * Y))); auto; try lia.
  - pose proof (lam_inv _ L0 L2) as LI. replace (Rabs (val (lv m t N)) - Rabs (legP N (x i))) with ((Rabs (val (lv m t N)) - Rabs (legP N (val t))) + (Rabs (legP N (val t)) - Rabs (legP N (x i)))) by ring.
    eapply Rle_trans; [apply Rabs_triang|]. pose proof (abs_diff (val (lv m t N)) (legP N (val t))). rewrite (Rabs_left1 (Rabs (legP N (val t)) - _)) by lra. rewrite Rmult_plus_distr_r. lra.
  - assert (/ n <= / 3) by (apply Rinv_le_contravar; lra). assert (P1 : 7 * (1 + / n) * (14143 / 10000) <= 133 / 10) by lra. assert (P2 : 7 * (1 + / n) * (14143 / 10000) * c <= 133 / 10 * c) by (apply Rmult_le_compat_r; lra).
    destruct s_R as (Sr & SS). pose proof uu_pos. pose proof u_tiny.
    assert (YB : Y <= 16 * (n * n * n) * s * uu). { unfold Y. apply Rle_div_l; [lra|]. unfold node_error. fold n. fold s. change (/ 2 ^ 53) with uu. replace (16 * (n * n * n) * s * uu * qq N x i) with (16 * (n * s) * uu * (n * n * qq N x i)) by ring.
      rewrite <- (Rmult_1_r (16 * (n * s) * uu)) at 1. apply Rmult_le_compat_l; [repeat apply Rmult_le_pos; lra|lra]. }
    (* Y * Y <= (16 n s u / qq) (16 n^3 s u) *)
    assert (YB2 : 55 / 100 * (Y * Y) <= 1 * c).
    { assert (YC : Y <= 110 / 10 * (n * n * n) * s * uu). { unfold Y. apply Rle_div_l; [lra|]. unfold node_error. fold n. fold s. change (/ 2 ^ 53) with uu. replace (110 / 10 * (n * n * n) * s * uu * qq N x i) with (110 / 10 * (n * s) * uu * (n * n * qq N x i)) by ring.
        apply Rle_trans with (110 / 10 * (n * s) * uu * (146 / 100)); [|apply Rmult_le_compat_l; [repeat apply Rmult_le_pos; lra|lra]]. assert (0 <= n * s * uu) by (repeat apply Rmult_le_pos; lra). lra. }
      apply Rle_trans with (55 / 100 * (110 / 10 * (n * n * n) * s * uu * (110 / 10 * (n * n * n) * s * uu))). { apply Rmult_le_compat_l; [lra|]. apply Rmult_le_compat; lra. }
      replace (55 / 100 * (110 / 10 * (n * n * n) * s * uu * (110 / 10 * (n * n * n) * s * uu))) with (55 / 100 * (110 / 10) * (110 / 10) * (n * n * (n * n) * s * uu) * c) by (unfold c; ring).
      apply Rmult_le_compat_r; [lra|]. assert (N4 : n * n * (n * n) * s <= 1000 * 1000 * (1000 * 1000) * 32). { assert (n * n <= 1000 * 1000) by (apply Rmult_le_compat; lra). assert (0 <= n * n) by nra. assert (n * n * (n * n) <= 1000 * 1000 * (1000 * 1000)) by (apply Rmult_le_compat; lra). assert (0 <= n * n * (n * n)) by (apply Rmult_le_pos; lra). apply Rmult_le_compat; lra. }
      assert (0 <= n * n * (n * n) * s). { assert (0 <= n * n) by nra. repeat apply Rmult_le_pos; lra. }
      assert (n * n * (n * n) * s * uu <= 1000 * 1000 * (1000 * 1000) * 32 * / 8000000000000000) by (apply Rmult_le_compat; lra). lra. }
    lra.
Qed.
Lemma end_weight i : (i = 0 \/ i = N)%nat -> is_weight (gl_w0 (T := b64) N) i.
Proof.
  intros H. destruct (w0_64 m N HN) as (F & E). split; [exact F|]. pose proof (nN N HN) as NR. fold n in NR. destruct s_R as (S & _). pose proof uu_pos.
  assert (W : lob_weight N (x i) = 2 / (n * (n + 1))).
  { rewrite lw_sq. assert (L : Rabs (legP N (x i)) = 1). { destruct H as [-> | ->]; [rewrite X0; replace (-1) with (- (1)) by ring; rewrite legP_parity, legP_at_1, Rmult_1_r, <- RPow_abs; replace (Rabs (-1)) with 1 by (rewrite Rabs_left; lra); apply pow1|rewrite X1, legP_at_1; apply Rabs_R1]. } rewrite L, !Rmult_1_r. reflexivity. }
  rewrite W. fold n in E. eapply Rle_trans; [exact E|]. apply Rmult_le_compat_r; [apply Rlt_le, Rdiv_lt_0_compat; [lra|]; apply Rmult_lt_0_compat; lra|].
  unfold weight_error. fold n. fold s. change (/ 2 ^ 53) with uu. rewrite <- (Rmult_1_l uu) at 1. apply Rmult_le_compat_r; [lra|]. assert (1 <= n * n) by nra. assert (1 * 1 <= n * n * s) by (apply Rmult_le_compat; lra). lra.
Qed.
Lemma lw_opp i : (i <= N)%nat -> lob_weight N (x (N - i)%nat) = lob_weight N (x i).
Proof. intros Hi. pose proof (x_sym N x (proj1 HN) HX X1 HI i Hi) as S. rewrite S. apply lob_weight_opp. Qed.
Lemma weight64 i : (i <= N)%nat -> is_weight (gwf2 (T := b64) N i) i.
Proof.
  intros Hi. destruct (one_v m) as (F1 & V1). change (@n1 b64 (GL64.BN m)) with (@n1 b64 BN) in *. unfold gwf2. destruct (Nat.eqb_spec N 1) as [E1|N1].
  - split; [exact F1|]. rewrite V1. assert (W : lob_weight N (x i) = 1). { unfold lob_weight. rewrite E1. rewrite legP_1. cbn [INR]. assert (Hx : x i = 1 \/ x i = -1). { assert (i = 0 \/ i = N)%nat as [-> | ->] by lia; auto. } destruct Hx as [-> | ->]; field. }
    rewrite W, Rminus_eq_0, Rabs_R0. rewrite Rmult_1_r. unfold weight_error. fold n. fold s. change (/ 2 ^ 53) with uu. replace (32 * (n * n * s) * uu) with (32 * c) by (unfold c; ring). pose proof c_R. lra.
  - unfold gweight. nb.
    + subst. apply end_weight. auto.
    + subst. apply end_weight. auto.
    + apply weight_mid; lia.
    + apply weight_left; lia.
    + assert (W : is_weight (gl_w (T := b64) N (snd (qe (T := b64) (gX N (N - i)) N))) (N - i)) by (apply weight_left; lia). unfold is_weight in *. rewrite lw_opp in W by auto. exact W.
Qed.
(** order *)
Lemma order64 i k : (i < k)%nat -> (k <= N)%nat -> val (gpoint (T := b64) N i) < val (gpoint (T := b64) N k).
Proof.
  intros Hik Hk. destruct (point64 i ltac:(lia)) as (_ & A). destruct (point64 k Hk) as (_ & B). pose proof ne_R as NE.
  pose proof (gpoint_near N x (proj1 HN) HX X0 X1 HI i ltac:(lia)) as C. pose proof (gpoint_near N x (proj1 HN) HX X0 X1 HI k Hk) as D. pose proof (gpoint_range N x (proj1 HN) HX X0 X1 HI i ltac:(lia)) as Ri. pose proof (gpoint_range N x (proj1 HN) HX X0 X1 HI k Hk) as Rk.
  pose proof (gpoint_far N x (proj1 HN) HX X0 X1 HI i k Hik Hk) as G. pose proof (nN N HN) as NR. unfold gmin, M in G.
  assert (G1 : 1 / 1000000 <= 3 / 2 / ((INR N + 1 / 2) * (INR N + 1 / 2))). { assert ((INR N + 1 / 2) * (INR N + 1 / 2) <= (1000 + 1 / 2) * (1000 + 1 / 2)) by (apply Rmult_le_compat; lra). assert (0 < (INR N + 1 / 2) * (INR N + 1 / 2)) by (apply Rmult_lt_0_compat; lra). set (DD := (INR N + 1 / 2) * (INR N + 1 / 2)) in *. clearbody DD. apply Rmult_le_reg_r with DD; [lra|]. replace (3 / 2 / DD * DD) with (3 / 2) by (field; lra). lra. }
  replace (/ 10 ^ 9) with (/ 1000000000) in * by (simpl; field). set (p := gpoint (T := R) N i) in *. set (q := gpoint (T := R) N k) in *.
  assert (/ 1000000000 * Rabs p <= / 1000000000) by (rewrite <- (Rmult_1_r (/ 1000000000)) at 2; apply Rmult_le_compat_l; [lra|apply Rabs_le; lra]). assert (/ 1000000000 * Rabs q <= / 1000000000) by (rewrite <- (Rmult_1_r (/ 1000000000)) at 2; apply Rmult_le_compat_l; [lra|apply Rabs_le; lra]).
  apply Rabs_le_between in A. apply Rabs_le_between in B. assert (C' : -/ 1000000000 <= p - x i <= / 1000000000) by (apply Rabs_le_between; lra). assert (D' : -/ 1000000000 <= q - x k <= / 1000000000) by (apply Rabs_le_between; lra). lra.
Qed.
End GL.
