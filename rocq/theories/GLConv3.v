(** All computed points and weights: accuracy, order, separation. *)
From Coquelicot Require Import Coquelicot.
From Coq Require Import Arith Reals Lra Lia Psatz.
From Verif Require Import Num RSum RDeriv RPoly LegendreSpec LegendreMath GLSpec QuadSpec QuadMath LobattoRoots GLModel GLProofs GLProofs2 NewtonMath SturmMath LobattoLocate GLConv GLConv2.
Local Open Scope R_scope.
Local Opaque gl_iters gX.

Section Nodes.
Variables (N : nat) (x : nat -> R).
Hypothesis HN : (1 <= N)%nat.
Hypothesis HX : lobatto_nodes N x.
Hypothesis X0 : x 0%nat = -1.
Hypothesis X1 : x N = 1.
Hypothesis HI : incr (S N) x.

(** one case per branch of the code *)
Lemma gpoint_cases (P : nat -> R -> R -> Prop) :
  P 0%nat (-1) (-1) -> P N 1 1 ->
  (forall i, (1 <= i)%nat -> (2 * i < N)%nat -> P i (gX N i) (x i)) ->
  (forall i, (1 <= i)%nat -> (2 * i = N)%nat -> P i 0 0) ->
  (forall i, (i < N)%nat -> (N < 2 * i)%nat -> P i (- gX N (N - i)) (- x (N - i)%nat)) ->
  forall i, (i <= N)%nat -> P i (gpoint N i) (x i).
Proof.
  intros A B C D E i Hi. unfold gpoint. destruct (Nat.eqb_spec i 0) as [->|N0]; [rewrite X0; replace (- n1) with (-1) by (cbn; ring); exact A|].
  destruct (Nat.eqb_spec i N) as [->|N1]; [rewrite X1; exact B|]. destruct (Nat.ltb_spec (2 * i) N) as [L|L]; [apply C; lia|].
  destruct (Nat.eqb_spec (2 * i) N) as [Em|Em].
  - replace (x i) with 0; [apply D; lia|]. pose proof (x_sym N x HN HX X1 HI i Hi) as S. replace (N - i)%nat with i in S by lia. lra.
  - replace (x i) with (- x (N - i)%nat) by (rewrite (x_sym N x HN HX X1 HI i Hi); ring). apply E; lia.
Qed.
Lemma gpoint_near i : (i <= N)%nat -> Rabs (gpoint N i - x i) <= / 10 ^ 9 * Rabs (gpoint N i).
Proof.
  intros Hi. pattern i, (gpoint N i), (x i). 
  assert (P9 : 0 < / 10 ^ 9) by (apply Rinv_0_lt_compat, pow_lt; lra).
  apply gpoint_cases; auto; intros.
  - replace (-1 - -1) with 0 by ring. rewrite Rabs_R0. apply Rmult_le_pos; [lra|apply Rabs_pos].
  - replace (1 - 1) with 0 by ring. rewrite Rabs_R0. apply Rmult_le_pos; [lra|apply Rabs_pos].
  - apply Rlt_le. apply gX_bounds; auto; lia.
  - rewrite Rminus_0_r, Rabs_R0. lra.
  - replace (- gX N (N - i0) - - x (N - i0)%nat) with (- (gX N (N - i0) - x (N - i0)%nat)) by ring. rewrite !Rabs_Ropp. apply Rlt_le. apply gX_bounds; auto; lia.
Qed.
Lemma gpoint_range i : (i <= N)%nat -> -1 <= gpoint N i <= 1.
Proof.
  intros Hi. pattern i, (gpoint N i), (x i). apply gpoint_cases; auto; intros; try lra.
  - pose proof (proj1 (proj2 (gX_bounds N x i0 ltac:(lia) HX X0 X1 HI ltac:(lia) ltac:(lia)))). lra.
  - pose proof (proj1 (proj2 (gX_bounds N x (N - i0) ltac:(lia) HX X0 X1 HI ltac:(lia) ltac:(lia)))). lra.
Qed.

(** distances between computed points *)
Lemma gX_neg i : (1 <= i)%nat -> (2 * i < N)%nat -> -1 < gX N i < 0.
Proof. intros H1 H2. apply (gX_bounds N x i); auto; lia. Qed.
Lemma trap_gap i : (i < N)%nat -> PI / M N / 2 * (sin (th x i) + sin (th x (S i))) <= x (S i) - x i.
Proof.
  intros Hi. pose proof (gap_far N x HN HX X1 HI i Hi) as G. pose proof (th_range N x HN HX i ltac:(lia)) as A. pose proof (th_range N x HN HX (S i) ltac:(lia)) as B.
  pose proof (th_incr N x HN HX HI i (S i) ltac:(lia) ltac:(lia)) as L.
  pose proof (cos_trap (th x i) (th x (S i)) ltac:(lra) ltac:(lra) ltac:(lra)) as T. rewrite !(th_cos N x HN HX) in T by lia.
  apply (Rle_trans _ ((th x (S i) - th x i) / 2 * (sin (th x i) + sin (th x (S i))))); [|lra]. apply Rmult_le_compat_r; [|lra].
  pose proof (sin_ge_0 (th x i) ltac:(lra) ltac:(lra)). pose proof (sin_ge_0 (th x (S i)) ltac:(lra) ltac:(lra)). lra.
Qed.
Definition gmin : R := 3 / 2 / (M N * M N).
Lemma rt_dl : (3 <= N)%nat -> 155 / 100 <= PI / M N / 2 * rt N.
Proof.
  intros H3. pose proof (rt_M2 N H3) as RM. pose proof (dl_M N H3) as DM. pose proof (dl_pos N H3) as DP. pose proof pi_lo.
  assert (PI / M N * (989 / 1000 * M N) <= PI / M N * rt N) by (apply Rmult_le_compat_l; lra). lra.
Qed.
(** 0.61 s_i / rt and more is left between computed points *)
Lemma unit_gmin i : (1 <= i)%nat -> (2 * i < N)%nat -> 2 / (M N * M N) <= qq N x i.
Proof.
  intros H1 H2. assert (H3 : (3 <= N)%nat) by lia. pose proof (rt_pos N H3) as Rp. pose proof (rt_M N H3) as RM. pose proof (Mp N H3) as MP. pose proof (ss_lo N x i H3 HX X0 X1 HI H1 H2) as SL. pose proof (qq_rt N x i H3) as QR.
  assert (Sp : 0 < ss x i) by (apply (ss_pos N); auto).
  apply (Rmult_le_reg_r (rt N)); auto. rewrite QR. apply (Rle_trans _ (2 / M N)).
  - replace (2 / (M N * M N) * rt N) with (2 / M N * (rt N / M N)) by (field; lra). rewrite <- (Rmult_1_r (2 / M N)) at 2. apply Rmult_le_compat_l; [apply Rlt_le, Rdiv_lt_0_compat; lra|].
    apply (Rmult_le_reg_r (M N)); [lra|]. unfold Rdiv. rewrite Rmult_assoc, Rinv_l by lra. lra.
  - apply (Rmult_le_reg_r (M N)); [lra|]. unfold Rdiv. rewrite Rmult_assoc, Rinv_l by lra. lra.
Qed.
Lemma gap_left i : (1 <= i)%nat -> (2 * S i < N)%nat -> gmin < gX N (S i) - gX N i.
Proof.
  intros H1 H2. assert (H3 : (3 <= N)%nat) by lia. pose proof (trap_gap i ltac:(lia)) as T. fold (tt x i) in T. fold (tt x (S i)) in T. fold (ss x i) in T. fold (ss x (S i)) in T.
  destruct (gX_bounds N x i H3 HX X0 X1 HI H1 ltac:(lia)) as (_ & _ & A). destruct (gX_bounds N x (S i) H3 HX X0 X1 HI ltac:(lia) H2) as (_ & _ & B).
  pose proof (unit_gmin i H1 ltac:(lia)) as U. pose proof (unit_gmin (S i) ltac:(lia) H2) as U'. pose proof (rt_pos N H3) as Rp. pose proof (rt_dl H3) as RD. pose proof (Mp N H3) as MP.
  rewrite <- (qq_rt N x i H3), <- (qq_rt N x (S i) H3) in T. set (q := qq N x i) in *. set (q' := qq N x (S i)) in *.
  assert (Gp : 0 < 2 / (M N * M N)) by (apply Rdiv_lt_0_compat; [lra|apply Rmult_lt_0_compat; lra]).
  assert (V : 155 / 100 * (q + q') <= PI / M N / 2 * (q * rt N + q' * rt N)).
  { replace (PI / M N / 2 * (q * rt N + q' * rt N)) with (PI / M N / 2 * rt N * (q + q')) by ring. apply Rmult_le_compat_r; lra. }
  unfold gmin. replace (3 / 2 / (M N * M N)) with (3 / 4 * (2 / (M N * M N))) by (field; lra). lra.
Qed.
Lemma gap_first : (3 <= N)%nat -> gmin < gX N 1 - -1.
Proof.
  intros H3. pose proof (gap_far N x HN HX X1 HI 0 ltac:(lia)) as G. 
  destruct (gX_bounds N x 1 H3 HX X0 X1 HI ltac:(lia) ltac:(lia)) as (_ & _ & A). pose proof (unit_gmin 1 ltac:(lia) ltac:(lia)) as U. pose proof (rt_pos N H3) as Rp. pose proof (rt_dl H3) as RD. pose proof (Mp N H3) as MP.
  pose proof (tt_lo N x 1 H3 HX X0 X1 HI ltac:(lia) ltac:(lia)) as TL. pose proof (tt_hi N x 1 H3 HX X0 X1 HI ltac:(lia) ltac:(lia)) as TH. pose proof (dl_pos N H3) as DP. pose proof PI_RGT_0.
  pose proof (cos_trap 0 (tt x 1) ltac:(lra) ltac:(lra) ltac:(lra)) as T. rewrite sin_0, cos_0, (zz_cos N x 1) in T by (auto; lia). fold (ss x 1) in T. unfold zz in T.
  assert (Sp : 0 < ss x 1) by (apply (ss_pos N); auto; lia).
  rewrite <- (qq_rt N x 1 H3) in *. set (q := qq N x 1) in *.
  assert (Gp : 0 < 2 / (M N * M N)) by (apply Rdiv_lt_0_compat; [lra|apply Rmult_lt_0_compat; lra]).
  assert (V : 164 / 100 * q <= (tt x 1 - 0) / 2 * (0 + q * rt N)).
  { apply (Rle_trans _ (17 / 16 * (PI / M N / 2 * rt N) * q)); [apply Rmult_le_compat_r; lra|]. replace ((tt x 1 - 0) / 2 * (0 + q * rt N)) with (tt x 1 / 2 * (q * rt N)) by field.
    replace (17 / 16 * (PI / M N / 2 * rt N) * q) with (17 / 16 * (PI / M N) / 2 * (q * rt N)) by (field; lra). apply Rmult_le_compat_r; lra. }
  unfold gmin. replace (3 / 2 / (M N * M N)) with (3 / 4 * (2 / (M N * M N))) by (field; lra). lra.
Qed.
Lemma gap_middle i : (1 <= i)%nat -> (2 * i < N)%nat -> gmin < - gX N i.
Proof.
  intros H1 H2. assert (H3 : (3 <= N)%nat) by lia. pose proof (gX_bounds N x i H3 HX X0 X1 HI H1 ltac:(lia)) as (A & B & _). pose proof (cc_lo N x i H3 HX X0 X1 HI H1 H2) as C. unfold zz in C. pose proof (Mp N H3) as MP.
  replace (/ 10 ^ 9) with (1 / 1000000000) in A by (simpl; field). rewrite (Rabs_left (gX N i)) in A by lra. apply Rabs_def2 in A.
  apply (Rlt_le_trans _ (1 / 2 * - x i)); [|lra]. unfold gmin. apply (Rmult_lt_reg_r (M N * M N)); [apply Rmult_lt_0_compat; lra|].
  replace (3 / 2 / (M N * M N) * (M N * M N)) with (3 / 2) by (field; lra). assert (M N * 1 <= M N * (M N * - x i)) by (apply Rmult_le_compat_l; lra). lra.
Qed.
Lemma gmin_le1 : gmin <= 2 / 3.
Proof.
  unfold gmin. assert (H1 : 1 <= INR N) by (apply (le_INR 1); auto). assert (MP : 3 / 2 <= M N) by (unfold M; lra). assert (9 / 4 <= M N * M N) by (apply (Rle_trans _ (3 / 2 * (3 / 2))); [lra|apply Rmult_le_compat; lra]).
  apply (Rmult_le_reg_r (M N * M N)); [lra|]. replace (3 / 2 / (M N * M N) * (M N * M N)) with (3 / 2) by (field; lra). lra.
Qed.

Ltac gp := unfold gpoint; repeat match goal with
  | |- context [Nat.eqb ?a ?b] => destruct (Nat.eqb_spec a b); try lia
  | |- context [Nat.ltb ?a ?b] => destruct (Nat.ltb_spec a b); try lia end.
Lemma gp0 : gpoint N 0 = -1.
Proof. gp. cbn. ring. Qed.
Lemma gpN : gpoint N N = 1.
Proof. gp. reflexivity. Qed.
Lemma gpL i : (1 <= i)%nat -> (2 * i < N)%nat -> gpoint N i = gX N i.
Proof. intros. gp. reflexivity. Qed.
Lemma gpM i : (1 <= i)%nat -> (2 * i = N)%nat -> gpoint N i = 0.
Proof. intros. gp. reflexivity. Qed.
Lemma gpR i : (i < N)%nat -> (N < 2 * i)%nat -> gpoint N i = - gX N (N - i).
Proof. intros. gp. reflexivity. Qed.
Lemma gpoint_step i : (i < N)%nat -> gmin < gpoint N (S i) - gpoint N i.
Proof.
  intros Hi. pose proof gmin_le1 as G1. destruct (Nat.eq_dec i 0) as [->|N0].
  { rewrite gp0. destruct (Nat.eq_dec N 1) as [E1|E1]; [replace 1%nat with N; rewrite gpN; lra|].
    destruct (Nat.eq_dec N 2) as [E2|E2]; [rewrite gpM by lia; lra|]. rewrite gpL by lia. apply gap_first. lia. }
  destruct (lt_eq_lt_dec (2 * i) N) as [[L|E]|L].
  - rewrite (gpL i) by lia. destruct (lt_eq_lt_dec (2 * S i) N) as [[L'|E']|L'].
    + rewrite gpL by lia. apply gap_left; lia.
    + rewrite gpM by lia. pose proof (gap_middle i ltac:(lia) L). lra.
    + rewrite gpR by lia. replace (N - S i)%nat with i by lia. pose proof (gap_middle i ltac:(lia) L). pose proof (gX_neg i ltac:(lia) L). lra.
  - rewrite (gpM i) by lia. destruct (Nat.eq_dec (S i) N) as [EN|EN]; [rewrite EN, gpN; lra|]. rewrite gpR by lia. pose proof (gap_middle (N - S i) ltac:(lia) ltac:(lia)). lra.
  - rewrite (gpR i) by lia. destruct (Nat.eq_dec (S i) N) as [EN|EN].
    + rewrite EN, gpN. replace (N - i)%nat with 1%nat by lia. pose proof (gap_first ltac:(lia)). lra.
    + rewrite gpR by lia. replace (N - i)%nat with (S (N - S i)) by lia. pose proof (gap_left (N - S i) ltac:(lia) ltac:(lia)). lra.
Qed.
Lemma gmin_pos : 0 < gmin.
Proof. unfold gmin. assert (0 < M N) by (unfold M; pose proof (pos_INR N); lra). apply Rdiv_lt_0_compat; [lra|apply Rmult_lt_0_compat; auto]. Qed.
Lemma gpoint_far i k : (i < k)%nat -> (k <= N)%nat -> gmin < gpoint N k - gpoint N i.
Proof.
  intros L. induction L as [|k L IH]; intros Hk; [apply gpoint_step; lia|].
  specialize (IH ltac:(lia)). pose proof (gpoint_step k ltac:(lia)). pose proof gmin_pos. lra.
Qed.
(** sharp accuracy *)
Lemma gpoint_sharp i : (i <= N)%nat -> eps N <= 11 / 100 -> Rabs (gpoint N i - x i) <= eps N ^ 3.
Proof.
  intros Hi He.
  assert (E0 : 0 <= eps N) by (unfold eps; assert (0 <= M N) by (unfold M; pose proof (pos_INR N); lra); apply Rmult_le_pos; [|lra]; apply Rmult_le_pos; [|lra]; apply Rmult_le_pos; lra).
  assert (E3 : 0 <= eps N ^ 3) by (apply pow_le; auto).
  assert (L : forall i, (1 <= i)%nat -> (2 * i < N)%nat -> Rabs (gX N i - x i) <= eps N ^ 3).
  { intros k H1 H2. eapply Rle_trans; [apply gX_sharp; auto; lia|]. 
    assert (Q : qq N x k <= 1). { pose proof (rt_pos N ltac:(lia)) as Rp. pose proof (ss_1 x k). pose proof (rt_12 N ltac:(lia)). pose proof (qq_rt N x k ltac:(lia)) as QR. apply (Rmult_le_reg_r (rt N)); auto. rewrite QR. nra. }
    assert (0 < qq N x k) by (apply qq_pos; auto; lia). 
    assert (2 / 5 * eps N ^ 3 * qq N x k <= 2 / 5 * eps N ^ 3 * 1) by (apply Rmult_le_compat_l; lra). lra. }
  pattern i, (gpoint N i), (x i). apply gpoint_cases; auto; intros.
  - replace (-1 - -1) with 0 by ring. rewrite Rabs_R0. auto.
  - replace (1 - 1) with 0 by ring. rewrite Rabs_R0. auto.
  - rewrite Rminus_0_r, Rabs_R0. auto.
  - replace (- gX N (N - i0) - - x (N - i0)%nat) with (- (gX N (N - i0) - x (N - i0)%nat)) by ring. rewrite Rabs_Ropp. apply L; lia.
Qed.
Lemma lob_weight_opp t : lob_weight N (- t) = lob_weight N t.
Proof. unfold lob_weight. rewrite legP_sq_opp. reflexivity. Qed.
Lemma gweight_sharp i : (i <= N)%nat -> eps N <= 11 / 100 -> 0 <= lob_weight N (gpoint N i) - lob_weight N (x i) <= eps N ^ 6 * lob_weight N (x i).
Proof.
  intros Hi He.
  assert (E0 : 0 <= eps N) by (unfold eps; assert (0 <= M N) by (unfold M; pose proof (pos_INR N); lra); apply Rmult_le_pos; [|lra]; apply Rmult_le_pos; [|lra]; apply Rmult_le_pos; lra).
  assert (E6 : 0 <= eps N ^ 6) by (apply pow_le; auto).
  assert (Wp : forall k, (k <= N)%nat -> 0 < lob_weight N (x k)).
  { intros k Hk. unfold lob_weight. assert (1 <= INR N) by (apply (le_INR 1); auto). apply Rdiv_lt_0_compat; [lra|]. apply Rmult_lt_0_compat; [apply Rmult_lt_0_compat; lra|].
    rewrite <- pow2_abs. apply pow_lt, Rabs_pos_lt. destruct N as [|n0] eqn:EN; [lia|]. apply (nodes_weight n0 x HX k). lia. }
  assert (Z : forall a, 0 < lob_weight N a -> 0 <= lob_weight N a - lob_weight N a <= eps N ^ 6 * lob_weight N a).
  { intros a Ha. split; [lra|]. assert (0 <= eps N ^ 6 * lob_weight N a) by (apply Rmult_le_pos; lra). lra. }
  revert i Hi. apply (gpoint_cases (fun i a b => 0 <= lob_weight N a - lob_weight N b <= eps N ^ 6 * lob_weight N b)).
  - apply Z. rewrite <- X0. apply Wp. lia.
  - apply Z. rewrite <- X1. apply Wp. lia.
  - intros i H1 H2. apply gX_weight; auto; lia.
  - intros i H1 H2. apply Z. assert (Ex : x i = 0) by (pose proof (x_sym N x HN HX X1 HI i ltac:(lia)) as S; replace (N - i)%nat with i in S by lia; lra).
    rewrite <- Ex at 2. apply Wp; lia.
  - intros i H1 H2. rewrite !lob_weight_opp. apply gX_weight; auto; lia.
Qed.
End Nodes.
