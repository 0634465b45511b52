(** C56: the computed Gauss-Lobatto points converge, for every number of points. *)
From Coquelicot Require Import Coquelicot.
From Coq Require Import List Arith Lia Bool ZArith Reals Lra Psatz.
From Verif Require Import Num Outcome LinAlg RSum RDeriv RPoly LegendreSpec LegendreMath LegendreModel LagrangeSpec LagrangeMath
  Basis0101Model BasisModel SplineSpec BasisFn ToolsModel FunModel GSplineModel GSplineProofs GSplineProofs2
  GLModel GLSpec GLProofs GLProofs2 GLProps QuadSpec QuadMath LobattoRoots LobattoLocate IntegralModel IntegralProofs IntegralProps
  GLLModel GLLProofs GLLProofs2 GLLProofs3 GLLProps GLFModel GLFProofs GLFProofs2 GLFProofs3 GLFProps GLConvSpec GLConv GLConv2 GLConv3.
Import ListNotations.
Local Open Scope R_scope.
Local Opaque gX gl_iters.

Lemma rule_nodes_exist N : (1 <= N)%nat -> exists z, rule_nodes N z.
Proof.
  intros HN. destruct (lobatto_nodes_exist N HN) as (x & L & X0 & X1 & I). exists x. split; [exact L|]. split; [exact X0|]. split; [exact X1|].
  intros i j Hij Hj. apply I; lia.
Qed.
Lemma rule_incr N z : rule_nodes N z -> incr (S N) z.
Proof. intros (_ & _ & _ & I) i j Hij Hj. apply I; lia. Qed.
(** there is one such rule *)
Lemma rule_unique N y z : (1 <= N)%nat -> rule_nodes N y -> rule_nodes N z -> forall i, (i <= N)%nat -> y i = z i.
Proof.
  intros HN Hy Hz. pose proof (rule_incr N y Hy) as Iy. pose proof (rule_incr N z Hz) as Iz. destruct Hy as (Ly & Y0 & Y1 & _). destruct Hz as (Lz & Z0 & Z1 & _).
  assert (Ey : forall a, (a <= N)%nat -> exists b, (b <= N)%nat /\ y a = z b) by (intros a Ha; apply (zero_node N z HN Lz Z1 Iz), Ly; auto).
  assert (Mx : forall a b, (a <= N)%nat -> (b <= N)%nat -> z a < z b -> (a < b)%nat).
  { intros a b Ha Hb L. destruct (le_lt_dec b a) as [K|K]; auto. exfalso. destruct (Nat.eq_dec b a) as [->|Ne]; [lra|]. pose proof (Iz b a ltac:(lia) ltac:(lia)). lra. }
  assert (Lo : forall a, (a <= N)%nat -> forall b, (b <= N)%nat -> y a = z b -> (a <= b)%nat).
  { induction a as [|a IH]; intros Ha b Hb E; [lia|]. destruct (Ey a ltac:(lia)) as (c & Hc & Ec). specialize (IH ltac:(lia) c Hc Ec).
    pose proof (Iy a (S a) ltac:(lia) ltac:(lia)) as L. rewrite E, Ec in L. apply Mx in L; auto. lia. }
  assert (Up : forall d a, (a <= N)%nat -> (N - a <= d)%nat -> forall b, (b <= N)%nat -> y a = z b -> (b <= a)%nat).
  { induction d as [|d IH]; intros a Ha Hd b Hb E; [lia|]. destruct (Nat.eq_dec a N) as [->|Ne]; [lia|].
    destruct (Ey (S a) ltac:(lia)) as (c & Hc & Ec). specialize (IH (S a) ltac:(lia) ltac:(lia) c Hc Ec).
    pose proof (Iy a (S a) ltac:(lia) ltac:(lia)) as L. rewrite E, Ec in L. apply Mx in L; auto. lia. }
  intros i Hi. destruct (Ey i Hi) as (b & Hb & E). pose proof (Lo i Hi b Hb E). pose proof (Up N i Hi ltac:(lia) b Hb E). replace b with i in E by lia. exact E.
Qed.
Lemma points_are n p w pf : gl_points_weights n = Ok (p, w) -> vec_is p n pf -> (2 <= n)%nat /\ forall i, (i < n)%nat -> pf i = gpoint (n - 1) i.
Proof.
  intros E P. assert (Hn : (2 <= n)%nat). { destruct (le_lt_dec 2 n); auto. rewrite gl_ub in E by auto. discriminate. }
  split; [exact Hn|]. destruct (gl_ok (T := R) n Hn) as (p' & w' & E' & P' & _). rewrite E in E'. injection E' as <- <-.
  intros i Hi. pose proof (proj2 P i Hi) as A. rewrite (proj2 P' i Hi) in A. injection A as <-. reflexivity.
Qed.
Lemma points_of n p pf : gl_points n = Ok p -> vec_is p n pf -> exists w, gl_points_weights n = Ok (p, w).
Proof.
  intros E _. unfold gl_points in E. destruct (gl_points_weights n) as [[p' w']| |]; try discriminate. cbn [bind] in E. injection E as <-. exists w'. reflexivity.
Qed.

(** ** C56 *)
(** for every number of points: there is exactly one rule and every computed point is within a relative 1e-9 of its node *)
Theorem C56_converges n p w pf : gl_points_weights n = Ok (p, w) -> vec_is p n pf ->
  exists z, rule_nodes (n - 1) z /\ (forall z', rule_nodes (n - 1) z' -> forall i, (i < n)%nat -> z' i = z i) /\
    forall i, (i < n)%nat -> Rabs (pf i - z i) <= 1 / 1000000000 * Rabs (pf i).
Proof.
  intros E P. destruct (points_are n p w pf E P) as (Hn & Ep). destruct (rule_nodes_exist (n - 1) ltac:(lia)) as (z & Hz). exists z. split; [exact Hz|]. split.
  - intros z' Hz' i Hi. apply (rule_unique (n - 1)); auto; lia.
  - intros i Hi. rewrite Ep by auto. pose proof (rule_incr _ _ Hz) as I. destruct Hz as (L & Z0 & Z1 & _). replace (1 / 1000000000) with (/ 10 ^ 9) by (simpl; field).
    apply gpoint_near; auto; lia.
Qed.
(** the iteration ends by its own test, after at most ten of the hundred steps *)
Theorem C56_terminates n p w pf j : gl_points_weights n = Ok (p, w) -> vec_is p n pf -> (1 <= j)%nat -> (2 * j < n - 1)%nat -> let N := (n - 1)%nat in
  exists s m, (m <= 9)%nat /\ pf j = s (S m) /\
    s 0%nat = - cos ((INR j + 1 / 4) * PI / INR N - 3 / (8 * INR N * PI) * (1 / (INR j + 1 / 4))) /\
    newton_run (lob_q N) s (S m) /\ small_step s m /\
    (forall i d, (i <= m)%nat -> is_derive (lob_q N) (s i) d -> d <> 0).
Proof.
  intros E P H1 H2 N. destruct (points_are n p w pf E P) as (Hn & Ep). destruct (rule_nodes_exist N ltac:(lia)) as (z & Hz).
  pose proof (rule_incr _ _ Hz) as I. destruct Hz as (L & Z0 & Z1 & _).
  destruct (gX_result N z j ltac:(lia) L Z0 Z1 I H1 H2) as (u & _ & Eu & _ & (m & Hm & ->) & S & _ & _).
  exists (fun i => niter N i (gl_guess N j)), m. split; [exact Hm|]. split; [|split; [|split; [|split]]].
  - rewrite Ep by lia. fold N. rewrite gpL by lia. rewrite Eu, niter_last. reflexivity.
  - cbn [niter]. unfold gl_guess. rewrite !nofnat_INR. reflexivity.
  - intros i Hi. exists ((2 * INR N + 1) * legP N (niter N i (gl_guess N j))). split; [apply (qpol_derive N); lia|]. rewrite niter_last. reflexivity.
  - unfold small_step. replace (1 / 1000000000) with (/ 10 ^ 9) by (simpl; field). rewrite niter_last, <- Eu. exact S.
  - intros i d Hi Hd. assert (Ed : d = (2 * INR N + 1) * legP N (niter N i (gl_guess N j))) by exact (d_unique _ _ _ _ Hd (qpol_derive N _ ltac:(lia))).
    rewrite Ed. pose proof (pos_INR N) as HN0. apply Rmult_integral_contrapositive_currified; [lra|].
    apply (iter_slope N z j ltac:(lia) L Z0 Z1 I H1 H2).
Qed.
(** the points are strictly increasing, at least 1.5 / (n - 1/2)^2 apart *)
Theorem C56_ordered n p w pf i j : gl_points_weights n = Ok (p, w) -> vec_is p n pf -> (i < j)%nat -> (j < n)%nat ->
  3 / 2 / (INR n - 1 / 2) ^ 2 < pf j - pf i.
Proof.
  intros E P Hij Hj. destruct (points_are n p w pf E P) as (Hn & Ep). destruct (rule_nodes_exist (n - 1) ltac:(lia)) as (z & Hz).
  pose proof (rule_incr _ _ Hz) as I. destruct Hz as (L & Z0 & Z1 & _). rewrite !Ep by lia.
  pose proof (gpoint_far (n - 1) z ltac:(lia) L Z0 Z1 I i j Hij ltac:(lia)) as G. unfold gmin, M in G. rewrite minus_INR in G by lia. simpl (INR 1) in G.
  replace ((INR n - 1 / 2) ^ 2) with ((INR n - 1 + 1 / 2) * (INR n - 1 + 1 / 2)) by field. exact G.
Qed.
Lemma eps_le n : (2 <= n)%nat -> 0 <= eps (n - 1) <= INR n ^ 2 / 2000000000.
Proof.
  intros Hn. unfold eps, M. rewrite minus_INR by lia. simpl (INR 1). assert (2 <= INR n) by (replace 2 with (INR 2) by (simpl; lra); apply le_INR; auto).
  split; [|nra]. apply Rmult_le_pos; [|lra]. apply Rmult_le_pos; [|lra]. apply Rmult_le_pos; lra.
Qed.
(** third-order accuracy of the points, sixth-order accuracy of the weights *)
Theorem C56_sharp n p w pf wf z i : gl_points_weights n = Ok (p, w) -> vec_is p n pf -> vec_is w n wf -> rule_nodes (n - 1) z -> (i < n)%nat ->
  let e := INR n ^ 2 / 2000000000 in e <= 1 / 10 ->
  Rabs (pf i - z i) <= e ^ 3 /\ 0 <= wf i - lob_weight (n - 1) (z i) <= e ^ 6 * lob_weight (n - 1) (z i).
Proof.
  intros E P W Hz Hi e He. destruct (points_are n p w pf E P) as (Hn & Ep). pose proof (eps_le n Hn) as [E0 E1]. fold e in E1.
  rewrite (C39_weights n p w pf wf i E P W Hi). rewrite Ep by auto.
  destruct (lobatto_weights (n - 1) z ltac:(lia) (proj1 Hz)) as (Wz & _). specialize (Wz i ltac:(lia)) as (_ & Wp).
  pose proof (rule_incr _ _ Hz) as I. destruct Hz as (L & Z0 & Z1 & _). split.
  - apply (Rle_trans _ (eps (n - 1) ^ 3)); [apply gpoint_sharp; auto; lia || lra|]. apply pow_incr; lra.
  - pose proof (gweight_sharp (n - 1) z ltac:(lia) L Z0 Z1 I i ltac:(lia) ltac:(lra)) as [A B]. split; [exact A|]. apply (Rle_trans _ _ _ B). apply Rmult_le_compat_r; [lra|]. apply pow_incr; lra.
Qed.
(** ten points: nodes within 2e-22, weights within a relative 2e-44 *)
Example C56_sharp_case : exists p w pf wf z, gl_points_weights (T := R) 10 = Ok (p, w) /\ vec_is p 10 pf /\ vec_is w 10 wf /\ rule_nodes 9 z /\
  INR 10 ^ 2 / 2000000000 <= 1 / 10 /\ Rabs (pf 3%nat - z 3%nat) <= (1 / 20000000) ^ 3 /\ pf 3%nat < pf 4%nat.
Proof.
  destruct (gl_ok (T := R) 10 ltac:(lia)) as (p & w & E & P & W). destruct (rule_nodes_exist 9 ltac:(lia)) as (z & Hz).
  exists p, w, (gpoint 9), (gwf2 9), z. split; [exact E|]. split; [exact P|]. split; [exact W|]. split; [exact Hz|].
  assert (E10 : INR 10 = 10) by (simpl; lra). rewrite E10. split; [lra|]. split.
  - destruct (C56_sharp 10 p w _ _ z 3 E P W Hz ltac:(lia)) as [A _]; [rewrite E10; lra|]. rewrite E10 in A. replace (10 ^ 2 / 2000000000) with (1 / 20000000) in A by field. exact A.
  - pose proof (C56_ordered 10 p w _ 3 4 E P ltac:(lia) ltac:(lia)) as A. rewrite E10 in A. assert (0 < 3 / 2 / (10 - 1 / 2) ^ 2) by lra. simpl (10 - 1)%nat in *. lra.
Qed.
