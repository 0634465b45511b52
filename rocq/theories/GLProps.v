(** C38-C40: Gauss-Lobatto points and weights. *)
From Coquelicot Require Import Coquelicot.
From Coq Require Import List Arith Lia Bool ZArith Reals Lra.
From Verif Require Import Num Outcome LinAlg RSum RDeriv LegendreSpec LegendreMath LegendreModel ToolsModel GSplineModel GLModel GLSpec GLProofs GLProofs2.
Import ListNotations.

Lemma gl_iters_100 : gl_iters = 100%nat.
Proof. reflexivity. Qed.
Lemma gX_run N j : gX (T := R) N j = gn gl_iters N (gl_guess N j).
Proof. reflexivity. Qed.
Local Opaque gX gl_iters.
Section Any.
Context {T : Type} `{HN : Num T}.
Local Open Scope nat_scope.
Local Open Scope num_scope.

(** C38: every cell is written; ends, symmetry and the middle are exact in any arithmetic. *)
Theorem C38_structure n : (2 <= n)%nat -> exists p w pf wf,
  gl_points_weights n = Ok (p, w) /\ vec_is p n pf /\ vec_is w n wf /\
  pf 0%nat = - n1 /\ pf (n - 1)%nat = n1 /\
  (forall j, (1 <= j)%nat -> (2 * j < n - 1)%nat -> pf (n - 1 - j)%nat = - pf j) /\
  ((n - 1) mod 2 = 0 -> pf ((n - 1) / 2)%nat = n0)%nat /\
  (forall j, (j < n)%nat -> wf (n - 1 - j)%nat = wf j).
Proof.
  intros Hn. destruct (gl_ok n Hn) as (p & w & E & P & W). exists p, w, (gpoint (n - 1)), (gwf2 (n - 1)).
  split; [exact E|]. split; [exact P|]. split; [exact W|]. unfold gwf2, gpoint, gweight.
  split; [reflexivity|]. split; [|split; [|split]].
  - destruct (Nat.eqb_spec (n - 1) 0); [lia|]. rewrite Nat.eqb_refl. reflexivity.
  - intros j H1 H2.
    repeat match goal with
    | |- context [Nat.eqb ?a ?b] => destruct (Nat.eqb_spec a b); try lia
    | |- context [Nat.ltb ?a ?b] => destruct (Nat.ltb_spec a b); try lia end.
    replace (n - 1 - (n - 1 - j))%nat with j by lia. reflexivity.
  - intros Ev. assert (D : (n - 1 = 2 * ((n - 1) / 2) + (n - 1) mod 2)%nat) by (apply Nat.div_mod; lia).
    repeat match goal with
    | |- context [Nat.eqb ?a ?b] => destruct (Nat.eqb_spec a b); try lia
    | |- context [Nat.ltb ?a ?b] => destruct (Nat.ltb_spec a b); try lia end. reflexivity.
  - intros j Hj. replace (n - 1 - (n - 1 - j))%nat with j by lia.
    repeat match goal with
    | |- context [Nat.eqb ?a ?b] => destruct (Nat.eqb_spec a b); try lia
    | |- context [Nat.ltb ?a ?b] => destruct (Nat.ltb_spec a b); try lia end; try reflexivity; exfalso; lia.
Qed.
(** fewer than two points: an uninitialised local is read (n = 1) or a store is out of bounds (n = 0) *)
Theorem C38_small_refuted n : (n < 2)%nat -> gl_points_weights (T := T) n = UB.
Proof. exact (gl_ub n). Qed.
End Any.

Local Open Scope R_scope.

(** the five-point rule over the reals *)
Example C38_case : exists p w pf wf, gl_points_weights (T := R) 5 = Ok (p, w) /\ vec_is p 5 pf /\ vec_is w 5 wf /\
  pf 0%nat = -1 /\ pf 4%nat = 1 /\ pf 2%nat = 0 /\ pf 3%nat = - pf 1%nat /\ wf 3%nat = wf 1%nat.
Proof.
  destruct (C38_structure (T := R) 5 ltac:(lia)) as (p & w & pf & wf & E & P & W & A & B & C & D & F).
  exists p, w, pf, wf. split; [exact E|]. split; [exact P|]. split; [exact W|]. split; [rewrite A; cbn; ring|]. split; [exact B|].
  split; [exact (D eq_refl)|]. split; [exact (C 1%nat ltac:(lia) ltac:(lia))|exact (F 1%nat ltac:(lia))].
Qed.

(** C39: what the auxiliary routine returns, for every degree and every t *)
Theorem C39_evaluation N t : (2 <= N)%nat -> exists q qp l,
  q_and_evaluation t N = Ok (q, qp, l) /\
  q = lob_q N t /\ is_derive (lob_q N) t qp /\ l = legP N t /\
  q = - ((2 * INR N + 1) / (INR N * (INR N + 1))) * lobatto N t.
Proof.
  intros HN. rewrite qe_ok by auto. rewrite qe_leg by lia. do 3 eexists. split; [reflexivity|].
  split; [reflexivity|]. split; [|split; [reflexivity|]].
  - unfold lob_q. apply d_minus; apply legP_derive.
  - fold (qpol N t). rewrite qpol_factor by lia. unfold lobatto. rewrite (is_derive_unique _ _ _ (legP_derive N t)). reflexivity.
Qed.
Example C39_evaluation_case : exists q qp l, q_and_evaluation (1 / 2) 3 = Ok (q, qp, l) /\ q = - (7 / 12) * (3 / 4 * (3 / 8)) /\ l = - (7 / 16).
Proof.
  destruct (C39_evaluation 3 (1 / 2) ltac:(lia)) as (q & qp & l & E & Q1 & _ & L & Q2). exists q, qp, l. split; [exact E|].
  assert (P2 : forall x, legP 2 x = (3 * x * x - 1) / 2) by (intros x; rewrite legP_SS, legP_1, legP_0; simpl; field).
  assert (P3 : forall x, legP 3 x = (5 * x * x * x - 3 * x) / 2) by (intros x; rewrite legP_SS, P2, legP_1; simpl; field).
  assert (P4 : forall x, legP 4 x = (35 * x * x * x * x - 30 * x * x + 3) / 8) by (intros x; rewrite legP_SS, P3, P2; simpl; field).
  split; [|rewrite L, P3; field]. rewrite Q1. unfold lob_q. simpl Nat.sub. rewrite P4, P2. field.
Qed.

(** the iterates are Newton's for q, started at the usual guess; at most 100 steps, stopped exactly
    when a step is below 1e-9 relative *)
Theorem C39_newton n p w pf j : gl_points_weights n = Ok (p, w) -> vec_is p n pf ->
  (1 <= j)%nat -> (2 * j < n - 1)%nat -> let N := (n - 1)%nat in
  exists s k, (k <= 100)%nat /\ pf j = s k /\
    s 0%nat = - cos ((INR j + 1 / 4) * PI / INR N - 3 / (8 * INR N * PI) * (1 / (INR j + 1 / 4))) /\
    newton_run (lob_q N) s k /\
    (forall i, (S i < k)%nat -> ~ small_step s i) /\
    (k = 100%nat \/ exists m, k = S m /\ small_step s m).
Proof.
  intros E P H1 H2 N. destruct (gl_ok (T := R) n ltac:(lia)) as (p' & w' & E' & P' & _).
  rewrite E in E'. injection E' as <- <-.
  assert (Ep : pf j = gX N j).
  { destruct P as [_ G]. destruct P' as [_ G']. specialize (G j ltac:(lia)). specialize (G' j ltac:(lia)).
    rewrite G in G'. injection G' as ->. unfold gpoint.
    fold N in H2 |- *. destruct (Nat.eqb_spec j 0); [lia|]. destruct (Nat.eqb_spec j N); [lia|]. destruct (Nat.ltb_spec (2 * j) N); [reflexivity|lia]. }
  rewrite Ep, gX_run. destruct (gn_run N gl_iters ltac:(lia) (gl_guess N j)) as (k & Hk & Ek & S1 & S2).
  assert (T9 : / 10 ^ 9 = 1 / 1000000000) by (simpl; field).
  rewrite gl_iters_100 in *. exists (fun i => niter N i (gl_guess N j)), k. split; [exact Hk|]. split; [exact Ek|]. split.
  { cbn [niter]. unfold gl_guess. rewrite !nofnat_INR. reflexivity. }
  split; [|split].
  - intros i Hi. exists ((2 * INR N + 1) * legP N (niter N i (gl_guess N j))). split; [apply (qpol_derive N); lia|].
    rewrite niter_last. reflexivity.
  - intros i Hi. unfold small_step. rewrite <- T9. apply S1. exact Hi.
  - destruct S2 as [->|(m & -> & Hm)]; [left; reflexivity|right]. exists m. split; auto. unfold small_step. rewrite <- T9. exact Hm.
Qed.
Example C39_newton_case : exists p w pf s k, gl_points_weights (T := R) 4 = Ok (p, w) /\ vec_is p 4 pf /\ (k <= 100)%nat /\ pf 1%nat = s k /\
  newton_run (lob_q 3) s k.
Proof.
  destruct (gl_ok (T := R) 4 ltac:(lia)) as (p & w & E & P & _).
  destruct (C39_newton 4 p w _ 1 E P ltac:(lia) ltac:(lia)) as (s & k & Hk & Ek & _ & Hr & _).
  exists p, w, (gpoint 3), s, k. auto.
Qed.
(** a number is left unchanged by the iteration exactly when it is a node *)
Theorem C39_fixed_points N x d : (2 <= N)%nat -> is_derive (lob_q N) x d -> d <> 0 ->
  (x - lob_q N x / d = x <-> lobatto N x = 0).
Proof.
  intros HN Hd Nz. assert (Ed : d = (2 * INR N + 1) * legP N x) by exact (d_unique _ _ _ _ Hd (qpol_derive N x ltac:(lia))).
  assert (legP N x <> 0) by (intros Z; apply Nz; rewrite Ed, Z; apply Rmult_0_r).
  subst d. unfold lobatto. rewrite (is_derive_unique _ _ _ (legP_derive N x)). apply (legP_fixed N x); auto. lia.
Qed.
Example C39_fixed_points_case : exists d, is_derive (lob_q 3) (/ sqrt 5) d /\ d <> 0 /\ / sqrt 5 - lob_q 3 (/ sqrt 5) / d = / sqrt 5.
Proof.
  assert (S5 : / sqrt 5 * / sqrt 5 = / 5) by (rewrite <- Rinv_mult; f_equal; apply sqrt_sqrt; lra).
  assert (Sp : 0 < / sqrt 5) by (apply Rinv_0_lt_compat, sqrt_lt_R0; lra).
  assert (P2 : forall x, legP 2 x = (3 * x * x - 1) / 2) by (intros x; rewrite legP_SS, legP_1, legP_0; simpl; field).
  assert (P3 : forall x, legP 3 x = (5 * x * x * x - 3 * x) / 2) by (intros x; rewrite legP_SS, P2, legP_1; simpl; field).
  assert (P4 : forall x, legP 4 x = (35 * x * x * x * x - 30 * x * x + 3) / 8) by (intros x; rewrite legP_SS, P3, P2; simpl; field).
  assert (Q : lob_q 3 (/ sqrt 5) = 0).
  { unfold lob_q. simpl Nat.sub. rewrite P4, P2. set (r := / sqrt 5) in *.
    replace (35 * r * r * r * r) with (35 * (r * r) * (r * r)) by ring. replace (30 * r * r) with (30 * (r * r)) by ring. replace (3 * r * r) with (3 * (r * r)) by ring.
    rewrite S5. field. }
  exists ((2 * INR 3 + 1) * legP 3 (/ sqrt 5)). split; [exact (qpol_derive 3 _ ltac:(lia))|]. split.
  - rewrite P3. set (r := / sqrt 5) in *. replace (5 * r * r * r) with (5 * (r * r) * r) by ring. rewrite S5.
    apply Rmult_integral_contrapositive_currified; simpl; [lra|]. intros Z. assert (r = 0) by lra. lra.
  - rewrite Q. unfold Rdiv. ring.
Qed.
(** weights as functions of the computed points *)
Theorem C39_weights n p w pf wf i : gl_points_weights n = Ok (p, w) -> vec_is p n pf -> vec_is w n wf -> (i < n)%nat ->
  wf i = lob_weight (n - 1) (pf i).
Proof.
  intros E P W Hi. assert (Hn : (2 <= n)%nat).
  { destruct (le_lt_dec 2 n); auto. rewrite gl_ub in E by auto. discriminate. }
  destruct (gl_ok (T := R) n Hn) as (p' & w' & E' & P' & W'). rewrite E in E'. injection E' as <- <-.
  destruct P as [_ P]. destruct P' as [_ P']. destruct W as [_ W]. destruct W' as [_ W'].
  pose proof (P i Hi) as A. rewrite (P' i Hi) in A. injection A as <-. pose proof (W i Hi) as B. rewrite (W' i Hi) in B. injection B as <-.
  apply gwf2_R; lia.
Qed.
(** a node found before the 100 iterations are used up (C39_newton) is, up to a relative 1e-9, a point where the defining polynomial is small *)
Theorem C39_residual N s k : (2 <= N)%nat -> newton_run (lob_q N) s (S k) -> small_step s k -> legP N (s k) <> 0 ->
  Rabs (s (S k) - s k) < 1 / 1000000000 * Rabs (s (S k)) /\
  Rabs (lobatto N (s k)) < INR N * (INR N + 1) * Rabs (legP N (s k)) * (1 / 1000000000 * Rabs (s (S k))).
Proof.
  intros H2 Run Sm Nz. unfold small_step in Sm. split; [exact Sm|].
  destruct (Run k (le_n (S k))) as (d & Hd & Ek). assert (Ed : d = (2 * INR N + 1) * legP N (s k)) by exact (d_unique _ _ _ _ Hd (qpol_derive N (s k) ltac:(lia))).
  assert (Q : lob_q N (s k) = - ((2 * INR N + 1) / (INR N * (INR N + 1))) * lobatto N (s k)).
  { change (lob_q N (s k)) with (qpol N (s k)). rewrite qpol_factor by lia. unfold lobatto. rewrite (is_derive_unique _ _ _ (legP_derive N (s k))). reflexivity. }
  assert (HN : 0 < INR N) by (apply lt_0_INR; lia).
  assert (Lo : lobatto N (s k) = INR N * (INR N + 1) * legP N (s k) * (s (S k) - s k)).
  { rewrite Q, Ed in Ek. rewrite Ek. field. repeat split; auto; lra. }
  rewrite Lo, !Rabs_mult. rewrite (Rabs_pos_eq (INR N)), (Rabs_pos_eq (INR N + 1)) by lra.
  apply Rmult_lt_compat_l; [|exact Sm]. apply Rmult_lt_0_compat; [apply Rmult_lt_0_compat; lra|]. apply Rabs_pos_lt; auto.
Qed.
(** a small step of the iteration for four points, from 0.4472135955 *)
Example C39_residual_case : let x0 := 4472135955 / 10000000000 in exists d, is_derive (lob_q 3) x0 d /\ d <> 0 /\
  let s := fun i : nat => match i with O => x0 | _ => x0 - lob_q 3 x0 / d end in newton_run (lob_q 3) s 1 /\ small_step s 0 /\ legP 3 (s 0%nat) <> 0 /\ lob_q 3 x0 <> 0.
Proof.
  intros x0.
  assert (P2 : forall x, legP 2 x = (3 * x * x - 1) / 2) by (intros x; rewrite legP_SS, legP_1, legP_0; simpl; field).
  assert (P3 : forall x, legP 3 x = (5 * x * x * x - 3 * x) / 2) by (intros x; rewrite legP_SS, P2, legP_1; simpl; field).
  assert (P4 : forall x, legP 4 x = (35 * x * x * x * x - 30 * x * x + 3) / 8) by (intros x; rewrite legP_SS, P3, P2; simpl; field).
  exists ((2 * INR 3 + 1) * legP 3 x0). assert (D : is_derive (lob_q 3) x0 ((2 * INR 3 + 1) * legP 3 x0)) by (apply (qpol_derive 3); lia).
  assert (Z : legP 3 x0 <> 0) by (rewrite P3; unfold x0; lra). assert (E7 : 2 * INR 3 + 1 = 7) by (simpl; lra).
  assert (Q : lob_q 3 x0 = 35 / 8 * (x0 * x0 - 1) * (x0 * x0 - / 5)) by (unfold lob_q; simpl Nat.sub; rewrite P4, P2; field).
  split; [exact D|]. split; [apply Rmult_integral_contrapositive_currified; [lra|exact Z]|]. split.
  - intros i Hi. replace i with 0%nat by lia. eexists. split; [exact D|reflexivity].
  - split; [|split; [exact Z|rewrite Q; unfold x0; lra]]. unfold small_step. cbv beta iota.
    assert (B : Rabs (lob_q 3 x0 / ((2 * INR 3 + 1) * legP 3 x0)) < 1 / 10000000000).
    { rewrite E7, P3, Q. apply Rabs_def1; unfold x0; lra. }
    replace (x0 - lob_q 3 x0 / ((2 * INR 3 + 1) * legP 3 x0) - x0) with (- (lob_q 3 x0 / ((2 * INR 3 + 1) * legP 3 x0))) by ring. rewrite Rabs_Ropp.
    set (y := lob_q 3 x0 / ((2 * INR 3 + 1) * legP 3 x0)) in *. apply Rabs_def2 in B as B'. rewrite (Rabs_right (x0 - y)); unfold x0; lra.
Qed.
(** the two- and three-point rules are exact *)
Theorem C39_exact_small : exists p2 w2 p3 w3,
  gl_points_weights 2 = Ok (p2, w2) /\ vec_is p2 2 (fun i => nth i [-1; 1] 0) /\ vec_is w2 2 (fun _ => 1) /\
  gl_points_weights 3 = Ok (p3, w3) /\ vec_is p3 3 (fun i => nth i [-1; 0; 1] 0) /\ vec_is w3 3 (fun i => nth i [/ 3; 4 / 3; / 3] 0).
Proof.
  destruct (gl_ok (T := R) 2 ltac:(lia)) as (p2 & w2 & E2 & P2 & W2). destruct (gl_ok (T := R) 3 ltac:(lia)) as (p3 & w3 & E3 & P3 & W3).
  exists p2, w2, p3, w3. split; [exact E2|]. split.
  { apply (vec_is_ext _ _ _ _ P2). intros [|[|i]] Hi; try lia; cbn; reflexivity || ring. }
  split. { apply (vec_is_ext _ _ _ _ W2). intros [|[|i]] Hi; try lia; reflexivity. }
  split; [exact E3|]. destruct gpoint_3 as (A & B & C). destruct gweight_3 as (D & F & G). split.
  { apply (vec_is_ext _ _ _ _ P3). intros [|[|[|i]]] Hi; try lia; [exact A|exact B|exact C]. }
  apply (vec_is_ext _ _ _ _ W3). intros [|[|[|i]]] Hi; try lia; [exact D|exact F|exact G].
Qed.

(** C40: uniform subdivision of [a,b] into n parts with d points each *)
Theorem C40_points a b d n p pf : (2 <= d)%nat -> (1 <= n)%nat -> gl_points d = Ok p -> vec_is p d pf ->
  exists r, gl_grid_points a b d n = Ok r /\ vlen r = (d * n)%nat /\
  let len := (b - a) / INR n in
  let left iv := a + INR iv * len in
  (forall iv j, (iv < n)%nat -> (j < d)%nat -> vget r (iv * d + j) = Some (on_interval (left iv) len (pf j))) /\
  (forall iv, (iv < n)%nat -> vget r (iv * d) = Some (left iv) /\ vget r (iv * d + (d - 1)) = Some (left (S iv))) /\
  left 0%nat = a /\ left n = b.
Proof.
  intros Hd Hn E P. destruct (gl_points_ok (T := R) d Hd) as (p' & E' & P'). rewrite E in E'. injection E' as <-.
  assert (Ep : forall j, (j < d)%nat -> gpoint (d - 1) j = pf j).
  { intros j Hj. destruct P as [_ P]. destruct P' as [_ P']. pose proof (P j Hj) as A. rewrite (P' j Hj) in A. injection A as <-. reflexivity. }
  destruct (grid_points_ok a b d n Hd) as (r & Er & Lr & Gr). exists r. split; [exact Er|]. split; [exact Lr|]. cbn zeta.
  assert (Hn0 : INR n <> 0) by (apply not_0_INR; lia).
  assert (G : forall iv j, (iv < n)%nat -> (j < d)%nat -> vget r (iv * d + j) = Some (on_interval (a + INR iv * ((b - a) / INR n)) ((b - a) / INR n) (pf j))).
  { intros iv j Hiv Hj. rewrite Gr by auto. f_equal. rewrite Ep by auto. rewrite !nofnat_INR. unfold on_interval, c2. cbn. field. exact Hn0. }
  assert (G0 : pf 0%nat = -1) by (rewrite <- Ep by lia; unfold gpoint; cbn; ring).
  assert (G1 : pf (d - 1)%nat = 1).
  { rewrite <- Ep by lia. unfold gpoint. destruct (Nat.eqb_spec (d - 1) 0); [lia|]. rewrite Nat.eqb_refl. reflexivity. }
  split; [exact G|]. split.
  - intros iv Hiv. split.
    + replace (iv * d)%nat with (iv * d + 0)%nat by lia. rewrite G by lia. f_equal. rewrite G0. unfold on_interval. field. exact Hn0.
    + rewrite G by lia. f_equal. rewrite G1, S_INR. unfold on_interval. field. exact Hn0.
  - split; [simpl; ring|]. field. exact Hn0.
Qed.
Example C40_points_case : exists r, gl_grid_points (T := R) 0 4 3 2 = Ok r /\ vget r 1 = Some 1 /\ vget r 2 = Some 2 /\ vget r 3 = Some 2 /\ vget r 5 = Some 4.
Proof.
  destruct (gl_points_ok (T := R) 3 ltac:(lia)) as (p & E & P).
  destruct (C40_points 0 4 3 2 p _ ltac:(lia) ltac:(lia) E P) as (r & Er & _ & G & F & _).
  destruct gpoint_3 as (_ & B & _). exists r. split; [exact Er|].
  split. { change (vget r 1) with (vget r (0 * 3 + 1)). rewrite (G 0%nat 1%nat) by lia. f_equal. simpl (3 - 1)%nat. rewrite B. unfold on_interval. simpl. field. }
  destruct (F 0%nat ltac:(lia)) as [_ F1]. destruct (F 1%nat ltac:(lia)) as [F2 F3].
  split; [etransitivity; [exact F1|]; f_equal; simpl; field|]. split; etransitivity; [exact F2| |exact F3|]; f_equal; simpl; field.
Qed.
Theorem C40_weights a b d n w wf : (2 <= d)%nat -> (1 <= n)%nat -> gl_weights d = Ok w -> vec_is w d wf ->
  exists r rf, gl_grid_weights a b d n = Ok r /\ vec_is r (n * d) rf /\
  (forall iv j, (iv < n)%nat -> (j < d)%nat -> rf (iv * d + j)%nat = wf j * ((b - a) / INR n / 2)) /\
  (Rsum d wf = 2 -> Rsum (n * d) rf = b - a).
Proof.
  intros Hd Hn E P. destruct (gl_weights_ok (T := R) d Hd) as (p' & E' & P'). rewrite E in E'. injection E' as <-.
  assert (Ep : forall j, (j < d)%nat -> gwf2 (d - 1) j = wf j).
  { intros j Hj. destruct P as [_ P]. destruct P' as [_ P']. pose proof (P j Hj) as A. rewrite (P' j Hj) in A. injection A as <-. reflexivity. }
  assert (Hn0 : INR n <> 0) by (apply not_0_INR; lia).
  destruct (grid_weights_ok a b d n Hd) as (r & Er & Lr & Gr). exists r, (fun k => wf (k mod d)%nat * ((b - a) / INR n / 2)).
  assert (M : forall iv j, (j < d)%nat -> ((iv * d + j) mod d = j)%nat).
  { intros iv j Hj. rewrite Nat.add_comm, Nat.mod_add by lia. apply Nat.mod_small. exact Hj. }
  split; [exact Er|]. split; [split; [rewrite Lr; lia|]|split].
  - intros k Hk. assert (D : (k = (k / d) * d + k mod d)%nat) by (rewrite (Nat.div_mod k d) at 1 by lia; lia).
    assert (k mod d < d)%nat by (apply Nat.mod_upper_bound; lia). assert (k / d < n)%nat by (apply Nat.div_lt_upper_bound; lia).
    rewrite D at 1. rewrite Gr by auto. f_equal. rewrite Ep by auto. rewrite nofnat_INR. unfold c2. cbn. field. exact Hn0.
  - intros iv j Hiv Hj. rewrite M by auto. reflexivity.
  - intros S2. rewrite Rsum_mul. rewrite (Rsum_ext n _ (fun _ => (b - a) / INR n)).
    + rewrite Rsum_const. field. exact Hn0.
    + intros iv Hiv. rewrite (Rsum_ext d _ (fun j => wf j * ((b - a) / INR n / 2))) by (intros j Hj; rewrite M by auto; reflexivity).
      rewrite Rsum_scal_r, S2. field. exact Hn0.
Qed.
Example C40_weights_case : exists r rf, gl_grid_weights (T := R) 1 7 3 2 = Ok r /\ vec_is r 6 rf /\ Rsum 6 rf = 6.
Proof.
  destruct (gl_weights_ok (T := R) 3 ltac:(lia)) as (w & E & P).
  destruct (C40_weights 1 7 3 2 w _ ltac:(lia) ltac:(lia) E P) as (r & rf & Er & V & _ & F). exists r, rf. split; [exact Er|]. split; [exact V|].
  change (2 * 3)%nat with 6%nat in F. rewrite F; [ring|]. destruct gweight_3 as (A & B & C). simpl (3 - 1)%nat. simpl. rewrite A, B, C. field.
Qed.

(** individual lengths: interval iv is placed at a + iv * tau_iv *)
Theorem C40_lengths_points a d taus n tf p pf : (2 <= d)%nat -> vec_is taus n tf -> gl_points d = Ok p -> vec_is p d pf ->
  exists r, gl_lens_points a d taus = Ok r /\ vlen r = (d * n)%nat /\
  (forall iv j, (iv < n)%nat -> (j < d)%nat -> vget r (iv * d + j) = Some (on_interval (a + INR iv * tf iv) (tf iv) (pf j))) /\
  ((forall iv j, (iv < n)%nat -> (j < d)%nat -> vget r (iv * d + j) = Some (on_interval (a + Rsum iv tf) (tf iv) (pf j))) <->
   (forall i j, (i < n)%nat -> (j < n)%nat -> tf i = tf j)).
Proof.
  intros Hd V E P. destruct (gl_points_ok (T := R) d Hd) as (p' & E' & P'). rewrite E in E'. injection E' as <-.
  assert (Ep : forall j, (j < d)%nat -> gpoint (d - 1) j = pf j).
  { intros j Hj. destruct P as [_ P]. destruct P' as [_ P']. pose proof (P j Hj) as A. rewrite (P' j Hj) in A. injection A as <-. reflexivity. }
  destruct (lens_points_ok a d taus n tf Hd V) as (r & Er & Lr & Gr). exists r. split; [exact Er|]. split; [exact Lr|].
  assert (G : forall iv j, (iv < n)%nat -> (j < d)%nat -> vget r (iv * d + j) = Some (on_interval (a + INR iv * tf iv) (tf iv) (pf j))).
  { intros iv j Hiv Hj. rewrite Gr by auto. f_equal. rewrite Ep by auto. rewrite !nofnat_INR. unfold on_interval, c2. cbn. field. }
  split; [exact G|]. rewrite <- lens_equal_iff. split.
  - intros A iv Hiv. specialize (A iv 0%nat Hiv ltac:(lia)). rewrite G in A by (auto; lia). injection A as A. unfold on_interval in A. lra.
  - intros A iv j Hiv Hj. rewrite G by auto. rewrite <- (A iv Hiv). reflexivity.
Qed.
(** lengths 1, 2: the second interval is placed at 2, not 1 *)
Theorem C40_lengths_refuted : exists r, gl_lens_points 0 2 (vec_of_list [1; 2]) = Ok r /\
  vget r 1 = Some 1 /\ vget r 2 = Some 2.
Proof.
  assert (V : vec_is (vec_of_list [1; 2]) 2 (fun i => nth i [1; 2] 0)) by (split; [reflexivity|intros [|[|i]] Hi; try lia; reflexivity]).
  destruct (gl_points_ok (T := R) 2 ltac:(lia)) as (p & E & P).
  destruct (C40_lengths_points 0 2 _ 2 _ p _ ltac:(lia) V E P) as (r & Er & _ & G & _). exists r. split; [exact Er|].
  split; etransitivity; [exact (G 0%nat 1%nat ltac:(lia) ltac:(lia))| |exact (G 1%nat 0%nat ltac:(lia) ltac:(lia))|]; f_equal; unfold on_interval, gpoint; cbn; field.
Qed.
Theorem C40_lengths_weights d taus n tf w wf : (2 <= d)%nat -> vec_is taus n tf -> gl_weights d = Ok w -> vec_is w d wf ->
  exists r rf, gl_lens_weights d taus = Ok r /\ vec_is r (n * d) rf /\
  (forall iv j, (iv < n)%nat -> (j < d)%nat -> rf (iv * d + j)%nat = wf j * (tf iv / 2)) /\
  (Rsum d wf = 2 -> Rsum (n * d) rf = Rsum n tf).
Proof.
  intros Hd V E P. destruct (gl_weights_ok (T := R) d Hd) as (p' & E' & P'). rewrite E in E'. injection E' as <-.
  assert (Ep : forall j, (j < d)%nat -> gwf2 (d - 1) j = wf j).
  { intros j Hj. destruct P as [_ P]. destruct P' as [_ P']. pose proof (P j Hj) as A. rewrite (P' j Hj) in A. injection A as <-. reflexivity. }
  destruct (lens_weights_ok d taus n tf Hd V) as (r & Er & Lr & Gr). exists r, (fun k => wf (k mod d)%nat * (tf (k / d)%nat / 2)).
  assert (M : forall iv j, (j < d)%nat -> ((iv * d + j) mod d = j)%nat).
  { intros iv j Hj. rewrite Nat.add_comm, Nat.mod_add by lia. apply Nat.mod_small. exact Hj. }
  assert (Q : forall iv j, (j < d)%nat -> ((iv * d + j) / d = iv)%nat).
  { intros iv j Hj. rewrite Nat.add_comm, Nat.div_add by lia. rewrite Nat.div_small by exact Hj. lia. }
  split; [exact Er|]. split; [split; [rewrite Lr; lia|]|split].
  - intros k Hk. assert (D : (k = (k / d) * d + k mod d)%nat) by (rewrite (Nat.div_mod k d) at 1 by lia; lia).
    assert (k mod d < d)%nat by (apply Nat.mod_upper_bound; lia). assert (k / d < n)%nat by (apply Nat.div_lt_upper_bound; lia).
    rewrite D at 1. rewrite Gr by auto. f_equal. rewrite Ep by auto. unfold c2. cbn. field.
  - intros iv j Hiv Hj. rewrite M, Q by auto. reflexivity.
  - intros S2. rewrite Rsum_mul. apply Rsum_ext. intros iv Hiv.
    rewrite (Rsum_ext d _ (fun j => wf j * (tf iv / 2))) by (intros j Hj; rewrite M, Q by auto; reflexivity).
    rewrite Rsum_scal_r, S2. field.
Qed.
Example C40_lengths_weights_case : exists r rf, gl_lens_weights (T := R) 3 (vec_of_list [1; 5]) = Ok r /\ vec_is r 6 rf /\ Rsum 6 rf = 6.
Proof.
  assert (V : vec_is (vec_of_list [1; 5]) 2 (fun i => nth i [1; 5] 0)) by (split; [reflexivity|intros [|[|i]] Hi; try lia; reflexivity]).
  destruct (gl_weights_ok (T := R) 3 ltac:(lia)) as (w & E & P).
  destruct (C40_lengths_weights 3 _ 2 _ w _ ltac:(lia) V E P) as (r & rf & Er & Vr & _ & F). exists r, rf. split; [exact Er|]. split; [exact Vr|].
  change (2 * 3)%nat with 6%nat in F. rewrite F; [simpl; ring|]. destruct gweight_3 as (A & B & C). simpl (3 - 1)%nat. simpl. rewrite A, B, C. field.
Qed.
