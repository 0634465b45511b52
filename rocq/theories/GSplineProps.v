(** Splines. *)
From Coquelicot Require Import Coquelicot.
From Coq Require Import List Arith Lia Bool ZArith Reals Lra.
From Verif Require Import Num Outcome LinAlg RSum LegendreSpec Basis0101Spec BasisModel SplineSpec BasisFn
  ToolsModel GSplineModel GSplineProofs GSplineProofs2 GSplineProofs3 GSplineProofs4 GSplineProofs5 GSplineProofs6.
Import ListNotations.
Local Open Scope R_scope.

(** the spline of the examples: two components, two intervals *)
Lemma ex_spline : exists g, rep g (DLeg 3) 2 2 1 4 (fun i => nth i [1; 2] 0) (fun i => nth i [1; 2; 3; 0; -1; 0; 2; 0; 1; 5; 5; 5] 0) /\
  forall i, (i < 2)%nat -> 0 < nth i [1; 2] 0.
Proof.
  destruct (leg_spline 3 (1, 4) 2 [1; 2] [1; 2; 3; 0; -1; 0; 2; 0; 1; 5; 5; 5]) as (b & s & g & _ & _ & R & _); [lia|reflexivity|].
  exists g. split; [exact R|]. intros [|[|i]] Hi; cbn; try lra; lia.
Qed.

(** ** C25: memory safety, in any arithmetic *)
Theorem C25_safe : forall T (HN : Num T) (g : gspline T) n codom tf cf pts pf np, gwf g n codom tf cf -> (1 <= n)%nat -> vec_is pts np pf ->
  (exists m F, gs_value g pts = Ok m /\ mat_is m np codom F) /\
  (forall t, exists iv, get_interval g t = Ok iv /\ (iv < n)%nat) /\
  (exists w F, gs_waypoints g = Ok w /\ mat_is w (S n) codom F) /\
  (exists p F, gs_breakpoints g = Ok p /\ vec_is p (S n) F).
Proof.
  intros T HN g n codom tf cf pts pf np W Hn V. split; [|split; [|split]].
  - destruct (value_gen g n codom tf cf pts pf np W Hn V) as (m & E & M). eauto.
  - intros t. eexists. split; [apply (get_interval_gen g n codom tf cf t W Hn)|]. apply gint_bound. exact Hn.
  - destruct (waypoints_gen g n codom tf cf W Hn) as (m & E & M). eauto.
  - destruct (breakpoints_gen g n codom tf cf W) as (v & E & M). eauto.
Qed.
Theorem C25_no_interval : forall T (HN : Num T) (g : gspline T) pts pf np, gs_n g = 0%nat -> vec_is pts np pf -> (1 <= np)%nat ->
  gs_value g pts = UB.
Proof. intros T HN g pts pf np N V Hp. unfold gs_value. rewrite (value_none g pts pf np) by auto. reflexivity. Qed.
(** negative interval lengths included *)
Example C25_ex : exists g : gspline R, gwf g 2 1 (fun i => nth i [-1; 2] 0) (fun i => nth i [1; 2; 3; 4] 0) /\
  vec_is (vec_of_list [7; -7]) 2 (fun i => nth i [7; -7] 0).
Proof.
  destruct (leg_spline 2 (1, 4) 1 [-1; 2] [1; 2; 3; 4]) as (b & s & g & _ & _ & R & _); [lia|reflexivity|].
  exists g. split; [apply (rep_gwf _ _ _ _ _ _ _ _ R)|]. apply (vec_of_list_is [7; -7]).
Qed.

(** ** C26: values *)
Theorem C26_value : forall g d n codom t0 t1 tf cf pts pf np, rep g d n codom t0 t1 tf cf -> (1 <= n)%nat ->
  (forall k, (k < n)%nat -> 0 < tf k) -> vec_is pts np pf -> (forall i, (i < np)%nat -> exact_pt d (wpos t0 tf n (pf i))) ->
  exists m, gs_value g pts = Ok m /\ mat_is m np codom (fun i cc => sfun d codom n t0 tf cf cc (pf i)).
Proof. exact value_R. Qed.
Theorem C26_interval : forall t0 tf n t, (1 <= n)%nat -> (forall k, (k < n)%nat -> 0 < tf k) ->
  in_iv t0 tf n t (locate t0 tf n t) /\ (forall iv, in_iv t0 tf n t iv -> iv = locate t0 tf n t) /\
  (t <= t0 -> locate t0 tf n t = 0%nat) /\ (bp t0 tf n < t -> locate t0 tf n t = (n - 1)%nat).
Proof.
  intros t0 tf n t Hn P. pose proof (locate_in t0 tf n t Hn P) as L. split; auto. split.
  - intros iv X. eapply in_iv_unique; eauto.
  - split; intros X; (eapply in_iv_unique; [exact P|exact L|]); (split; [lia|]); split; auto.
    + right. apply Rle_trans with t0; auto. rewrite <- (Rplus_0_r t0) at 1. apply (bp_mono t0 tf n 0 1 P); lia.
    + right. eapply Rle_lt_trans; [|exact X]. apply (bp_mono t0 tf n); auto; lia.
Qed.
Theorem C26_window : forall t0 tf n t, (1 <= n)%nat -> (forall k, (k < n)%nat -> 0 < tf k) ->
  (t0 <= t <= bp t0 tf n -> -1 <= wpos t0 tf n t <= 1) /\
  (forall iv, (iv < n)%nat -> window (bp t0 tf iv) (tf iv) (bp t0 tf iv) = -1 /\ window (bp t0 tf iv) (tf iv) (bp t0 tf (S iv)) = 1).
Proof.
  intros t0 tf n t Hn P. split; [apply wpos_range; auto|]. intros iv Hi. specialize (P iv Hi). unfold window, bp. cbn [Rsum]. split; field; lra.
Qed.
Theorem C26_breakpoints : forall g d n codom t0 t1 tf cf, rep g d n codom t0 t1 tf cf ->
  exists v, gs_breakpoints g = Ok v /\ vec_is v (S n) (fun k => t0 + Rsum k tf).
Proof.
  intros g d n codom t0 t1 tf cf R. destruct (breakpoints_gen g n codom tf cf (rep_gwf _ _ _ _ _ _ _ _ R)) as (v & E & V).
  exists v. split; auto. eapply vec_is_ext; [exact V|]. intros i _. rewrite gbp_R. destruct R as (_ & -> & _). reflexivity.
Qed.
Theorem C26_waypoints : forall g d n codom t0 t1 tf cf, rep g d n codom t0 t1 tf cf -> (1 <= n)%nat -> (forall k, (k < n)%nat -> 0 < tf k) ->
  (forall i, (i <= n)%nat -> exact_pt d (wpos t0 tf n (bp t0 tf i))) ->
  exists m, gs_waypoints g = Ok m /\ mat_is m (S n) codom (fun i cc => sfun d codom n t0 tf cf cc (bp t0 tf i)).
Proof.
  intros g d n codom t0 t1 tf cf R Hn P X. pose proof R as (B & D & _).
  destruct (waypoints_gen g n codom tf cf (rep_gwf _ _ _ _ _ _ _ _ R) Hn) as (m & E & M). exists m. split; auto.
  eapply mat_is_ext; [exact M|]. intros i j Hi Hj. rewrite D, gbp_R. cbn [fst]. apply gpt_R; auto. apply X. lia.
Qed.
Example C26_ex : exists g pts, rep g (DLeg 3) 2 2 1 4 (fun i => nth i [1; 2] 0) (fun i => nth i [1; 2; 3; 0; -1; 0; 2; 0; 1; 5; 5; 5] 0) /\
  (forall k, (k < 2)%nat -> 0 < nth k [1; 2] 0) /\ vec_is pts 3 (fun i => nth i [3 / 2; 2; 3] 0) /\
  locate 1 (fun i => nth i [1; 2] 0) 2 (3 / 2) = 0%nat /\ locate 1 (fun i => nth i [1; 2] 0) 2 2 = 0%nat /\ locate 1 (fun i => nth i [1; 2] 0) 2 3 = 1%nat /\
  sfun (DLeg 3) 2 2 1 (fun i => nth i [1; 2] 0) (fun i => nth i [1; 2; 3; 0; -1; 0; 2; 0; 1; 5; 5; 5] 0) 0 3 = 3 / 2.
Proof.
  destruct ex_spline as (g & R & P). exists g, (vec_of_list [3 / 2; 2; 3]). split; [exact R|]. split; [exact P|]. split; [apply (vec_of_list_is [3 / 2; 2; 3])|].
  assert (L3 : locate 1 (fun i => nth i [1; 2] 0) 2 3 = 1%nat).
  { unfold locate, bp. cbn [before Nat.sub Rsum nth]. destruct Rlt_dec; [reflexivity|lra]. }
  split; [unfold locate, bp; cbn [before Nat.sub Rsum nth]; destruct Rlt_dec; [lra|reflexivity]|].
  split; [unfold locate, bp; cbn [before Nat.sub Rsum nth]; destruct Rlt_dec; [lra|reflexivity]|]. split; [exact L3|].
  unfold sfun. rewrite L3. unfold piece, tphi, phi, window, bp, legP. cbn [d_dim Rsum Nat.mul Nat.add nth leg2 fst INR]. field.
Qed.

(** ** C27: derivatives *)
Theorem C27_derivative : forall g d n codom t0 t1 tf cf k, rep g d n codom t0 t1 tf cf -> blk_ok d k -> (1 <= n)%nat ->
  (forall i, (i < n)%nat -> 0 < tf i) ->
  exists g' cf', gs_derivate g k = Ok g' /\ rep g' d n codom t0 t1 tf cf' /\
    forall pts pf np, vec_is pts np pf -> (forall i, (i < np)%nat -> exact_pt d (wpos t0 tf n (pf i)) /\ exists iv, inside t0 tf n (pf i) iv) ->
    exists m F, gs_value g' pts = Ok m /\ mat_is m np codom F /\
      forall i cc, (i < np)%nat -> (cc < codom)%nat -> is_derive_n (sfun d codom n t0 tf cf cc) k (pf i) (F i cc).
Proof.
  intros g d n codom t0 t1 tf cf k R O Hn P. destruct (deriv_sfun g d n codom t0 t1 tf cf k R O P) as (g' & cf' & E & R' & _ & D).
  exists g', cf'. split; auto. split; auto. intros pts pf np V X.
  destruct (value_R g' d n codom t0 t1 tf cf' pts pf np R' Hn P V) as (m & Em & M); [intros i Hi; apply (X i Hi)|].
  exists m. eexists. split; [exact Em|]. split; [exact M|]. intros i cc Hi Hc. destruct (X i Hi) as (_ & iv & Iv). eapply D; eauto.
Qed.
(** at the breakpoints derivate(k) has the one-sided derivative of the piece that the evaluation picks *)
Theorem C27_one_sided : forall g d n codom t0 t1 tf cf k, rep g d n codom t0 t1 tf cf -> blk_ok d k -> (forall i, (i < n)%nat -> 0 < tf i) -> (1 <= n)%nat ->
  exists g' cf', gs_derivate g k = Ok g' /\ rep g' d n codom t0 t1 tf cf' /\ forall cc t, (cc < codom)%nat ->
    is_derive_n (piece d codom t0 tf cf (locate t0 tf n t) cc) k t (sfun d codom n t0 tf cf' cc t).
Proof.
  intros g d n codom t0 t1 tf cf k R O P Hn. destruct (deriv_sfun g d n codom t0 t1 tf cf k R O P) as (g' & cf' & E & R' & D & _).
  exists g', cf'. split; auto. split; auto. intros cc t Hc. apply D; auto. apply (locate_in t0 tf n t Hn P).
Qed.
Example C27_ex : exists g, rep g (DLeg 3) 2 2 1 4 (fun i => nth i [1; 2] 0) (fun i => nth i [1; 2; 3; 0; -1; 0; 2; 0; 1; 5; 5; 5] 0) /\
  blk_ok (DLeg 3) 2 /\ (forall k, (k < 2)%nat -> 0 < nth k [1; 2] 0) /\ inside 1 (fun i => nth i [1; 2] 0) 2 3 1 /\ blk_ok (D01 (/ 2)) 2.
Proof.
  destruct ex_spline as (g & R & P). exists g. split; [exact R|]. split; [exact I|]. split; [exact P|]. split; [|simpl; lia].
  split; [lia|]. split; [|auto]. right. unfold bp. cbn. lra.
Qed.

(** ** C28: linear scaling *)
Theorem C28_throws : forall (g : gspline R) L', L' < / 10 ^ 8 -> gs_linear_scaling g L' = Throw InvalidArgument.
Proof. exact linear_scaling_small. Qed.
Theorem C28_path : forall g d n codom t0 t1 tf cf L', rep g d n codom t0 t1 tf cf -> (1 <= n)%nat -> (forall i, (i < n)%nat -> 0 < tf i) ->
  t0 < t1 -> / 10 ^ 8 <= L' ->
  exists g', gs_linear_scaling g L' = Ok g' /\ gs_dom g' = (t0, t0 + L') /\
    vec_is (gs_tau g') n (fun i => tf i * (L' / (t1 - t0))) /\
    (bp t0 tf n = t1 -> bp t0 (fun i => tf i * (L' / (t1 - t0))) n = t0 + L') /\
    (forall us old new np, vec_is old np (fun i => t0 + (t1 - t0) * us i) -> vec_is new np (fun i => t0 + L' * us i) ->
      exists m m' F, gs_value g old = Ok m /\ mat_is m np codom F /\ gs_value g' new = Ok m' /\ mat_is m' np codom F) /\
    (forall k, blk_ok d k -> exists dg dg', gs_derivate g k = Ok dg /\ gs_derivate g' k = Ok dg' /\
      forall us old new np, vec_is old np (fun i => t0 + (t1 - t0) * us i) -> vec_is new np (fun i => t0 + L' * us i) ->
      exists m m' F, gs_value dg old = Ok m /\ mat_is m np codom F /\ gs_value dg' new = Ok m' /\
        mat_is m' np codom (fun i j => ((t1 - t0) / L') ^ k * F i j)).
Proof.
  intros g d n codom t0 t1 tf cf L' R Hn P Ht HL.
  assert (L0 : 0 < L') by (assert (0 < / 10 ^ 8) by (apply Rinv_0_lt_compat, pow_lt; lra); lra).
  assert (Hf : 0 < L' / (t1 - t0)) by (apply Rmult_lt_0_compat; [auto|apply Rinv_0_lt_compat; lra]).
  destruct (linear_scaling_R g d n codom t0 t1 tf cf L' R Ht HL) as (g' & E & R' & SP). exists g'. split; auto. split; [apply R'|]. split; [apply R'|].
  assert (X : forall u, t0 + L' / (t1 - t0) * (t0 + (t1 - t0) * u - t0) = t0 + L' * u) by (intros; field; lra).
  split; [|split].
  - intros Eb. rewrite bp_scaled, Eb. field. lra.
  - intros us old new np Vo Vn. destruct (pair_value _ _ _ _ _ _ _ _ _ old new _ np SP Hf Hn P Vo) as (m & m' & F & E1 & E2 & M1 & M2).
    { eapply vec_is_ext; [exact Vn|]. intros i _. symmetry. apply X. }
    exists m, m', F. split; auto. split; auto. split; auto. eapply mat_is_ext; [exact M2|]. intros; cbv beta. rewrite Rmult_1_l. reflexivity.
  - intros k O. destruct (pair_deriv _ _ _ _ _ _ _ _ _ k SP O Hf P) as (dg & dg' & D1 & D2 & SP'). exists dg, dg'. split; auto. split; auto.
    intros us old new np Vo Vn. destruct (pair_value _ _ _ _ _ _ _ _ _ old new _ np SP' Hf Hn P Vo) as (m & m' & F & E1 & E2 & M1 & M2).
    { eapply vec_is_ext; [exact Vn|]. intros i _. symmetry. apply X. }
    exists m, m', F. split; auto. split; auto. split; auto. eapply mat_is_ext; [exact M2|]. intros i j _ _.
    replace (/ (L' / (t1 - t0))) with ((t1 - t0) / L') by (field; lra). ring.
Qed.
(** the new object is a spline over the same kind of basis *)
Theorem C28_spline : forall g d n codom t0 t1 tf cf L', rep g d n codom t0 t1 tf cf -> t0 < t1 -> / 10 ^ 8 <= L' ->
  exists g', gs_linear_scaling g L' = Ok g' /\
    rep g' (d_scaled d (L' / (t1 - t0))) n codom t0 (t0 + L') (fun i => tf i * (L' / (t1 - t0))) cf /\
    (forall a, d = D01 a -> b01K (alpha_scaled a (L' / (t1 - t0))) = b01K a / (L' / (t1 - t0))).
Proof.
  intros g d n codom t0 t1 tf cf L' R Ht HL. destruct (linear_scaling_R g d n codom t0 t1 tf cf L' R Ht HL) as (g' & E & R' & _).
  exists g'. split; auto. split; auto. intros a _. apply alpha_scaled_K. apply Rmult_lt_0_compat; [|apply Rinv_0_lt_compat; lra].
  assert (0 < / 10 ^ 8) by (apply Rinv_0_lt_compat, pow_lt; lra). lra.
Qed.
Lemma small_one : / 10 ^ 8 <= 1.
Proof. assert (1 <= 10 ^ 8) by (apply pow_R1_Rle; lra). rewrite <- Rinv_1. apply Rinv_le_contravar; lra. Qed.
Example C28_ex : exists g, rep g (DLeg 3) 2 2 1 4 (fun i => nth i [1; 2] 0) (fun i => nth i [1; 2; 3; 0; -1; 0; 2; 0; 1; 5; 5; 5] 0) /\
  (forall k, (k < 2)%nat -> 0 < nth k [1; 2] 0) /\ 1 < 4 /\ / 10 ^ 8 <= 1 /\ bp 1 (fun i => nth i [1; 2] 0) 2 = 4.
Proof.
  destruct ex_spline as (g & R & P). exists g. split; [exact R|]. split; [exact P|]. split; [lra|]. split; [apply small_one|]. unfold bp. cbn. ring.
Qed.

(** ** C29: limits *)
(** [nseg] is the number of sampling steps: all values are covered.  The factor is the largest ratio at the samples;
    when it is positive the limits hold at the samples of the new spline *)
Theorem C29_limits : forall g d n codom t0 t1 tf cf vb ab vf af dt nseg, rep g d n codom t0 t1 tf cf -> blk_ok d 1 -> (1 <= n)%nat -> (1 <= codom)%nat ->
  (forall i, (i < n)%nat -> 0 < tf i) -> vec_is vb codom vf -> vec_is ab codom af ->
  (forall j, (j < codom)%nat -> 0 < vf j) -> (forall j, (j < codom)%nat -> 0 < af j) -> / 10 ^ 8 <= dt ->
  exists d1 d2 m1 m2 V A f,
    gs_derivate g 1 = Ok d1 /\ gs_derivate d1 1 = Ok d2 /\
    gs_value d1 (lin_spaced (S nseg) t0 t1) = Ok m1 /\ mat_is m1 (S nseg) codom V /\
    gs_value d2 (lin_spaced (S nseg) t0 t1) = Ok m2 /\ mat_is m2 (S nseg) codom A /\
    limit_factor (S nseg) codom V A vf af f /\
    (0 < f -> exists g' v' a', gs_limit_scaling g (Some vb) (Some ab) dt nseg = Ok g' /\
      rep g' (d_scaled d f) n codom t0 (bp t0 (fun i => tf i * f) n) (fun i => tf i * f) cf /\
      gs_derivate g' 1 = Ok v' /\ gs_derivate v' 1 = Ok a' /\
      forall pts, vec_is pts (S nseg) (fun i => t0 + f * (sample t0 t1 nseg i - t0)) ->
      exists mv ma V' A', gs_value v' pts = Ok mv /\ mat_is mv (S nseg) codom V' /\
        gs_value a' pts = Ok ma /\ mat_is ma (S nseg) codom A' /\
        forall i j, (i <= nseg)%nat -> (j < codom)%nat -> Rabs (V' i j) <= vf j /\ Rabs (A' i j) <= af j).
Proof. exact limit_respected. Qed.
(** the overload with one velocity and one acceleration bound for all components *)
Theorem C29_scalar_limits : forall g d n codom t0 t1 tf cf v a dt nseg, rep g d n codom t0 t1 tf cf -> blk_ok d 1 -> (1 <= n)%nat -> (1 <= codom)%nat ->
  (forall i, (i < n)%nat -> 0 < tf i) -> 0 < v -> 0 < a -> / 10 ^ 8 <= dt ->
  exists d1 d2 m1 m2 V A f,
    gs_derivate g 1 = Ok d1 /\ gs_derivate d1 1 = Ok d2 /\
    gs_value d1 (lin_spaced (S nseg) t0 t1) = Ok m1 /\ mat_is m1 (S nseg) codom V /\
    gs_value d2 (lin_spaced (S nseg) t0 t1) = Ok m2 /\ mat_is m2 (S nseg) codom A /\
    limit_factor (S nseg) codom V A (fun _ => v) (fun _ => a) f /\
    (0 < f -> exists g' v' a', gs_limit_scaling_scalar g (Some v) (Some a) dt nseg = Ok g' /\
      rep g' (d_scaled d f) n codom t0 (bp t0 (fun i => tf i * f) n) (fun i => tf i * f) cf /\
      gs_derivate g' 1 = Ok v' /\ gs_derivate v' 1 = Ok a' /\
      forall pts, vec_is pts (S nseg) (fun i => t0 + f * (sample t0 t1 nseg i - t0)) ->
      exists mv ma V' A', gs_value v' pts = Ok mv /\ mat_is mv (S nseg) codom V' /\
        gs_value a' pts = Ok ma /\ mat_is ma (S nseg) codom A' /\
        forall i j, (i <= nseg)%nat -> (j < codom)%nat -> Rabs (V' i j) <= v /\ Rabs (A' i j) <= a).
Proof.
  intros g d n codom t0 t1 tf cf v a dt nseg Hr Hb Hn Hc Ht Hv Ha Hdt.
  unfold gs_limit_scaling_scalar. cbn [option_map]. replace (gs_codom g) with codom by (symmetry; apply Hr).
  apply (C29_limits g d n codom t0 t1 tf cf (vconst codom v) (vconst codom a) (fun _ => v) (fun _ => a) dt nseg); auto; apply vconst_is.
Qed.
Theorem C29_samples : forall t0 t1 nseg, vec_is (lin_spaced (S nseg) t0 t1) (S nseg) (sample t0 t1 nseg).
Proof. exact lin_spaced_R. Qed.
(** FINDING: one bound does not suffice *)
Theorem C29_one_bound_refuted : forall T (HN : Num T) (g : gspline T) vb ab dt nseg, nltb dt (ten_m 8) = false ->
  (vb = None /\ ab <> None -> gs_limit_scaling g vb ab dt nseg = Throw BadOptionalAccess) /\
  (forall v, vb = Some v -> vlen v = gs_codom g -> ab = None -> gs_limit_scaling g vb ab dt nseg = Throw BadOptionalAccess).
Proof. exact @limit_missing. Qed.
Theorem C29_one_scalar_bound_refuted : forall T (HN : Num T) (g : gspline T) x dt nseg, nltb dt (ten_m 8) = false ->
  gs_limit_scaling_scalar g (Some x) None dt nseg = Throw BadOptionalAccess /\
  gs_limit_scaling_scalar g None (Some x) dt nseg = Throw BadOptionalAccess.
Proof.
  intros T HN g x dt nseg Hdt. unfold gs_limit_scaling_scalar. cbn [option_map]. split.
  - apply (proj2 (C29_one_bound_refuted T HN g _ None dt nseg Hdt) (vconst (gs_codom g) x)); reflexivity.
  - apply (proj1 (C29_one_bound_refuted T HN g None _ dt nseg Hdt)). split; [reflexivity|discriminate].
Qed.
(** FINDING: between the samples the velocity 1 is reached with the bound 1/4 *)
Theorem C29_between_refuted : exists (g : gspline R) vb ab dt nseg g' v' m,
  rep g (DLeg 4) 1 1 (-1) 1 (fun i => nth i [2] 0) (fun i => nth i [0; 4 / 5; 0; - (2 / 15)] 0) /\
  INR nseg <= (1 - -1) / dt < INR nseg + 1 /\ / 10 ^ 8 <= dt /\
  vec_is vb 1 (fun _ => / 4) /\ vec_is ab 1 (fun _ => 2) /\
  gs_limit_scaling g (Some vb) (Some ab) dt nseg = Ok g' /\ gs_dom g' = (-1, 1) /\
  gs_derivate g' 1 = Ok v' /\ gs_value v' (vec_of_list [0]) = Ok m /\ mget m 0 0 = Some 1.
Proof. exact limit_between. Qed.
(** FINDING: a spline at rest at every sample collapses to interval lengths zero *)
Theorem C29_rest_refuted : forall g d n codom t0 t1 tf cf vb ab vf af dt nseg, rep g d n codom t0 t1 tf cf -> (forall a, d <> D01 a) -> (1 <= n)%nat -> (1 <= codom)%nat ->
  (forall i, (i < n)%nat -> 0 < tf i) -> vec_is vb codom vf -> vec_is ab codom af ->
  (forall j, (j < codom)%nat -> 0 < vf j) -> (forall j, (j < codom)%nat -> 0 < af j) -> / 10 ^ 8 <= dt ->
  (forall d1 d2 m1 m2, gs_derivate g 1 = Ok d1 -> gs_derivate d1 1 = Ok d2 ->
     gs_value d1 (lin_spaced (S nseg) t0 t1) = Ok m1 -> gs_value d2 (lin_spaced (S nseg) t0 t1) = Ok m2 ->
     mat_is m1 (S nseg) codom (fun _ _ => 0) /\ mat_is m2 (S nseg) codom (fun _ _ => 0)) ->
  exists g', gs_limit_scaling g (Some vb) (Some ab) dt nseg = Ok g' /\ gs_dom g' = (t0, t0) /\ vec_is (gs_tau g') n (fun _ => 0).
Proof. exact limit_collapse. Qed.
Example C29_ex : exists g vb ab, rep g (DLeg 3) 2 2 1 4 (fun i => nth i [1; 2] 0) (fun i => nth i [1; 2; 3; 0; -1; 0; 2; 0; 1; 5; 5; 5] 0) /\
  (forall k, (k < 2)%nat -> 0 < nth k [1; 2] 0) /\ vec_is vb 2 (fun i => nth i [1; 5] 0) /\ vec_is ab 2 (fun i => nth i [2; 3] 0) /\ / 10 ^ 8 <= 1.
Proof.
  destruct ex_spline as (g & R & P). exists g, (vec_of_list [1; 5]), (vec_of_list [2; 3]). split; [exact R|]. split; [exact P|].
  split; [apply (vec_of_list_is [1; 5])|]. split; [apply (vec_of_list_is [2; 3])|apply small_one].
Qed.

(** ** C30: operations *)
(** sums and differences with the same start, every overload; the object denotes the pointwise result *)
Theorem C30_plus : forall o g h d n codom t0 t1 t1' tf cf ch, rep g d n codom t0 t1 tf cf -> rep h d n codom t0 t1' tf ch ->
  exists r cr t2, gs_plus o g h = Ok r /\ rep r d n codom t0 t2 tf cr /\
    forall cc t, sfun d codom n t0 tf cr cc t = sfun d codom n t0 tf cf cc t + sfun d codom n t0 tf ch cc t.
Proof.
  intros o g h d n codom t0 t1 t1' tf cf ch R R'. destruct (plus_R o _ _ _ _ _ _ _ _ _ _ _ _ R R') as (r & E & Rr).
  exists r. eexists. exists (dom_of o t1 t1'). split; [exact E|]. split; [replace t0 with (dom_of o t0 t0) by (destruct o; reflexivity); exact Rr|]. intros. apply sfun_plus.
Qed.
Theorem C30_minus : forall o g h d n codom t0 t1 t1' tf cf ch, rep g d n codom t0 t1 tf cf -> rep h d n codom t0 t1' tf ch ->
  exists r cr t2, gs_minus o g h = Ok r /\ rep r d n codom t0 t2 tf cr /\
    forall cc t, sfun d codom n t0 tf cr cc t = sfun d codom n t0 tf cf cc t - sfun d codom n t0 tf ch cc t.
Proof.
  intros o g h d n codom t0 t1 t1' tf cf ch R R'. destruct (minus_R o _ _ _ _ _ _ _ _ _ _ _ _ R R') as (r & E & Rr).
  exists r. eexists. exists (dom_of o t1 t1'). split; [exact E|]. split; [replace t0 with (dom_of o t0 t0) by (destruct o; reflexivity); exact Rr|]. intros. apply sfun_minus.
Qed.
Theorem C30_assign : forall g h d n codom t0 t1 t1' tf cf ch, rep g d n codom t0 t1 tf cf -> rep h d n codom t0 t1' tf ch ->
  (exists r cr, gs_pluseq g h = Ok r /\ rep r d n codom t0 t1 tf cr /\
    forall cc t, sfun d codom n t0 tf cr cc t = sfun d codom n t0 tf cf cc t + sfun d codom n t0 tf ch cc t) /\
  (exists r cr, gs_minuseq g h = Ok r /\ rep r d n codom t0 t1 tf cr /\
    forall cc t, sfun d codom n t0 tf cr cc t = sfun d codom n t0 tf cf cc t - sfun d codom n t0 tf ch cc t).
Proof.
  intros g h d n codom t0 t1 t1' tf cf ch R R'. destruct (assign_R _ _ _ _ _ _ _ _ _ _ _ _ R R') as ((r & E & Rr) & (r' & E' & Rr')).
  split; [exists r|exists r']; eexists; (split; [eassumption|]); (split; [eassumption|]); intros; [apply sfun_plus|apply sfun_minus].
Qed.
Theorem C30_scale : forall rv a g d n codom t0 t1 tf cf, rep g d n codom t0 t1 tf cf ->
  (exists r cr, gs_scale rv a g = Ok r /\ rep r d n codom t0 t1 tf cr /\ forall cc t, sfun d codom n t0 tf cr cc t = a * sfun d codom n t0 tf cf cc t) /\
  (exists r cr, gs_neg rv g = Ok r /\ rep r d n codom t0 t1 tf cr /\ forall cc t, sfun d codom n t0 tf cr cc t = - sfun d codom n t0 tf cf cc t).
Proof.
  intros rv a g d n codom t0 t1 tf cf R. split.
  - destruct (scale_op_R rv a _ _ _ _ _ _ _ _ R) as (r & E & Rr). exists r. eexists. split; [exact E|]. split; [exact Rr|]. intros. apply sfun_scal.
  - destruct (scale_op_R rv (- (1)) _ _ _ _ _ _ _ _ R) as (r & E & Rr). exists r. eexists. split; [exact E|]. split; [exact Rr|]. intros. rewrite sfun_scal. ring.
Qed.
(** operands of different shape are rejected *)
Theorem C30_incompatible : forall g h d d' n n' codom codom' t0 t1 t0' t1' tf tf' cf ch,
  rep g d n codom t0 t1 tf cf -> rep h d' n' codom' t0' t1' tf' ch ->
  codom <> codom' \/ n <> n' \/ d_dim d <> d_dim d' \/ b_name (gs_basis g) <> b_name (gs_basis h) ->
  (forall o, gs_plus o g h = Throw InvalidArgument) /\ (forall o, gs_minus o g h = Throw InvalidArgument) /\
  gs_pluseq g h = Throw InvalidArgument /\ gs_minuseq g h = Throw InvalidArgument.
Proof. intros. apply ops_reject. eapply space_reject_R; eauto. Qed.
(** FINDING: the start is not compared: a + b and a + std::move(b) are different functions *)
Theorem C30_start_refuted : exists (g h : gspline R) rl rr,
  rep g (DLeg 2) 1 1 0 2 (fun i => nth i [2] 0) (fun i => nth i [0; 1] 0) /\
  rep h (DLeg 2) 1 1 1 3 (fun i => nth i [2] 0) (fun i => nth i [0; 1] 0) /\
  gs_plus LL g h = Ok rl /\ gs_plus LR g h = Ok rr /\ gs_dom rl = (0, 2) /\ gs_dom rr = (1, 3) /\
  forall t pts, vec_is pts 1 (fun _ => t) -> exists ml mr, gs_value rl pts = Ok ml /\ gs_value rr pts = Ok mr /\
    mget ml 0 0 = Some (2 * t - 2) /\ mget mr 0 0 = Some (2 * t - 4).
Proof. exact plus_starts. Qed.
Example C30_ex : exists g h, rep g (DLeg 3) 1 1 0 1 (fun i => nth i [1] 0) (fun i => nth i [1; 2; 3] 0) /\
  rep h (DLeg 3) 1 1 0 1 (fun i => nth i [1] 0) (fun i => nth i [0; -1; 0] 0).
Proof.
  destruct (leg_spline 3 (0, 1) 1 [1] [1; 2; 3]) as (b & s & g & _ & _ & R & _); [lia|reflexivity|].
  destruct (leg_spline 3 (0, 1) 1 [1] [0; -1; 0]) as (b' & s' & h & _ & _ & R' & _); [lia|reflexivity|]. exists g, h. split; [exact R|exact R'].
Qed.
Example C30_incompatible_ex : exists g h, rep g (DLeg 3) 1 1 0 1 (fun i => nth i [1] 0) (fun i => nth i [1; 2; 3] 0) /\
  rep h (DLeg 2) 1 1 0 1 (fun i => nth i [1] 0) (fun i => nth i [0; -1] 0).
Proof.
  destruct (leg_spline 3 (0, 1) 1 [1] [1; 2; 3]) as (b & s & g & _ & _ & R & _); [lia|reflexivity|].
  destruct (leg_spline 2 (0, 1) 1 [1] [0; -1]) as (b' & s' & h & _ & _ & R' & _); [lia|reflexivity|]. exists g, h. split; [exact R|exact R'].
Qed.

(** ** C31: construction *)
Theorem C31_ctor : forall T (HN : Num T) dom codom n (b : basis T) s coef tau,
  ((exists g, gs_ctor dom codom n b s coef tau = Ok g) <-> vlen coef = (n * b_dim b * codom)%nat) /\
  (vlen coef <> (n * b_dim b * codom)%nat -> gs_ctor dom codom n b s coef tau = Throw InvalidArgument).
Proof.
  intros. unfold gs_ctor. destruct (Nat.eqb_spec (vlen coef) (n * b_dim b * codom)).
  - split; [split; eauto|]. contradiction.
  - split; auto. split; [intros (g & X); discriminate|contradiction].
Qed.
(** with as many interval lengths as announced the copy succeeds and is the same spline *)
Theorem C31_copy : forall b d hist s dom codom n coef tau cf tf, is_basis b d -> serve_all b hist (bs_init b) = Ok s ->
  vec_is tau n tf -> vec_is coef (n * d_dim d * codom) cf ->
  exists g g', gs_ctor dom codom n b s coef tau = Ok g /\ gs_copy g = Ok g' /\
    gs_dom g' = dom /\ gs_codom g' = codom /\ gs_coef g' = coef /\ gs_tau g' = tau /\ gs_basis g' = b /\
    rep g d n codom (fst dom) (snd dom) tf cf /\ rep g' d n codom (fst dom) (snd dom) tf cf.
Proof.
  intros b d hist s dom codom n coef tau cf tf B Hs V K. destruct (ctor_rep b d hist s dom codom n coef tau cf tf B Hs V K) as (g & E & R).
  destruct (rep_copy _ _ _ _ _ _ _ _ R) as (g' & E' & R' & X1 & X2 & X3 & X4 & X5). exists g, g'. split; auto. split; auto.
  assert (Eg : gs_dom g = dom /\ gs_codom g = codom /\ gs_coef g = coef /\ gs_tau g = tau /\ gs_basis g = b).
  { unfold gs_ctor in E. destruct Nat.eqb; [|discriminate]. injection E as <-. auto. }
  destruct Eg as (G1 & G2 & G3 & G4 & G5). rewrite X1, X2, X3, X4, X5. auto 12.
Qed.
(** FINDING: the number of interval lengths is not checked *)
Theorem C31_lengths_refuted : forall T (HN : Num T) dom codom n (b : basis T) s coef tau, vlen coef = (n * b_dim b * codom)%nat -> vlen tau <> n ->
  (1 <= b_dim b)%nat -> (1 <= codom)%nat -> exists g, gs_ctor dom codom n b s coef tau = Ok g /\ gs_copy g = Throw InvalidArgument.
Proof. exact @ctor_unchecked. Qed.
Theorem C31_evaluation_refuted : forall t0 t1 codom n b d s coef tau m tf t, is_basis b d -> vlen coef = (n * d_dim d * codom)%nat ->
  vec_is tau m tf -> (n < m)%nat -> (1 <= codom)%nat -> (forall i, (i < m)%nat -> 0 < tf i) -> bp t0 tf m < t ->
  exists g, gs_ctor (t0, t1) codom n b s coef tau = Ok g /\ gs_value g (vec_of_list [t]) = UB.
Proof. exact ctor_ub. Qed.
Example C31_ex : exists b s, is_basis b (DLeg 2) /\ serve_all b [] (bs_init b) = Ok s /\ vec_is (vec_of_list [1; 2]) 2 (fun i => nth i [1; 2] 0) /\
  vec_is (vec_of_list [1; 2; 3; 4]) 4 (fun i => nth i [1; 2; 3; 4] 0) /\ vlen (vec_of_list [1; 2]) <> 1%nat /\
  (forall i, (i < 2)%nat -> 0 < nth i [1; 2] 0) /\ bp 0 (fun i => nth i [1; 2] 0) 2 < 4.
Proof.
  destruct (leg_basis 2 (le_n 2)) as (b & B & _). exists b, (bs_init b). split; auto. split; [reflexivity|].
  split; [apply (vec_of_list_is [1; 2])|]. split; [apply (vec_of_list_is [1; 2; 3; 4])|]. split; [discriminate|].
  split; [intros [|[|i]] Hi; cbn; try lra; lia|]. unfold bp. cbn. lra.
Qed.

(** ** C33: two threads, in any arithmetic *)
(** whole evaluations, in any order, give the sequential rows *)
Theorem C33_atomic : forall T (HN : Num T) (g : gspline T) n codom tf cf ta tb turns, gwf g n codom tf cf -> (1 <= n)%nat ->
  (length ta <= count_occ bool_dec turns true)%nat -> (length tb <= count_occ bool_dec turns false)%nat ->
  exists buf' a b ma mb, shared_run g (flat_map (fun w => repeat w (codom + 2)) turns) (gs_buf g, th_start ta, th_start tb) = Ok (buf', a, b) /\
    th_todo a = [] /\ th_todo b = [] /\
    gs_value g (vec_of_list ta) = Ok ma /\ map (map Some) (th_out a) = rows_of ma /\
    gs_value g (vec_of_list tb) = Ok mb /\ map (map Some) (th_out b) = rows_of mb.
Proof.
  intros T HN g n codom tf cf ta tb turns W Hn Ha Hb. destruct (shared_atomic g n codom tf cf W Hn turns ta tb [] [] (gs_buf g)) as (buf' & E); auto; [apply W|].
  destruct (value_rows g n codom tf cf ta W Hn) as (ma & Ea & Ra). destruct (value_rows g n codom tf cf tb W Hn) as (mb & Eb & Rb).
  exists buf'. eexists. eexists. exists ma, mb. split; [exact E|]. cbn [th_todo th_out app]. auto 10.
Qed.
(** each thread its own copy: every interleaving gives the sequential rows *)
Theorem C33_copies : forall T (HN : Num T) (g : gspline T) n codom tf cf ga gb ta tb sched, gwf g n codom tf cf -> (1 <= n)%nat ->
  gs_copy g = Ok ga -> gs_copy g = Ok gb ->
  ((codom + 2) * length ta <= count_occ bool_dec sched true)%nat -> ((codom + 2) * length tb <= count_occ bool_dec sched false)%nat ->
  exists ba bb a b ma mb, private_run ga gb sched ((gs_buf ga, th_start ta), (gs_buf gb, th_start tb)) = Ok ((ba, a), (bb, b)) /\
    th_todo a = [] /\ th_todo b = [] /\
    gs_value g (vec_of_list ta) = Ok ma /\ map (map Some) (th_out a) = rows_of ma /\
    gs_value g (vec_of_list tb) = Ok mb /\ map (map Some) (th_out b) = rows_of mb.
Proof.
  intros T HN g n codom tf cf ga gb ta tb sched W Hn Ea Eb Ha Hb. rewrite Ea in Eb. injection Eb as <-.
  assert (Wa : gwf ga n codom tf cf). { unfold gs_copy in Ea. destruct Nat.eqb; [|discriminate]. injection Ea as <-. destruct W as (X1 & X2 & X3 & X4 & X5).
    unfold gwf, gs_dim. cbn. auto 10. }
  assert (Eg : forall t, grow ga n codom tf cf t = grow g n codom tf cf t). { unfold gs_copy in Ea. destruct Nat.eqb; [|discriminate]. injection Ea as <-. reflexivity. }
  destruct (solo_all ga n codom tf cf Wa Hn ta (gs_buf ga) [] _ (proj2 (proj2 (proj2 (proj2 Wa)))) Ha) as (ba & _ & Sa).
  destruct (solo_all ga n codom tf cf Wa Hn tb (gs_buf ga) [] _ (proj2 (proj2 (proj2 (proj2 Wa)))) Hb) as (bb & _ & Sb).
  destruct (value_rows g n codom tf cf ta W Hn) as (ma & Eva & Ra). destruct (value_rows g n codom tf cf tb W Hn) as (mb & Evb & Rb).
  exists ba, bb. eexists. eexists. exists ma, mb. split; [apply (private_solo ga ga sched _ _ _ _ Sa Sb)|]. cbn [th_todo th_out app].
  rewrite !(map_ext _ _ Eg). auto 10.
Qed.
(** FINDING: on one object, for any spline and any two points of one interval, an interleaving exists in which the first thread
    returns the row of the second thread's point *)
Theorem C33_shared_refuted : forall T (HN : Num T) (g : gspline T) n codom tf cf t u, gwf g n codom tf cf -> (1 <= n)%nat ->
  get_interval g t = get_interval g u ->
  exists buf' a b m, shared_run g (true :: false :: repeat true (codom + 1)) (gs_buf g, th_start [t], th_start [u]) = Ok (buf', a, b) /\
    th_todo a = [] /\ gs_value g (vec_of_list [u]) = Ok m /\ map (map Some) (th_out a) = rows_of m.
Proof.
  intros T HN g n codom tf cf t u W Hn E. rewrite !(get_interval_gen g n codom tf cf) in E by auto. injection E as E.
  destruct (shared_race g n codom tf cf t u (gs_buf g) W Hn) as (buf' & a & b & Er & Ta & Oa); [apply W|exact E|].
  destruct (value_rows g n codom tf cf [u] W Hn) as (m & Em & Rm). exists buf', a, b, m. rewrite Oa, Rm. auto.
Qed.
(** a case in which the two values differ: the spline t on [0,2], points 0 and 1 *)
Example C33_ex : exists (g : gspline R) tf cf, gwf g 1 1 tf cf /\ get_interval g (/ 2) = get_interval g 1 /\
  exists m m', gs_value g (vec_of_list [/ 2]) = Ok m /\ gs_value g (vec_of_list [1]) = Ok m' /\ rows_of m = [[Some (/ 2)]] /\ rows_of m' = [[Some 1]].
Proof.
  destruct (leg_spline 2 (0, 2) 1 [2] [1; 1]) as (b & s & g & _ & _ & R & _); [lia|reflexivity|]. cbn [length fst snd] in R.
  assert (P : forall i, (i < 1)%nat -> 0 < nth i [2] 0) by (intros i Hi; replace i with 0%nat by lia; cbn; lra).
  assert (V : forall x, x = x + 0 -> vec_is (vec_of_list [x]) 1 (fun _ => x)) by (intros x _; split; [reflexivity|]; intros [|i] Hi; [reflexivity|lia]).
  exists g. eexists. eexists. split; [apply (rep_gwf _ _ _ _ _ _ _ _ R)|]. split.
  - rewrite !(get_interval_gen g _ _ _ _ _ (rep_gwf _ _ _ _ _ _ _ _ R)) by lia.
    f_equal. assert (D : fst (gs_dom g) = 0) by (destruct R as (_ & -> & _); reflexivity). rewrite D.
    rewrite !gint_locate by (auto; lia). reflexivity.
  - destruct (value_R g _ _ _ _ _ _ _ _ _ 1 R (le_n 1) P (V (/ 2) (eq_sym (Rplus_0_r _)))) as (m & E & M1 & M2 & M); [intros; exact I|].
    destruct (value_R g _ _ _ _ _ _ _ _ _ 1 R (le_n 1) P (V 1 (eq_sym (Rplus_0_r _)))) as (m' & E' & M1' & M2' & M'); [intros; exact I|].
    exists m, m'. split; auto. split; auto. unfold rows_of. rewrite M1, M2, M1', M2'. cbn [seq map]. rewrite M, M' by lia.
    unfold sfun. rewrite !one_interval. unfold piece, tphi, phi, bp, window, legP. cbn [d_dim Rsum Nat.mul Nat.add nth leg2 fst].
    split; do 3 f_equal; field.
Qed.
