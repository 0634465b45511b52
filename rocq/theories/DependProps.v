(** Property C80: how the interpolating curve depends on the waypoints and on
    the interval lengths. *)
From Coquelicot Require Import Coquelicot.
From Coq Require Import List Arith Lia Bool ZArith Reals Lra.
From Verif Require Import Num Outcome LinAlg RSum RDeriv RGauss LegendreSpec LagrangeSpec BasisModel SplineSpec BasisFn BasisProofs3
  ToolsModel GSplineModel GSplineProofs GSplineProofs2 GSplineProofs3 GSplineProofs5 GSplineProofs6 GSplineProps InterpModel InterpSpec SolverSpec InterpProofs3 InterpMath InterpMath2 InterpProofs7 InterpProofs8
  InterpProps EnergySpec EnergyMath EnergyProofs EnergyProps InterpDep InterpDep2.
Import ListNotations.
Local Open Scope R_scope.

(** g is what an interpolator in any reachable state returns for the lengths tf and the waypoints W *)
Definition interpolant (d : bdesc) (c n : nat) (tf : nat -> R) (W : nat -> nat -> R) (g : gspline R) : Prop :=
  exists b ip ip' lu tau wp, reached b d c n ip /\ exact_solver lu /\ vec_is tau n tf /\ (forall i, (i < n)%nat -> / 10 ^ 6 <= tf i) /\
    reads wp n c W /\ ip_interpolate lu ip tau wp = Ok (g, ip').
(** evaluating g on the domain gives the values of f (at the points where the basis is evaluated exactly) *)
Definition draws (d : bdesc) (c n : nat) (tf : nat -> R) (g : gspline R) (f : nat -> R -> R) : Prop :=
  forall np pts pf, vec_is pts np pf -> (forall i, (i < np)%nat -> 0 <= pf i <= Rsum n tf /\ exact_pt d (wpos 0 tf n (pf i))) ->
  exists m, gs_value g pts = Ok m /\ mat_is m np c (fun i cc => f cc (pf i)).

Lemma interpolant_inv d c n tf W g : interpolant d c n tf W g ->
  desc_ok d /\ (1 <= n)%nat /\ (forall i, (i < n)%nat -> 0 < tf i) /\ (exists h, (1 <= h)%nat /\ d_dim d = (2 * h)%nat) /\
  exists cf, rep g d n c 0 (Rsum n tf) tf cf /\ interpolates d c n 0 tf W cf /\ draws d c n tf g (sfun d c n 0 tf cf).
Proof.
  intros (b & ip & ip' & lu & tau & wp & Re & Ex & V & P & Rd & E). pose proof pos6 as P6.
  destruct (interpolate_exact b d c n ip tau tf wp W lu Re Ex V P Rd) as (g' & ip2 & cf & E' & Rp & Sol & _). rewrite E in E'. injection E' as <- <-.
  pose proof Re as (B & _ & Hn & _). assert (Pt : forall i, (i < n)%nat -> 0 < tf i) by (intros i Hi; specialize (P i Hi); lra).
  split; [eapply is_basis_desc; eauto|]. split; auto. split; auto. split; [apply (reached_half _ _ _ _ _ Re)|].
  exists cf. split; auto. split; auto. intros np pts pf Vp Hp. apply (C26_value g d n c 0 (Rsum n tf) tf cf pts pf np Rp Hn Pt Vp). intros i Hi. apply Hp; auto.
Qed.
Lemma draws_ext d c n tf g f f' : draws d c n tf g f -> (forall cc t, (cc < c)%nat -> 0 <= t <= Rsum n tf -> f cc t = f' cc t) -> draws d c n tf g f'.
Proof.
  intros D E np pts pf Vp Hp. destruct (D np pts pf Vp Hp) as (m & Em & Mm). exists m. split; auto. eapply mat_is_ext; [exact Mm|].
  intros i j Hi Hj. apply E; auto. apply Hp; auto.
Qed.
Lemma bp_len tf n : bp 0 tf n = Rsum n tf.
Proof. unfold bp. ring. Qed.

(** A linear combination of waypoints gives the linear combination of the curves. *)
Theorem C80_linear : forall d c n tf W1 W2 W a b g1 g2 g, interpolant d c n tf W1 g1 -> interpolant d c n tf W2 g2 -> interpolant d c n tf W g ->
  (forall k cc, (k <= n)%nat -> (cc < c)%nat -> W k cc = a * W1 k cc + b * W2 k cc) ->
  exists f1 f2, draws d c n tf g1 f1 /\ draws d c n tf g2 f2 /\ draws d c n tf g (fun cc t => a * f1 cc t + b * f2 cc t).
Proof.
  intros d c n tf W1 W2 W a b g1 g2 g I1 I2 I E. destruct (interpolant_inv _ _ _ _ _ _ I1) as (Od & Hn & P & (h & Hh & Hd) & cf1 & _ & S1 & D1).
  destruct (interpolant_inv _ _ _ _ _ _ I2) as (_ & _ & _ & _ & cf2 & _ & S2 & D2). destruct (interpolant_inv _ _ _ _ _ _ I) as (_ & _ & _ & _ & cf & _ & S0 & D0).
  exists (sfun d c n 0 tf cf1), (sfun d c n 0 tf cf2). split; auto. split; auto. eapply draws_ext; [exact D0|]. intros cc t Hc _.
  apply (interp_linear_fun d h n 0 tf Od Hh Hn Hd P c cf1 cf2 cf W1 W2 W a b); auto.
Qed.
(** A component of the curve depends on its own waypoints only, not on the other components and not on how many there are. *)
Theorem C80_components : forall d c1 c2 n tf W1 W2 g1 g2 cc1 cc2, interpolant d c1 n tf W1 g1 -> interpolant d c2 n tf W2 g2 ->
  (cc1 < c1)%nat -> (cc2 < c2)%nat -> (forall k, (k <= n)%nat -> W1 k cc1 = W2 k cc2) ->
  exists f1 f2, draws d c1 n tf g1 f1 /\ draws d c2 n tf g2 f2 /\ forall t, f1 cc1 t = f2 cc2 t.
Proof.
  intros d c1 c2 n tf W1 W2 g1 g2 cc1 cc2 I1 I2 H1 H2 E. destruct (interpolant_inv _ _ _ _ _ _ I1) as (Od & Hn & P & (h & Hh & Hd) & cf1 & _ & S1 & D1).
  destruct (interpolant_inv _ _ _ _ _ _ I2) as (_ & _ & _ & _ & cf2 & _ & S2 & D2).
  exists (sfun d c1 n 0 tf cf1), (sfun d c2 n 0 tf cf2). split; auto. split; auto. intros t.
  apply (interp_component d h n 0 tf Od Hh Hn Hd P c1 c2 cc1 cc2 cf1 cf2 W1 W2); auto.
Qed.
(** A component that does not move: the curve stays there. *)
Theorem C80_constant : forall d c n tf W g cc x, interpolant d c n tf W g -> (cc < c)%nat -> (forall k, (k <= n)%nat -> W k cc = x) ->
  exists f, draws d c n tf g f /\ forall t, 0 <= t <= Rsum n tf -> f cc t = x.
Proof.
  intros d c n tf W g cc x I Hc E. destruct (interpolant_inv _ _ _ _ _ _ I) as (Od & Hn & P & (h & Hh & Hd) & cf & _ & S0 & D0).
  exists (sfun d c n 0 tf cf). split; auto. intros t Ht. apply (interp_const d h n Od Hh Hn Hd c 0 tf W cf cc x t); auto. rewrite bp_len. exact Ht.
Qed.
(** Moving all waypoints by the same amount moves the curve by that amount. *)
Theorem C80_translation : forall d c n tf W W' x g g', interpolant d c n tf W g -> interpolant d c n tf W' g' ->
  (forall k cc, (k <= n)%nat -> (cc < c)%nat -> W' k cc = W k cc + x cc) ->
  exists f, draws d c n tf g f /\ draws d c n tf g' (fun cc t => f cc t + x cc).
Proof.
  intros d c n tf W W' x g g' I I' E. destruct (interpolant_inv _ _ _ _ _ _ I) as (Od & Hn & P & (h & Hh & Hd) & cf & _ & S0 & D0).
  destruct (interpolant_inv _ _ _ _ _ _ I') as (_ & _ & _ & _ & cf' & _ & S1 & D1).
  exists (sfun d c n 0 tf cf). split; auto. eapply draws_ext; [exact D1|]. intros cc t Hc Ht.
  apply (interp_shift d h n Od Hh Hn Hd c 0 tf W W' cf cf' cc (x cc) t); auto. rewrite bp_len. exact Ht.
Qed.
(** Waypoints and lengths in the opposite order: the same curve run backwards. *)
Theorem C80_reversed : forall d c n tf tf' W W' g g', interpolant d c n tf W g -> interpolant d c n tf' W' g' ->
  (forall i, (i < n)%nat -> tf' i = tf (n - 1 - i)%nat) -> (forall k cc, (k <= n)%nat -> (cc < c)%nat -> W' k cc = W (n - k)%nat cc) ->
  exists f, draws d c n tf g f /\ draws d c n tf' g' (fun cc t => f cc (Rsum n tf - t)) /\ Rsum n tf' = Rsum n tf.
Proof.
  intros d c n tf tf' W W' g g' I I' Et EW. destruct (interpolant_inv _ _ _ _ _ _ I) as (Od & Hn & P & (h & Hh & Hd) & cf & _ & S0 & D0).
  destruct (interpolant_inv _ _ _ _ _ _ I') as (_ & _ & _ & _ & cf' & _ & S1 & D1).
  assert (ET : Rsum n tf' = Rsum n tf) by (rewrite <- (Rsum_rev n tf); apply Rsum_ext; auto).
  exists (sfun d c n 0 tf cf). split; auto. split; auto. eapply draws_ext; [exact D1|]. intros cc t Hc Ht.
  apply (interp_flip d h n Od Hh Hn Hd c tf tf' W W' cf cf' cc t); auto. rewrite <- ET. exact Ht.
Qed.
(** The same waypoints, the lengths multiplied by f: the same path, f times slower
    (for the exponential-trigonometric basis: with the parameter of the scaled basis). *)
Theorem C80_dilated : forall d c n tf W f g g', 0 < f -> interpolant d c n tf W g -> interpolant (d_scaled d f) c n (fun i => tf i * f) W g' ->
  exists q, draws d c n tf g q /\ draws (d_scaled d f) c n (fun i => tf i * f) g' (fun cc t => q cc (t / f)).
Proof.
  intros d c n tf W f g g' Hf I I'. destruct (interpolant_inv _ _ _ _ _ _ I) as (Od & Hn & P & (h & Hh & Hd) & cf & _ & S0 & D0).
  destruct (interpolant_inv _ _ _ _ _ _ I') as (Od' & _ & P' & (h' & Hh' & Hd') & cf' & _ & S1 & D1).
  exists (sfun d c n 0 tf cf). split; auto. eapply draws_ext; [exact D1|]. intros cc t Hc Ht.
  pose proof (OptProofs.interpolates_scaled d c n tf W cf f Hn P Hf S0) as S2.
  rewrite (same_coef_fun (d_scaled d f) n 0 (fun i => tf i * f) Hn c cf' cf cc t Hc) by (apply (interp_unique (d_scaled d f) h' c n 0 Od' Hh' Hn Hd' _ W cf' cf P' S1 S2)).
  rewrite (Rsum_scal_r n f tf) in Ht.
  assert (Ht' : 0 <= t / f <= bp 0 tf n).
  { rewrite bp_len. unfold Rdiv. split; [apply Rmult_le_pos; [apply Ht|]; left; apply Rinv_0_lt_compat; auto|].
    apply (Rmult_le_reg_r f); auto. rewrite Rmult_assoc, Rinv_l, Rmult_1_r by lra. apply Ht. }
  destruct (which_piece d h c n 0 tf cc Hh Hn Hd Hc (t / f) Ht') as (iv & Hi & Hv).
  rewrite (sfun_on d h c n 0 tf cf W cc) with (iv := iv); auto.
  rewrite (sfun_on (d_scaled d f) h' c n 0 (fun i => tf i * f) cf W cc) with (iv := iv); auto.
  - rewrite <- (OptProofs.piece_scaled d c tf cf iv cc f (t / f)); auto; [f_equal; field; lra|]. specialize (P iv Hi). lra.
  - rewrite !bp_scaled. replace t with (f * (t / f)) by (field; lra). split; apply Rmult_le_compat_l; lra.
Qed.
(** ... and the cost (the integral of the squared derivative of order h) is divided by f^(2h-1). *)
Theorem C80_cost_of_time : forall d h c n tf W f g g' cc, d_dim d = (2 * h)%nat -> (forall a, d <> D01 a) -> 0 < f -> (cc < c)%nat ->
  interpolant d c n tf W g -> interpolant d c n (fun i => tf i * f) W g' ->
  exists q q' V V', draws d c n tf g q /\ draws d c n (fun i => tf i * f) g' q' /\
    is_RInt (fun t => (Derive_n (q cc) h t) ^ 2) 0 (Rsum n tf) V /\
    is_RInt (fun t => (Derive_n (q' cc) h t) ^ 2) 0 (Rsum n tf * f) V' /\ V' = V / f ^ (2 * h - 1).
Proof.
  intros d h c n tf W f g g' cc Hd Np Hf Hc I I'. destruct (interpolant_inv _ _ _ _ _ _ I) as (Od & Hn & P & (h' & Hh & Hd') & cf & _ & S0 & D0).
  assert (h' = h) as -> by lia. destruct (interpolant_inv _ _ _ _ _ _ I') as (_ & _ & _ & _ & cf' & _ & S1 & D1).
  destruct (interp_slower d h n c tf W cf cf' cc f Od Np Hh Hn Hd P Hf S0 S1 Hc) as (V & V' & J & J' & E).
  exists (sfun d c n 0 tf cf), (sfun d c n 0 (fun i => tf i * f) cf'), V, V'. split; auto. split; auto. split; auto. split; auto.
  rewrite <- E. unfold Rdiv. rewrite Rmult_assoc, Rinv_r, Rmult_1_r; [reflexivity|]. apply pow_nonzero. lra.
Qed.
(** Dropping waypoints (and joining the intervals between them) never raises the cost. *)
Theorem C80_fewer_waypoints : forall d h c c' n m tf tf' W W' g g' cc cc' sel, d_dim d = (2 * h)%nat -> (2 <= h)%nat ->
  interpolant d c n tf W g -> interpolant d c' m tf' W' g' -> (cc < c)%nat -> (cc' < c')%nat ->
  sel 0%nat = 0%nat -> sel m = n -> (forall i, (i < m)%nat -> (sel i < sel (S i))%nat) ->
  (forall i, (i < m)%nat -> tf' i = Rsum (sel (S i)) tf - Rsum (sel i) tf) -> (forall k, (k <= m)%nat -> W' k cc' = W (sel k) cc) ->
  exists q q' V V', draws d c n tf g q /\ draws d c' m tf' g' q' /\ is_RInt (cost_at (cost_weight d) h (q cc)) 0 (Rsum n tf) V /\
    is_RInt (cost_at (cost_weight d) h (q' cc')) 0 (Rsum n tf) V' /\ V' <= V.
Proof.
  intros d h c c' n m tf tf' W W' g g' cc cc' sel Hd H2 I I' Hc Hc' Z0 Zm Mo Et EW.
  destruct (interpolant_inv _ _ _ _ _ _ I) as (Od & Hn & P & _ & cf & _ & S0 & D0). destruct (interpolant_inv _ _ _ _ _ _ I') as (_ & Hm & _ & _ & cf' & _ & S1 & D1).
  destruct (interp_fewer d h n m c c' tf tf' W W' cf cf' cc cc' sel) as (V & V' & J & J' & L); auto.
  { intros i Hi. rewrite !bp_len. auto. }
  exists (sfun d c n 0 tf cf), (sfun d c' m 0 tf' cf' ), V, V'. auto.
Qed.
(** Stability: for given lengths there is a number K such that moving the waypoints by at most r moves the curve by at most K r. *)
Theorem C80_stable : forall b d c n tf, is_basis b d -> Nat.Even (d_dim d) -> (1 <= n)%nat -> (forall i, (i < n)%nat -> 0 < tf i) ->
  exists K, 0 <= K /\ forall W W' r g g', interpolant d c n tf W g -> interpolant d c n tf W' g' ->
  (forall k cc, (k <= n)%nat -> (cc < c)%nat -> Rabs (W' k cc - W k cc) <= r) -> 0 <= r ->
  exists f f', draws d c n tf g f /\ draws d c n tf g' f' /\ forall cc t, (cc < c)%nat -> 0 <= t <= Rsum n tf -> Rabs (f' cc t - f cc t) <= K * r.
Proof.
  intros b d c n tf B (h & Hd) Hn P. assert (Hh : (1 <= h)%nat) by (pose proof (is_basis_pos _ _ B); lia). pose proof (is_basis_desc _ _ B) as Od.
  destruct (interp_stable_fun d h n 0 tf Od Hh Hn Hd P c 0) as (K & K0 & HK). exists K. split; auto. intros W W' r g g' I I' Hr r0.
  destruct (interpolant_inv _ _ _ _ _ _ I) as (_ & _ & _ & _ & cf & _ & S0 & D0). destruct (interpolant_inv _ _ _ _ _ _ I') as (_ & _ & _ & _ & cf' & _ & S1 & D1).
  exists (sfun d c n 0 tf cf), (sfun d c n 0 tf cf'). split; auto. split; auto. intros cc t Hc Ht.
  apply (HK W cf cf' r S0); auto.
  - intros q Ok. pose proof (S1 q Ok) as E. destruct q as [iv e|iv e|iv e k|e k|e k]; cbn [residual cond_ok] in *; try (rewrite E, Rabs_R0; exact r0).
    + replace (_ - W iv e) with (W' iv e - W iv e) by lra. apply Hr; lia.
    + replace (_ - W (S iv) e) with (W' (S iv) e - W (S iv) e) by lra. apply Hr; lia.
  - apply locate_lt; auto.
  - rewrite bp_len. exact Ht.
Qed.

(** ** cases *)
Lemma some_interpolant h c n tf W : (1 <= h)%nat -> (1 <= n)%nat -> (forall i, (i < n)%nat -> / 10 ^ 6 <= tf i) -> exists g, interpolant (DLeg (2 * h)) c n tf W g.
Proof.
  intros Hh Hn P. destruct (leg_basis (2 * h) ltac:(lia)) as (b & B & _).
  destruct (reached_fresh b (DLeg (2 * h)) c n [] (bs_init b) B) as (ip & _ & Re); [exists h; reflexivity|lia|exact I|exact I|reflexivity|].
  assert (V : vec_is (mkvec n (fun i => Some (tf i))) n tf) by (split; [reflexivity|intros; reflexivity]).
  assert (Rd : reads (mkmat (S n) c (fun i j => Some (W i j))) n c W) by (apply reads_mat; repeat split; reflexivity).
  destruct (interpolate_exact b _ c n ip _ tf _ W gauss_lu Re gauss_lu_exact V P Rd) as (g & ip' & cf & E & _).
  exists g, b, ip, ip', gauss_lu. do 2 eexists. split; [exact Re|]. split; [apply gauss_lu_exact|]. split; [exact V|]. split; [exact P|]. split; [exact Rd|exact E].
Qed.
Definition ex_tf (i : nat) : R := nth i [1; 2; 3 / 2] 0.
Definition ex_W (k cc : nat) : R := INR (k * k) - 3 * INR cc.
Lemma ex_tf_ok i : (i < 3)%nat -> / 10 ^ 6 <= ex_tf i.
Proof. intros Hi. apply six_le. destruct i as [|[|[|i]]]; try lia; unfold ex_tf; cbn [nth]; lra. Qed.
(** quintic curves in the plane through four points, and what the theorems say of them at 3/4 *)
Example C80_case : exists g1 g2 g3 g4 f1 f2,
  interpolant (DLeg 6) 2 3 ex_tf ex_W g1 /\ interpolant (DLeg 6) 2 3 ex_tf (fun k cc => 10 * INR k) g2 /\
  interpolant (DLeg 6) 2 3 ex_tf (fun k cc => 2 * ex_W k cc + - 1 * (10 * INR k)) g3 /\
  interpolant (DLeg 6) 2 3 (fun i => ex_tf (3 - 1 - i)) (fun k cc => ex_W (3 - k) cc) g4 /\
  (exists m, gs_value g1 (vec_of_list [3 / 4]) = Ok m /\ mat_is m 1 2 (fun _ cc => f1 cc (3 / 4))) /\
  (exists m, gs_value g3 (vec_of_list [3 / 4]) = Ok m /\ mat_is m 1 2 (fun _ cc => 2 * f1 cc (3 / 4) + - 1 * f2 cc (3 / 4))) /\
  (exists f m, draws (DLeg 6) 2 3 ex_tf g1 f /\ gs_value g4 (vec_of_list [11 / 4]) = Ok m /\ mat_is m 1 2 (fun _ cc => f cc (9 / 2 - 11 / 4))).
Proof.
  destruct (some_interpolant 3 2 3 ex_tf ex_W ltac:(lia) ltac:(lia) ex_tf_ok) as (g1 & I1).
  destruct (some_interpolant 3 2 3 ex_tf (fun k cc => 10 * INR k) ltac:(lia) ltac:(lia) ex_tf_ok) as (g2 & I2).
  destruct (some_interpolant 3 2 3 ex_tf (fun k cc => 2 * ex_W k cc + - 1 * (10 * INR k)) ltac:(lia) ltac:(lia) ex_tf_ok) as (g3 & I3).
  destruct (some_interpolant 3 2 3 (fun i => ex_tf (3 - 1 - i)) (fun k cc => ex_W (3 - k) cc) ltac:(lia) ltac:(lia)) as (g4 & I4).
  { intros i Hi. apply ex_tf_ok. lia. }
  change (2 * 3)%nat with 6%nat in *.
  destruct (C80_linear _ _ _ _ _ _ _ 2 (-1) g1 g2 g3 I1 I2 I3) as (f1 & f2 & D1 & D2 & D3); [auto|].
  destruct (C80_reversed _ _ _ _ _ _ _ g1 g4 I1 I4) as (f & F1 & F4 & _); [auto|auto|].
  exists g1, g2, g3, g4, f1, f2. do 4 (split; auto).
  assert (T : Rsum 3 ex_tf = 9 / 2) by (cbn; field).
  assert (V : forall x, vec_is (vec_of_list [x]) 1 (fun i => nth i [x] 0)) by (intros; apply (vec_of_list_is [x] 0)).
  split; [|split].
  - destruct (D1 1%nat _ _ (V (3 / 4))) as (m & E & M). { intros [|i] Hi; [|lia]. cbn [nth]. split; [lra|exact I]. }
    exists m. split; auto. eapply mat_is_ext; [exact M|]. intros [|i] j Hi Hj; [reflexivity|lia].
  - destruct (D3 1%nat _ _ (V (3 / 4))) as (m & E & M). { intros [|i] Hi; [|lia]. cbn [nth]. split; [lra|exact I]. }
    exists m. split; auto. eapply mat_is_ext; [exact M|]. intros [|i] j Hi Hj; [reflexivity|lia].
  - destruct (F4 1%nat _ _ (V (11 / 4))) as (m & E & M).
    { intros [|i] Hi; [|lia]. cbn [nth]. split; [|exact I]. rewrite (Rsum_rev 3 ex_tf). lra. }
    exists f, m. split; auto. split; auto. eapply mat_is_ext; [exact M|]. intros [|i] j Hi Hj; [cbn [nth]; rewrite T; reflexivity|lia].
Qed.
(** a point that does not move; a plane curve and its first coordinate alone; moved waypoints; half the speed; without the second waypoint *)
Example C80_constant_case : exists g m, interpolant (DLeg 4) 1 3 ex_tf (fun _ _ => 7) g /\ gs_value g (vec_of_list [1 / 3]) = Ok m /\ mat_is m 1 1 (fun _ _ => 7).
Proof.
  destruct (some_interpolant 2 1 3 ex_tf (fun _ _ => 7) ltac:(lia) ltac:(lia) ex_tf_ok) as (g & I0).
  destruct (C80_constant _ _ _ _ _ g 0 7 I0 ltac:(lia)) as (f & D & E); [auto|].
  assert (T : Rsum 3 ex_tf = 9 / 2) by (cbn; field).
  destruct (D 1%nat (vec_of_list [1 / 3]) (fun i => nth i [1 / 3] 0) (vec_of_list_is [1 / 3] 0)) as (m & Em & M).
  { intros [|i] Hi; [|lia]. cbn [nth]. split; [lra|exact I]. }
  exists g, m. split; auto. split; auto. eapply mat_is_ext; [exact M|]. intros [|i] [|j] Hi Hj; try lia. cbn [nth]. apply E. lra.
Qed.
Example C80_components_case : exists g1 g2, interpolant (DLeg 4) 2 3 ex_tf ex_W g1 /\ interpolant (DLeg 4) 1 3 ex_tf (fun k _ => ex_W k 1) g2.
Proof.
  destruct (some_interpolant 2 2 3 ex_tf ex_W ltac:(lia) ltac:(lia) ex_tf_ok) as (g1 & I1). destruct (some_interpolant 2 1 3 ex_tf (fun k _ => ex_W k 1) ltac:(lia) ltac:(lia) ex_tf_ok) as (g2 & I2). eauto.
Qed.
Example C80_translation_case : exists g g', interpolant (DLeg 6) 2 3 ex_tf ex_W g /\ interpolant (DLeg 6) 2 3 ex_tf (fun k cc => ex_W k cc + INR cc) g'.
Proof.
  destruct (some_interpolant 3 2 3 ex_tf ex_W ltac:(lia) ltac:(lia) ex_tf_ok) as (g1 & I1). destruct (some_interpolant 3 2 3 ex_tf (fun k cc => ex_W k cc + INR cc) ltac:(lia) ltac:(lia) ex_tf_ok) as (g2 & I2). eauto.
Qed.
Example C80_dilated_case : exists g g' q q' V V', interpolant (DLeg 6) 2 3 ex_tf ex_W g /\ interpolant (DLeg 6) 2 3 (fun i => ex_tf i * 2) ex_W g' /\
  draws (DLeg 6) 2 3 ex_tf g q /\ draws (DLeg 6) 2 3 (fun i => ex_tf i * 2) g' q' /\
  is_RInt (fun t => (Derive_n (q 1%nat) 3 t) ^ 2) 0 (Rsum 3 ex_tf) V /\ is_RInt (fun t => (Derive_n (q' 1%nat) 3 t) ^ 2) 0 (Rsum 3 ex_tf * 2) V' /\ V' = V / 32.
Proof.
  destruct (some_interpolant 3 2 3 ex_tf ex_W ltac:(lia) ltac:(lia) ex_tf_ok) as (g & I1).
  destruct (some_interpolant 3 2 3 (fun i => ex_tf i * 2) ex_W ltac:(lia) ltac:(lia)) as (g' & I2).
  { intros i Hi. pose proof (ex_tf_ok i Hi). pose proof pos6. lra. }
  change (2 * 3)%nat with 6%nat in *.
  destruct (C80_cost_of_time (DLeg 6) 3 2 3 ex_tf ex_W 2 g g' 1 eq_refl ltac:(discriminate) ltac:(lra) ltac:(lia) I1 I2) as (q & q' & V & V' & D & D' & J & J' & E).
  exists g, g', q, q', V, V'. do 6 (split; auto). rewrite E. unfold Rdiv. f_equal. f_equal. cbn. ring.
Qed.
Definition ex_sel (k : nat) : nat := match k with O => 0%nat | S k => S (S k) end.
Example C80_fewer_waypoints_case : exists g g', interpolant (DLeg 6) 2 3 ex_tf ex_W g /\
  interpolant (DLeg 6) 1 2 (fun i => Rsum (ex_sel (S i)) ex_tf - Rsum (ex_sel i) ex_tf) (fun k _ => ex_W (ex_sel k) 1) g' /\
  ex_sel 0 = 0%nat /\ ex_sel 2 = 3%nat /\ forall i, (i < 2)%nat -> (ex_sel i < ex_sel (S i))%nat.
Proof.
  destruct (some_interpolant 3 2 3 ex_tf ex_W ltac:(lia) ltac:(lia) ex_tf_ok) as (g & I1).
  destruct (some_interpolant 3 1 2 (fun i => Rsum (ex_sel (S i)) ex_tf - Rsum (ex_sel i) ex_tf) (fun k _ => ex_W (ex_sel k) 1) ltac:(lia) ltac:(lia)) as (g' & I2).
  { intros i Hi. apply six_le. destruct i as [|[|i]]; try lia; unfold ex_sel, ex_tf; cbn [Rsum nth]; lra. }
  exists g, g'. split; auto. split; auto. split; auto. split; auto. intros [|[|i]] Hi; cbn; lia.
Qed.
Example C80_stable_case : exists b g g', is_basis b (DLeg 6) /\ interpolant (DLeg 6) 2 3 ex_tf ex_W g /\ interpolant (DLeg 6) 2 3 ex_tf (fun k cc => ex_W k cc + / 10 * INR cc) g' /\
  forall k cc, (k <= 3)%nat -> (cc < 2)%nat -> Rabs (ex_W k cc + / 10 * INR cc - ex_W k cc) <= / 10.
Proof.
  destruct (leg_basis 6 ltac:(lia)) as (b & B & _).
  destruct (some_interpolant 3 2 3 ex_tf ex_W ltac:(lia) ltac:(lia) ex_tf_ok) as (g & I1).
  destruct (some_interpolant 3 2 3 ex_tf (fun k cc => ex_W k cc + / 10 * INR cc) ltac:(lia) ltac:(lia) ex_tf_ok) as (g' & I2).
  exists b, g, g'. split; auto. split; auto. split; auto. intros k cc _ Hc. replace (_ - _) with (/ 10 * INR cc) by ring.
  destruct cc as [|[|cc]]; [| |lia]; cbn [INR]; rewrite Rabs_pos_eq; lra.
Qed.
