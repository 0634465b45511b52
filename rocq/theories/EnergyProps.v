(** Property C77: for the given interval lengths the interpolating spline has
    the least cost of all functions through the waypoints. *)
From Coquelicot Require Import Coquelicot.
From Coq Require Import List Arith Lia Bool ZArith Reals Lra.
From Verif Require Import Num Outcome LinAlg RSum RDeriv RGauss LegendreSpec LagrangeSpec BasisModel SplineSpec BasisFn BasisProofs3
  ToolsModel GSplineModel GSplineProofs GSplineProofs2 GSplineProofs3 GSplineProofs5 GSplineProofs6 GSplineProps InterpModel InterpSpec SolverSpec InterpProofs3 InterpMath InterpMath2 InterpProofs7 InterpProofs8
  InterpProps EnergySpec EnergyMath EnergyProofs.
Import ListNotations.
Local Open Scope R_scope.

Lemma bp0 tf k : bp 0 tf k = Rsum k tf.
Proof. unfold bp. ring. Qed.
Lemma half_dim d h : d_dim d = (2 * h)%nat -> (d_dim d / 2)%nat = h.
Proof. intros ->. rewrite Nat.mul_comm. apply Nat.div_mul. lia. Qed.

(** Every component, every basis: no function of class C^h (h half the
    dimension) that takes the waypoint values and is at rest at both ends costs
    less, and one that costs the same is the spline. *)
Theorem C77_least_cost : forall b d c n ip tau tf wp W lu, reached b d c n ip -> exact_solver lu ->
  vec_is tau n tf -> (forall i, (i < n)%nat -> / 10 ^ 6 <= tf i) -> reads wp n c W ->
  exists g ip' cf, ip_interpolate lu ip tau wp = Ok (g, ip') /\ rep g d n c 0 (Rsum n tf) tf cf /\
  let h := (d_dim d / 2)%nat in
  forall cc f, (cc < c)%nat -> competitor h n (fun k => Rsum k tf) (fun k => W k cc) f ->
  exists Vs Vf, is_RInt (cost_at (cost_weight d) h (sfun d c n 0 tf cf cc)) 0 (Rsum n tf) Vs /\
    is_RInt (cost_at (cost_weight d) h f) 0 (Rsum n tf) Vf /\ Vs <= Vf /\
    (Vf = Vs -> forall t, 0 <= t <= Rsum n tf -> f t = sfun d c n 0 tf cf cc t).
Proof.
  intros b d c n ip tau tf wp W lu Re Ex V P Rd. destruct (interpolate_exact b d c n ip tau tf wp W lu Re Ex V P Rd) as (g & ip' & cf & E & Rp & Sol & _).
  exists g, ip', cf. split; auto. split; auto. intros h cc f Hc Cf. pose proof pos6 as P6.
  pose proof Re as (B & _ & Hn & _). destruct (reached_half _ _ _ _ _ Re) as (h' & Hh & Hd). unfold h in *. rewrite (half_dim d h' Hd) in *.
  assert (Pt : forall i, (i < n)%nat -> 0 < tf i) by (intros i Hi; specialize (P i Hi); lra).
  destruct (least_function d h' c n 0 tf cf W cc (is_basis_desc _ _ B) Hh Hn Hd Pt Sol Hc f) as (Vs & Vf & I1 & I2 & L & U).
  { destruct Cf as (C1 & C2 & C3). split; auto. split.
    - intros k Hk. rewrite bp0. auto.
    - intros j Hj. rewrite !bp0. auto. }
  rewrite bp0 in *. exists Vs, Vf. auto.
Qed.

(** the cost of the polynomial bases of dimension 2h: the integral of the squared derivative of order h *)
Theorem C77_polynomial : forall d h f t, d_dim d = (2 * h)%nat -> (forall a, d <> D01 a) ->
  cost_at (cost_weight d) h f t = (Derive_n f h t) ^ 2.
Proof.
  intros d h f t Hd N. unfold cost_at. cbn [Rsum]. rewrite Rsum_zero.
  - rewrite weight_poly, (half_dim d h Hd), Nat.eqb_refl by auto. ring.
  - intros k Hk. rewrite weight_poly, (half_dim d h Hd) by auto. destruct (Nat.eqb_spec k h); [lia|ring].
Qed.
(** the cost of the exponential-trigonometric basis: velocity and jerk, weighed *)
Theorem C77_exp_trig : forall a f t, cost_at (cost_weight (D01 a)) 3 f t = a * (Derive f t) ^ 2 + (1 - a) * (Derive_n f 3 t) ^ 2.
Proof. intros a f t. unfold cost_at, cost_weight. cbn [Rsum Nat.eqb]. change (Derive_n f 1 t) with (Derive f t). ring. Qed.

(** The same against functions given by pieces, such as splines of any other kind. *)
Theorem C77_least_cost_pieces : forall d h c n t0 tf cf W cc p, desc_ok d -> (1 <= h)%nat -> (1 <= n)%nat -> d_dim d = (2 * h)%nat ->
  (forall i, (i < n)%nat -> 0 < tf i) -> interpolates d c n t0 tf W cf -> (cc < c)%nat ->
  piecewise_competitor h n (bp t0 tf) (fun k => W k cc) p ->
  exists Vs Vp, is_RInt (cost_at (cost_weight d) h (sfun d c n t0 tf cf cc)) t0 (bp t0 tf n) Vs /\
    (forall iv, (iv < n)%nat -> is_RInt (cost_at (cost_weight d) h (p iv)) (bp t0 tf iv) (bp t0 tf (S iv)) (Vp iv)) /\ Vs <= Rsum n Vp /\
    (Rsum n Vp = Vs -> forall iv t, (iv < n)%nat -> bp t0 tf iv <= t <= bp t0 tf (S iv) -> p iv t = sfun d c n t0 tf cf cc t).
Proof.
  intros d h c n t0 tf cf W cc p Od Hh Hn Hd Ht Sol Hc Cp.
  destruct (least_pieces d h c n t0 tf cf W cc Od Hh Hn Hd Ht Sol Hc p Cp) as (Vs & Vp & I1 & I2 & L & U).
  exists (Rsum n Vs), Vp. split; [apply cost_spline; auto|]. split; auto. split; auto.
  intros E iv t Hi Hv. rewrite (U E iv t Hi Hv). symmetry. apply (sfun_on d h c n t0 tf cf W cc); auto.
Qed.

(** The spline is one of the functions it is compared with: its pieces always,
    the whole function when h is at least 2. *)
Theorem C77_admissible : forall d h c n t0 tf cf W cc, (1 <= h)%nat -> (1 <= n)%nat -> d_dim d = (2 * h)%nat ->
  (forall i, (i < n)%nat -> 0 < tf i) -> interpolates d c n t0 tf W cf -> (cc < c)%nat ->
  piecewise_competitor h n (bp t0 tf) (fun k => W k cc) (fun iv => piece d c t0 tf cf iv cc) /\
  ((2 <= h)%nat -> competitor h n (bp t0 tf) (fun k => W k cc) (sfun d c n t0 tf cf cc)).
Proof.
  intros d h c n t0 tf cf W cc Hh Hn Hd Ht Sol Hc. pose proof (half_dim d h Hd) as Eh. split.
  - split; [|split].
    + intros iv Hi. split.
      * assert (D : forall j u, is_derive (Derive_n (piece d c t0 tf cf iv cc) j) u (Derive_n (piece d c t0 tf cf iv cc) (S j) u))
          by (intros; apply (F_derive d c n t0 tf cf Ht cc iv j u Hi)).
        split; [intros j t _; eexists; apply D|]. intros t. eapply cont_derive. apply D.
      * pose proof (Sol (CStart iv cc) (conj Hi Hc)) as E1. pose proof (Sol (CEnd iv cc) (conj Hi Hc)) as E2. unfold residual in *. lra.
    + intros iv j Hi Hj. destruct j as [|j]; [lia|]. pose proof (Sol (CCont iv cc j) ltac:(simpl; lia)) as E. unfold residual in E. lra.
    + intros j Hj. destruct j as [|j]; [lia|].
      pose proof (Sol (CFirst cc j)) as E1. pose proof (Sol (CLast cc j)) as E2. unfold cond_ok, residual in *. rewrite Eh in *.
      split; [apply E1|apply E2]; lia.
  - intros H2. destruct (sfun_interp d h c n t0 tf cf W cc Hh Hd Hn Ht Hc Sol) as (S1 & S2 & S3). split; [|split].
    + split.
      * intros j t Hj. eexists. apply S1. lia.
      * intros t. destruct (Nat.eq_dec h (2 * h - 2)) as [E|E]; [rewrite E; apply S2|]. eapply cont_derive. apply S1. lia.
    + intros k Hk. apply sfun_bp; auto.
    + intros j Hj. replace (bp t0 tf 0) with t0 by (unfold bp; simpl; ring). apply S3; auto.
Qed.

(** ** a case: from rest at 0 to rest at 1 in one unit of time *)
Definition quintic (t : R) : R := 10 * t ^ 3 - 15 * t ^ 4 + 6 * t ^ 5.
Lemma quintic_D1 t : Derive quintic t = 30 * t ^ 2 - 60 * t ^ 3 + 30 * t ^ 4.
Proof. apply is_derive_unique. unfold quintic. auto_derive; auto. simpl. ring. Qed.
Lemma quintic_d2 t : is_derive (Derive quintic) t (60 * t - 180 * t ^ 2 + 120 * t ^ 3).
Proof.
  apply (is_derive_ext (fun t => 30 * t ^ 2 - 60 * t ^ 3 + 30 * t ^ 4)); [intros; symmetry; apply quintic_D1|].
  auto_derive; auto. simpl. ring.
Qed.
Lemma quintic_competitor : competitor 2 1 (fun k => Rsum k (fun _ => 1)) (fun k => INR k) quintic.
Proof.
  split; [|split].
  - split.
    + intros [|[|j]] t Hj; [..|lia]; [exists (30 * t ^ 2 - 60 * t ^ 3 + 30 * t ^ 4)|eexists; apply quintic_d2].
      simpl. unfold quintic. auto_derive; auto. simpl. ring.
    + intros t. apply (continuous_ext (fun t => 60 * t - 180 * t ^ 2 + 120 * t ^ 3)).
      * intros u. symmetry. apply is_derive_unique. apply quintic_d2.
      * apply (@ex_derive_continuous R_AbsRing R_NormedModule). auto_derive. auto.
  - intros [|[|k]] Hk; [| |lia]; unfold quintic; cbn; ring.
  - intros [|[|j]] Hj; [lia| |lia]. change (Derive_n quintic 1) with (Derive quintic). rewrite !quintic_D1. cbn. split; ring.
Qed.
Lemma ex_unit : exists b ip tau wp, reached b (DLeg 4) 1 1 ip /\ vec_is tau 1 (fun _ => 1) /\
  (forall i, (i < 1)%nat -> / 10 ^ 6 <= 1) /\ reads wp 1 1 (fun k _ => INR k).
Proof.
  destruct (leg_basis 4 ltac:(lia)) as (b & B & _).
  destruct (reached_fresh b (DLeg 4) 1 1 [] (bs_init b) B) as (ip & _ & Re); [exists 2%nat; reflexivity|lia|exact I|exact I|reflexivity|].
  exists b, ip, (vconst 1 1), (mkmat 2 1 (fun i _ => Some (INR i))). split; auto. split; [apply vconst_is|].
  split; [intros; apply six_le; lra|]. apply reads_mat. repeat split; reflexivity.
Qed.
(** the quintic is a competitor, it costs 120/7, the cubic Legendre spline less *)
Example C77_nonvacuous : exists b ip tau wp g ip' cf V, reached b (DLeg 4) 1 1 ip /\
  ip_interpolate gauss_lu ip tau wp = Ok (g, ip') /\ rep g (DLeg 4) 1 1 0 1 (fun _ => 1) cf /\
  competitor 2 1 (fun k => Rsum k (fun _ => 1)) (fun k => INR k) quintic /\
  is_RInt (fun t => (Derive_n quintic 2 t) ^ 2) 0 1 (120 / 7) /\
  is_RInt (fun t => (Derive_n (sfun (DLeg 4) 1 1 0 (fun _ => 1) cf 0) 2 t) ^ 2) 0 1 V /\ V <= 120 / 7.
Proof.
  destruct ex_unit as (b & ip & tau & wp & Re & V & P & Rd).
  destruct (C77_least_cost b (DLeg 4) 1 1 ip tau (fun _ => 1) wp (fun k _ => INR k) gauss_lu Re gauss_lu_exact V P Rd) as (g & ip' & cf & E & Rp & L).
  change (d_dim (DLeg 4) / 2)%nat with 2%nat in L. cbv zeta in L. specialize (L 0%nat quintic ltac:(lia) quintic_competitor).
  replace (Rsum 1 (fun _ => 1)) with 1 in * by (simpl; ring).
  destruct L as (Vs & Vf & I1 & I2 & Le & _).
  assert (Q : is_RInt (fun t => (Derive_n quintic 2 t) ^ 2) 0 1 (120 / 7)).
  { apply (is_RInt_ext (fun t => (60 * t - 180 * t ^ 2 + 120 * t ^ 3) ^ 2)).
    - intros t _. f_equal. symmetry. apply is_derive_unique. apply quintic_d2.
    - replace (120 / 7) with (minus (1200 * 1 ^ 3 - 5400 * 1 ^ 4 + 9360 * 1 ^ 5 - 7200 * 1 ^ 6 + 14400 / 7 * 1 ^ 7)
        (1200 * 0 ^ 3 - 5400 * 0 ^ 4 + 9360 * 0 ^ 5 - 7200 * 0 ^ 6 + 14400 / 7 * 0 ^ 7)).
      + apply (is_RInt_derive (fun t => 1200 * t ^ 3 - 5400 * t ^ 4 + 9360 * t ^ 5 - 7200 * t ^ 6 + 14400 / 7 * t ^ 7)).
        * intros t _. auto_derive; auto. simpl. field.
        * intros t _. apply (@ex_derive_continuous R_AbsRing R_NormedModule). auto_derive. auto.
      + unfold minus, plus, opp; simpl. field. }
  assert (I1' : is_RInt (fun t => (Derive_n (sfun (DLeg 4) 1 1 0 (fun _ => 1) cf 0) 2 t) ^ 2) 0 1 Vs).
  { apply (i_ext (cost_at (cost_weight (DLeg 4)) 2 (sfun (DLeg 4) 1 1 0 (fun _ => 1) cf 0))); auto.
    intros t. apply (C77_polynomial (DLeg 4) 2); [reflexivity|discriminate]. }
  assert (I2' : is_RInt (fun t => (Derive_n quintic 2 t) ^ 2) 0 1 Vf).
  { apply (i_ext (cost_at (cost_weight (DLeg 4)) 2 quintic)); auto. intros t. apply (C77_polynomial (DLeg 4) 2); [reflexivity|discriminate]. }
  pose proof (i_unique _ _ _ _ _ I2' Q) as EV. exists b, ip, tau, wp, g, ip', cf, Vs. split; [exact Re|]. split; [exact E|]. split; [exact Rp|].
  split; [exact quintic_competitor|]. split; [exact Q|]. split; [exact I1'|lra].
Qed.
