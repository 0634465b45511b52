(** Properties C48 and C55: the time-allocation problem and the paths computed from it. *)
From Coquelicot Require Import Coquelicot.
From Coq Require Import List Arith Lia Bool ZArith Reals Lra.
From Verif Require Import Num Outcome LinAlg RSum RMat RGauss LegendreSpec LegendreModel LegendreMath LegendreProofs LagrangeSpec Basis0101Spec Basis0101Math BasisModel SplineSpec BasisFn BasisProofs3
  ToolsModel GSplineModel GSplineProofs GSplineProofs2 GSplineProofs3 GSplineProofs4 GSplineProofs5 GSplineProofs6
  InterpModel InterpSpec SolverSpec InterpProofs3 InterpMath InterpMath2 InterpProofs7 InterpProofs8 InterpProps
  SobolevModel SobolevSpec SobolevProofs SobolevProofs2 SobolevProofs3 SobolevProps OptModel OptSpec OptProofs.
Import ListNotations.
Local Open Scope R_scope.

(** ** C48: the initial guess, the bounds, the constraint *)
Lemma Rsum_same n a : Rsum n (fun _ => a) = INR n * a.
Proof. induction n; [simpl; ring|]. rewrite S_INR. cbn [Rsum]. rewrite IHn. ring. Qed.
Theorem C48_start : forall n T, (1 <= n)%nat -> exists x, vec_is (tv_values (tv_ctor n T)) n x /\ Rsum n x = T /\
  (0 < T -> forall i, (i < n)%nat -> 0 < x i) /\ (forall i j, (i < n)%nat -> (j < n)%nat -> x i = x j) /\ (0 <= T <= 10 ^ 20 -> feasible n T x).
Proof.
  intros n T Hn. assert (P : 1 <= INR n) by (apply (le_INR 1); auto). exists (fun _ => T / INR n). split; [apply tv_values_R|].
  assert (E : Rsum n (fun _ => T / INR n) = T) by (rewrite Rsum_same; field; lra). split; auto.
  split; [intros HT i _; apply Rdiv_lt_0_compat; lra|]. split; auto. intros HT. split; auto. intros i _. split; [apply Rdiv_le_0_compat; lra|].
  apply Rle_trans with (T / 1); [|lra]. apply Rmult_le_compat_l; [lra|]. apply Rinv_le_contravar; lra.
Qed.
(** bounds and constraint together describe the feasible lengths, for every duration *)
Theorem C48_feasible : forall n T tv x, vec_is (tv_values tv) n x -> exists vb cb v,
  vec_is (tv_bounds (tv_ctor n T)) n vb /\ vec_is (ec_ctor T) 1 cb /\ ec_values tv = Ok v /\
  forall vf, vec_is v 1 vf -> ((forall i, (i < n)%nat -> within (vb i) (x i)) /\ within (cb 0%nat) (vf 0%nat) <-> feasible n T x).
Proof.
  intros n T tv x V. destruct (ec_values_R tv n x V) as (v & E & Vv). exists (fun _ => (0, ifopt_inf)), (fun _ => (T, T)), v.
  split; [apply vconst_is|]. split; [apply vconst_is|]. split; auto. intros vf Vf.
  assert (Ev : vf 0%nat = Rsum n x). { destruct Vv as (_ & G). destruct Vf as (_ & G'). specialize (G 0%nat ltac:(lia)). rewrite (G' 0%nat ltac:(lia)) in G. now injection G. }
  unfold within, feasible. rewrite Ev, inf_R. cbn [fst snd]. split; intros (A & B); split; auto; lra.
Qed.
Theorem C48_constraint_jacobian : forall n x, exists m, ec_jacobian n (snew 1 n) = Ok m /\ srows m = 1%nat /\ scols m = n /\
  forall i, (i < n)%nat -> exists g, sget m 0 i = Some g /\ exists N,
    (forall tv y, vec_is (tv_values tv) n (set_len x i y) -> exists v, ec_values tv = Ok v /\ vget v 0 = Some (N y)) /\ is_derive N (x i) g.
Proof.
  intros n x. destruct (ec_jacobian_R n) as (m & E & A & B & G). exists m. split; auto. split; auto. split; auto. intros i Hi. exists 1. split; auto.
  exists (fun y => Rsum n (set_len x i y)). split; [|now apply sum_set_derive]. intros tv y V. destruct (ec_values_R tv n _ V) as (v & Ev & Vv). exists v. split; auto. apply Vv. lia.
Qed.
(** whatever the solver asks, in whatever order, every answer is right and nothing undefined happens: bounds and
    constraint as above, the cost is the Sobolev functional of C45 at the point asked (the earlier questions leave no trace), the
    cost row is its gradient; points with a length below 10^-6 are refused *)
Theorem C48_session : forall b d c n hist s ws wp W T lu se, is_basis b d -> Nat.Even (d_dim d) -> (1 <= n)%nat -> exact_pt d (-1) -> exact_pt d 1 ->
  serve_all b hist (bs_init b) = Ok s -> mat_is wp (S n) c W -> (forall k w, In (k, w) ws -> order_tau_ok d k) -> exact_solver lu ->
  exists p l r, nlp_build wp b s ws T = Ok p /\ transcript lu se p l r /\ all_right lu b d c n ws W T (fun _ => T / INR n) l /\
    match r with
    | Ok z => exists p', solve lu se p = Ok (z, p') /\ vec_is (tv_values (nl_var p')) n (last_point (fun _ => T / INR n) l)
    | Throw e => solve lu se p = Throw e
    | UB => False
    end.
Proof.
  intros b d c n hist s ws wp W T lu se B Ev Hn XL XR Hs M O Ex. destruct (build_ok b d c n hist s ws wp W T B Ev Hn XL XR Hs M) as (p & E & Hp).
  destruct (session_ok b d c n ws W T lu se O Ex p _ Hp) as (l & Al & [(z & p' & Tr & Es & Hp')|(e & Tr & Es)]); exists p, l.
  - exists (Ok z). split; auto. split; auto. split; auto. exists p'. split; auto. apply Hp'.
  - exists (Throw e). auto.
Qed.
(** FINDING: with two or more intervals some lengths that meet all bounds and the constraint are refused by the cost with an exception *)
Theorem C48_refused_refuted : forall b d c n ws W T xf p lu, problem_ok b d c n ws W T xf p -> (forall k w, In (k, w) ws -> order_tau_ok d k) -> exact_solver lu ->
  (2 <= n)%nat -> 0 < T <= 10 ^ 20 -> exists x p', feasible n T x /\ ask lu p (AskCost x) = Ok (Failed InvalidArgument, p').
Proof.
  intros b d c n ws W T xf p lu Hp O Ex Hn HT. set (x := fun i => if Nat.eqb i 0 then 0 else if Nat.eqb i 1 then T else 0).
  destruct (ask_ok b d c n ws W T xf p lu (AskCost x) Hp O Ex) as (a & p' & E & (_ & Ra) & _). exists x, p'. split.
  - split. { intros i _. unfold x. destruct (Nat.eqb i 0); [|destruct (Nat.eqb i 1)]; lra. }
    rewrite (Rsum_delta n 1); [reflexivity|lia|]. intros i _ Hi. unfold x. destruct (Nat.eqb_spec i 0); auto. destruct (Nat.eqb_spec i 1); auto. contradiction.
  - rewrite E, Ra; auto. apply long_not. exists 0%nat. split; [lia|]. unfold x. cbn. apply pos6.
Qed.
(** a session with questions, two of them at points that are refused, and a final point *)
Example C48_case : exists b s wp, let W := fun i j => INR (i * i) - 3 * INR j in
  is_basis b (DLeg 6) /\ Nat.Even (d_dim (DLeg 6)) /\ serve_all b [] (bs_init b) = Ok s /\ mat_is wp 4 2 W /\ exact_solver gauss_lu /\
  exists p l, nlp_build wp b s [(3%nat, 1)] 3 = Ok p /\
    transcript gauss_lu (Ask AskStart (fun _ => Ask (AskCost (fun _ => 1)) (fun _ => Ask (AskCost (fun _ => 0)) (fun a => match a with
       | Failed _ => Ask (AskCostJac (fun i => INR (S i) / 2)) (fun _ => Ask (AskConJac (fun _ => 0)) (fun _ => Ask (SetVars (fun i => INR (S i) / 2)) (fun _ => Return 0%Z)))
       | _ => Return (-1)%Z end)))) p l (Ok 0%Z) /\
    length l = 6%nat /\ last_point (fun _ => 3 / INR 3) l = (fun i => INR (S i) / 2) /\ In (AskCost (fun _ => 0), Failed InvalidArgument) l.
Proof.
  destruct (leg_basis 6 ltac:(lia)) as (b & B & _). set (W := fun i j => INR (i * i) - 3 * INR j). set (wp := mkmat 4 2 (fun i j => Some (W i j))).
  assert (M : mat_is wp 4 2 W) by (repeat split; reflexivity). assert (Ev : Nat.Even (d_dim (DLeg 6))) by (exists 3%nat; reflexivity).
  exists b, (bs_init b), wp. cbv zeta. split; auto. split; auto. split; [reflexivity|]. split; auto. split; [apply gauss_lu_exact|].
  assert (O : forall k w, In (k, w) [(3%nat, 1)] -> order_tau_ok (DLeg 6) k) by (intros; exact I).
  destruct (build_ok b (DLeg 6) 2 3 [] (bs_init b) [(3%nat, 1)] wp W 3 B Ev ltac:(lia) I I eq_refl M) as (p & Ep & Hp). exists p.
  destruct (ask_ok _ _ _ _ _ _ _ _ p gauss_lu AskStart Hp O gauss_lu_exact) as (a1 & p1 & E1 & _ & H1).
  destruct (ask_ok _ _ _ _ _ _ _ _ p1 gauss_lu (AskCost (fun _ => 1)) H1 O gauss_lu_exact) as (a2 & p2 & E2 & _ & H2).
  destruct (ask_ok _ _ _ _ _ _ _ _ p2 gauss_lu (AskCost (fun _ => 0)) H2 O gauss_lu_exact) as (a3 & p3 & E3 & (_ & R3) & H3).
  assert (Z : a3 = Failed InvalidArgument) by (apply R3, long_not; exists 0%nat; split; [lia|apply pos6]). subst a3.
  destruct (ask_ok _ _ _ _ _ _ _ _ p3 gauss_lu (AskCostJac (fun i => INR (S i) / 2)) H3 O gauss_lu_exact) as (a4 & p4 & E4 & _ & H4).
  destruct (ask_ok _ _ _ _ _ _ _ _ p4 gauss_lu (AskConJac (fun _ => 0)) H4 O gauss_lu_exact) as (a5 & p5 & E5 & _ & H5).
  destruct (ask_ok _ _ _ _ _ _ _ _ p5 gauss_lu (SetVars (fun i => INR (S i) / 2)) H5 O gauss_lu_exact) as (a6 & p6 & E6 & _ & H6).
  eexists. split; auto. split.
  - eapply T_ask; [exact E1|]. eapply T_ask; [exact E2|]. eapply T_ask; [exact E3|]. eapply T_ask; [exact E4|]. eapply T_ask; [exact E5|]. eapply T_ask; [exact E6|]. apply T_return.
  - split; [reflexivity|]. split; [reflexivity|]. right. right. left. reflexivity.
Qed.

(** ** C55: the paths *)
(** a spline on [0, 1] with interval lengths [tf] through the waypoints, d_dim - 2 times continuously differentiable, at rest at both ends *)
Definition unit_path (g : gspline R) (d : bdesc) (n c : nat) (tf : nat -> R) (W : nat -> nat -> R) : Prop :=
  exists cf, rep g d n c 0 1 tf cf /\ (forall i, (i < n)%nat -> 0 < tf i) /\ Rsum n tf = 1 /\
    forall cc, (cc < c)%nat -> let f := sfun d c n 0 tf cf cc in
      (forall k, (k <= n)%nat -> f (Rsum k tf) = W k cc) /\
      (forall k t, (k < d_dim d - 2)%nat -> is_derive (Derive_n f k) t (Derive_n f (S k) t)) /\
      (forall t, continuous (Derive_n f (d_dim d - 2)) t) /\
      (forall k, (1 <= k < d_dim d / 2)%nat -> Derive_n f k 0 = 0 /\ Derive_n f k 1 = 0).
Lemma to_unit b d c n x W g cf : is_basis b d -> Nat.Even (d_dim d) -> (1 <= n)%nat -> (forall i, (i < n)%nat -> 0 < x i) ->
  rep g d n c 0 (Rsum n x) x cf -> interpolates d c n 0 x W cf ->
  exists g', to_unit_time (Some g) = Ok (Some g') /\ unit_path g' (d_scaled d (1 / Rsum n x)) n c (fun i => x i * (1 / Rsum n x)) W.
Proof.
  intros B (h & Hd) Hn P Rp Sol. assert (Hh : (1 <= h)%nat) by (pose proof (is_basis_pos _ _ B); lia).
  assert (Ps : 0 < Rsum n x). { apply Rlt_le_trans with (x 0%nat); [apply P; lia|]. apply Rsum_term; [intros i Hi; left; auto|lia]. }
  assert (H8 : / 10 ^ 8 <= 1). { rewrite <- Rinv_1. apply Rinv_le_contravar; [lra|]. apply pow_R1_Rle. lra. }
  destruct (linear_scaling_R g d n c 0 (Rsum n x) x cf 1 Rp Ps H8) as (g' & E & R' & _). rewrite Rminus_0_r, Rplus_0_l in *.
  set (f := 1 / Rsum n x) in *. assert (Pf : 0 < f) by (apply Rdiv_lt_0_compat; lra).
  exists g'. unfold to_unit_time. change (@n1 R Rnum) with 1. rewrite E. split; [reflexivity|]. exists cf. split; auto.
  assert (Pt : forall i, (i < n)%nat -> 0 < x i * f) by (intros; apply Rmult_lt_0_compat; auto). split; auto.
  assert (E1 : Rsum n (fun i => x i * f) = 1) by (rewrite Rsum_scal_r; unfold f; field; lra). split; auto.
  intros cc Hc F. assert (Hd' : d_dim (d_scaled d f) = (2 * h)%nat) by (rewrite d_scaled_dim; auto).
  pose proof (interpolates_scaled d c n x W cf f Hn P Pf Sol) as Sol'.
  destruct (sfun_interp (d_scaled d f) h c n 0 _ cf W cc Hh Hd' Hn Pt Hc Sol') as (S1 & S2 & S3). fold F in S1, S2, S3.
  split. { intros k Hk. rewrite <- (Rplus_0_l (Rsum k _)). apply (sfun_bp (d_scaled d f) c n 0 (fun i => x i * f) cf W k cc); auto. }
  rewrite Hd'. split; auto. split; auto. replace (2 * h / 2)%nat with h by (rewrite Nat.mul_comm, Nat.div_mul; lia).
  intros k Hk. destruct (S3 k Hk) as (Z1 & Z2). split; auto. unfold bp in Z2. rewrite Rplus_0_l, E1 in Z2. exact Z2.
Qed.

(** how the session ends decides what optimal_sobolev_norm does; there is no other outcome *)
Theorem C55_optimal : forall b d c n hist s ws wp W T lu se, is_basis b d -> Nat.Even (d_dim d) -> (2 <= n)%nat -> exact_pt d (-1) -> exact_pt d 1 ->
  serve_all b hist (bs_init b) = Ok s -> mat_is wp (S n) c W -> (forall k w, In (k, w) ws -> order_tau_ok d k) -> exact_solver lu ->
  exists p l r, nlp_build wp b s ws T = Ok p /\ transcript lu se p l r /\ all_right lu b d c n ws W T (fun _ => T / INR n) l /\
    let x := last_point (fun _ => T / INR n) l in
    match r with
    | Ok z => (z <> 0%Z -> optimal_sobolev_norm lu se wp b s ws T = Ok None) /\
        (z = 0%Z -> long n x -> exists g cf, optimal_sobolev_norm lu se wp b s ws T = Ok (Some g) /\ rep g d n c 0 (Rsum n x) x cf /\ interpolates d c n 0 x W cf) /\
        (z = 0%Z -> ~ long n x -> optimal_sobolev_norm lu se wp b s ws T = Throw InvalidArgument)
    | Throw e => optimal_sobolev_norm lu se wp b s ws T = Throw e
    | UB => False
    end.
Proof.
  intros b d c n hist s ws wp W T lu se B Ev Hn XL XR Hs M O Ex.
  destruct (C48_session b d c n hist s ws wp W T lu se B Ev ltac:(lia) XL XR Hs M O Ex) as (p & l & r & Ep & Tr & Al & K). exists p, l, r. split; auto. split; auto. split; auto. cbv zeta.
  destruct (reached_fresh b d c n hist s B Ev ltac:(lia) XL XR Hs) as (ip & Ei & Re).
  unfold optimal_sobolev_norm. pose proof M as (Mr & Mc & _). rewrite Mr, Mc. cbn [usub1 of_option bind]. rewrite Ei. cbn [bind]. destruct (Nat.eqb_spec n 1) as [|_]; [lia|]. rewrite Ep. cbn [bind].
  destruct r as [z|e|]; [|rewrite K; reflexivity|exact K]. destruct K as (p' & -> & V). cbn [bind]. destruct (Z.eqb_spec z 0) as [->|Nz]; cbn [negb].
  - split; [intros X; now contradiction X|]. split.
    + intros _ P. destruct (interpolate_exact b d c n ip _ _ wp W lu Re Ex V P (reads_mat _ _ _ _ M)) as (g & ip' & cf & E & Rp & Sol & _). rewrite E. cbn [bind fst]. eauto.
    + intros _ Ns. destruct (long_dec n (last_point (fun _ => T / INR n) l)) as [|Sh]; [contradiction|].
      destruct (C37_short_interval lu lu ip (vnew 0) _ n _ wp 0 V Sh) as (_ & -> & _). reflexivity.
  - split; auto. split; intros X; contradiction.
Qed.
(** two waypoints: no solver *)
Theorem C55_one_interval : forall b d c hist s ws wp W T lu se, is_basis b d -> Nat.Even (d_dim d) -> exact_pt d (-1) -> exact_pt d 1 ->
  serve_all b hist (bs_init b) = Ok s -> mat_is wp 2 c W -> exact_solver lu ->
  (/ 10 ^ 6 <= T -> exists g cf, optimal_sobolev_norm lu se wp b s ws T = Ok (Some g) /\ rep g d 1 c 0 T (fun _ => T) cf /\ interpolates d c 1 0 (fun _ => T) W cf) /\
  (T < / 10 ^ 6 -> optimal_sobolev_norm lu se wp b s ws T = Throw InvalidArgument).
Proof.
  intros b d c hist s ws wp W T lu se B Ev XL XR Hs M Ex. destruct (reached_fresh b d c 1 hist s B Ev ltac:(lia) XL XR Hs) as (ip & Ei & Re).
  unfold optimal_sobolev_norm. pose proof M as (Mr & Mc & _). rewrite Mr, Mc. cbn [usub1 of_option bind Nat.eqb]. rewrite Ei. cbn [bind].
  assert (V : vec_is (vec_of_list [T]) 1 (fun _ => T)) by (split; [reflexivity|]; intros [|i] Hi; [reflexivity|lia]). split.
  - intros P. destruct (interpolate_exact b d c 1 ip _ _ wp W lu Re Ex V (fun _ _ => P) (reads_mat _ _ _ _ M)) as (g & ip' & cf & E & Rp & Sol & _). rewrite E. cbn [bind fst].
    exists g, cf. split; auto. split; auto. replace T with (Rsum 1 (fun _ => T)) at 1 by (simpl; ring). exact Rp.
  - intros Sh. destruct (C37_short_interval lu lu ip (vnew 0) _ 1 _ wp 0 V (ex_intro _ 0%nat (conj Nat.lt_0_1 Sh))) as (_ & -> & _). reflexivity.
Qed.
Lemma rows_m1_R (wp : mat R) n c W : mat_is wp (S n) c W -> rows_m1 wp = INR n.
Proof. intros (Mr & _). unfold rows_m1. rewrite Mr, Nat2Z.inj_succ. unfold Z.succ. replace (Z.of_nat n + 1 - 1)%Z with (Z.of_nat n) by ring. apply eq_sym, INR_IZR_INZ. Qed.

(** what the callers of optimal_sobolev_norm return, given the basis, the weights and the duration they choose *)
Definition path_result lu se b d c n ws wp (W : nat -> nat -> R) T (res : outcome (option (gspline R))) : Prop :=
  (n = 1%nat -> exists g, res = Ok (Some g) /\ unit_path g (d_scaled d (1 / T)) 1 c (fun _ => 1) W) /\
  ((2 <= n)%nat -> exists p l r, nlp_build wp b (bs_init b) ws T = Ok p /\ transcript lu se p l r /\ all_right lu b d c n ws W T (fun _ => T / INR n) l /\
    let x := last_point (fun _ => T / INR n) l in
    match r with
    | Ok z => (z <> 0%Z -> res = Ok None) /\
        (z = 0%Z -> long n x -> exists g, res = Ok (Some g) /\ unit_path g (d_scaled d (1 / Rsum n x)) n c (fun i => x i * (1 / Rsum n x)) W) /\
        (z = 0%Z -> ~ long n x -> res = Throw InvalidArgument)
    | Throw e => res = Throw e
    | UB => False
    end).
Lemma path_ok b d c n ws wp W T lu se : is_basis b d -> Nat.Even (d_dim d) -> (1 <= n)%nat -> exact_pt d (-1) -> exact_pt d 1 ->
  mat_is wp (S n) c W -> (forall k w, In (k, w) ws -> order_tau_ok d k) -> exact_solver lu -> / 10 ^ 6 <= T ->
  path_result lu se b d c n ws wp W T (r <- optimal_sobolev_norm lu se wp b (bs_init b) ws T ;; to_unit_time r).
Proof.
  intros B Ev Hn XL XR M O Ex HT. pose proof pos6 as P6. split.
  - intros ->. destruct (C55_one_interval b d c [] (bs_init b) ws wp W T lu se B Ev XL XR eq_refl M Ex) as (K & _). destruct (K HT) as (g & cf & -> & Rp & Sol). cbn [bind].
    assert (PT : forall i : nat, (i < 1)%nat -> 0 < T) by (intros; lra). assert (E1 : Rsum 1 (fun _ => T) = T) by (simpl; ring).
    destruct (to_unit b d c 1 (fun _ => T) W g cf B Ev ltac:(lia) PT) as (g' & E & U); [now rewrite E1|exact Sol|]. rewrite E1 in U. exists g'. split; auto.
    assert (X : T * (1 / T) = 1) by (field; lra). rewrite X in U. exact U.
  - intros H2. destruct (C55_optimal b d c n [] (bs_init b) ws wp W T lu se B Ev H2 XL XR eq_refl M O Ex) as (p & l & r & Ep & Tr & Al & K). exists p, l, r. split; auto. split; auto. split; auto. cbv zeta in *.
    destruct r as [z|e|]; [|rewrite K; reflexivity|exact K]. destruct K as (K1 & K2 & K3). split; [intros Hz; rewrite K1 by auto; reflexivity|]. split.
    + intros Hz P. destruct (K2 Hz P) as (g & cf & -> & Rp & Sol). cbn [bind]. apply (to_unit b d c n _ W g cf); auto. intros i Hi. specialize (P i Hi). lra.
    + intros Hz Ns. rewrite K3 by auto. reflexivity.
Qed.

(** broken lines, minimum acceleration, jerk, snap and crackle: a path through the waypoints in unit time of smoothness dim - 2, at rest at
    both ends up to order dim/2 - 1, exactly when the solver reports success (with lengths that are not too short) *)
Theorem C55_paths : forall (path : mat R -> outcome (option (gspline R))) dim order lu se,
  In (path, dim, order) [(broken_lines_path lu se, 2, 1); (minimum_acceleration_path lu se, 4, 2); (minimum_jerk_path lu se, 6, 3); (minimum_snap_path lu se, 8, 4); (minimum_crackle_path lu se, 10, 5)]%nat ->
  exact_solver lu -> forall wp n c W, (1 <= n)%nat -> mat_is wp (S n) c W ->
  exists b, is_basis b (DLeg dim) /\ path_result lu se b (DLeg dim) c n [(order, 1)] wp W (INR n) (path wp).
Proof.
  intros path dim order lu se Hin Ex wp n c W Hn M.
  assert (G : Nat.Even dim /\ (2 <= dim)%nat /\ path = legendre_path lu se dim order).
  { cbn [In] in Hin. destruct Hin as [E|[E|[E|[E|[E|[]]]]]]; injection E as <- <- <-; (split; [|split; [lia|reflexivity]]); [exists 1%nat|exists 2%nat|exists 3%nat|exists 4%nat|exists 5%nat]; reflexivity. }
  destruct G as (Ev & Hd & ->). destruct (leg_ctor_R dim) as (buf & Eb & _). exists (BLegendre dim buf).
  assert (B : is_basis (BLegendre dim buf) (DLeg dim)) by (split; [reflexivity|split; auto]). split; auto. unfold legendre_path. rewrite Eb. cbn [bind]. rewrite (rows_m1_R wp n c W M).
  apply (path_ok (BLegendre dim buf) (DLeg dim) c n [(order, 1)] wp W (INR n) lu se); auto; try exact I; [intros; exact I|]. apply six_le. apply (le_INR 1). auto.
Qed.

(** rojas_path *)
Theorem C55_rojas : forall lu se wp n c W k, exact_solver lu -> (1 <= n)%nat -> mat_is wp (S n) c W -> k <> 0 ->
  let a := k ^ 4 / (1 + k ^ 4) in
  0 < a < 1 /\ path_result lu se (B0101 a) (D01 a) c n [(1%nat, a); (3%nat, 1 - a)] wp W (4 * INR n / sqrt 2) (rojas_path lu se wp k).
Proof.
  intros lu se wp n c W k Ex Hn M Hk a. assert (P4 : 0 < k ^ 4) by (replace (k ^ 4) with ((k * k) * (k * k)) by ring; assert (0 < k * k) by (apply Rsqr_pos_lt; auto); nra).
  assert (Hn1 : 1 <= INR n) by (apply (le_INR 1); auto). assert (Sq : 0 < sqrt 2) by (apply sqrt_lt_R0; lra).
  assert (S2 : sqrt 2 * sqrt 2 = 2) by (apply sqrt_sqrt; lra).
  assert (Ha : 0 < a < 1). { unfold a. split; [apply Rdiv_lt_0_compat; lra|]. apply Rmult_lt_reg_r with (1 + k ^ 4); [lra|]. field_simplify; lra. }
  split; auto. unfold rojas_path. cbv zeta. rewrite (rows_m1_R wp n c W M).
  assert (Ea : rojas_alpha (INR n) k = a).
  { unfold rojas_alpha. cbv zeta. rewrite npown_pow. change (1 / (1 + (4 * INR n / sqrt 2 / (4 * INR n * k / sqrt 2)) ^ 4) = a). replace (4 * INR n / sqrt 2 / (4 * INR n * k / sqrt 2)) with (/ k) by (field; repeat split; lra).
    rewrite pow_inv by auto. unfold a. field. split; lra. }
  rewrite Ea. apply (path_ok (B0101 a) (D01 a)); auto; try exact I.
  - split; auto.
  - exists 3%nat. reflexivity.
  - intros k' w' [X|[X|[]]]; injection X as <- <-; cbn; auto.
  - apply six_le. change (1 <= 4 * INR n / sqrt 2). apply Rmult_le_reg_r with (sqrt 2); auto. unfold Rdiv. rewrite Rmult_assoc, Rinv_l by lra. assert (sqrt 2 <= 2) by nra. nra.
Qed.
Example C55_case : exists wp : mat R, mat_is wp 4 2 (fun i j => INR (i * i) - 3 * INR j) /\ exact_solver gauss_lu /\
  (exists g, minimum_jerk_path gauss_lu (Ask (SetVars (fun i => INR (S i) / 2)) (fun _ => Return 0%Z)) wp = Ok (Some g) /\
     unit_path g (DLeg 6) 3 2 (fun i => INR (S i) / 2 * (1 / Rsum 3 (fun i => INR (S i) / 2))) (fun i j => INR (i * i) - 3 * INR j)) /\
  minimum_jerk_path gauss_lu (Ask (SetVars (fun i => INR (S i) / 2)) (fun _ => Return (-2)%Z)) wp = Ok None /\
  minimum_jerk_path gauss_lu (Ask (SetVars (fun i => INR i)) (fun _ => Return 0%Z)) wp = Throw InvalidArgument.
Proof.
  set (W := fun i j => INR (i * i) - 3 * INR j). exists (mkmat 4 2 (fun i j => Some (W i j))). set (wp := mkmat 4 2 (fun i j => Some (W i j))).
  assert (M : mat_is wp 4 2 W) by (repeat split; reflexivity). split; auto. split; [apply gauss_lu_exact|].
  assert (K : forall x z, exists b, path_result gauss_lu (Ask (SetVars x) (fun _ => Return z)) b (DLeg 6) 2 3 [(3%nat, 1)] wp W (INR 3) (minimum_jerk_path gauss_lu (Ask (SetVars x) (fun _ => Return z)) wp)).
  { intros x z. destruct (C55_paths _ 6 3 gauss_lu (Ask (SetVars x) (fun _ => Return z)) (or_intror (or_intror (or_introl eq_refl))) gauss_lu_exact wp 3 2 W ltac:(lia) M) as (b & _ & H). eauto. }
  assert (Q : forall x z, exists b p l r, path_result gauss_lu (Ask (SetVars x) (fun _ => Return z)) b (DLeg 6) 2 3 [(3%nat, 1)] wp W (INR 3) (minimum_jerk_path gauss_lu (Ask (SetVars x) (fun _ => Return z)) wp) /\ transcript gauss_lu (Ask (SetVars x) (fun _ => Return z)) p l r /\
     r = Ok z /\ last_point (fun _ => INR 3 / INR 3) l = x /\ (z <> 0%Z -> minimum_jerk_path gauss_lu (Ask (SetVars x) (fun _ => Return z)) wp = Ok None) /\ (z = 0%Z -> long 3 x -> exists g, minimum_jerk_path gauss_lu (Ask (SetVars x) (fun _ => Return z)) wp = Ok (Some g) /\
       unit_path g (DLeg 6) 3 2 (fun i => x i * (1 / Rsum 3 x)) W) /\ (z = 0%Z -> ~ long 3 x -> minimum_jerk_path gauss_lu (Ask (SetVars x) (fun _ => Return z)) wp = Throw InvalidArgument)).
  { intros x z. destruct (K x z) as (b & H). pose proof H as (_ & H2). destruct (H2 ltac:(lia)) as (p & l & r & _ & Tr & _ & Y). exists b, p, l, r. split; auto. split; auto.
    inversion Tr as [| |q nx p0 a p1 l0 r0 Ea Tr0]; subst. inversion Tr0; subst. cbn [last_point moved point] in *. cbv zeta in Y. destruct Y as (Y1 & Y2 & Y3). auto 10. }
  pose proof pos6 as P6. split; [|split].
  - destruct (Q (fun i => INR (S i) / 2) 0%Z) as (b & p & l & r & _ & _ & _ & _ & _ & Y & _). apply Y; auto. assert (H1 : / 10 ^ 6 <= / 10 ^ 1) by (apply Rinv_le_contravar; [apply pow_lt; lra|apply Rle_pow; [lra|lia]]).
    intros i Hi. pose proof (pos_INR i). rewrite S_INR. simpl (10 ^ 1) in H1. lra.
  - destruct (Q (fun i => INR (S i) / 2) (-2)%Z) as (b & p & l & r & _ & _ & _ & _ & Y & _). apply Y. discriminate.
  - destruct (Q INR 0%Z) as (b & p & l & r & _ & _ & _ & _ & _ & _ & Y). apply Y; auto. apply long_not. exists 0%nat. split; [lia|]. simpl. exact P6.
Qed.

(** FINDING: a single waypoint is not refused: evaluating the cost, or interpolating after a reported success, reads outside the empty vector of lengths *)
Theorem C55_one_waypoint_refuted : forall T (HN : Num T) lu (wp : mat T) (b : basis T) s ws x t next, mrows wp = 1%nat -> Nat.Even (b_dim b) -> (2 <= b_dim b)%nat ->
  optimal_sobolev_norm lu (Return 0%Z) wp b s ws t = UB /\ optimal_sobolev_norm lu (Ask (AskCost x) next) wp b s ws t = UB.
Proof.
  intros T HN lu wp b s ws x t next Mr (h & Hb) Hd. unfold optimal_sobolev_norm, nlp_build, co_ctor, sn_ctor. rewrite Mr. cbn [usub1 of_option bind Nat.eqb].
  unfold ip_ctor. rewrite Hb. replace (2 * h mod 2)%nat with 0%nat by (rewrite Nat.mul_comm, Nat.mod_mul; lia). cbn [Nat.eqb negb].
  destruct (Nat.ltb_spec (2 * h) 2); [lia|]. cbn [bind]. split; reflexivity.
Qed.
(** FINDING: no waypoint: the number of intervals wraps round (not followed by the model, UB) *)
Theorem C55_no_waypoint_refuted : forall T (HN : Num T) lu se (wp : mat T) (b : basis T) s ws t, mrows wp = 0%nat -> optimal_sobolev_norm lu se wp b s ws t = UB.
Proof. intros T HN lu se wp b s ws t Mr. unfold optimal_sobolev_norm. rewrite Mr. reflexivity. Qed.

(** FINDING: the two weights of rojas_path give (1 - a) (a E1 + E3) instead of a E1 + (1 - a) E3 (C45) *)
Theorem C55_rojas_cost_refuted : forall a E, 0 < a < 1 ->
  ctotal [(1%nat, a); (3%nat, 1 - a)] E = (1 - a) * (a * E 1%nat + E 3%nat) /\
  (ctotal [(1%nat, a); (3%nat, 1 - a)] E = a * E 1%nat + (1 - a) * E 3%nat <-> E 1%nat = 0).
Proof. intros a E Ha. cbn [ctotal wprod]. split; [ring|]. split; intros X; [|rewrite X; ring].
  assert (Y : a * a * E 1%nat = 0) by lra. destruct (Rmult_integral _ _ Y) as [Z|Z]; auto. destruct (Rmult_integral _ _ Z); lra.
Qed.

(** FINDING: for equal waypoints the path is constant, all its derivatives vanish, but the cost that the Legendre paths minimise is not zero *)
Definition const_cf (dim j : nat) : R := if Nat.eqb (j mod dim) 0 then 1 else 0.
Lemma const_piece dim c tf iv cc t : (1 <= dim)%nat -> piece (DLeg dim) c 0 tf (const_cf dim) iv cc t = 1.
Proof.
  intros Hd. unfold piece. cbn [d_dim]. rewrite (Rsum_delta dim 0); [|lia|].
  - unfold const_cf. rewrite Nat.add_0_r, Nat.mod_mul by lia. cbn. ring.
  - intros i Hi Ne. unfold const_cf. rewrite Nat.add_comm, Nat.mod_add, Nat.mod_small by lia. destruct (Nat.eqb_spec i 0); [lia|]. ring.
Qed.
Lemma const_derive dim c tf iv cc k t : (1 <= dim)%nat -> Derive_n (piece (DLeg dim) c 0 tf (const_cf dim) iv cc) (S k) t = 0.
Proof. intros Hd. rewrite (Derive_n_ext _ (fun _ => 1)) by (intros; now apply const_piece). apply Derive_n_const. Qed.
Lemma const_interpolates dim c n tf : (2 <= dim)%nat -> interpolates (DLeg dim) c n 0 tf (fun _ _ => 1) (const_cf dim).
Proof. intros Hd q Hq. destruct q; cbn [residual]; rewrite ?const_piece, ?const_derive by lia; ring. Qed.
Lemma legT_pos i j : 0 <= legT i j.
Proof. unfold legT, mT, Dent. destruct lodd; [|lra]. pose proof (pos_INR i). lra. Qed.
Lemma mpow_nonneg n A k : (forall i j, 0 <= A i j) -> forall i j, 0 <= mpow n A k i j.
Proof. intros P. induction k; intros i j; cbn [mpow]; [unfold mI; destruct Nat.eqb; lra|]. unfold mprod. apply Rsum_nonneg. intros l _. apply Rmult_le_pos; auto. Qed.
Lemma mpow_diag dim k : (k < dim)%nat -> 0 < mpow dim legT k 0%nat k.
Proof.
  induction k; intros Hk; cbn [mpow]; [unfold mI; cbn; lra|]. unfold mprod. apply Rlt_le_trans with (mpow dim legT k 0%nat k * legT k (S k)).
  - apply Rmult_lt_0_compat; [apply IHk; lia|]. unfold legT, mT, Dent, lodd. replace (S k - k)%nat with 1%nat by lia. destruct (Nat.ltb_spec k (S k)); [|lia]. cbn. pose proof (pos_INR k). lra.
  - apply (Rsum_term dim (fun l => mpow dim legT k 0%nat l * legT l (S k)) k); [|lia]. intros l _. apply Rmult_le_pos; [apply mpow_nonneg; apply legT_pos|apply legT_pos].
Qed.
Lemma gram00 dim k t : (1 <= k < dim)%nat -> 0 < t -> 0 < gramQ (DLeg dim) k t 0%nat 0%nat.
Proof.
  intros Hk Ht. cbn [gramQ]. apply Rmult_lt_0_compat; [|now apply leg_scale_pos]. unfold leg_added. destruct (Nat.leb_spec k dim); [|lia].
  pose proof (quad_legL dim (mpow dim legT k) (fun i => if Nat.eqb i 0 then 1 else 0)) as Q.
  assert (E : Rsum dim (fun i => Rsum dim (fun j => mprod dim (mprod dim (mpow dim legT k) legL) (mT (mpow dim legT k)) i j * (if Nat.eqb i 0 then 1 else 0) * (if Nat.eqb j 0 then 1 else 0))) = legG dim k 0%nat 0%nat).
  { rewrite (Rsum_delta dim 0); [|lia|]. 2: { intros i _ Hi. apply Rsum_zero. intros j _. destruct (Nat.eqb_spec i 0); [contradiction|ring]. }
    rewrite (Rsum_delta dim 0); [|lia|]. 2: { intros j _ Hj. destruct (Nat.eqb_spec j 0); [contradiction|ring]. }
    cbn [Nat.eqb]. unfold legG. destruct k; [lia|]. ring. }
  cbv beta in Q. rewrite E in Q. rewrite Q. apply Rlt_le_trans with (2 / (2 * INR k + 1) * (Rsum dim (fun i => mpow dim legT k i k * (if Nat.eqb i 0 then 1 else 0))) ^ 2).
  - apply Rmult_lt_0_compat; [apply Rdiv_lt_0_compat; [lra|]; pose proof (pos_INR k); lra|]. rewrite (Rsum_delta dim 0); [|lia|intros i _ Hi; destruct (Nat.eqb_spec i 0); [contradiction|ring]].
    cbn [Nat.eqb]. apply pow_lt. rewrite Rmult_1_r. apply mpow_diag. lia.
  - apply (Rsum_term dim (fun p => 2 / (2 * INR p + 1) * (Rsum dim (fun i => mpow dim legT k i p * (if Nat.eqb i 0 then 1 else 0))) ^ 2) k); [|lia].
    intros p _. apply Rmult_le_pos; [|apply pow2_ge_0]. apply Rlt_le, Rdiv_lt_0_compat; [lra|]. pose proof (pos_INR p). lra.
Qed.
Theorem C55_rest_refuted : forall dim order, In (dim, order) [(2, 1); (4, 2); (6, 3); (8, 4); (10, 5)]%nat ->
  forall b n T xf p lu x, problem_ok b (DLeg dim) 1 n [(order, 1)] (fun _ _ => 1) T xf p -> exact_solver lu -> long n x ->
  exists v p' cf, ask lu p (AskCost x) = Ok (Number v, p') /\ 0 < v /\ interpolates (DLeg dim) 1 n 0 x (fun _ _ => 1) cf /\ is_energy (DLeg dim) 1 n 0 x order cf cf 0.
Proof.
  intros dim order Hin b n T xf p lu x Hp Ex P.
  assert (Hk : (1 <= order < dim)%nat). { cbn [In] in Hin. destruct Hin as [E|[E|[E|[E|[E|[]]]]]]; injection E as <- <-; lia. }
  destruct (ask_ok b (DLeg dim) 1 n _ _ T xf p lu (AskCost x) Hp ltac:(intros; exact I) Ex) as (a & p' & E & (Ra & _) & _). destruct (Ra P) as (v & -> & Nv).
  pose proof Hp as (_ & _ & _ & _ & Hs & _). pose proof Hs as (_ & _ & _ & _ & _ & (B & Ev & Hn & _)). pose proof pos6 as P6.
  assert (Px : forall i, (i < n)%nat -> 0 < x i) by (intros i Hi; specialize (P i Hi); lra).
  assert (V : vec_is (mkvec n (fun i => Some (x i))) n x) by (split; reflexivity).
  destruct (Nv _ _ Hs V) as (sn' & Es). destruct (value_ok b (DLeg dim) 1 n _ _ _ _ x lu Hs ltac:(intros; exact I) Ex V P) as (cf & sn1 & E1 & Sol & _). rewrite E1 in Es. injection Es as <- _.
  exists (bform dim 1 n (ctot [(order, 1)] (gramQ (DLeg dim)) x) cf cf), p', (const_cf dim). split; auto.
  assert (U : forall j, (j < dim * 1 * n)%nat -> cf j = const_cf dim j) by (apply (C52_unique b (DLeg dim) 1 n 0 x (fun _ _ => 1)); auto; apply const_interpolates; lia).
  split; [|split; [apply const_interpolates; lia|]].
  - rewrite (bform_coef dim 1 n _ _ _ _ _ U U). unfold bform.
    assert (Eq : forall iv, Rsum 1 (fun cc => Rsum dim (fun i => Rsum dim (fun j => ctot [(order, 1)] (gramQ (DLeg dim)) x iv i j * const_cf dim ((iv * 1 + cc) * dim + i) * const_cf dim ((iv * 1 + cc) * dim + j)))) = gramQ (DLeg dim) order (x iv) 0%nat 0%nat).
    { intros iv. assert (Cf : forall a i, (i < dim)%nat -> const_cf dim (a * dim + i) = if Nat.eqb i 0 then 1 else 0) by (intros a i Hi; unfold const_cf; rewrite Nat.add_comm, Nat.mod_add, Nat.mod_small by lia; reflexivity).
      cbn [Rsum]. rewrite (Rsum_delta dim 0); [|lia|]. 2: { intros i Hi Ne. apply Rsum_zero. intros j Hj. rewrite (Cf _ i Hi). destruct (Nat.eqb_spec i 0); [contradiction|ring]. }
      rewrite (Rsum_delta dim 0); [|lia|]. 2: { intros j Hj Ne. rewrite (Cf _ j Hj). destruct (Nat.eqb_spec j 0); [contradiction|ring]. }
      rewrite !Cf by lia. cbn [Nat.eqb]. unfold ctot. cbn [ctotal wprod]. ring. }
    rewrite (Rsum_ext n _ (fun iv => gramQ (DLeg dim) order (x iv) 0%nat 0%nat)) by (intros; apply Eq).
    apply Rlt_le_trans with (gramQ (DLeg dim) order (x 0%nat) 0%nat 0%nat); [apply gram00; auto; apply Px; lia|].
    apply (Rsum_term n (fun iv => gramQ (DLeg dim) order (x iv) 0%nat 0%nat) 0); [|lia]. intros i Hi. left. apply gram00; auto.
  - unfold is_energy. destruct order as [|k]; [lia|].
    assert (Z : forall t, Derive_n (sfun (DLeg dim) 1 n 0 x (const_cf dim) 0) (S k) t = 0).
    { intros t. rewrite (Derive_n_ext _ (fun _ => 1)) by (intros y; unfold sfun; apply const_piece; lia). apply Derive_n_const. }
    eapply is_RInt_ext; [|]. 2: { pose proof (is_RInt_const 0 (bp 0 x n) 0) as K. unfold scal in K; simpl in K; unfold mult in K; simpl in K. rewrite Rmult_0_r in K. exact K. }
    intros t _. cbn [Rsum]. rewrite Z. simpl. ring.
Qed.
Example C55_rest_case : exists b p, problem_ok b (DLeg 4) 1 2 [(2%nat, 1)] (fun _ _ => 1) 2 (fun _ => 2 / INR 2) p /\ exact_solver gauss_lu /\ long 2 (fun _ => 2 / INR 2).
Proof.
  destruct (leg_basis 4 ltac:(lia)) as (b & B & _). set (wp := mkmat 3 1 (fun _ _ => Some 1)).
  assert (M : mat_is wp 3 1 (fun _ _ => 1)) by (repeat split; reflexivity). assert (Ev : Nat.Even (d_dim (DLeg 4))) by (exists 2%nat; reflexivity).
  destruct (build_ok b (DLeg 4) 1 2 [] (bs_init b) [(2%nat, 1)] wp _ 2 B Ev ltac:(lia) I I eq_refl M) as (p & _ & Hp). exists b, p. split; auto. split; [apply gauss_lu_exact|].
  intros i _. apply six_le. simpl. lra.
Qed.
