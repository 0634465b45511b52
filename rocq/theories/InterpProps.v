(** Interpolation. *)
From Coquelicot Require Import Coquelicot.
From Coq Require Import List Arith Lia Bool ZArith Reals Lra.
From Verif Require Import Num Outcome LinAlg RSum RGauss LegendreSpec LagrangeSpec LagrangeModel LagrangeProofs Basis0101Spec BasisModel SplineSpec BasisFn BasisProofs3
  ToolsModel GSplineModel GSplineProofs GSplineProofs2 GSplineProofs3 GSplineProofs5 GSplineProofs6 GSplineProps
  InterpModel InterpSpec SolverSpec InterpProofs3 InterpMath InterpMath2 InterpProofs7 InterpProofs8.
Import ListNotations.
Local Open Scope R_scope.

(** ** objects for the examples *)
Lemma six_le x : 1 <= x -> / 10 ^ 6 <= x.
Proof. intros H. apply Rle_trans with (/ 1); [|lra]. apply Rinv_le_contravar; [lra|]. apply pow_R1_Rle. lra. Qed.
Lemma reads_mat (wp : mat R) n c W : mat_is wp (S n) c W -> reads wp n c W.
Proof.
  intros (Mr & Mc & Mg) w cc Hw Hc. unfold mread. rewrite Mr, Mc.
  destruct (Nat.ltb_spec w (S n)); [|lia]. destruct (Nat.ltb_spec cc c); [|lia]. simpl. rewrite Mg by lia. reflexivity.
Qed.
(** the solver that always fails *)
Definition no_lu (A : smat R) : option (vec R -> vec R) := None.
(** an interpolator for the cubic Legendre basis, 3 intervals, 2 components, that already went through a failed call and a successful one *)
Lemma ex_interp : exists b ip tau wp, let tf := fun i => nth i [1; 2; 3 / 2] 0 in let W := fun i j => INR (i * i) - 3 * INR j in
  reached b (DLeg 4) 2 3 ip /\ vec_is tau 3 tf /\ (forall i, (i < 3)%nat -> / 10 ^ 6 <= tf i) /\ mat_is wp 4 2 W.
Proof.
  destruct (leg_basis 4 ltac:(lia)) as (b & B & _).
  destruct (reached_fresh b (DLeg 4) 2 3 [] (bs_init b) B) as (ip & _ & Re); [exists 2%nat; reflexivity|lia|exact I|exact I|reflexivity|].
  assert (V : vec_is (vec_of_list [1; 2; 3 / 2]) 3 (fun i => nth i [1; 2; 3 / 2] 0)) by apply vec_of_list_is.
  assert (P : forall i, (i < 3)%nat -> / 10 ^ 6 <= nth i [1; 2; 3 / 2] 0).
  { intros [|[|[|i]]] Hi; try lia; apply six_le; cbn; lra. }
  set (wp := mkmat 4 2 (fun i j => Some (INR (i * i) - 3 * INR j))).
  assert (M : mat_is wp 4 2 (fun i j => INR (i * i) - 3 * INR j)) by (repeat split; reflexivity).
  destruct (failed_solve b (DLeg 4) 2 3 ip _ _ wp _ no_lu Re V P (reads_mat _ _ _ _ M)) as (ip1 & E1 & Re1 & _); [reflexivity|].
  destruct (interpolate_exact b (DLeg 4) 2 3 ip1 _ _ wp _ gauss_lu Re1 gauss_lu_exact V P (reads_mat _ _ _ _ M)) as (g & ip2 & cf & _ & _ & _ & Re2).
  exists b, ip2, (vec_of_list [1; 2; 3 / 2]), wp. cbv zeta. auto.
Qed.

(** ** C34: the interpolating spline *)
Theorem C34_interpolates : forall b d c n ip tau tf wp W lu, reached b d c n ip -> exact_solver lu ->
  vec_is tau n tf -> (forall i, (i < n)%nat -> / 10 ^ 6 <= tf i) -> reads wp n c W ->
  exists g ip' cf, ip_interpolate lu ip tau wp = Ok (g, ip') /\ rep g d n c 0 (Rsum n tf) tf cf /\
    interpolates d c n 0 tf W cf /\ reached b d c n ip'.
Proof. exact interpolate_exact. Qed.
(** the same as statements about the function: its domain, its values, its continuity, its ends *)
Theorem C34_function : forall b d c n ip tau tf wp W lu, reached b d c n ip -> exact_solver lu ->
  vec_is tau n tf -> (forall i, (i < n)%nat -> / 10 ^ 6 <= tf i) -> reads wp n c W ->
  exists g ip' cf m, ip_interpolate lu ip tau wp = Ok (g, ip') /\ rep g d n c 0 (Rsum n tf) tf cf /\
    gs_dom g = (0, Rsum n tf) /\ gs_waypoints g = Ok m /\ mat_is m (S n) c W /\
    forall cc, (cc < c)%nat -> let f := sfun d c n 0 tf cf cc in
      (forall k, (k <= n)%nat -> f (Rsum k tf) = W k cc) /\
      (forall k t, (k < d_dim d - 2)%nat -> is_derive (Derive_n f k) t (Derive_n f (S k) t)) /\
      (forall t, continuous (Derive_n f (d_dim d - 2)) t) /\
      (forall k, (1 <= k < d_dim d / 2)%nat -> Derive_n f k 0 = 0 /\ Derive_n f k (Rsum n tf) = 0).
Proof.
  intros b d c n ip tau tf wp W lu Re Ex V P Rd. destruct (interpolate_exact b d c n ip tau tf wp W lu Re Ex V P Rd) as (g & ip' & cf & E & Rp & Sol & _).
  pose proof Re as (B & _ & Hn & XL & XR & _). destruct (reached_half _ _ _ _ _ Re) as (h & Hh & Hd). pose proof pos6 as P6.
  assert (Pt : forall i, (i < n)%nat -> 0 < tf i) by (intros i Hi; specialize (P i Hi); lra).
  destruct (C26_waypoints g d n c 0 (Rsum n tf) tf cf Rp Hn Pt) as (m & Em & Mm).
  { intros i Hi. rewrite (wpos_bp 0 tf n i Hn Pt Hi). destruct Nat.eqb; auto. }
  exists g, ip', cf, m. split; auto. split; auto. split; [apply Rp|]. split; auto. split.
  - eapply mat_is_ext; [exact Mm|]. intros i j Hi Hj. apply sfun_bp; auto. lia.
  - intros cc Hc f. destruct (sfun_interp d h c n 0 tf cf W cc Hh Hd Hn Pt Hc Sol) as (S1 & S2 & S3). fold f in S1, S2, S3.
    split. { intros k Hk. rewrite <- (Rplus_0_l (Rsum k tf)). apply (sfun_bp d c n 0 tf cf W k cc); auto. }
    rewrite Hd. split; auto. split; auto. replace (2 * h / 2)%nat with h by (rewrite Nat.mul_comm, Nat.div_mul; lia).
    intros k Hk. destruct (S3 k Hk) as (Z1 & Z2). split; auto. unfold bp in Z2. rewrite Rplus_0_l in Z2. exact Z2.
Qed.
Theorem C34_free_function : forall b d c n tau tf wp W lu hist s, is_basis b d -> Nat.Even (d_dim d) -> (1 <= n)%nat -> exact_pt d (-1) -> exact_pt d 1 ->
  serve_all b hist (bs_init b) = Ok s -> exact_solver lu -> vec_is tau n tf -> (forall i, (i < n)%nat -> / 10 ^ 6 <= tf i) -> mat_is wp (S n) c W ->
  exists g cf, interpolate lu tau wp b s = Ok g /\ rep g d n c 0 (Rsum n tf) tf cf /\ interpolates d c n 0 tf W cf.
Proof. exact interpolate_free. Qed.
(** a used interpolator; a solver; the three kinds of basis *)
Example C34_ex : exists b ip tau wp, let tf := fun i => nth i [1; 2; 3 / 2] 0 in let W := fun i j => INR (i * i) - 3 * INR j in
  reached b (DLeg 4) 2 3 ip /\ exact_solver gauss_lu /\ vec_is tau 3 tf /\ (forall i, (i < 3)%nat -> / 10 ^ 6 <= tf i) /\ reads wp 3 2 W.
Proof.
  destruct ex_interp as (b & ip & tau & wp & Re & V & P & M). exists b, ip, tau, wp. cbv zeta. split; auto.
  split; [apply gauss_lu_exact|]. split; auto. split; auto. apply reads_mat. exact M.
Qed.
Lemma lag4 : let x := fun i => nth i [-1; - (1 / 2); 1 / 2; 1] 0 in exists b, is_basis b (DLag 4 x) /\ exact_pt (DLag 4 x) (-1) /\ exact_pt (DLag 4 x) 1.
Proof.
  set (x := fun i => nth i [-1; - (1 / 2); 1 / 2; 1] 0). cbv zeta. assert (V : vec_is (vec_of_list [-1; - (1 / 2); 1 / 2; 1]) 4 x) by apply vec_of_list_is.
  assert (S : separated 4 x).
  { assert (F : forall a b, 1 / 2 <= Rabs (a - b) -> Rabs a <= 1 -> Rabs b <= 1 -> ~ near a b).
    { intros a b H Ha Hb [[_ N]|[_ [N _]]]; lra. }
    intros i j Hi Hj Hne. destruct i as [|[|[|[|i]]]]; try lia; (destruct j as [|[|[|[|j]]]]; try lia);
      unfold x; cbn [nth]; apply F; unfold Rabs; destruct Rcase_abs; lra. }
  destruct (lag_eval_R (vec_of_list [-1; - (1 / 2); 1 / 2; 1]) (vnew 4) 4 x 0 V (separated_distinct 4 x S) eq_refl) as (bw & _ & E & _).
  exists (BLagrange (vec_of_list [-1; - (1 / 2); 1 / 2; 1]) bw []). split; [|split].
  - split; [exact V|]. split; [lia|]. split; [apply separated_distinct; exact S|exact E].
  - exact (end_exact 4 x 0 S ltac:(lia)).
  - exact (end_exact 4 x 3 S ltac:(lia)).
Qed.
Example C34_free_ex : let x := fun i => nth i [-1; - (1 / 2); 1 / 2; 1] 0 in
  (exists b, is_basis b (DLag 4 x) /\ exact_pt (DLag 4 x) (-1) /\ exact_pt (DLag 4 x) 1 /\ serve_all b [] (bs_init b) = Ok (bs_init b)) /\
  (is_basis (B0101 (1 / 3)) (D01 (1 / 3)) /\ exact_pt (D01 (1 / 3)) (-1) /\ exact_pt (D01 (1 / 3)) 1) /\
  Nat.Even (d_dim (DLag 4 x)) /\ Nat.Even (d_dim (D01 (1 / 3))).
Proof.
  intros x. split; [|split; [|split]].
  - destruct lag4 as (b & B & X1 & X2). exists b. auto.
  - repeat split; lra.
  - exists 2%nat. reflexivity.
  - exists 3%nat. reflexivity.
Qed.

(** ** C35: the linear system *)
(** what is given to the solver, after any sequence of calls: one row per condition, nothing else; the returned
    vector is the answer of the solver (or, C37, the previous one) *)
Theorem C35_system : forall b d c n ip tau tf wp W, reached b d c n ip -> vec_is tau n tf -> (forall i, (i < n)%nat -> / 10 ^ 6 <= tf i) -> reads wp n c W ->
  forall lu, exists A v bf ip', ip_solve lu ip tau wp = Ok (match lu A with None => ip_sol ip | Some f => f v end, ip') /\
    vec_is v (d_dim d * c * n) bf /\ (forall t0, is_system d c n t0 tf W A bf) /\ nonsing (d_dim d * c * n) (entry A) /\
    reached b d c n ip' /\ ip_sol ip' = match lu A with None => ip_sol ip | Some f => f v end.
Proof. exact solve_system. Qed.
Theorem C35_equivalent : forall d c n t0 tf W A b x, is_system d c n t0 tf W A b ->
  (solves (d_dim d * c * n) A x b <-> interpolates d c n t0 tf W x).
Proof. exact is_system_solves. Qed.
(** a call that returns had arguments of the right shape *)
Theorem C35_arguments : forall b d c n ip tau wp lu r ip', reached b d c n ip -> ip_solve lu ip tau wp = Ok (r, ip') ->
  (exists tf, vec_is tau n tf /\ forall i, (i < n)%nat -> / 10 ^ 6 <= tf i) /\ exists W, reads wp n c W.
Proof. exact solve_success. Qed.
(** the conditions are as many as the unknowns *)
Example C35_ex : exists b ip tau wp, let tf := fun i => nth i [1; 2; 3 / 2] 0 in let W := fun i j => INR (i * i) - 3 * INR j in
  reached b (DLeg 4) 2 3 ip /\ vec_is tau 3 tf /\ (forall i, (i < 3)%nat -> / 10 ^ 6 <= tf i) /\ reads wp 3 2 W /\
  (exists r ip', ip_solve gauss_lu ip tau wp = Ok (r, ip')) /\ exists A bf, is_system (DLeg 4) 2 3 0 tf W A bf.
Proof.
  destruct ex_interp as (b & ip & tau & wp & Re & V & P & M). exists b, ip, tau, wp. cbv zeta.
  pose proof (reads_mat _ _ _ _ M) as Rd. split; auto. split; auto. split; auto. split; auto.
  destruct (C35_system _ _ _ _ _ _ _ _ _ Re V P Rd gauss_lu) as (A & v & bf & ip' & E & _ & S & _). split; [eauto|]. exists A, bf. apply S.
Qed.

(** ** C52: exactly one interpolating spline *)
Theorem C52_exists : forall b d c n t0 tf W, is_basis b d -> Nat.Even (d_dim d) -> (1 <= n)%nat -> (forall i, (i < n)%nat -> 0 < tf i) ->
  exists cf, interpolates d c n t0 tf W cf.
Proof.
  intros b d c n t0 tf W B (h & Hd) Hn P. apply (interp_exists d h c n t0); auto; [eapply is_basis_desc; eauto|]. pose proof (is_basis_pos _ _ B). lia.
Qed.
Theorem C52_unique : forall b d c n t0 tf W cf cf', is_basis b d -> Nat.Even (d_dim d) -> (1 <= n)%nat -> (forall i, (i < n)%nat -> 0 < tf i) ->
  interpolates d c n t0 tf W cf -> interpolates d c n t0 tf W cf' -> forall j, (j < d_dim d * c * n)%nat -> cf j = cf' j.
Proof.
  intros b d c n t0 tf W cf cf' B (h & Hd) Hn P S S'. apply (interp_unique d h c n t0 (is_basis_desc _ _ B) ltac:(pose proof (is_basis_pos _ _ B); lia) Hn Hd tf W); auto.
Qed.
(** an exact solver therefore always gives the same spline, whatever was computed before *)
Theorem C52_history_independent : forall b1 b2 d c n ip1 ip2 tau tf wp W lu1 lu2, reached b1 d c n ip1 -> reached b2 d c n ip2 ->
  exact_solver lu1 -> exact_solver lu2 -> vec_is tau n tf -> (forall i, (i < n)%nat -> / 10 ^ 6 <= tf i) -> reads wp n c W ->
  exists r1 r2 ip1' ip2' cf, ip_solve lu1 ip1 tau wp = Ok (r1, ip1') /\ ip_solve lu2 ip2 tau wp = Ok (r2, ip2') /\
    vec_is r1 (d_dim d * c * n) cf /\ vec_is r2 (d_dim d * c * n) cf.
Proof.
  intros b1 b2 d c n ip1 ip2 tau tf wp W lu1 lu2 R1 R2 X1 X2 V P Rd.
  destruct (solve_system b1 d c n ip1 tau tf wp W R1 V P Rd lu1) as (A1 & v1 & bf1 & ip1' & E1 & V1 & S1 & N1 & _).
  destruct (solve_system b2 d c n ip2 tau tf wp W R2 V P Rd lu2) as (A2 & v2 & bf2 & ip2' & E2 & V2 & S2 & N2 & _).
  destruct (X1 _ A1 (proj1 (S1 0)) N1) as (f1 & El1 & F1). destruct (X2 _ A2 (proj1 (S2 0)) N2) as (f2 & El2 & F2). rewrite El1 in E1. rewrite El2 in E2.
  destruct (F1 v1 bf1 V1) as (x1 & Vx1 & Sx1). destruct (F2 v2 bf2 V2) as (x2 & Vx2 & Sx2).
  exists (f1 v1), (f2 v2), ip1', ip2', x1. split; auto. split; auto. split; auto. eapply vec_is_ext; [exact Vx2|]. intros j Hj.
  pose proof R1 as (B & Ev & Hn & _). pose proof pos6. apply (C52_unique b1 d c n 0 tf W); auto.
  - intros i Hi. specialize (P i Hi). lra.
  - apply (is_system_solves d c n 0 tf W A2 bf2 x2 (S2 0)); auto.
  - apply (is_system_solves d c n 0 tf W A1 bf1 x1 (S1 0)); auto.
Qed.
Example C52_ex : exists b, is_basis b (DLeg 6) /\ Nat.Even (d_dim (DLeg 6)) /\ (forall i, (i < 5)%nat -> 0 < 1 + INR i) /\
  exists b1 b2 ip1 ip2, reached b1 (DLeg 6) 2 5 ip1 /\ reached b2 (DLeg 6) 2 5 ip2.
Proof.
  destruct (leg_basis 6 ltac:(lia)) as (b & B & _). exists b. split; auto. split; [exists 3%nat; reflexivity|]. split; [intros i _; pose proof (pos_INR i); lra|].
  destruct (reached_fresh b (DLeg 6) 2 5 [] (bs_init b) B) as (ip & _ & Re); [exists 3%nat; reflexivity|lia|exact I|exact I|reflexivity|].
  exists b, b, ip, ip. auto.
Qed.

(** ** C36: sensitivity to an interval length *)
(** the returned vector solves the differentiated conditions *)
Theorem C36_differentiated_system : forall b d c n ip coef cf tau tf idx lu, reached b d c n ip -> exact_solver lu ->
  vec_is tau n tf -> (forall i, (i < n)%nat -> / 10 ^ 6 <= tf i) -> (idx < n)%nat -> vec_is coef (d_dim d * c * n) cf ->
  exists r rf ip', ip_coeff_tau lu ip coef tau idx = Ok (r, ip') /\ vec_is r (d_dim d * c * n) rf /\ reached b d c n ip' /\
    forall t0 W q, cond_ok (d_dim d) c n q ->
      is_derive (fun x => residual d c n t0 (set_len tf idx x) W cf q) (tf idx) (- residual d c n t0 tf (fun _ _ => 0) rf q).
Proof. exact coeff_tau_exact. Qed.
(** it is the derivative of the coefficients of the interpolating spline with respect to that length *)
Theorem C36_derivative : forall b d c n ip coef tau tf idx lu t0 W X, reached b d c n ip -> exact_solver lu ->
  vec_is tau n tf -> (forall i, (i < n)%nat -> / 10 ^ 6 <= tf i) -> (idx < n)%nat ->
  locally (tf idx) (fun x => interpolates d c n t0 (set_len tf idx x) W (X x)) -> vec_is coef (d_dim d * c * n) (X (tf idx)) ->
  exists r rf ip', ip_coeff_tau lu ip coef tau idx = Ok (r, ip') /\ vec_is r (d_dim d * c * n) rf /\ reached b d c n ip' /\
    forall j, (j < d_dim d * c * n)%nat -> is_derive (fun x => X x j) (tf idx) (rf j).
Proof. exact coeff_tau_derives. Qed.
Example C36_ex : exists b ip tau coef X, let tf := fun i => nth i [1; 2; 3 / 2] 0 in let W := fun i j => INR (i * i) - 3 * INR j in
  reached b (DLeg 4) 2 3 ip /\ exact_solver gauss_lu /\ vec_is tau 3 tf /\ (forall i, (i < 3)%nat -> / 10 ^ 6 <= tf i) /\
  locally (tf 1%nat) (fun x => interpolates (DLeg 4) 2 3 0 (set_len tf 1 x) W (X x)) /\ vec_is coef (d_dim (DLeg 4) * 2 * 3) (X (tf 1%nat)).
Proof.
  destruct ex_interp as (b & ip & tau & wp & Re & V & P & M).
  destruct (interp_map (DLeg 4) 2 2 3 0 I ltac:(lia) ltac:(lia) eq_refl (fun i j => INR (i * i) - 3 * INR j)) as (S & HS).
  exists b, ip, tau. exists (mkvec 24 (fun j => Some (S (set_len (fun i => nth i [1; 2; 3 / 2] 0) 1 2) j))).
  exists (fun x => S (set_len (fun i => nth i [1; 2; 3 / 2] 0) 1 x)). cbv zeta.
  split; auto. split; [apply gauss_lu_exact|]. split; auto. split; auto. split.
  - exists (mkposreal 1 Rlt_0_1). intros x Bx. change (Rabs (x - 2) < 1) in Bx. apply Rabs_def2 in Bx. apply HS.
    intros [|[|[|i]]] Hi; unfold set_len; cbn; try lra; lia.
  - split; [reflexivity|]. intros j _. reflexivity.
Qed.

(** ** C37: failures *)
Theorem C37_short_interval : forall lu lu' (ip : interp R) coef tau k tf wp idx, vec_is tau k tf -> (exists i, (i < k)%nat /\ tf i < / 10 ^ 6) ->
  ip_solve lu ip tau wp = Throw InvalidArgument /\ ip_interpolate lu ip tau wp = Throw InvalidArgument /\ ip_coeff_tau lu' ip coef tau idx = Throw InvalidArgument.
Proof.
  intros lu lu' ip coef tau k tf wp idx V S. pose proof (short_solve lu ip tau k tf wp V S) as E. split; auto. split.
  - unfold ip_interpolate. now rewrite E.
  - eapply short_tau; eauto.
Qed.
Theorem C37_wrong_count : forall b d c n ip lu tau k tf wp, reached b d c n ip -> vec_is tau k tf -> (forall i, (i < k)%nat -> / 10 ^ 6 <= tf i) -> k <> n ->
  ip_solve lu ip tau wp = Throw LogicError /\ ip_interpolate lu ip tau wp = Throw LogicError.
Proof.
  intros b d c n ip lu tau k tf wp Re V P Ne. rewrite <- (reached_n _ _ _ _ _ Re) in Ne. pose proof (count_solve lu ip tau k tf wp V P Ne) as E.
  split; auto. unfold ip_interpolate. now rewrite E.
Qed.
Theorem C37_odd_dimension : forall T (HN : Num T) c n (b : basis T) s, Nat.Odd (b_dim b) -> ip_ctor c n b s = Throw InvalidArgument.
Proof. intros. apply ctor_odd. auto. Qed.
Theorem C37_fresh_failure : forall b d c n hist s ip tau tf wp W lu, is_basis b d -> Nat.Even (d_dim d) -> (1 <= n)%nat -> (1 <= c)%nat -> exact_pt d (-1) -> exact_pt d 1 ->
  serve_all b hist (bs_init b) = Ok s -> ip_ctor c n b s = Ok ip -> vec_is tau n tf -> (forall i, (i < n)%nat -> / 10 ^ 6 <= tf i) -> reads wp n c W ->
  (forall A, lu A = None) -> ip_interpolate lu ip tau wp = Throw InvalidArgument.
Proof. exact fresh_failed. Qed.
(** FINDING: on a used interpolator a failed factorisation gives the coefficients of the previous problem, without an error *)
Theorem C37_stale_refuted : forall b d c n ip tau1 tf1 wp1 W1 lu1 tau2 tf2 wp2 W2 lu2,
  reached b d c n ip -> exact_solver lu1 -> vec_is tau1 n tf1 -> (forall i, (i < n)%nat -> / 10 ^ 6 <= tf1 i) -> reads wp1 n c W1 ->
  vec_is tau2 n tf2 -> (forall i, (i < n)%nat -> / 10 ^ 6 <= tf2 i) -> reads wp2 n c W2 -> (forall A, lu2 A = None) ->
  exists r cf ip1 ip2, ip_solve lu1 ip tau1 wp1 = Ok (r, ip1) /\ ip_solve lu2 ip1 tau2 wp2 = Ok (r, ip2) /\
    vec_is r (d_dim d * c * n) cf /\ interpolates d c n 0 tf1 W1 cf.
Proof. exact stale. Qed.
(** FINDING: a wrong count or index gives the previous derivative, or uninitialised numbers, without an error *)
Theorem C37_unchecked_refuted : forall b d c n ip lu coef tau k tf idx, reached b d c n ip -> vec_is tau k tf -> (forall i, (i < k)%nat -> / 10 ^ 6 <= tf i) ->
  k <> n \/ (n <= idx)%nat -> ip_coeff_tau lu ip coef tau idx = Ok (ip_coef ip, ip).
Proof. intros b d c n ip lu coef tau k tf idx Re V P Ne. rewrite <- (reached_n _ _ _ _ _ Re) in Ne. eapply count_tau; eauto. Qed.
Theorem C37_uninitialised_refuted : forall T (HN : Num T) c n (b : basis T) s ip j, ip_ctor c n b s = Ok ip -> vget (ip_coef ip) j = None.
Proof.
  intros T HN c n b s ip j. unfold ip_ctor. destruct negb; [discriminate|]. destruct Nat.ltb; [discriminate|]. intros E. injection E as <-. reflexivity.
Qed.
Example C37_ex : exists b ip tau wp, let tf := fun i => nth i [1; 2; 3 / 2] 0 in let W := fun i j => INR (i * i) - 3 * INR j in
  reached b (DLeg 4) 2 3 ip /\ exact_solver gauss_lu /\ vec_is tau 3 tf /\ (forall i, (i < 3)%nat -> / 10 ^ 6 <= tf i) /\ reads wp 3 2 W /\
  (forall A, no_lu A = None) /\ vec_is (vec_of_list [1; / 10 ^ 7]) 2 (fun i => nth i [1; / 10 ^ 7] 0) /\
  (exists i, (i < 2)%nat /\ nth i [1; / 10 ^ 7] 0 < / 10 ^ 6) /\ vec_is (vec_of_list [1; 2]) 2 (fun i => nth i [1; 2] 0) /\
  (forall i, (i < 2)%nat -> / 10 ^ 6 <= nth i [1; 2] 0) /\ Nat.Odd 3.
Proof.
  destruct ex_interp as (b & ip & tau & wp & Re & V & P & M). exists b, ip, tau, wp. cbv zeta. split; auto.
  split; [apply gauss_lu_exact|]. split; auto. split; auto. split; [apply reads_mat; exact M|]. split; [reflexivity|]. split; [apply vec_of_list_is|].
  split; [exists 1%nat; split; [lia|]; cbn [nth]; apply Rinv_lt_contravar; [apply Rmult_lt_0_compat; apply pow_lt; lra|apply Rlt_pow; [lra|lia]]|].
  split; [apply vec_of_list_is|]. split; [intros [|[|i]] Hi; try lia; apply six_le; cbn; lra|]. exists 1%nat. reflexivity.
Qed.

(** ** C32: random_gspline *)
Theorem C32_random : forall b d c n rt rf rw rwf lu hist s dom, is_basis b d -> Nat.Even (d_dim d) -> (1 <= n)%nat -> exact_pt d (-1) -> exact_pt d 1 ->
  serve_all b hist (bs_init b) = Ok s -> exact_solver lu -> vec_is rt n rf -> (forall i, (i < n)%nat -> -1 <= rf i <= 1) -> mat_is rw (S n) c rwf ->
  (snd dom < / 10 ^ 8 -> random_gspline lu dom c b s n rt rw = Throw InvalidArgument) /\
  (/ 10 ^ 8 <= snd dom -> exists g d' tf cf, random_gspline lu dom c b s n rt rw = Ok g /\ rep g d' n c 0 (snd dom) tf cf /\
     (forall i, (i < n)%nat -> 0 < tf i) /\ bp 0 tf n = snd dom /\
     forall k cc, (k <= n)%nat -> (cc < c)%nat -> sfun d' c n 0 tf cf cc (bp 0 tf k) = 3 * rwf k cc).
Proof. exact random_R. Qed.
(** FINDING: the requested domain is the domain of the result exactly when it begins at 0 *)
Theorem C32_domain_refuted : forall b d c n rt rf rw rwf lu hist s dom, is_basis b d -> Nat.Even (d_dim d) -> (1 <= n)%nat -> exact_pt d (-1) -> exact_pt d 1 ->
  serve_all b hist (bs_init b) = Ok s -> exact_solver lu -> vec_is rt n rf -> (forall i, (i < n)%nat -> -1 <= rf i <= 1) -> mat_is rw (S n) c rwf ->
  / 10 ^ 8 <= snd dom -> exists g, random_gspline lu dom c b s n rt rw = Ok g /\ (gs_dom g = dom <-> fst dom = 0).
Proof.
  intros b d c n rt rf rw rwf lu hist s dom B Ev Hn XL XR Hs Ex V Rg M Hb.
  destruct (random_R b d c n rt rf rw rwf lu hist s dom B Ev Hn XL XR Hs Ex V Rg M) as (_ & H). destruct (H Hb) as (g & d' & tf & cf & E & Rp & _).
  exists g. split; auto. destruct Rp as (_ & -> & _). destruct dom as [a e]. cbn [fst snd] in *. split; [intros X; injection X as <-; reflexivity|intros ->; reflexivity].
Qed.
Example C32_ex : exists b rt rw, is_basis b (DLeg 6) /\ Nat.Even (d_dim (DLeg 6)) /\ vec_is rt 2 (fun i => nth i [1 / 2; -1] 0) /\
  (forall i, (i < 2)%nat -> -1 <= nth i [1 / 2; -1] 0 <= 1) /\ mat_is rw 3 2 (fun i j => INR i / 3 - INR j / 2) /\ / 10 ^ 8 <= snd (1, 3).
Proof.
  destruct (leg_basis 6 ltac:(lia)) as (b & B & _). exists b, (vec_of_list [1 / 2; -1]), (mkmat 3 2 (fun i j => Some (INR i / 3 - INR j / 2))).
  split; auto. split; [exists 3%nat; reflexivity|]. split; [apply vec_of_list_is|]. split; [intros [|[|i]] Hi; cbn; try lra; lia|].
  split; [repeat split|]. cbn [snd]. pose proof small_one. lra.
Qed.
