(** Property C80, in binary64: how far the coefficients computed with rounding are
    from those of the exact interpolating spline. *)
From Coquelicot Require Import Coquelicot.
From Coq Require Import ZArith Reals Lra Lia List Arith Bool.
From Flocq Require Import Core BinarySingleNaN.
From Verif Require Import Num Outcome LinAlg RSum RMat RDeriv RPoly LegendreModel LegendreSpec LegendreMath LegendreProofs StabMath
  BasisModel SplineSpec BasisFn BasisProofs BasisProofs2 BasisProofs3 ToolsModel GSplineModel GSplineProofs GSplineProofs5 InterpModel InterpSpec InterpProofs InterpProofs2 InterpProofs3 InterpProofs4
  InterpMath InterpMath2 InterpGen IEEEModel IEEESpec IEEEProofs IEEEHorner IEEELegendre IEEESpline IEEELagrange IEEEProps IEEEProps2 IEEEDerivSpec IEEEDeriv IEEEDeriv2 IEEEDeriv3 IEEEInterpSpec IEEEInterp IEEEInterpProps InterpDep.
Import ListNotations.
Local Open Scope R_scope.

Section S.
Variable m : libm.
Local Instance BN : Num b64 := B64num m.

(** For given interval lengths there is a number K that serves all waypoints, all
    solvers and all states of the interpolator: if the solver leaves the residual r in
    the matrix that was assembled, the coefficients are within K e of those of the
    one exact spline, e a bound for r plus the rounding errors of the conditions;
    and so are the derivatives of order k (k = 0: the values), with a number of their own. *)
Theorem C80_binary64 h c n tf k : (1 <= h)%nat -> (1 <= n)%nat -> good_lengths m (2 * h) n tf ->
  let N := (2 * h * c * n)%nat in let t := fun i => val (tf i) in
  exists K Kd, 0 <= K /\ 0 <= Kd /\
  forall ip tau wp W, leg_object m (2 * h) c n ip -> vec_is tau n tf -> reads wp n c W -> (forall w cc, (w <= n)%nat -> (cc < c)%nat -> fin (W w cc)) ->
  exists cf, interpolates (DLeg (2 * h)) c n 0 t (fun w cc => val (W w cc)) cf /\
  exists A v bv, vec_is v N bv /\ (forall i, (i < N)%nat -> fin (bv i)) /\ finite_matrix A /\
    (forall t0, near_system (2 * h) c n t0 t (fun w cc => val (W w cc)) A (fun i => val (bv i))) /\
    forall lu f y r e, lu A = Some f -> vec_is (f v) N y ->
      (forall i, (i < N)%nat -> Rabs (Rsum N (fun j => entry_val A i j * val (y j)) - val (bv i)) <= r) ->
      (forall q, cond_ok (2 * h) c n q -> r + cond_error (2 * h) c n t (fun j => val (y j)) q <= e) ->
      exists g ip', ip_interpolate lu ip tau wp = Ok (g, ip') /\ gs_coef g = f v /\
        (forall j, (j < N)%nat -> Rabs (val (y j) - cf j) <= K * e) /\
        forall iv cc u, (iv < n)%nat -> (cc < c)%nat -> 0 <= u <= Rsum n t ->
          Rabs (Derive_n (piece (DLeg (2 * h)) c 0 t (fun j => val (y j)) iv cc) k u - Derive_n (piece (DLeg (2 * h)) c 0 t cf iv cc) k u) <= Kd * e.
Proof.
  intros Hh Hn Gl N t. destruct (good_pass m h n tf Gl) as (_ & Ft & _). assert (P : forall i, (i < n)%nat -> 0 < t i) by (intros i Hi; apply Ft; auto).
  destruct (interp_stable (DLeg (2 * h)) h n 0 t I Hh Hn eq_refl P c) as (K & K0 & HK).
  destruct (interp_stable_fun (DLeg (2 * h)) h n 0 t I Hh Hn eq_refl P c k) as (Kd & Kd0 & HKd).
  exists K, Kd. split; auto. split; auto.
  intros ip tau wp W Ob V Rd FW.
  destruct (interp_exists (DLeg (2 * h)) h c n 0 I Hh Hn eq_refl t (fun w cc => val (W w cc)) P) as (cf & Sol). exists cf. split; auto.
  destruct (C68_residuals m h c n ip tau tf wp W Hh Hn Ob V Gl Rd FW) as (A & v & bv & Vb & Fb & FA & Ns & G). exists A, v, bv. split; auto. split; auto. split; auto. split; auto.
  intros lu f y r e El Vy Res He. destruct (G lu f y r El Vy Res) as (g & gr & ip' & E & _ & _ & _ & Cg & _ & _ & Rs).
  assert (Rs' : forall q, cond_ok (2 * h) c n q -> Rabs (residual (DLeg (2 * h)) c n 0 t (fun w cc => val (W w cc)) (fun j => val (y j)) q) <= e).
  { intros q Ok. eapply Rle_trans; [apply (Rs 0 q Ok)|]. apply He; auto. }
  exists g, ip'. split; auto. split; auto. split.
  - exact (HK _ cf (fun j => val (y j)) e Sol Rs').
  - intros iv cc u Hi Hc Hu. apply (HKd (fun w cc => val (W w cc)) cf (fun j => val (y j)) e Sol Rs'); auto. unfold bp. rewrite Rplus_0_l. exact Hu.
Qed.
(** up 10 and down again in two intervals of length 2: the coefficients of the library against the exact ones *)
Example C80_binary64_case : exists K ip g ip' cf, ip_interpolate blu ip btau bwp = Ok (g, ip') /\ vec_is (gs_coef g) 8 (fun j => nth j bsol (z64 0)) /\
  interpolates (DLeg 4) 1 2 0 (fun _ => val (z64 2)) (fun w _ => val (z64 (if Nat.eqb w 1 then 10 else 0))) cf /\
  forall j, (j < 8)%nat -> Rabs (val (nth j bsol (z64 0)) - cf j) <= K * (22768128 * uu).
Proof.
  destruct (bump_hyps m) as (ip & Ob & V & Gl & Rd).
  destruct (C80_binary64 2 1 2 (fun _ => z64 2) 0 ltac:(lia) ltac:(lia) Gl) as (K & Kd & _ & _ & HK).
  destruct (HK ip btau bwp (fun w _ => z64 (if Nat.eqb w 1 then 10 else 0)) Ob V Rd) as (cf & Sol & A & v & bv & _ & _ & _ & Ns & G).
  { intros w cc _ _. destruct (Nat.eqb w 1); apply z64_ok; lia. }
  destruct (G blu (fun _ => vec_of_list bsol) (fun j => nth j bsol (z64 0)) (11384064 * uu) (22768128 * uu) eq_refl) as (g & ip' & E & Cg & Hj & _).
  { apply (vec_of_list_is bsol (z64 0)). }
  { exact (bump_rows A bv Ns). }
  { assert (V2 : val (z64 2) = 2) by (apply z64v; lia). change (2 * 2)%nat with 4%nat. intros q Ok. rewrite V2. pose proof (bump_cond q Ok). lra. }
  exists K, ip, g, ip', cf. split; auto. split; [rewrite Cg; apply (vec_of_list_is bsol (z64 0))|]. split; auto.
Qed.
End S.
