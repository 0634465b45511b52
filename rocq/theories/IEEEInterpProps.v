(** Properties C68-C69: interpolation in binary64, and the values of the spline it returns. *)
From Coquelicot Require Import Coquelicot.
From Coq Require Import ZArith Reals Lra Lia List Arith Bool.
From Flocq Require Import Core BinarySingleNaN.
From Verif Require Import Num Outcome LinAlg RSum RMat RDeriv RPoly LegendreModel LegendreSpec LegendreMath LegendreProofs StabMath
  BasisModel SplineSpec BasisFn BasisProofs BasisProofs2 BasisProofs3 ToolsModel GSplineModel GSplineProofs GSplineProofs5 InterpModel InterpSpec InterpProofs InterpProofs2 InterpProofs3 InterpProofs4
  InterpMath2 InterpGen IEEEModel IEEESpec IEEEProofs IEEEHorner IEEELegendre IEEESpline IEEELagrange IEEEProps IEEEProps2 IEEEDerivSpec IEEEDeriv IEEEDeriv2 IEEEDeriv3 IEEEInterpSpec IEEEInterp.
Import ListNotations.
Local Open Scope R_scope.

Lemma waypoints_value {T} {HN : Num T} (g : gspline T) b M : gs_breakpoints g = Ok b -> vlen b = S (gs_n g) -> gs_value g b = Ok M -> gs_waypoints g = Ok M.
Proof. intros E L V. unfold gs_waypoints. rewrite E. cbn [bind]. unfold gs_value in V. rewrite L in V. exact V. Qed.

Section S.
Variable m : libm.
Local Instance BN : Num b64 := B64num m.

(** an interpolator of the Legendre basis of dimension dim after any sequence of calls *)
Definition leg_object (dim c n : nat) (ip : interp b64) : Prop :=
  exists g bst ip0 l, ip_ctor c n (BLegendre dim g) bst = Ok ip0 /\ ip_run l ip0 = Ok ip.
(** interval lengths that are accepted, and for which the derivatives at the ends are computed accurately *)
Definition good_lengths (dim n : nat) (tf : nat -> b64) : Prop :=
  forall i, (i < n)%nat -> fin (tf i) /\ val (ten_m 6) <= val (tf i) /\ deriv_range dim (dim - 2) (val (tf i)).

Lemma ten_val : fin (ten_m 6 : b64) /\ 0 < val (ten_m 6 : b64).
Proof.
  split; [vm_compute; reflexivity|]. unfold val. replace (B2R (ten_m 6 : b64)) with (F2R (Float radix2 4722366482869645 (-72))) by (vm_compute; reflexivity).
  apply F2R_gt_0. cbn. lia.
Qed.
Lemma good_pass h n tf : good_lengths (2 * h) n tf -> passes n tf /\ (forall i, (i < n)%nat -> fin (tf i) /\ 0 < val (tf i)) /\
  forall i, (i < n)%nat -> deriv_range (2 * h) (2 * h - 2) (val (tf i)).
Proof.
  intros G. destruct ten_val as (F6 & P6). split; [|split].
  - intros i Hi. destruct (G i Hi) as (F & L & _). cbn [nltb BN B64num]. rewrite ltb_val by auto. destruct (Rltb (val (tf i)) (val (ten_m 6))) eqn:E; auto.
    apply Rltb_true in E. lra.
  - intros i Hi. destruct (G i Hi) as (F & L & _). split; auto. lra.
  - intros i Hi. destruct (G i Hi) as (_ & _ & D). exact D.
Qed.
Lemma object_inv h c n ip : (1 <= h)%nat -> (1 <= n)%nat -> leg_object (2 * h) c n ip -> exists g, gip_inv (BLegendre (2 * h) g) h c n ip.
Proof.
  intros Hh Hn (g & bst & ip0 & l & E0 & E). exists g. set (b := BLegendre (2 * h) g) in *.
  destruct (gctor_inv b h c n Hh Hn eq_refl bst) as (ip0' & E0' & I0). rewrite E0 in E0'. injection E0' as <-.
  refine (grun_inv b h c n Hh Hn eq_refl legL legR legLt legRt _ _ _ _ l ip0 ip I0 E).
  - intros tau. exact (leg_ev h g (nopp n1) tau Hh).
  - intros tau. exact (leg_ev h g n1 tau Hh).
  - intros tau. exact (leg_evt h g (nopp n1) tau Hh).
  - intros tau. exact (leg_evt h g n1 tau Hh).
Qed.
Lemma object_after dim c n ip lu q ip' : leg_object dim c n ip -> ip_after lu q ip = Ok ip' -> leg_object dim c n ip'.
Proof.
  intros (g & bst & ip0 & l & E0 & E) Ea. exists g, bst, ip0, (l ++ [(lu, q)]). split; auto.
  clear E0. revert ip0 E. induction l as [|[lu' q'] l IH]; intros ip0 E; cbn [ip_run app] in *.
  - injection E as <-. rewrite Ea. reflexivity.
  - apply bind_ok in E. destruct E as (ip1 & E1 & E). rewrite E1. cbn [bind]. apply IH. exact E.
Qed.

(** ** C68 *)
Theorem C68_system h c n ip tau tf wp W : (1 <= h)%nat -> (1 <= n)%nat -> leg_object (2 * h) c n ip ->
  vec_is tau n tf -> good_lengths (2 * h) n tf -> reads wp n c W -> (forall w cc, (w <= n)%nat -> (cc < c)%nat -> fin (W w cc)) ->
  exists A v bv, vec_is v (2 * h * c * n) bv /\ (forall i, (i < 2 * h * c * n)%nat -> fin (bv i)) /\ finite_matrix A /\
    (forall t0, near_system (2 * h) c n t0 (fun i => val (tf i)) (fun w cc => val (W w cc)) A (fun i => val (bv i))) /\
    forall lu, let sol := match lu A with None => ip_sol ip | Some f => f v end in
    exists ip', ip_solve lu ip tau wp = Ok (sol, ip') /\ leg_object (2 * h) c n ip' /\ ip_sol ip' = sol.
Proof.
  intros Hh Hn Ob V Gl Rd FW. destruct (object_inv h c n ip Hh Hn Ob) as (g & I). destruct (good_pass h n tf Gl) as (Ps & Ft & Rg).
  destruct (gsolve_spec (BLegendre (2 * h) g) h c n Hh Hn eq_refl legL legR (fun t => leg_ev h g (nopp n1) t Hh) (fun t => leg_ev h g n1 t Hh) ip tau tf wp W I V Ps Rd)
    as (A & v & MA & CA & Lv & Gv & Sv).
  set (bv := fun i => match vget v i with Some y => y | None => n0 end).
  assert (Gb : forall q, cond_ok (2 * h) c n q -> bv (rowof (2 * h) c n q) = rhs_of W q) by (intros q Ok; unfold bv; rewrite (Gv q Ok); reflexivity).
  exists A, v, bv. split; [|split; [|split; [|split]]].
  - split; [exact Lv|]. intros i Hi. destruct (row_surj h c n Hh Hn i Hi) as (q & Ok & <-). rewrite Gb by exact Ok. apply Gv. exact Ok.
  - intros i Hi. destruct (row_surj h c n Hh Hn i Hi) as (q & Ok & <-). rewrite Gb by exact Ok.
    destruct q as [iv cc|iv cc|iv cc k|cc k|cc k]; cbn [rhs_of cond_ok] in *; try reflexivity; apply FW; lia.
  - exact (A_finite m h c n Hh Hn tf Ft Rg A MA CA).
  - intros t0. apply (A_system m h c n Hh Hn tf Ft Rg A MA CA). intros q Ok. rewrite Gb by exact Ok. destruct q; reflexivity.
  - intros lu. destruct (Sv lu) as (ip' & E & _ & S). exists ip'. split; [exact E|]. split; [|exact S].
    apply (object_after _ _ _ ip lu (CallSolve tau wp)); auto. unfold ip_after. rewrite E. reflexivity.
Qed.

(** what a solver leaves unsolved, and the rounding errors of the matrix, is all by which the spline misses its conditions *)
Theorem C68_residuals h c n ip tau tf wp W : (1 <= h)%nat -> (1 <= n)%nat -> leg_object (2 * h) c n ip ->
  vec_is tau n tf -> good_lengths (2 * h) n tf -> reads wp n c W -> (forall w cc, (w <= n)%nat -> (cc < c)%nat -> fin (W w cc)) ->
  let N := (2 * h * c * n)%nat in
  exists A v bv, vec_is v N bv /\ (forall i, (i < N)%nat -> fin (bv i)) /\ finite_matrix A /\
    (forall t0, near_system (2 * h) c n t0 (fun i => val (tf i)) (fun w cc => val (W w cc)) A (fun i => val (bv i))) /\
    forall lu f y r, lu A = Some f -> vec_is (f v) N y ->
      (forall i, (i < N)%nat -> Rabs (Rsum N (fun j => entry_val A i j * val (y j)) - val (bv i)) <= r) ->
      exists g gr ip', ip_interpolate lu ip tau wp = Ok (g, ip') /\ leg_object (2 * h) c n ip' /\
        gs_basis g = BLegendre (2 * h) gr /\ gs_tau g = tau /\ gs_coef g = f v /\ fst (gs_dom g) = n0 /\ gwf g n c tf y /\
        forall t0 q, cond_ok (2 * h) c n q ->
          Rabs (residual (DLeg (2 * h)) c n t0 (fun i => val (tf i)) (fun w cc => val (W w cc)) (fun j => val (y j)) q)
            <= r + cond_error (2 * h) c n (fun i => val (tf i)) (fun j => val (y j)) q.
Proof.
  intros Hh Hn Ob V Gl Rd FW N. destruct (C68_system h c n ip tau tf wp W Hh Hn Ob V Gl Rd FW) as (A & v & bv & Vb & Fb & FA & Sys & Sv).
  exists A, v, bv. split; [exact Vb|]. split; [exact Fb|]. split; [exact FA|]. split; [exact Sys|]. intros lu f y r El Vy Res.
  destruct (Sv lu) as (ip' & E & Ob' & _). rewrite El in E. destruct (object_inv h c n ip' Hh Hn Ob') as (gr & (Ib & Ic & In & _)).
  unfold ip_interpolate. rewrite E. cbn [bind]. replace (vlen tau) with n by (symmetry; apply V). rewrite (osum_some n _ tf) by (apply V). cbn [of_option bind].
  rewrite Ib, Ic, In. unfold gs_ctor. cbn [b_dim]. replace (vlen (f v)) with (2 * h * c * n)%nat by (symmetry; apply Vy).
  replace (2 * h * c * n =? n * (2 * h) * c)%nat with true by (symmetry; apply Nat.eqb_eq; ring). cbn [bind].
  eexists. exists gr, ip'. split; [reflexivity|]. split; [exact Ob'|]. split; [reflexivity|]. split; [reflexivity|]. split; [reflexivity|]. split; [reflexivity|]. split.
  - split; [cbn [bok gs_basis]; lia|]. split; [reflexivity|]. split; [exact V|]. cbn [gs_coef gs_buf]. unfold gs_dim. cbn [gs_basis b_dim].
    split; [|reflexivity]. replace (n * (2 * h) * c)%nat with N by (unfold N; ring). exact Vy.
  - intros t0 q Ok. destruct (Sys t0) as (_ & _ & row & R1 & _ & _ & R4). specialize (Res (row q) (R1 q Ok)). specialize (R4 q (fun j => val (y j)) Ok).
    fold N in R4. set (a := Rsum N (fun j => entry_val A (row q) j * val (y j)) - val (bv (row q))) in *. set (z := residual _ _ _ _ _ _ _ _) in *.
    replace z with (a - (a - z)) by ring. unfold Rminus at 1. eapply Rle_trans; [apply Rabs_triang|]. rewrite Rabs_Ropp. apply Rplus_le_compat; [exact Res|exact R4].
Qed.

(** ** C69 *)
Lemma legP_lip j K x y : (j <= K)%nat -> -1 <= x <= 1 -> -1 <= y <= 1 -> Rabs (legP j x - legP j y) <= INR K ^ 2 * Rabs (x - y).
Proof.
  intros Hj Hx Hy. destruct (MVT_gen (legP j) y x (LD 1 j)) as (z & Hz & E).
  - intros t _. exact (LD_derive 0 j t).
  - intros t _. apply continuity_pt_filterlim. exact (legP_continuous j t).
  - rewrite E, Rabs_mult. apply Rmult_le_compat_r; [apply Rabs_pos|]. apply (LD_boundK z 1 j K); auto.
    revert Hz. unfold Rmin, Rmax. destruct (Rle_dec y x); lra.
Qed.
Lemma window_in a tau t : 0 < tau -> a <= t <= a + tau -> -1 <= window a tau t <= 1.
Proof.
  intros Hp Ht. unfold window. split.
  - assert (0 <= 2 * (t - a) / tau) by (apply Rdiv_le_0_compat; lra). lra.
  - assert (2 * (t - a) / tau <= 2) by (apply Rle_div_l; lra). lra.
Qed.
Lemma piece_lip dim codom t0 tau c iv cc s t : 0 < tau iv -> bp t0 tau iv <= s <= bp t0 tau (S iv) -> bp t0 tau iv <= t <= bp t0 tau (S iv) ->
  Rabs (piece (DLeg dim) codom t0 tau c iv cc s - piece (DLeg dim) codom t0 tau c iv cc t) <= Rabs (s - t) * (2 / tau iv) * INR (dim - 1) ^ 2 * piece_size dim codom c iv cc.
Proof.
  intros Hp Hs Ht. assert (EbS : bp t0 tau (S iv) = bp t0 tau iv + tau iv) by (unfold bp; cbn [Rsum]; ring). rewrite EbS in Hs, Ht. unfold piece, piece_size. cbn [d_dim].
  rewrite <- Rsum_minus, <- Rsum_scal. eapply Rle_trans; [apply InterpMath2.Rsum_abs|]. apply Rsum_le. intros bb Hb. unfold tphi. cbn [phi].
  rewrite <- Rmult_minus_distr_l, Rabs_mult, Rmult_comm. apply Rmult_le_compat_r; [apply Rabs_pos|].
  eapply Rle_trans; [apply (legP_lip bb (dim - 1)); [lia|apply window_in; auto|apply window_in; auto]|].
  replace (window (bp t0 tau iv) (tau iv) s - window (bp t0 tau iv) (tau iv) t) with (2 / tau iv * (s - t)) by (unfold window; field; lra).
  rewrite Rabs_mult, (Rabs_right (2 / tau iv)); [lra|]. apply Rle_ge, Rdiv_le_0_compat; lra.
Qed.

Section Waypoints.
Variables (g : gspline b64) (dim n codom : nat) (t0 : b64) (tf cf : nat -> b64) (gram : list (mat b64)).
Hypothesis Fin : finite_spline g n codom t0 tf cf.
Hypothesis Leg : gs_basis g = BLegendre dim gram.
Hypothesis Fc : forall i, (i < n * dim * codom)%nat -> fin (cf i).
Let T0 := val t0.
Let tau i := val (tf i).
Let C iv cc := piece_size dim codom (fun i => val (cf i)) iv cc.
Hypothesis Sz : forall iv cc, (iv < n)%nat -> (cc < codom)%nat -> C iv cc <= 2 ^ 990.
Let dl := time_error T0 tau n.
Hypothesis Sm : forall iv, (iv < n)%nat -> leg_error (window_error dl (tau iv)) (dim - 1) <= / 16.
Variables (W : nat -> nat -> R) (eps : nat -> nat -> R).
Hypothesis Res : forall iv cc, (iv < n)%nat -> (cc < codom)%nat ->
  Rabs (residual (DLeg dim) codom n T0 tau W (fun i => val (cf i)) (CStart iv cc)) <= eps iv cc /\
  Rabs (residual (DLeg dim) codom n T0 tau W (fun i => val (cf i)) (CEnd iv cc)) <= eps iv cc.

Lemma bp_mono i j : (i <= j)%nat -> (j <= n)%nat -> bp T0 tau i <= bp T0 tau j.
Proof.
  intros H. induction H as [|j H IH]; intros Hn; [lra|]. assert (E : bp T0 tau (S j) = bp T0 tau j + tau j) by (unfold bp; cbn [Rsum]; ring). rewrite E. destruct Fin as (_ & _ & _ & _ & Htf & _). destruct (Htf j ltac:(lia)) as (_ & P).
  fold (tau j) in P. specialize (IH ltac:(lia)). lra.
Qed.
Theorem C69_waypoints pts pf np kf eta : vec_is pts np pf -> 0 <= eta -> (forall iv, (iv < n)%nat -> dl + eta < tau iv) ->
  (forall i, (i < np)%nat -> fin (pf i) /\ T0 <= val (pf i) <= bp T0 tau n + dl /\ (kf i <= n)%nat /\ Rabs (val (pf i) - bp T0 tau (kf i)) <= eta) ->
  exists M, gs_value g pts = Ok M /\ mrows M = np /\ mcols M = codom /\
  forall i cc, (i < np)%nat -> (cc < codom)%nat -> exists v iv, mget M i cc = Some v /\ fin v /\ (iv < n)%nat /\ (iv = kf i \/ S iv = kf i) /\
    Rabs (val v - W (kf i) cc) <= eps iv cc + waypoint_error dim dl eta (tau iv) (C iv cc).
Proof.
  intros V E0 Hs Hp. destruct (C62_value m g dim n codom t0 tf cf gram Fin Leg Fc Sz Sm pts pf np V) as (M & EM & R1 & R2 & G).
  { intros i Hi. destruct (Hp i Hi) as (F & B & _). auto. }
  exists M. split; [exact EM|]. split; [exact R1|]. split; [exact R2|]. intros i cc Hi Hcc. destruct (Hp i Hi) as (_ & _ & Hk & Hd). set (k := kf i) in *.
  destruct (G i cc Hi Hcc) as (v & iv & t' & Gv & Fv & Hiv & Ht' & Hdt & Bv). change (time_error _ _ _) with dl in Hdt, Bv. change (val t0) with T0 in Ht', Bv. change (fun i => val (tf i)) with tau in Ht', Bv. change (val (tf iv)) with (tau iv) in Bv.
  exists v, iv. split; [exact Gv|]. split; [exact Fv|]. split; [exact Hiv|].
  destruct Fin as (_ & _ & _ & _ & Htf & _). assert (Tp : forall j, (j < n)%nat -> 0 < tau j) by (intros; apply Htf; auto).
  assert (Far : Rabs (t' - bp T0 tau k) <= dl + eta).
  { replace (t' - bp T0 tau k) with ((t' - val (pf i)) + (val (pf i) - bp T0 tau k)) by ring. eapply Rle_trans; [apply Rabs_triang|]. lra. }
  assert (Bs : forall j, bp T0 tau (S j) = bp T0 tau j + tau j) by (intros; unfold bp; cbn [Rsum]; ring).
  assert (Kiv : iv = k \/ S iv = k).
  { destruct (Nat.lt_trichotomy iv k) as [L|[L|L]]; [|auto|].
    - destruct (Nat.eq_dec (S iv) k) as [|Ne]; [auto|]. exfalso. assert (L2 : (S (S iv) <= k)%nat) by lia. pose proof (bp_mono _ _ L2 Hk) as Bm. rewrite (Bs (S iv)) in Bm.
      specialize (Hs (S iv) ltac:(lia)). apply Rabs_le_between in Far. lra.
    - exfalso. assert (L2 : (S k <= iv)%nat) by lia. pose proof (bp_mono _ _ L2 ltac:(lia)) as Bm. rewrite (Bs k) in Bm. specialize (Hs k ltac:(lia)). apply Rabs_le_between in Far. lra. }
  split; [exact Kiv|]. destruct (Res iv cc Hiv Hcc) as (RS & RE). cbn [residual] in RS, RE.
  assert (Bk : bp T0 tau iv <= bp T0 tau k <= bp T0 tau (S iv)) by (rewrite Bs; specialize (Tp iv Hiv); destruct Kiv as [<-|<-]; rewrite ?Bs; lra).
  pose proof (piece_lip dim codom T0 tau (fun k => val (cf k)) iv cc t' (bp T0 tau k) (Tp iv Hiv) Ht' Bk) as Lp. fold (C iv cc) in Lp.
  assert (Rk : Rabs (piece (DLeg dim) codom T0 tau (fun k => val (cf k)) iv cc (bp T0 tau k) - W k cc) <= eps iv cc) by (destruct Kiv as [<-|<-]; auto).
  set (P1 := piece _ _ _ _ _ _ _ t') in *. set (P2 := piece _ _ _ _ _ _ _ (bp T0 tau k)) in *.
  replace (val v - W k cc) with ((val v - P1) + ((P1 - P2) + (P2 - W k cc))) by ring. eapply Rle_trans; [apply Rabs_triang|]. eapply Rle_trans; [apply Rplus_le_compat_l, Rabs_triang|].
  assert (Lp2 : Rabs (t' - bp T0 tau k) * (2 / tau iv) * INR (dim - 1) ^ 2 * C iv cc <= (dl + eta) * (2 / tau iv) * INR (dim - 1) ^ 2 * C iv cc).
  { apply Rmult_le_compat_r; [apply Rsum_nonneg; intros; apply Rabs_pos|]. apply Rmult_le_compat_r; [apply pow_le, pos_INR|]. apply Rmult_le_compat_r; [|exact Far]. apply Rdiv_le_0_compat; [lra|auto]. }
  unfold waypoint_error. fold (C iv cc) in Bv. change (Rsum dim _) with (C iv cc) in Bv. rewrite Rmult_plus_distr_r. lra.
Qed.

(** at the breakpoints the object itself reports: get_waypoints *)
Theorem C69_breakpoints : exists b bf M, gs_breakpoints g = Ok b /\ vec_is b (S n) bf /\ gs_value g b = Ok M /\ gs_waypoints g = Ok M /\ mrows M = S n /\ mcols M = codom /\
  forall k cc, (k <= n)%nat -> (cc < codom)%nat -> exists v iv, mget M k cc = Some v /\ fin v /\ (iv < n)%nat /\ (iv = k \/ S iv = k) /\
    Rabs (val v - W k cc) <= eps iv cc + waypoint_error dim dl dl (tau iv) (C iv cc).
Proof.
  pose proof Fin as (Wf & Hn & E0 & F0 & Htf & _). destruct (C61_search m g n codom t0 tf cf t0 Fin F0) as (_ & b & bf & _ & Eb & Vb & _ & Fb & _ & _ & Mono & Near).
  assert (D2 : (2 <= dim)%nat) by (pose proof Wf as (B & _); rewrite Leg in B; exact B).
  assert (D0 : 0 <= dl). { unfold dl, time_error. pose proof (pow_1u_ge1 (S n)). apply Rmult_le_pos; [lra|]. apply Rplus_le_le_0_compat; [apply Rabs_pos|apply Rsum_nonneg; intros; apply Rabs_pos]. }
  assert (Near' : forall k, (k <= n)%nat -> Rabs (val (bf k) - bp T0 tau k) <= dl).
  { intros k Hk. eapply Rle_trans; [apply Near; auto|]. unfold dl, time_error. fold T0. pose proof (pow_1u_le k (S n) ltac:(lia)). pose proof (pow_1u_ge1 k).
    assert (Rsum k (fun i => Rabs (val (tf i))) <= Rsum n (fun i => Rabs (tau i))).
    { clear - Hk. induction Hk as [|j Hj IH]; [apply Rle_refl|]. eapply Rle_trans; [exact IH|]. cbn [Rsum]. pose proof (Rabs_pos (tau j)). lra. }
    apply Rmult_le_compat; try lra. apply Rplus_le_le_0_compat; [apply Rabs_pos|apply Rsum_nonneg; intros; apply Rabs_pos]. }
  assert (B0 : val (bf 0%nat) = T0). { pose proof (Near 0%nat ltac:(lia)) as N0. unfold bp in N0. cbn [Rsum pow] in N0. fold T0 in N0. apply Rabs_le_between in N0. lra. }
  assert (Lo : forall k, (k <= n)%nat -> T0 <= val (bf k)).
  { induction k as [|k IH]; intros Hk; [lra|]. specialize (IH ltac:(lia)). specialize (Mono k ltac:(lia)). lra. }
  destruct (C69_waypoints b bf (S n) (fun k => k) dl Vb D0) as (M & EM & R1 & R2 & G).
  - intros iv Hiv. specialize (Sm iv Hiv). destruct (Htf iv Hiv) as (_ & P). fold (tau iv) in P. unfold leg_error, window_error in Sm.
    assert (K1 : 1 <= INR (dim - 1)) by (apply (le_INR 1); lia). pose proof uu_pos as U. assert (Q : 0 <= 4 * dl / tau iv) by (apply Rdiv_le_0_compat; lra).
    assert (4 * dl / tau iv <= 1).
    { assert (H1 : 1 <= INR (dim - 1) * (INR (dim - 1) + 1) / 2) by (clear - K1; nra). set (q := 4 * dl / tau iv) in *. set (kk := INR (dim - 1) * (INR (dim - 1) + 1) / 2) in *.
      assert (1 * (3 * (q + 6 * uu) + 21 * uu) <= kk * (3 * (q + 6 * uu) + 21 * uu)) by (apply Rmult_le_compat_r; lra). lra. }
    apply Rle_div_l in H; lra.
  - intros k Hk. assert (Hk' : (k <= n)%nat) by lia. split; [auto|]. split; [|auto]. split; [auto|]. specialize (Mono). assert (val (bf k) <= val (bf n)).
    { clear - Mono Hk'. induction Hk' as [|n' H IH]; [lra|]. specialize (IH ltac:(intros; apply Mono; lia)). specialize (Mono n' ltac:(lia)). lra. }
    pose proof (Near' n ltac:(lia)) as Nn. apply Rabs_le_between in Nn. lra.
  - exists b, bf, M. split; [exact Eb|]. split; [exact Vb|]. split; [exact EM|]. split; [refine (waypoints_value g b M Eb _ EM); destruct Wf as (_ & _ & (Lt & _) & _); destruct Vb as (Lb & _); rewrite Lb; unfold gs_n; rewrite Lt; reflexivity|]. split; [exact R1|]. split; [exact R2|]. intros k cc Hk Hcc. apply (G k cc); auto; lia.
Qed.
End Waypoints.

(** from the call of interpolate to the values at the reported breakpoints *)
Theorem C69_interpolation h c n ip tau tf wp W : (1 <= h)%nat -> (1 <= n)%nat -> leg_object (2 * h) c n ip ->
  vec_is tau n tf -> good_lengths (2 * h) n tf -> reads wp n c W -> (forall w cc, (w <= n)%nat -> (cc < c)%nat -> fin (W w cc)) ->
  (1 + uu) ^ S n * Rsum n (fun i => Rabs (val (tf i))) <= big ->
  let N := (2 * h * c * n)%nat in let dl := time_error 0 (fun i => val (tf i)) n in
  (forall iv, (iv < n)%nat -> leg_error (window_error dl (val (tf iv))) (2 * h - 1) <= / 16) ->
  exists A v bv, vec_is v N bv /\ (forall i, (i < N)%nat -> fin (bv i)) /\ finite_matrix A /\
    (forall t0, near_system (2 * h) c n t0 (fun i => val (tf i)) (fun w cc => val (W w cc)) A (fun i => val (bv i))) /\
    forall lu f y r, lu A = Some f -> vec_is (f v) N y -> (forall j, (j < N)%nat -> fin (y j)) ->
      let C iv cc := piece_size (2 * h) c (fun j => val (y j)) iv cc in
      (forall iv cc, (iv < n)%nat -> (cc < c)%nat -> C iv cc <= 2 ^ 990) ->
      (forall i, (i < N)%nat -> Rabs (Rsum N (fun j => entry_val A i j * val (y j)) - val (bv i)) <= r) ->
      exists g ip' b bf M, ip_interpolate lu ip tau wp = Ok (g, ip') /\ leg_object (2 * h) c n ip' /\
        gs_breakpoints g = Ok b /\ vec_is b (S n) bf /\ gs_value g b = Ok M /\ gs_waypoints g = Ok M /\ mrows M = S n /\ mcols M = c /\
        forall k cc, (k <= n)%nat -> (cc < c)%nat -> exists v iv, mget M k cc = Some v /\ fin v /\ (iv < n)%nat /\ (iv = k \/ S iv = k) /\
          Rabs (val v - val (W k cc)) <= r + end_error (2 * h) (val (tf iv)) 0 * C iv cc + waypoint_error (2 * h) dl dl (val (tf iv)) (C iv cc).
Proof.
  intros Hh Hn Ob V Gl Rd FW HB N dl Sm. destruct (C68_residuals h c n ip tau tf wp W Hh Hn Ob V Gl Rd FW) as (A & v & bv & Vb & Fb & FA & Sys & Rs).
  exists A, v, bv. split; [exact Vb|]. split; [exact Fb|]. split; [exact FA|]. split; [exact Sys|]. intros lu f y r El Vy Fy C Cz Hr.
  destruct (Rs lu f y r El Vy Hr) as (g & gr & ip' & E & Ob' & Bg & Tg & Cg & Dg & Wf & Rq). destruct (good_pass h n tf Gl) as (_ & Ft & _).
  destruct (C69_breakpoints g (2 * h) n c n0 tf y gr) with (W := fun w cc => val (W w cc)) (eps := fun iv cc => r + end_error (2 * h) (val (tf iv)) 0 * C iv cc)
    as (b & bf & M & Eb & Vbf & EM & EW & R1 & R2 & G); auto.
  - split; [exact Wf|]. split; [exact Hn|]. split; [exact Dg|]. split; [reflexivity|]. split; [exact Ft|]. change (val n0) with 0. rewrite Rabs_R0, Rplus_0_l. exact HB.
  - intros i Hi. apply Fy. unfold N. replace (2 * h * c * n)%nat with (n * (2 * h) * c)%nat by ring. exact Hi.
  - intros iv cc Hiv Hcc. split; [apply (Rq _ (CStart iv cc))|apply (Rq _ (CEnd iv cc))]; cbn [cond_ok]; auto.
  - exists g, ip', b, bf, M. repeat (split; [assumption|]). exact G.
Qed.
End S.

(** ** Examples: from 0 to 10 and back to 0 in two intervals of length 2, from rest to rest *)
Definition bump (i : nat) : R := nth i [5; 6; 0; -1; 5; -6; 0; 1] 0.
Lemma bump_exact t0 q : cond_ok 4 1 2 q -> residual (DLeg 4) 1 2 t0 (fun _ => 2) (fun w _ => if Nat.eqb w 1 then 10 else 0) bump q = 0.
Proof.
  intros Ok. rewrite (residual_form 2 1 2); auto; [|intros; lra]. change (2 * 2)%nat with 4%nat.
  assert (L0 : forall x, LD 0 0 x = 1 /\ LD 0 1 x = x /\ LD 0 2 x = (3 * x * x - 1) / 2 /\ LD 0 3 x = (5 * x * x * x - 3 * x) / 2).
  { intros x. cbn [LD]. rewrite !legP_SS, !legP_0, !legP_1. cbn [INR]. repeat split; field. }
  assert (L1 : forall x, LD 1 0 x = 0 /\ LD 1 1 x = 1 /\ LD 1 2 x = 3 * x /\ LD 1 3 x = (15 * x * x - 3) / 2).
  { intros x. destruct (L0 x) as (A & B & D & E). rewrite !LD_rec, D, B, LD_1_1, LD_S_0. cbn [INR]. repeat split; field. }
  assert (L2 : forall x, LD 2 0 x = 0 /\ LD 2 1 x = 0 /\ LD 2 2 x = 3 /\ LD 2 3 x = 15 * x).
  { intros x. destruct (L0 x) as (A & B & _). rewrite !LD_rec, LD_SS_1, LD_1_1, B, !LD_S_0. cbn [INR]. repeat split; field. }
  destruct (L0 1) as (E01 & E02 & E03 & E04). destruct (L0 (-1)) as (E05 & E06 & E07 & E08).
  destruct (L1 1) as (E11 & E12 & E13 & E14). destruct (L1 (-1)) as (E15 & E16 & E17 & E18).
  destruct (L2 1) as (E21 & E22 & E23 & E24). destruct (L2 (-1)) as (E25 & E26 & E27 & E28).
  assert (S3 : forall k, (k < 2)%nat -> k = 0%nat \/ k = 1%nat) by lia.
  destruct q as [iv cc|iv cc|iv cc k|cc k|cc k]; cbn [cond_ok] in Ok; cbn in Ok; destruct Ok as (O1 & O2); try destruct O2 as (O2 & O3);
    repeat match goal with H : (S ?x < 2)%nat |- _ => assert (x = 0)%nat by lia; clear H; subst x | H : (?x < 1)%nat |- _ => assert (x = 0)%nat by lia; clear H; subst x | H : (?x < 2)%nat |- _ => destruct (S3 x H); clear H; subst x end; try (exfalso; lia);
    unfold rform, side; cbn [Rsum Nat.mul Nat.add Nat.sub Nat.eqb];
    rewrite ?E01, ?E02, ?E03, ?E04, ?E05, ?E06, ?E07, ?E08, ?E11, ?E12, ?E13, ?E14, ?E15, ?E16, ?E17, ?E18, ?E21, ?E22, ?E23, ?E24, ?E25, ?E26, ?E27, ?E28;
    unfold bump; cbn [nth pow]; field.
Qed.
Section Ex.
Variable m : libm.
Local Instance BN' : Num b64 := B64num m.
Definition btau : vec b64 := vec_of_list [z64 2; z64 2].
Definition bwp : mat b64 := mkmat 3 1 (fun w _ => Some (z64 (if Nat.eqb w 1 then 10 else 0))).
Definition bsol : list b64 := map z64 [5; 6; 0; -1; 5; -6; 0; 1]%Z.
Definition blu : smat b64 -> option (vec b64 -> vec b64) := fun _ => Some (fun _ => vec_of_list bsol).
Lemma bump_val j : (j < 8)%nat -> fin (nth j bsol (z64 0)) /\ val (nth j bsol (z64 0)) = bump j.
Proof.
  intros H. unfold bsol. rewrite map_nth. split; [apply z64_ok|rewrite z64v].
  1, 3: do 8 (destruct j as [|j]; [cbn [nth]; lia|]); lia.
  unfold bump. do 8 (destruct j as [|j]; [reflexivity|]); lia.
Qed.
Lemma bump_hyps : exists ip, leg_object m 4 1 2 ip /\ vec_is btau 2 (fun _ => z64 2) /\ good_lengths m 4 2 (fun _ => z64 2) /\
  reads bwp 2 1 (fun w _ => z64 (if Nat.eqb w 1 then 10 else 0)).
Proof.
  pose proof uu_pos as U. pose proof uu_small as US. assert (V2 : val (z64 2) = 2) by (apply z64v; lia).
  destruct (gctor_inv (BLegendre 4 []) 2 1 2 ltac:(lia) ltac:(lia) eq_refl (bs_init (BLegendre 4 []))) as (ip & E & _).
  exists ip. split; [|split; [|split]].
  - exists [], (bs_init (BLegendre 4 [])), ip, []. split; [exact E|reflexivity].
  - split; [reflexivity|]. intros [|[|i]] Hi; try lia; reflexivity.
  - intros i Hi. split; [apply z64_ok; lia|]. rewrite V2. split; [|split].
    + unfold val. replace (B2R (ten_m 6 : b64)) with (F2R (Float radix2 4722366482869645 (-72))) by (vm_compute; reflexivity). unfold F2R. cbn [Fnum Fexp bpow Z.pow_pos Pos.iter radix_val radix2 Z.mul Pos.mul]. lra.
    + cbn [deriv_error Nat.sub Nat.mul Nat.add INR pow]. lra.
    + assert (Sp : spread 2 = 1) by (unfold spread; rewrite Rmax_left; lra). rewrite Sp. cbn [Nat.sub INR]. apply Rle_trans with (2 ^ 10); [lra|]. apply Rle_pow; [lra|lia].
  - intros w cc Hw Hc. unfold mread. cbn [bwp mrows mcols mget]. destruct (Nat.ltb_spec w 3); [|lia]. destruct (Nat.ltb_spec cc 1); [|lia]. reflexivity.
Qed.
Lemma bump_size iv cc : (iv < 2)%nat -> (cc < 1)%nat -> piece_size 4 1 (fun j => val (nth j bsol (z64 0))) iv cc = 12.
Proof.
  intros Hi Hc. replace cc with 0%nat by lia. unfold piece_size. rewrite (Rsum_ext _ _ (fun bb => Rabs (bump ((iv * 1 + 0) * 4 + bb)))) by (intros k Hk; f_equal; apply bump_val; lia).
  destruct iv as [|[|iv]]; [| |lia]; cbn [Rsum Nat.mul Nat.add]; unfold bump; cbn [nth]; rewrite ?(Rabs_left (-1)), ?(Rabs_left (-6)), ?Rabs_R0, ?Rabs_R1, ?(Rabs_right 5), ?(Rabs_right 6) by lra; ring.
Qed.
Lemma bump_end k : (k <= 2)%nat -> 0 <= end_error 4 2 k <= 474336 * uu.
Proof.
  intros Hk. pose proof uu_pos as U. unfold end_error. replace (2 / 2) with 1 by field. rewrite pow1.
  destruct k as [|[|[|k]]]; [| | |lia]; cbn [deriv_error Nat.sub Nat.mul Nat.add INR pow]; lra.
Qed.
Lemma bump_cond q : cond_ok 4 1 2 q -> cond_error 4 1 2 (fun _ => 2) (fun j => val (nth j bsol (z64 0))) q <= 11384064 * uu.
Proof.
  intros Ok. pose proof uu_pos as U. destruct q as [iv cc|iv cc|iv cc k|cc k|cc k]; cbn [cond_ok] in Ok; cbn in Ok; cbn [cond_error Nat.sub]; rewrite !bump_size by lia.
  1, 2: pose proof (bump_end 0 ltac:(lia)); lra.
  all: pose proof (bump_end (S k) ltac:(lia)); lra.
Qed.
Lemma bump_rows A (bv : nat -> b64) : (forall t0, near_system 4 1 2 t0 (fun _ => val (z64 2)) (fun w _ => val (z64 (if Nat.eqb w 1 then 10 else 0))) A (fun i => val (bv i))) ->
  forall i, (i < 8)%nat -> Rabs (Rsum 8 (fun j => entry_val A i j * val (nth j bsol (z64 0))) - val (bv i)) <= 11384064 * uu.
Proof.
  intros Sys i Hi. destruct (Sys 0) as (_ & _ & row & R1 & _ & R3 & R4). destruct (R3 i Hi) as (q & Ok & <-).
  specialize (R4 q (fun j => val (nth j bsol (z64 0))) Ok). change (4 * 1 * 2)%nat with 8%nat in R4.
  assert (V2 : val (z64 2) = 2) by (apply z64v; lia).
  assert (Z : residual (DLeg 4) 1 2 0 (fun _ => val (z64 2)) (fun w _ => val (z64 (if Nat.eqb w 1 then 10 else 0))) (fun j => val (nth j bsol (z64 0))) q = 0).
  { rewrite <- (bump_exact 0 q Ok). rewrite !(residual_form 2 1 2); auto; try (intros; rewrite ?V2; lra). rewrite V2.
    assert (Sd : forall F iv cc k, (iv < 2)%nat -> (cc < 1)%nat -> side 2 1 F (fun j => val (nth j bsol (z64 0))) iv cc k = side 2 1 F bump iv cc k).
    { intros F iv cc k H1 H2. unfold side. apply Rsum_ext. intros bb Hb. f_equal. apply bump_val. lia. }
    assert (Wv : forall w, val (z64 (if Nat.eqb w 1 then 10 else 0)) = if Nat.eqb w 1 then 10 else 0) by (intros w; destruct (Nat.eqb w 1); apply z64v; lia).
    destruct q as [iv cc|iv cc|iv cc k|cc k|cc k]; cbn [cond_ok] in Ok; cbn in Ok; unfold rform; rewrite !Sd, ?Wv by (cbn; lia); reflexivity. }
  rewrite Z, Rminus_0_r in R4. eapply Rle_trans; [exact R4|]. rewrite V2. apply bump_cond. exact Ok.
Qed.
(** every condition of the spline that interpolate returns holds up to 2e-9 *)
Example C68_case : exists ip g ip', ip_interpolate blu ip btau bwp = Ok (g, ip') /\ vec_is (gs_coef g) 8 (fun j => nth j bsol (z64 0)) /\
  forall t0 q, cond_ok 4 1 2 q ->
    Rabs (residual (DLeg 4) 1 2 t0 (fun _ => val (z64 2)) (fun w _ => val (z64 (if Nat.eqb w 1 then 10 else 0))) (fun j => val (nth j bsol (z64 0))) q) <= 22768128 * uu.
Proof.
  destruct bump_hyps as (ip & Ob & V & Gl & Rd). exists ip.
  destruct (C68_residuals m 2 1 2 ip btau (fun _ => z64 2) bwp (fun w _ => z64 (if Nat.eqb w 1 then 10 else 0))) as (A & v & bv & _ & _ & _ & Sys & G); auto.
  { intros w cc _ _. destruct (Nat.eqb w 1); apply z64_ok; lia. }
  destruct (G blu (fun _ => vec_of_list bsol) (fun j => nth j bsol (z64 0)) (11384064 * uu) eq_refl) as (g & gr & ip' & E & _ & _ & _ & Cg & _ & _ & Rs).
  { apply (vec_of_list_is bsol (z64 0)). }
  { exact (bump_rows A bv Sys). }
  exists g, ip'. split; [exact E|]. split; [rewrite Cg; apply (vec_of_list_is bsol (z64 0))|]. intros t0 q Ok. eapply Rle_trans; [apply Rs; exact Ok|].
  assert (V2 : val (z64 2) = 2) by (apply z64v; lia). change (2 * 2)%nat with 4%nat. rewrite V2. pose proof (bump_cond q Ok). lra.
Qed.
(** the values at the reported breakpoints are the waypoints up to 3e-9 *)
Example C69_case : exists ip g ip' M, ip_interpolate blu ip btau bwp = Ok (g, ip') /\ gs_waypoints g = Ok M /\
  forall k, (k <= 2)%nat -> exists v, mget M k 0 = Some v /\ fin v /\ Rabs (val v - if Nat.eqb k 1 then 10 else 0) <= 30000000 * uu.
Proof.
  pose proof uu_pos as U. pose proof uu_small as US. assert (V2 : val (z64 2) = 2) by (apply z64v; lia). destruct bump_hyps as (ip & Ob & V & Gl & Rd). exists ip.
  assert (TS : 0 <= time_error 0 (fun _ => 2) 2 <= 24 * uu).
  { unfold time_error. cbn [Rsum]. rewrite Rabs_R0, (Rabs_right 2) by lra. pose proof small_case. pose proof (pow_1u_ge1 3). lra. }
  assert (LE : leg_error (window_error (time_error 0 (fun _ => 2) 2) 2) 3 <= 1098 * uu) by (unfold leg_error, window_error; cbn [INR]; lra).
  destruct (C69_interpolation m 2 1 2 ip btau (fun _ => z64 2) bwp (fun w _ => z64 (if Nat.eqb w 1 then 10 else 0))) as (A & v & bv & _ & _ & _ & Sys & G); auto.
  { intros w cc _ _. destruct (Nat.eqb w 1); apply z64_ok; lia. }
  { cbn [Rsum]. rewrite V2, (Rabs_right 2) by lra. pose proof small_case. apply Rle_trans with (2 ^ 3); [lra|]. unfold big. apply pow_lit. lia. }
  { intros iv Hiv. rewrite V2. change (2 * 2 - 1)%nat with 3%nat. eapply Rle_trans; [exact LE|lra]. }
  destruct (G blu (fun _ => vec_of_list bsol) (fun j => nth j bsol (z64 0)) (11384064 * uu) eq_refl) as (g & ip' & b & bf & M & E & _ & _ & _ & _ & EW & _ & _ & Gv).
  { apply (vec_of_list_is bsol (z64 0)). }
  { intros j Hj. apply bump_val. exact Hj. }
  { intros iv cc Hiv Hcc. change (2 * 2)%nat with 4%nat. rewrite bump_size by auto. apply Rle_trans with (2 ^ 4); [lra|]. apply pow_lit. lia. }
  { exact (bump_rows A bv Sys). }
  exists g, ip', M. split; [exact E|]. split; [exact EW|]. intros k Hk. destruct (Gv k 0%nat Hk ltac:(lia)) as (x & iv & Gx & Fx & Hiv & _ & B).
  exists x. split; [exact Gx|]. split; [exact Fx|]. replace (if Nat.eqb k 1 then 10 else 0) with (val (z64 (if Nat.eqb k 1 then 10 else 0))) by (destruct (Nat.eqb k 1); apply z64v; lia).
  eapply Rle_trans; [exact B|]. change (2 * 2)%nat with 4%nat. rewrite V2, bump_size by lia. pose proof (bump_end 0 ltac:(lia)) as BE. unfold waypoint_error, value_error. set (tiny := / 2 ^ 1074) in *. cbn [Nat.sub Nat.add INR pow]. set (dl := time_error 0 _ 2) in *.
  pose proof hh_uu as Hh. unfold hh in Hh. change (2 ^ 1075) with (2 * 2 ^ 1074) in Hh. rewrite Rinv_mult in Hh. fold tiny in Hh.
  set (le := leg_error _ 3) in *. lra.
Qed.
End Ex.
