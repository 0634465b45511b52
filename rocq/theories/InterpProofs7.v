(** Interpolation: the returned spline meets the conditions, passes through the
    waypoints and is as smooth as the conditions say. *)
From Coquelicot Require Import Coquelicot.
From Coq Require Import List Arith Lia Bool ZArith Reals Lra.
From Verif Require Import Num Outcome LinAlg RSum RMat RDeriv RPoly RGauss
  LegendreSpec LagrangeSpec Basis0101Spec BasisModel SplineSpec BasisFn
  BasisProofs BasisProofs2 BasisProofs3 ToolsModel GSplineModel GSplineProofs GSplineProofs2 GSplineProofs3 GSplineProofs4
  InterpModel InterpSpec SolverSpec
  InterpProofs InterpProofs2 InterpProofs3 InterpProofs4 InterpProofs5 InterpMath InterpProofs6.
Import ListNotations.
Local Open Scope R_scope.

(** an interpolator for n intervals and c components, over the basis object b, after any sequence of calls.  Both ends
    of the window must be points where the basis is evaluated exactly (C15 for the Lagrange basis; always true of the others). *)
Definition reached (b : basis R) (d : bdesc) (c n : nat) (ip : interp R) : Prop :=
  is_basis b d /\ Nat.Even (d_dim d) /\ (1 <= n)%nat /\ exact_pt d (-1) /\ exact_pt d 1 /\
  exists hist s ip0 l, serve_all b hist (bs_init b) = Ok s /\ ip_ctor c n b s = Ok ip0 /\ ip_run l ip0 = Ok ip.

Lemma reached_inv b d c n ip : reached b d c n ip -> exists h, (1 <= h)%nat /\ d_dim d = (2 * h)%nat /\ ip_inv b h c n ip.
Proof.
  intros (B & (h & Hd) & Hn & XL & XR & hist & s & ip0 & l & Hs & Ec & Er). exists h.
  assert (Hh : (1 <= h)%nat) by (pose proof (is_basis_pos _ _ B); lia).
  split; auto. split; auto. destruct (ctor_inv b d h c n B Hh Hn Hd hist s Hs) as (ip1 & E1 & I1).
  rewrite Ec in E1. injection E1 as <-. exact (run_inv b d h c n B Hh Hn Hd XL XR l ip0 ip I1 Er).
Qed.
Lemma run_app {T} `{Num T} l l' (ip ip' : interp T) : ip_run l ip = Ok ip' -> ip_run (l ++ l') ip = ip_run l' ip'.
Proof.
  revert ip. induction l as [|[lu q] l IH]; intros ip E; simpl in *.
  - now injection E as <-.
  - apply bind_ok in E. destruct E as (ip1 & -> & E). cbn [bind]. auto.
Qed.
Lemma reached_after b d c n ip lu q ip' : reached b d c n ip -> ip_after lu q ip = Ok ip' -> reached b d c n ip'.
Proof.
  intros (B & Ev & Hn & XL & XR & hist & s & ip0 & l & Hs & Ec & Er) E. repeat split; auto.
  exists hist, s, ip0, (l ++ [(lu, q)]). split; auto. split; auto. rewrite (run_app l _ _ _ Er). simpl. now rewrite E.
Qed.

Lemma pos6 : 0 < / 10 ^ 6.
Proof. apply Rinv_0_lt_compat, pow_lt. lra. Qed.

(** values at all indices below N from the values at the rows *)
Lemma vec_rows h c n (Hh : (1 <= h)%nat) (Hn : (1 <= n)%nat) (v : vec R) W : vlen v = (2 * h * c * n)%nat ->
  (forall q, cond_ok (2 * h) c n q -> vget v (rowof (2 * h) c n q) = Some (rhs_of W q)) ->
  exists bf, vec_is v (2 * h * c * n) bf /\ forall q, cond_ok (2 * h) c n q -> bf (rowof (2 * h) c n q) = rhs_of W q.
Proof.
  intros L G. exists (fun i => match vget v i with Some x => x | None => 0 end). split.
  - split; auto. intros i Hi. destruct (row_surj h c n Hh Hn i Hi) as (q & Ok & <-). now rewrite (G q Ok).
  - intros q Ok. now rewrite (G q Ok).
Qed.

(** the system handed to the solver is the system of the interpolation conditions, whatever was computed before *)
Theorem solve_system b d c n ip tau tf wp W : reached b d c n ip -> vec_is tau n tf -> (forall i, (i < n)%nat -> / 10 ^ 6 <= tf i) -> reads wp n c W ->
  forall lu, exists A v bf ip', ip_solve lu ip tau wp = Ok (match lu A with None => ip_sol ip | Some f => f v end, ip') /\
    vec_is v (d_dim d * c * n) bf /\ (forall t0, is_system d c n t0 tf W A bf) /\ nonsing (d_dim d * c * n) (entry A) /\
    reached b d c n ip' /\ ip_sol ip' = match lu A with None => ip_sol ip | Some f => f v end.
Proof.
  intros Re V Ht Rd lu. destruct (reached_inv _ _ _ _ _ Re) as (h & Hh & Hd & I). pose proof Re as (B & _ & Hn & XL & XR & _).
  pose proof pos6 as P6.
  destruct (solve_spec b d h c n B Hh Hn Hd XL XR lu ip tau tf wp W I V Ht Rd) as (A & v & ip' & E & I' & Es & (RA & CA & _) & Lv & G).
  assert (Rw : forall t0 cf q, cond_ok (2 * h) c n q -> Rsum (2 * h * c * n) (fun j => entry A (rowof (2 * h) c n q) j * cf j) - rhs_of W q = residual d c n t0 tf W cf q).
  { intros t0 cf q Ok. apply (G q Ok). }
  assert (RwW : forall t0 W' cf q, cond_ok (2 * h) c n q -> Rsum (2 * h * c * n) (fun j => entry A (rowof (2 * h) c n q) j * cf j) - rhs_of W' q = residual d c n t0 tf W' cf q).
  { intros t0 W' cf q Ok. pose proof (Rw t0 cf q Ok) as E1.
    rewrite (residual_form d c n t0 cf tf W q) in E1; auto; [|intros i Hi; specialize (Ht i Hi); lra|rewrite Hd; auto].
    rewrite (residual_form d c n t0 cf tf W' q); auto; [|intros i Hi; specialize (Ht i Hi); lra|rewrite Hd; auto]. lra. }
  destruct (vec_rows h c n Hh Hn v W Lv) as (bf & Vb & Gb). { intros q Ok. apply (G q Ok). }
  exists A, v, bf, ip'. split; auto. rewrite Hd. split; auto. split; [intros t0; apply (system_is d h c n Hh Hn Hd); auto|].
  split; [apply (system_nonsing b d h c n B Hh Hn Hd A tf); auto; intros i Hi; specialize (Ht i Hi); lra|]. split; auto.
  apply (reached_after b d c n ip lu (CallSolve tau wp)); auto. unfold ip_after. now rewrite E.
Qed.

(** solutions of the system *)
Lemma is_system_solves d c n t0 tf W A b x : is_system d c n t0 tf W A b ->
  (solves (d_dim d * c * n) A x b <-> interpolates d c n t0 tf W x).
Proof.
  intros (_ & row & L & _ & Su & G). split.
  - intros S q Ok. rewrite <- (G q x Ok). rewrite S by auto. ring.
  - intros S i Hi. destruct (Su i Hi) as (q & Ok & <-). pose proof (G q x Ok) as E. rewrite (S q Ok) in E. lra.
Qed.

Theorem interpolate_exact b d c n ip tau tf wp W lu : reached b d c n ip -> exact_solver lu ->
  vec_is tau n tf -> (forall i, (i < n)%nat -> / 10 ^ 6 <= tf i) -> reads wp n c W ->
  exists g ip' cf, ip_interpolate lu ip tau wp = Ok (g, ip') /\ rep g d n c 0 (Rsum n tf) tf cf /\
    interpolates d c n 0 tf W cf /\ reached b d c n ip'.
Proof.
  intros Re Ex V Ht Rd. destruct (solve_system b d c n ip tau tf wp W Re V Ht Rd lu) as (A & v & bf & ip' & E & Vv & Sy & Ns & Re' & _).
  destruct (Ex _ A (proj1 (Sy 0)) Ns) as (f & El & F). destruct (F v bf Vv) as (xf & Vx & Sx). rewrite El in E.
  unfold ip_interpolate. rewrite E. cbn [bind]. replace (vlen tau) with n by (symmetry; apply V).
  rewrite (osum_some n _ tf) by (apply V). cbn [of_option bind].
  destruct (reached_inv _ _ _ _ _ Re') as (h & Hh & Hd & (Ib & Ic & In & _ & _ & _ & _ & hist & Hs)).
  rewrite Ib, Ic, In. pose proof Re as (B & _).
  destruct (ctor_rep b d hist (ip_bst ip') (n0, nsum n tf) c n (f v) tau xf tf B Hs V) as (g & Eg & Rg).
  { replace (n * d_dim d * c)%nat with (d_dim d * c * n)%nat by ring. exact Vx. }
  rewrite Eg. cbn [bind]. exists g, ip', xf. split; auto. split; [|split; auto].
  - cbn [fst snd] in Rg. rewrite nsum_R in Rg. exact Rg.
  - apply (is_system_solves d c n 0 tf W A bf xf (Sy 0)). exact Sx.
Qed.

(** ** values at the breakpoints *)
Lemma locate_bp t0 tf n k : (1 <= n)%nat -> (forall i, (i < n)%nat -> 0 < tf i) -> (k <= n)%nat -> locate t0 tf n (bp t0 tf k) = (k - 1)%nat.
Proof.
  intros Hn P Hk. apply (in_iv_unique t0 tf n (bp t0 tf k)); auto; [apply locate_in; auto|].
  destruct k as [|k].
  - simpl. split; [lia|]. split; [auto|]. right. apply (bp_mono t0 tf n); auto; lia.
  - replace (S k - 1)%nat with k by lia. split; [lia|]. split; [right; apply (bp_smono t0 tf n); auto; lia|right; lra].
Qed.
Lemma sfun_bp d c n t0 tf cf W k cc : (1 <= n)%nat -> (forall i, (i < n)%nat -> 0 < tf i) -> interpolates d c n t0 tf W cf ->
  (k <= n)%nat -> (cc < c)%nat -> sfun d c n t0 tf cf cc (bp t0 tf k) = W k cc.
Proof.
  intros Hn P Sol Hk Hc. unfold sfun. rewrite locate_bp by auto. destruct k as [|k].
  - pose proof (Sol (CStart 0 cc) ltac:(simpl; lia)) as E. unfold residual in E. simpl. lra.
  - replace (S k - 1)%nat with k by lia. pose proof (Sol (CEnd k cc) ltac:(simpl; lia)) as E. unfold residual in E. lra.
Qed.
Lemma wpos_bp t0 tf n k : (1 <= n)%nat -> (forall i, (i < n)%nat -> 0 < tf i) -> (k <= n)%nat ->
  wpos t0 tf n (bp t0 tf k) = if Nat.eqb k 0 then -1 else 1.
Proof.
  intros Hn P Hk. unfold wpos. rewrite locate_bp by auto. destruct k as [|k]; simpl Nat.eqb; cbv iota.
  - apply window_left. specialize (P 0%nat ltac:(lia)). simpl. lra.
  - replace (S k - 1)%nat with k by lia. rewrite bp_S. apply window_right. specialize (P k ltac:(lia)). lra.
Qed.

(** ** pieces glued together *)
Lemma glue (f p q : R -> R) b l : locally b (fun t => t <= b -> f t = p t) -> locally b (fun t => b < t -> f t = q t) ->
  p b = q b -> is_derive p b l -> is_derive q b l -> is_derive f b l.
Proof.
  intros [e1 H1] [e2 H2] E Dp Dq. apply is_derive_Reals. apply is_derive_Reals in Dp. apply is_derive_Reals in Dq.
  assert (Fb : f b = p b). { apply H1; [apply ball_center|lra]. }
  intros eps He. destruct (Dp eps He) as (d1 & G1). destruct (Dq eps He) as (d2 & G2).
  assert (Hm : 0 < Rmin (Rmin e1 e2) (Rmin d1 d2)) by (repeat apply Rmin_pos; apply cond_pos).
  exists (mkposreal _ Hm). intros u Nu Hu. simpl in Hu.
  pose proof (Rmin_l (Rmin e1 e2) (Rmin d1 d2)). pose proof (Rmin_r (Rmin e1 e2) (Rmin d1 d2)).
  pose proof (Rmin_l e1 e2). pose proof (Rmin_r e1 e2). pose proof (Rmin_l d1 d2). pose proof (Rmin_r d1 d2).
  assert (Bu : Rabs (b + u - b) = Rabs u) by (f_equal; ring).
  destruct (Rle_lt_dec (b + u) b) as [L|L].
  - rewrite Fb, H1; [apply G1; auto; lra| |auto]. change (Rabs (b + u - b) < e1). rewrite Bu. lra.
  - rewrite Fb, E, H2; [apply G2; auto; lra| |auto]. change (Rabs (b + u - b) < e2). rewrite Bu. lra.
Qed.
Lemma glue_cont (f p q : R -> R) b : locally b (fun t => t <= b -> f t = p t) -> locally b (fun t => b < t -> f t = q t) ->
  p b = q b -> continuous p b -> continuous q b -> continuous f b.
Proof.
  intros H1 H2 E Cp Cq. assert (Fb : f b = p b). { destruct H1 as [e1 H1]. apply H1; [apply ball_center|lra]. }
  intros P HP. rewrite Fb in HP. pose proof (Cp P HP) as Lp. rewrite E in HP. pose proof (Cq P HP) as Lq.
  unfold filtermap in *. generalize (filter_and _ _ (filter_and _ _ H1 H2) (filter_and _ _ Lp Lq)). apply filter_imp.
  intros t ((T1 & T2) & (Tp & Tq)). destruct (Rle_lt_dec t b) as [L|L]; [rewrite T1|rewrite T2]; auto.
Qed.

Section Smooth.
Variables (d : bdesc) (c n : nat) (t0 : R) (tf cf : nat -> R) (K : nat).
Hypothesis Hn : (1 <= n)%nat.
Hypothesis P : forall i, (i < n)%nat -> 0 < tf i.
Variable cc : nat.
(** derivatives up to order K agree at the inner breakpoints *)
Hypothesis J : forall iv k, (S iv < n)%nat -> (k <= K)%nat ->
  Derive_n (piece d c t0 tf cf iv cc) k (bp t0 tf (S iv)) = Derive_n (piece d c t0 tf cf (S iv) cc) k (bp t0 tf (S iv)).
Definition Dk (k : nat) (t : R) : R := Derive_n (piece d c t0 tf cf (locate t0 tf n t) cc) k t.

Lemma at_joint t : (exists iv, inside t0 tf n t iv) \/ exists iv, (S iv < n)%nat /\ t = bp t0 tf (S iv).
Proof.
  destruct (locate_in t0 tf n t Hn P) as (Hi & L & R0). set (iv := locate t0 tf n t) in *.
  destruct R0 as [R0|[R0|R0]].
  - left. exists iv. repeat split; auto.
  - left. exists iv. repeat split; auto.
  - destruct (Nat.eq_dec iv (n - 1)) as [E|Ne]; [left; exists iv; repeat split; auto|]. right. exists iv. split; [lia|auto].
Qed.
Lemma near_left iv : (S iv < n)%nat -> locally (bp t0 tf (S iv)) (fun t => t <= bp t0 tf (S iv) -> locate t0 tf n t = iv).
Proof.
  intros Hi. exists (mkposreal _ (P iv ltac:(lia))). intros t Bt Lt. change (Rabs (t - bp t0 tf (S iv)) < tf iv) in Bt. apply Rabs_def2 in Bt.
  rewrite bp_S in *. apply (in_iv_unique t0 tf n t); auto; [apply locate_in; auto|]. split; [lia|]. split; [right; lra|right]. rewrite bp_S. lra.
Qed.
Lemma near_right iv : (S iv < n)%nat -> locally (bp t0 tf (S iv)) (fun t => bp t0 tf (S iv) < t -> locate t0 tf n t = S iv).
Proof.
  intros Hi. exists (mkposreal _ (P (S iv) Hi)). intros t Bt Lt. change (Rabs (t - bp t0 tf (S iv)) < tf (S iv)) in Bt. apply Rabs_def2 in Bt.
  apply (in_iv_unique t0 tf n t); auto; [apply locate_in; auto|]. split; [lia|]. split; [right; lra|right]. rewrite bp_S. lra.
Qed.
Lemma piece_is_derive iv k t : (iv < n)%nat -> is_derive (Derive_n (piece d c t0 tf cf iv cc) k) t (Derive_n (piece d c t0 tf cf iv cc) (S k) t).
Proof.
  intros Hi. pose proof (piece_derive_n d c t0 tf cf iv cc (S k) t ltac:(specialize (P iv Hi); lra)) as D.
  rewrite (is_derive_n_unique _ _ _ _ D). exact D.
Qed.
Lemma Dk_derive k t : (S k <= K)%nat -> is_derive (Dk k) t (Dk (S k) t).
Proof.
  intros Hk. destruct (at_joint t) as [(iv & In)|(iv & Hi & ->)].
  - unfold Dk at 2. rewrite (inside_locate _ _ _ _ iv P In).
    apply (is_derive_ext_loc (Derive_n (piece d c t0 tf cf iv cc) k)).
    + generalize (inside_locally t0 tf n t iv P In). apply filter_imp. intros u U. unfold Dk. now rewrite U.
    + apply piece_is_derive. apply In.
  - unfold Dk at 2. rewrite locate_bp by (auto; lia). replace (S iv - 1)%nat with iv by lia.
    apply (glue _ (Derive_n (piece d c t0 tf cf iv cc) k) (Derive_n (piece d c t0 tf cf (S iv) cc) k)).
    + generalize (near_left iv Hi). apply filter_imp. intros u U L. unfold Dk. now rewrite U.
    + generalize (near_right iv Hi). apply filter_imp. intros u U L. unfold Dk. now rewrite U.
    + apply J; lia.
    + apply piece_is_derive. lia.
    + rewrite (J iv (S k)) by lia. apply piece_is_derive. lia.
Qed.
Lemma Dk_cont t : continuous (Dk K) t.
Proof.
  destruct (at_joint t) as [(iv & In)|(iv & Hi & ->)].
  - apply (continuous_ext_loc _ (Derive_n (piece d c t0 tf cf iv cc) K)).
    + generalize (inside_locally t0 tf n t iv P In). apply filter_imp. intros u U. unfold Dk. now rewrite U.
    + eapply derive_continuous. apply piece_is_derive. apply In.
  - apply (glue_cont _ (Derive_n (piece d c t0 tf cf iv cc) K) (Derive_n (piece d c t0 tf cf (S iv) cc) K)).
    + generalize (near_left iv Hi). apply filter_imp. intros u U L. unfold Dk. now rewrite U.
    + generalize (near_right iv Hi). apply filter_imp. intros u U L. unfold Dk. now rewrite U.
    + apply J; lia.
    + eapply derive_continuous. apply piece_is_derive. lia.
    + eapply derive_continuous. apply piece_is_derive. lia.
Qed.
Lemma sfun_Derive k : (k <= K)%nat -> forall t, Derive_n (sfun d c n t0 tf cf cc) k t = Dk k t.
Proof.
  induction k as [|k IH]; intros Hk t; [reflexivity|]. simpl. rewrite (Derive_ext _ (Dk k)) by (intros; apply IH; lia).
  apply is_derive_unique. apply Dk_derive. lia.
Qed.
Lemma sfun_smooth : (forall k t, (k < K)%nat -> is_derive (Derive_n (sfun d c n t0 tf cf cc) k) t (Derive_n (sfun d c n t0 tf cf cc) (S k) t)) /\
  (forall t, continuous (Derive_n (sfun d c n t0 tf cf cc) K) t).
Proof.
  split.
  - intros k t Hk. rewrite sfun_Derive by lia. apply (is_derive_ext (Dk k)); [intros; symmetry; apply sfun_Derive; lia|]. apply Dk_derive. lia.
  - intros t. apply (continuous_ext (Dk K)); [intros; symmetry; apply sfun_Derive; lia|]. apply Dk_cont.
Qed.
End Smooth.

(** the interpolating spline: class C^(dim-2), derivatives 1..dim/2-1 zero at both ends *)
Theorem sfun_interp d h c n t0 tf cf W cc : (1 <= h)%nat -> d_dim d = (2 * h)%nat -> (1 <= n)%nat -> (forall i, (i < n)%nat -> 0 < tf i) -> (cc < c)%nat ->
  interpolates d c n t0 tf W cf ->
  let f := sfun d c n t0 tf cf cc in
  (forall k t, (k < 2 * h - 2)%nat -> is_derive (Derive_n f k) t (Derive_n f (S k) t)) /\ (forall t, continuous (Derive_n f (2 * h - 2)) t) /\
  (forall k, (1 <= k < h)%nat -> Derive_n f k t0 = 0 /\ Derive_n f k (bp t0 tf n) = 0).
Proof.
  intros Hh Hd Hn P Hc Sol f.
  assert (J : forall iv k, (S iv < n)%nat -> (k <= 2 * h - 2)%nat ->
    Derive_n (piece d c t0 tf cf iv cc) k (bp t0 tf (S iv)) = Derive_n (piece d c t0 tf cf (S iv) cc) k (bp t0 tf (S iv))).
  { intros iv k Hi Hk. destruct k as [|k].
    - pose proof (Sol (CEnd iv cc) ltac:(simpl; lia)) as E1. pose proof (Sol (CStart (S iv) cc) ltac:(simpl; lia)) as E2. unfold residual in *. simpl. lra.
    - pose proof (Sol (CCont iv cc k) ltac:(simpl; lia)) as E. unfold residual in E. lra. }
  destruct (sfun_smooth d c n t0 tf cf (2 * h - 2) Hn P cc J) as [S1 S2]. split; auto. split; auto.
  pose proof (d2 h Hh) as D2. intros k Hk. unfold f. rewrite !(sfun_Derive d c n t0 tf cf (2 * h - 2) Hn P cc J) by lia. unfold Dk.
  replace (locate t0 tf n t0) with 0%nat by (symmetry; replace t0 with (bp t0 tf 0) at 2 by (unfold bp; simpl; ring); rewrite locate_bp; auto; lia).
  rewrite (locate_bp t0 tf n n) by (auto; lia). destruct k as [|k]; [lia|]. split.
  - pose proof (Sol (CFirst cc k) ltac:(unfold cond_ok; rewrite Hd, D2; lia)) as E. unfold residual in E.
    replace (bp t0 tf 0) with t0 in E by (unfold bp; simpl; ring). exact E.
  - pose proof (Sol (CLast cc k) ltac:(unfold cond_ok; rewrite Hd, D2; lia)) as E. exact E.
Qed.
