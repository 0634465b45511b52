(** Concrete splines, and what goes wrong for some of them. *)
From Coquelicot Require Import Coquelicot.
From Coq Require Import List Arith Lia Bool ZArith Reals Lra.
From Verif Require Import Num Outcome LinAlg RSum RMat RDeriv LegendreSpec LegendreModel LegendreProofs LagrangeSpec LagrangeModel LagrangeProofs
  Basis0101Spec Basis0101Math Basis0101Model Basis0101Proofs BasisModel SplineSpec BasisFn BasisProofs BasisProofs2 BasisProofs3
  ToolsModel ToolsProofs GSplineModel GSplineProofs GSplineProofs2 GSplineProofs3 GSplineProofs4 GSplineProofs5.
Import ListNotations.
Local Open Scope R_scope.

Lemma leg_basis k : (2 <= k)%nat -> exists b, is_basis b (DLeg k) /\ b_dim b = k /\ b_name b = NLegendre.
Proof. intros Hk. destruct (leg_ctor_R k) as (g & Eg & _). exists (BLegendre k g). repeat split; auto. Qed.

Lemma leg_spline k dom codom lt lc : (2 <= k)%nat -> length lc = (length lt * k * codom)%nat ->
  exists b s g, is_basis b (DLeg k) /\ gs_ctor dom codom (length lt) b s (vec_of_list lc) (vec_of_list lt) = Ok g /\
    rep g (DLeg k) (length lt) codom (fst dom) (snd dom) (fun i => nth i lt 0) (fun i => nth i lc 0) /\ b_name (gs_basis g) = NLegendre.
Proof.
  intros Hk L. destruct (leg_basis k Hk) as (b & B & Bd & Bn).
  destruct (ctor_rep b (DLeg k) [] (bs_init b) dom codom (length lt) (vec_of_list lc) (vec_of_list lt) (fun i => nth i lc 0) (fun i => nth i lt 0) B eq_refl)
    as (g & E & R). { apply vec_of_list_is. } { cbn [d_dim]. rewrite <- L. apply vec_of_list_is. }
  exists b, (bs_init b), g. split; auto. split; auto. split; auto. unfold gs_ctor in E. destruct Nat.eqb; [|discriminate]. injection E as <-. exact Bn.
Qed.

(** ** limits exceeded between samples *)
Lemma one_interval t0 tau t : locate t0 tau 1 t = 0%nat.
Proof. reflexivity. Qed.
Lemma cubic_piece tau t : tau 0%nat = 2 ->
  piece (DLeg 4) 1 (-1) tau (fun i => nth i [0; 4 / 5; 0; - (2 / 15)] 0) 0 0 t = t - t ^ 3 / 3.
Proof.
  intros E. unfold piece. cbn [d_dim Rsum Nat.mul Nat.add nth]. unfold tphi, phi, bp, window. cbn [Rsum]. rewrite E.
  unfold legP. cbn [leg2 fst INR]. field.
Qed.
Lemma d_cubic t : is_derive (fun t => t - t ^ 3 / 3) t (1 - t ^ 2).
Proof. eapply is_derive_eq; [apply d_minus; [apply d_id|apply d_divc; apply d_pow; apply d_id]|]. simpl. field. Qed.
Lemma d_parab t : is_derive (fun t => 1 - t ^ 2) t (- 2 * t).
Proof. eapply is_derive_eq; [apply d_minus; [apply d_const|apply d_pow; apply d_id]|]. simpl. field. Qed.

(** derivative of a one-piece spline whose piece is known *)
Lemma deriv_known g t0 t1 tf cf f f' : rep g (DLeg 4) 1 1 t0 t1 tf cf -> 0 < tf 0%nat ->
  (forall t, piece (DLeg 4) 1 t0 tf cf 0 0 t = f t) -> (forall t, is_derive f t (f' t)) ->
  exists g' cf', gs_derivate g 1 = Ok g' /\ rep g' (DLeg 4) 1 1 t0 t1 tf cf' /\
    (forall t, piece (DLeg 4) 1 t0 tf cf' 0 0 t = f' t) /\
    forall pts pf np, vec_is pts np pf -> exists m, gs_value g' pts = Ok m /\ mat_is m np 1 (fun i _ => f' (pf i)).
Proof.
  intros R P Ef Df. assert (P' : forall k, (k < 1)%nat -> 0 < tf k) by (intros k Hk; replace k with 0%nat by lia; auto).
  destruct (deriv_sfun g _ _ _ _ _ _ _ 1 R I P') as (g' & cf' & E & R' & D & _).
  assert (X : forall t, piece (DLeg 4) 1 t0 tf cf' 0 0 t = f' t).
  { intros t. specialize (D 0%nat 0%nat t (Nat.lt_0_1) (Nat.lt_0_1)). simpl in D. eapply d_unique; [|apply Df].
    eapply is_derive_ext; [|exact D]. intros u. apply Ef. }
  exists g', cf'. split; auto. split; auto. split; auto. intros pts pf np V.
  destruct (value_R g' _ _ _ _ _ _ _ pts pf np R' (le_n 1) P' V) as (m & Em & M); [intros; exact I|].
  exists m. split; auto. eapply mat_is_ext; [exact M|]. intros i j Hi Hj. unfold sfun. rewrite one_interval. replace j with 0%nat by lia. apply X.
Qed.

Lemma limit_between : exists (g : gspline R) vb ab dt nseg g' v' m,
  rep g (DLeg 4) 1 1 (-1) 1 (fun i => nth i [2] 0) (fun i => nth i [0; 4 / 5; 0; - (2 / 15)] 0) /\
  INR nseg <= (1 - -1) / dt < INR nseg + 1 /\ / 10 ^ 8 <= dt /\
  vec_is vb 1 (fun _ => / 4) /\ vec_is ab 1 (fun _ => 2) /\
  gs_limit_scaling g (Some vb) (Some ab) dt nseg = Ok g' /\ gs_dom g' = (-1, 1) /\
  gs_derivate g' 1 = Ok v' /\ gs_value v' (vec_of_list [0]) = Ok m /\ mget m 0 0 = Some 1.
Proof.
  destruct (leg_spline 4 (-1, 1) 1 [2] [0; 4 / 5; 0; - (2 / 15)]) as (b & s & g & _ & _ & R & _); [lia|reflexivity|]. cbn [length fst snd] in R.
  set (tf := fun i => nth i [2] 0) in *. set (cf := fun i => nth i [0; 4 / 5; 0; - (2 / 15)] 0) in *.
  assert (P : forall i, (i < 1)%nat -> 0 < tf i) by (intros i Hi; replace i with 0%nat by lia; unfold tf; cbn; lra).
  assert (Vv : vec_is (vec_of_list [/ 4]) 1 (fun _ => / 4)) by (split; [reflexivity|]; intros [|i] Hi; [reflexivity|lia]).
  assert (Va : vec_is (vec_of_list [2]) 1 (fun _ => 2)) by (split; [reflexivity|]; intros [|i] Hi; [reflexivity|lia]).
  assert (D8 : / 10 ^ 8 <= 2). { assert (1 <= 10 ^ 8) by (apply pow_R1_Rle; lra). assert (/ 10 ^ 8 <= / 1) by (apply Rinv_le_contravar; lra). lra. }
  destruct (limit_R g (DLeg 4) 1 1 (-1) 1 tf cf _ _ _ _ 2 1 R I (le_n 1) (le_n 1) P Vv Va) as (d1 & d2 & m1 & m2 & V & A & f & E1 & E2 & F1 & M1 & F2 & M2 & LF & EL).
  { intros; lra. } { intros; lra. } { exact D8. }
  destruct (deriv_known g (-1) 1 tf cf _ _ R (P 0%nat Nat.lt_0_1) (fun t => cubic_piece tf t eq_refl) d_cubic) as (d1' & cf1 & E1' & R1 & Pc1 & Val1).
  rewrite E1 in E1'. injection E1' as <-.
  destruct (deriv_known d1 (-1) 1 tf cf1 _ _ R1 (P 0%nat Nat.lt_0_1) Pc1 d_parab) as (d2' & cf2 & E2' & R2 & Pc2 & Val2).
  rewrite E2 in E2'. injection E2' as <-.
  destruct (Val1 _ _ _ (lin_spaced_R (-1) 1 1)) as (q1 & Q1 & N1). rewrite F1 in Q1. injection Q1 as <-.
  destruct (Val2 _ _ _ (lin_spaced_R (-1) 1 1)) as (q2 & Q2 & N2). rewrite F2 in Q2. injection Q2 as <-.
  assert (EV : forall i, (i < 2)%nat -> V i 0%nat = 0).
  { intros i Hi. destruct M1 as (_ & _ & X), N1 as (_ & _ & Y). specialize (X i 0%nat Hi Nat.lt_0_1). rewrite Y in X by (auto; lia). injection X as X.
    rewrite <- X. unfold sample. cbn [Nat.eqb]. destruct i as [|[|i]]; [| |lia]; cbn [INR]; field. }
  assert (EA : forall i, (i < 2)%nat -> Rabs (A i 0%nat) = 2).
  { intros i Hi. destruct M2 as (_ & _ & X), N2 as (_ & _ & Y). specialize (X i 0%nat Hi Nat.lt_0_1). rewrite Y in X by (auto; lia). injection X as X.
    rewrite <- X. unfold sample. cbn [Nat.eqb]. destruct i as [|[|i]]; [| |lia]; cbn [INR].
    - replace (-2 * (-1 + 0 * ((1 - -1) / 1))) with 2 by field. apply Rabs_pos_eq; lra.
    - replace (-2 * (-1 + 1 * ((1 - -1) / 1))) with (- (2)) by field. rewrite Rabs_Ropp. apply Rabs_pos_eq; lra. }
  assert (Ef : f = 1).
  { destruct LF as (LB & i & j & Hi & Hj & Eq). replace j with 0%nat in * by lia.
    assert (S1 : sqrt (2 / 2) = 1) by (replace (2 / 2) with 1 by field; apply sqrt_1).
    destruct Eq as [Eq|Eq].
    - destruct (LB i 0%nat Hi Nat.lt_0_1) as (_ & X). rewrite EA, S1 in X by auto. rewrite Eq, EV, Rabs_R0 in X by auto. lra.
    - rewrite Eq, EA, S1 by auto. reflexivity. }
  subst f. destruct (rescale_pair g (DLeg 4) 1 1 (-1) 1 tf cf (-1 + Rsum 1 (fun i => tf i * 1)) 1 R) as (g' & Eg & Rg & _); [lra|].
  cbn [d_scaled] in Rg.
  destruct (deriv_known g' _ _ (fun i => tf i * 1) cf (fun t => t - t ^ 3 / 3) (fun t => 1 - t ^ 2) Rg) as (v' & cf' & Ev & _ & _ & Val).
  { specialize (P 0%nat Nat.lt_0_1). lra. } { intros t. apply cubic_piece. unfold tf. cbn. ring. } { apply d_cubic. }
  destruct (Val _ _ _ (vec_of_list_is [0] 0)) as (m & Em & Mm).
  exists g, (vec_of_list [/ 4]), (vec_of_list [2]), 2, 1%nat, g', v', m. split; [exact R|]. split; [cbn [INR]; lra|]. split; [exact D8|]. split; [exact Vv|]. split; [exact Va|].
  split; [rewrite EL; exact Eg|]. split.
  { destruct Rg as (_ & -> & _). f_equal. unfold tf. cbn. ring. }
  split; [exact Ev|]. split; [exact Em|]. destruct Mm as (_ & _ & X). rewrite X by (cbn; lia). cbn [nth]. f_equal. ring.
Qed.

(** no movement at the samples: the new interval lengths are all zero *)
Lemma limit_collapse g d n codom t0 t1 tf cf vb ab vf af dt nseg : rep g d n codom t0 t1 tf cf -> (forall a, d <> D01 a) -> (1 <= n)%nat -> (1 <= codom)%nat ->
  (forall i, (i < n)%nat -> 0 < tf i) -> vec_is vb codom vf -> vec_is ab codom af ->
  (forall j, (j < codom)%nat -> 0 < vf j) -> (forall j, (j < codom)%nat -> 0 < af j) -> / 10 ^ 8 <= dt ->
  (forall d1 d2 m1 m2, gs_derivate g 1 = Ok d1 -> gs_derivate d1 1 = Ok d2 ->
     gs_value d1 (lin_spaced (S nseg) t0 t1) = Ok m1 -> gs_value d2 (lin_spaced (S nseg) t0 t1) = Ok m2 ->
     mat_is m1 (S nseg) codom (fun _ _ => 0) /\ mat_is m2 (S nseg) codom (fun _ _ => 0)) ->
  exists g', gs_limit_scaling g (Some vb) (Some ab) dt nseg = Ok g' /\ gs_dom g' = (t0, t0) /\ vec_is (gs_tau g') n (fun _ => 0).
Proof.
  intros R Nd Hn Hc P Vv Va Pv Pa Hdt Z. assert (O : blk_ok d 1) by (destruct d; simpl; auto).
  destruct (limit_R g d n codom t0 t1 tf cf vb ab vf af dt nseg R O Hn Hc P Vv Va Pv Pa Hdt)
    as (d1 & d2 & m1 & m2 & V & A & f & E1 & E2 & F1 & MM1 & F2 & MM2 & LF & EL).
  destruct (Z _ _ _ _ E1 E2 F1 F2) as (Z1 & Z2).
  assert (Ef : f = 0).
  { destruct LF as (_ & i & j & Hi & Hj & Eq).
    destruct MM1 as (_ & _ & X1), Z1 as (_ & _ & Y1), MM2 as (_ & _ & X2), Z2 as (_ & _ & Y2).
    specialize (X1 i j Hi Hj). rewrite Y1 in X1 by auto. injection X1 as X1. specialize (X2 i j Hi Hj). rewrite Y2 in X2 by auto. injection X2 as X2.
    rewrite <- X1, <- X2, Rabs_R0 in Eq. unfold Rdiv in Eq. rewrite !Rmult_0_l, sqrt_0 in Eq. tauto. }
  subst f. pose proof R as (B & D & C & Vt & K & _).
  assert (S0 : t0 + Rsum n (fun i => tf i * 0) = t0). { rewrite (Rsum_ext n _ (fun i => 0 * tf i)) by (intros; ring). rewrite Rsum_scal. ring. }
  rewrite S0 in EL. pose proof (vscale_is _ _ _ 0 Vt) as Vs.
  assert (X : exists g', gs_rescale g (t0, t0) 0 = Ok g' /\ gs_dom g' = (t0, t0) /\ gs_tau g' = vscale (gs_tau g) 0).
  { unfold gs_rescale. assert (L : vlen (gs_coef g) = (gs_n g * b_dim (gs_basis g) * gs_codom g)%nat).
    { rewrite (is_basis_dim _ _ B), C. unfold gs_n. replace (vlen (gs_tau g)) with n by (symmetry; apply Vt). apply K. }
    destruct (gs_basis g) as [dim gr|p w gr|a] eqn:Eb.
    - unfold gs_ctor. rewrite L, Nat.eqb_refl. eexists. split; [reflexivity|]. split; reflexivity.
    - unfold gs_ctor. rewrite L, Nat.eqb_refl. eexists. split; [reflexivity|]. split; reflexivity.
    - exfalso. destruct d; simpl in B; try contradiction. apply (Nd alpha). reflexivity. }
  destruct X as (g' & Eg & Dg & Tg). exists g'. rewrite EL. split; auto. split; auto. rewrite Tg. eapply vec_is_ext; [exact Vs|]. intros; rnum; ring.
Qed.

(** ** different starts *)
Lemma plus_starts : exists (g h : gspline R) rl rr,
  rep g (DLeg 2) 1 1 0 2 (fun i => nth i [2] 0) (fun i => nth i [0; 1] 0) /\
  rep h (DLeg 2) 1 1 1 3 (fun i => nth i [2] 0) (fun i => nth i [0; 1] 0) /\
  gs_plus LL g h = Ok rl /\ gs_plus LR g h = Ok rr /\ gs_dom rl = (0, 2) /\ gs_dom rr = (1, 3) /\
  forall t pts, vec_is pts 1 (fun _ => t) -> exists ml mr, gs_value rl pts = Ok ml /\ gs_value rr pts = Ok mr /\
    mget ml 0 0 = Some (2 * t - 2) /\ mget mr 0 0 = Some (2 * t - 4).
Proof.
  destruct (leg_spline 2 (0, 2) 1 [2] [0; 1]) as (b & s & g & _ & _ & R & _); [lia|reflexivity|].
  destruct (leg_spline 2 (1, 3) 1 [2] [0; 1]) as (b' & s' & h & _ & _ & R' & _); [lia|reflexivity|]. cbn [length fst snd] in R, R'.
  destruct (plus_R LL _ _ _ _ _ _ _ _ _ _ _ _ R R') as (rl & El & Rl). destruct (plus_R LR _ _ _ _ _ _ _ _ _ _ _ _ R R') as (rr & Er & Rr).
  cbn [dom_of] in Rl, Rr. exists g, h, rl, rr. do 4 (split; [assumption|]). split; [apply Rl|]. split; [apply Rr|]. intros t pts V.
  assert (P : forall i, (i < 1)%nat -> 0 < nth i [2] 0) by (intros i Hi; replace i with 0%nat by lia; cbn; lra).
  destruct (value_R rl _ _ _ _ _ _ _ pts _ 1 Rl (le_n 1) P V) as (ml & Eml & _ & _ & Ml); [intros; exact I|].
  destruct (value_R rr _ _ _ _ _ _ _ pts _ 1 Rr (le_n 1) P V) as (mr & Emr & _ & _ & Mr); [intros; exact I|].
  exists ml, mr. split; auto. split; auto. rewrite Ml, Mr by lia.
  unfold sfun. rewrite !one_interval. unfold piece, tphi, phi, bp, window, legP. cbn [d_dim Rsum Nat.mul Nat.add nth leg2 fst].
  split; f_equal; field.
Qed.

(** ** interval lengths that are too few or too many *)
Lemma ctor_unchecked {T} `{Num T} dom codom n (b : basis T) s coef tau : vlen coef = (n * b_dim b * codom)%nat -> vlen tau <> n ->
  (1 <= b_dim b)%nat -> (1 <= codom)%nat -> exists g, gs_ctor dom codom n b s coef tau = Ok g /\ gs_copy g = Throw InvalidArgument.
Proof.
  intros L N Hd Hc. unfold gs_ctor. rewrite L, Nat.eqb_refl. eexists. split; [reflexivity|].
  unfold gs_copy, gs_n, gs_dim. cbn [gs_coef gs_tau gs_codom gs_basis]. rewrite L.
  destruct (Nat.eqb_spec (n * b_dim b * codom) (vlen tau * b_dim b * codom)) as [E|E]; [|reflexivity].
  exfalso. apply N. apply Nat.mul_cancel_r in E; [|lia]. apply Nat.mul_cancel_r in E; [auto|lia].
Qed.
Lemma fill_ub {T} `{Num T} (g : gspline T) t iv buf : gs_fill g t (gs_buf g) = Ok (iv, buf) -> (1 <= gs_codom g)%nat ->
  gs_component g iv buf 0 = UB -> gs_value g (vec_of_list [t]) = UB.
Proof.
  intros E Hc Eu. unfold gs_value, gs_value_impl, for_. cbn [vlen vec_of_list length Nat.sub for_n]. unfold vread at 1. cbn [vec_of_list vlen vget nth_error of_option bind].
  change (0 <? length [t])%nat with true. cbn [bind]. rewrite E. cbn [bind]. destruct (gs_codom g) as [|c]; [lia|]. cbn [Nat.sub for_n]. rewrite Eu. reflexivity.
Qed.
Lemma ctor_ub t0 t1 codom n b d s coef tau m tf t : is_basis b d -> vlen coef = (n * d_dim d * codom)%nat ->
  vec_is tau m tf -> (n < m)%nat -> (1 <= codom)%nat -> (forall i, (i < m)%nat -> 0 < tf i) -> bp t0 tf m < t ->
  exists g, gs_ctor (t0, t1) codom n b s coef tau = Ok g /\ gs_value g (vec_of_list [t]) = UB.
Proof.
  intros B L V Hm Hc P Ht. pose proof (is_basis_dim _ _ B) as Bd. pose proof (is_basis_pos _ _ B) as Dp.
  unfold gs_ctor. rewrite L, Bd, Nat.eqb_refl. eexists. split; [reflexivity|].
  set (g := mkgs _ _ _ _ _ _ _).
  assert (W : gwf (with_coef g (vconst (m * d_dim d * codom) 0)) m codom tf (fun _ => 0)).
  { unfold gwf, gs_dim, with_coef, g. cbn. rewrite Bd. split; [apply (is_basis_bok _ _ B)|]. split; [reflexivity|]. split; [exact V|].
    split; [|reflexivity]. split; [reflexivity|]. intros. reflexivity. }
  destruct (fill_gen _ m codom tf _ t (gs_buf g) W) as (buf & E & _); [lia|symmetry; exact Bd|].
  change (gs_fill (with_coef g (vconst (m * d_dim d * codom) 0)) t (gs_buf g)) with (gs_fill g t (gs_buf g)) in E.
  assert (Hg : gint t0 tf m t = (m - 1)%nat).
  { eapply in_iv_unique; [exact P|apply gint_in; [lia|exact P]|]. split; [lia|]. split; [|auto].
    right. eapply Rle_lt_trans; [|exact Ht]. apply (bp_mono t0 tf m); auto; lia. }
  change (fst (gs_dom (with_coef g (vconst (m * d_dim d * codom) 0)))) with t0 in E. rewrite Hg in E.
  apply (fill_ub g t _ _ E Hc). unfold gs_component, coef_segment, gs_dim, vsegment. change (gs_basis g) with b. change (gs_codom g) with codom. change (gs_coef g) with coef.
  rewrite Bd, L. destruct (Nat.leb_spec ((m - 1) * d_dim d * codom + d_dim d * 0 + d_dim d) (n * d_dim d * codom)) as [X|X]; [|reflexivity].
  exfalso. assert (n * d_dim d * codom <= (m - 1) * d_dim d * codom)%nat. { apply Nat.mul_le_mono_r, Nat.mul_le_mono_r. lia. } lia.
Qed.
