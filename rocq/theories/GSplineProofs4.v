(** Time scaling, limits, vector-space operations of splines. *)
From Coquelicot Require Import Coquelicot.
From Coq Require Import List Arith Lia Bool ZArith Reals Lra.
From Verif Require Import Num Outcome LinAlg RSum RMat RDeriv LegendreSpec LegendreModel LegendreProofs LagrangeSpec LagrangeModel LagrangeProofs
  Basis0101Spec Basis0101Math Basis0101Model Basis0101Proofs BasisModel SplineSpec BasisFn BasisProofs BasisProofs2 BasisProofs3
  ToolsModel ToolsProofs GSplineModel GSplineProofs GSplineProofs2 GSplineProofs3.
Import ListNotations.
Local Open Scope R_scope.

(** [g'] is [g] slowed down by [f], coefficients multiplied by [r] *)
Definition scaled_pair (g g' : gspline R) (d : bdesc) (n codom : nat) (t0 : R) (tf : nat -> R) (f r : R) : Prop :=
  exists t1 t1' cf cf', rep g d n codom t0 t1 tf cf /\ rep g' (d_scaled d f) n codom t0 t1' (fun i => tf i * f) cf' /\
    gs_basis g' = b_scaled (gs_basis g) f /\ forall idx, (idx < n * d_dim d * codom)%nat -> cf' idx = r * cf idx.

Lemma d_scaled_dim d f : d_dim (d_scaled d f) = d_dim d.
Proof. destruct d; reflexivity. Qed.

Lemma pair_deriv g g' d n codom t0 tf f r k : scaled_pair g g' d n codom t0 tf f r -> blk_ok d k -> 0 < f ->
  (forall i, (i < n)%nat -> 0 < tf i) ->
  exists dg dg', gs_derivate g k = Ok dg /\ gs_derivate g' k = Ok dg' /\ scaled_pair dg dg' d n codom t0 tf f (r * (/ f) ^ k).
Proof.
  intros (t1 & t1' & cf & cf' & R & R' & Eb & Ec) O Hf P.
  destruct (deriv_R _ _ _ _ _ _ _ _ k R) as (dg & M & m & E & Em & MM & Ebg & RD).
  destruct (deriv_R _ _ _ _ _ _ _ _ k R') as (dg' & M' & m' & E' & Em' & MM' & Ebg' & RD').
  exists dg, dg'. split; auto. split; auto. pose proof R as (B & _). pose proof (is_basis_pos _ _ B) as Dp.
  exists t1, t1', (dcoef d M codom k tf cf), (dcoef (d_scaled d f) M' codom k (fun i => tf i * f) cf').
  split; auto. split; auto. split; [rewrite Ebg, Ebg'; auto|]. rewrite Eb in Em'. rewrite d_scaled_dim in MM'.
  intros idx Hx. unfold dcoef. rewrite d_scaled_dim. cbv zeta. set (blk := (idx / d_dim d)%nat). set (iv := (blk / codom)%nat).
  assert (Hc : (codom <> 0)%nat) by (intros ->; lia).
  assert (Hblk : (blk < n * codom)%nat). { apply Nat.div_lt_upper_bound; [lia|]. nia. }
  assert (Hiv : (iv < n)%nat). { apply Nat.div_lt_upper_bound; [auto|]. nia. }
  assert (Hm : (idx mod d_dim d < d_dim d)%nat) by (apply Nat.mod_upper_bound; lia).
  transitivity (Rsum (d_dim d) (fun j => (blk_fac (d_scaled d f) (tf iv * f) k * M' (idx mod d_dim d)%nat j) * cf' (blk * d_dim d + j)%nat)).
  { rewrite <- Rsum_scal. apply Rsum_ext. intros; ring. }
  rewrite <- Rsum_scal, <- Rsum_scal. apply Rsum_ext. intros j Hj.
  rewrite (block_scaled (gs_basis g) d f k m m' M M') by (auto; apply Rgt_not_eq, P; auto).
  rewrite Ec by nia. ring.
Qed.

Lemma pair_value g g' d n codom t0 tf f r pts pts' pf np : scaled_pair g g' d n codom t0 tf f r -> 0 < f -> (1 <= n)%nat ->
  (forall i, (i < n)%nat -> 0 < tf i) -> vec_is pts np pf -> vec_is pts' np (fun i => t0 + f * (pf i - t0)) ->
  exists m m' F, gs_value g pts = Ok m /\ gs_value g' pts' = Ok m' /\ mat_is m np codom F /\
    mat_is m' np codom (fun i j => r * F i j).
Proof.
  intros (t1 & t1' & cf & cf' & R & R' & Eb & Ec) Hf Hn P V V'. pose proof R as (B & D & _). pose proof R' as (_ & D' & _).
  destruct (value_gen g n codom tf cf pts pf np (rep_gwf _ _ _ _ _ _ _ _ R) Hn V) as (m & E & M).
  destruct (value_gen g' n codom _ cf' pts' _ np (rep_gwf _ _ _ _ _ _ _ _ R') Hn V') as (m' & E' & M').
  exists m, m'. eexists. split; [exact E|]. split; [exact E'|]. split; [exact M|]. eapply mat_is_ext; [exact M'|].
  intros i j Hi Hj. rewrite D, D', Eb. cbn [fst]. apply (gpt_scaled (gs_basis g) d); auto.
Qed.

Lemma rescale_pair g d n codom t0 t1 tf cf t1' f : rep g d n codom t0 t1 tf cf -> 0 < f ->
  exists g', gs_rescale g (t0, t1') f = Ok g' /\ rep g' (d_scaled d f) n codom t0 t1' (fun i => tf i * f) cf /\
    scaled_pair g g' d n codom t0 tf f 1.
Proof.
  intros R Hf. destruct (rescale_R g d n codom t0 t1 tf cf (t0, t1') f R Hf) as (g' & E & Eb & R'). cbn [fst snd] in R'.
  exists g'. split; auto. split; auto. exists t1, t1', cf, cf. split; auto. split; auto. split; auto. intros; ring.
Qed.

Lemma linear_scaling_R g d n codom t0 t1 tf cf L' : rep g d n codom t0 t1 tf cf -> t0 < t1 -> / 10 ^ 8 <= L' ->
  exists g', gs_linear_scaling g L' = Ok g' /\
    rep g' (d_scaled d (L' / (t1 - t0))) n codom t0 (t0 + L') (fun i => tf i * (L' / (t1 - t0))) cf /\
    scaled_pair g g' d n codom t0 tf (L' / (t1 - t0)) 1.
Proof.
  intros R Ht HL. pose proof R as (_ & D & _). unfold gs_linear_scaling. rewrite D. cbn [fst snd].
  assert (Hp : 0 < / 10 ^ 8) by (apply Rinv_0_lt_compat, pow_lt; lra).
  assert (E8 : ten_m 8 = / 10 ^ 8). { unfold ten_m. rewrite npown_pow. rnum. unfold Rdiv. ring. }
  rewrite E8. rnum. destruct (Rltb_spec L' (/ 10 ^ 8)); [lra|].
  apply (rescale_pair g d n codom t0 t1 tf cf (t0 + L') (L' / (t1 - t0)) R).
  apply Rmult_lt_0_compat; [lra|]. apply Rinv_0_lt_compat. lra.
Qed.
Lemma linear_scaling_small g L' : L' < / 10 ^ 8 -> gs_linear_scaling g L' = Throw InvalidArgument.
Proof.
  intros HL. unfold gs_linear_scaling.
  assert (E8 : ten_m 8 = / 10 ^ 8). { unfold ten_m. rewrite npown_pow. rnum. unfold Rdiv. ring. }
  rewrite E8. rnum. destruct (Rltb_spec L' (/ 10 ^ 8)); [auto|lra].
Qed.

(** ** limits *)
Lemma lin_spaced_R t0 t1 nseg : vec_is (lin_spaced (S nseg) t0 t1) (S nseg) (sample t0 t1 nseg).
Proof.
  split; [reflexivity|]. intros i Hi. unfold lin_spaced, sample. cbn [vget]. f_equal.
  destruct (Nat.eqb_spec nseg 0) as [->|N].
  - destruct (Nat.eqb_spec (S i) 1); [reflexivity|lia].
  - cbn [Nat.sub]. rewrite Nat.sub_0_r, !nofnat_INR. rnum. destruct (Nat.eqb_spec (S i) (S nseg)) as [E|E]; [|reflexivity].
    injection E as ->. assert (INR nseg <> 0) by (apply not_0_INR; auto). field. auto.
Qed.

Lemma colmax_R (m : mat R) np codom F j : mat_is m np codom F -> (1 <= np)%nat -> (j < codom)%nat ->
  exists M, colmax m j = Ok M /\ (forall i, (i < np)%nat -> Rabs (F i j) <= M) /\ exists i, (i < np)%nat /\ M = Rabs (F i j).
Proof.
  intros Mm Hn Hj. unfold colmax. replace (mrows m) with np by (symmetry; apply Mm).
  destruct (maxcoeff_R np 1 (fun i _ => x <- mread m i j ;; Ok (nabs x)) (fun i _ => Rabs (F i j))) as (M & E & H1 & i & k & Hi & _ & EM); auto.
  - intros i k Hi _. rewrite (mread_ok m np codom F) by auto. reflexivity.
  - exists M. split; auto. split; [intros; apply (H1 i0 0%nat); auto|eauto].
Qed.
Lemma ratio_R (m : mat R) np codom F (b : vec R) bf (h : R -> R) : mat_is m np codom F -> (1 <= np)%nat -> (1 <= codom)%nat ->
  vec_is b codom bf -> (forall j, (j < codom)%nat -> 0 < bf j) -> (forall x y, 0 <= x <= y -> h x <= h y) ->
  exists r, maxcoeff 1 codom (fun _ j => x <- colmax m j ;; y <- vread b j ;; Ok (h (x / y))) = Ok r /\
    (forall i j, (i < np)%nat -> (j < codom)%nat -> h (Rabs (F i j) / bf j) <= r) /\
    exists i j, (i < np)%nat /\ (j < codom)%nat /\ r = h (Rabs (F i j) / bf j).
Proof.
  intros Mm Hn Hc Vb Pb Mo.
  assert (X : forall j, (j < codom)%nat -> exists M, colmax m j = Ok M /\ (forall i, (i < np)%nat -> Rabs (F i j) <= M) /\ exists i, (i < np)%nat /\ M = Rabs (F i j))
    by (intros; eapply colmax_R; eauto).
  assert (XF : exists Mx : nat -> R, forall j, (j < codom)%nat -> colmax m j = Ok (Mx j)).
  { exists (fun j => match colmax m j with Ok v => v | _ => 0 end). intros j Hj. destruct (X j Hj) as (M & E & _). now rewrite E. }
  destruct XF as (Mx & EMx).
  destruct (maxcoeff_R 1 codom (fun _ j => x <- colmax m j ;; y <- vread b j ;; Ok (h (x / y))) (fun _ j => h (Mx j / bf j))) as (r & E & H1 & i0 & j & _ & Hj & Er); auto.
  { intros i j _ Hj. rewrite EMx by auto. cbn [bind]. rewrite (vread_ok b codom bf) by auto. reflexivity. }
  exists r. split; auto. split.
  - intros i k Hi Hk. eapply Rle_trans; [|apply (H1 0%nat k); auto]. apply Mo. destruct (X k Hk) as (M & E1 & A & _).
    rewrite EMx in E1 by auto. injection E1 as E1. assert (0 < / bf k) by (apply Rinv_0_lt_compat; auto). split.
    + apply Rmult_le_pos; [apply Rabs_pos|lra].
    + apply Rmult_le_compat_r; [lra|]. rewrite E1. apply A; auto.
  - destruct (X j Hj) as (M & E1 & _ & i & Hi & EM). rewrite EMx in E1 by auto. injection E1 as E1. exists i, j. split; auto. split; auto.
    rewrite Er, E1, EM. reflexivity.
Qed.


Lemma limit_R g d n codom t0 t1 tf cf vb ab vf af dt nseg : rep g d n codom t0 t1 tf cf -> blk_ok d 1 -> (1 <= n)%nat -> (1 <= codom)%nat ->
  (forall i, (i < n)%nat -> 0 < tf i) -> vec_is vb codom vf -> vec_is ab codom af ->
  (forall j, (j < codom)%nat -> 0 < vf j) -> (forall j, (j < codom)%nat -> 0 < af j) -> / 10 ^ 8 <= dt ->
  exists d1 d2 m1 m2 V A f,
    gs_derivate g 1 = Ok d1 /\ gs_derivate d1 1 = Ok d2 /\
    gs_value d1 (lin_spaced (S nseg) t0 t1) = Ok m1 /\ mat_is m1 (S nseg) codom V /\
    gs_value d2 (lin_spaced (S nseg) t0 t1) = Ok m2 /\ mat_is m2 (S nseg) codom A /\
    limit_factor (S nseg) codom V A vf af f /\
    gs_limit_scaling g (Some vb) (Some ab) dt nseg = gs_rescale g (t0, t0 + Rsum n (fun i => tf i * f)) f.
Proof.
  intros R O Hn Hc P Vv Va Pv Pa Hdt. pose proof R as (B & D & C & Vt & _).
  destruct (deriv_R _ _ _ _ _ _ _ _ 1 R) as (d1 & M1 & x1 & E1 & _ & _ & _ & R1).
  destruct (deriv_R _ _ _ _ _ _ _ _ 1 R1) as (d2 & M2 & x2 & E2 & _ & _ & _ & R2).
  pose proof (lin_spaced_R t0 t1 nseg) as Vs.
  destruct (value_gen d1 n codom tf _ _ _ _ (rep_gwf _ _ _ _ _ _ _ _ R1) Hn Vs) as (m1 & F1 & MM1).
  destruct (value_gen d2 n codom tf _ _ _ _ (rep_gwf _ _ _ _ _ _ _ _ R2) Hn Vs) as (m2 & F2 & MM2).
  destruct (ratio_R m1 _ _ _ vb vf (fun x => x) MM1 (le_n_S 0 _ (Nat.le_0_l _)) Hc Vv Pv) as (rv & Ev & Lv & iv & jv & Hiv & Hjv & Xv); [intros; lra|].
  destruct (ratio_R m2 _ _ _ ab af sqrt MM2 (le_n_S 0 _ (Nat.le_0_l _)) Hc Va Pa) as (ra & Ea & La & ia & ja & Hia & Hja & Xa).
  { intros x y Hxy. apply sqrt_le_1; lra. }
  exists d1, d2, m1, m2. eexists. eexists. exists (Rmax rv ra). split; [exact E1|]. split; [exact E2|]. split; [exact F1|]. split; [exact MM1|].
  split; [exact F2|]. split; [exact MM2|]. split.
  - split.
    + intros i j Hi Hj. split; [eapply Rle_trans; [apply Lv; auto|apply Rmax_l]|eapply Rle_trans; [apply La; auto|apply Rmax_r]].
    + destruct (Rle_dec rv ra).
      * exists ia, ja. rewrite Rmax_right by auto. auto.
      * exists iv, jv. rewrite Rmax_left by lra. auto.
  - unfold gs_limit_scaling.
    assert (E8 : ten_m 8 = / 10 ^ 8). { unfold ten_m. rewrite npown_pow. rnum. unfold Rdiv. ring. }
    rewrite E8. rnum. destruct (Rltb_spec dt (/ 10 ^ 8)); [lra|].
    replace (vlen vb) with codom by (symmetry; apply Vv). replace (vlen ab) with codom by (symmetry; apply Va). rewrite C, Nat.eqb_refl. cbn [negb bind].
    rewrite D. cbn [fst snd]. rewrite E1. cbn [bind]. rewrite E2. cbn [bind]. rewrite F1. cbn [bind]. rewrite F2. cbn [bind of_option].
    change (maxcoeff 1 codom (fun _ j => x <- colmax m1 j ;; b <- vread vb j ;; Ok (x / b)) = Ok rv) in Ev. rewrite Ev. cbn [bind].
    rewrite Ea. cbn [bind]. rewrite nmax_R. replace (gs_n g) with n by (symmetry; apply Vt).
    pose proof (vscale_is _ _ _ (Rmax rv ra) Vt) as Vsc. rewrite (osum_some n _ (fun i => tf i * Rmax rv ra)).
    2: { intros i Hi. apply (proj2 Vsc i Hi). } cbn [of_option bind]. rewrite nsum_R. reflexivity.
Qed.

Lemma limit_respected g d n codom t0 t1 tf cf vb ab vf af dt nseg : rep g d n codom t0 t1 tf cf -> blk_ok d 1 -> (1 <= n)%nat -> (1 <= codom)%nat ->
  (forall i, (i < n)%nat -> 0 < tf i) -> vec_is vb codom vf -> vec_is ab codom af ->
  (forall j, (j < codom)%nat -> 0 < vf j) -> (forall j, (j < codom)%nat -> 0 < af j) -> / 10 ^ 8 <= dt ->
  exists d1 d2 m1 m2 V A f,
    gs_derivate g 1 = Ok d1 /\ gs_derivate d1 1 = Ok d2 /\
    gs_value d1 (lin_spaced (S nseg) t0 t1) = Ok m1 /\ mat_is m1 (S nseg) codom V /\
    gs_value d2 (lin_spaced (S nseg) t0 t1) = Ok m2 /\ mat_is m2 (S nseg) codom A /\
    limit_factor (S nseg) codom V A vf af f /\
    (0 < f -> exists g' v' a', gs_limit_scaling g (Some vb) (Some ab) dt nseg = Ok g' /\
      rep g' (d_scaled d f) n codom t0 (bp t0 (fun i => tf i * f) n) (fun i => tf i * f) cf /\
      gs_derivate g' 1 = Ok v' /\ gs_derivate v' 1 = Ok a' /\
      forall pts, vec_is pts (S nseg) (fun i => t0 + f * (sample t0 t1 nseg i - t0)) ->
      exists mv ma V' A', gs_value v' pts = Ok mv /\ mat_is mv (S nseg) codom V' /\
        gs_value a' pts = Ok ma /\ mat_is ma (S nseg) codom A' /\
        forall i j, (i <= nseg)%nat -> (j < codom)%nat -> Rabs (V' i j) <= vf j /\ Rabs (A' i j) <= af j).
Proof.
  intros R O Hn Hc P Vv Va Pv Pa Hdt.
  destruct (limit_R g d n codom t0 t1 tf cf vb ab vf af dt nseg R O Hn Hc P Vv Va Pv Pa Hdt)
    as (d1 & d2 & m1 & m2 & V & A & f & E1 & E2 & F1 & MM1 & F2 & MM2 & LF & EL).
  exists d1, d2, m1, m2, V, A, f. do 7 (split; [assumption|]). intros Hf.
  destruct (rescale_pair g d n codom t0 t1 tf cf (t0 + Rsum n (fun i => tf i * f)) f R Hf) as (g' & E' & R' & SP).
  destruct (pair_deriv _ _ _ _ _ _ _ _ _ 1 SP O Hf P) as (d1' & v' & E1' & Ev' & SP1). rewrite E1 in E1'. injection E1' as <-.
  destruct (pair_deriv _ _ _ _ _ _ _ _ _ 1 SP1 O Hf P) as (d2' & a' & E2' & Ea' & SP2). rewrite E2 in E2'. injection E2' as <-.
  exists g', v', a'. rewrite EL. split; [exact E'|]. split; [exact R'|]. split; [exact Ev'|]. split; [exact Ea'|]. intros pts Vp.
  pose proof (lin_spaced_R t0 t1 nseg) as Vs.
  destruct (pair_value _ _ _ _ _ _ _ _ _ _ _ _ _ SP1 Hf Hn P Vs Vp) as (q1 & mv & G1 & H1 & H2 & H3 & H4). rewrite F1 in H1. injection H1 as <-.
  destruct (pair_value _ _ _ _ _ _ _ _ _ _ _ _ _ SP2 Hf Hn P Vs Vp) as (q2 & ma & G2 & K1 & K2 & K3 & K4). rewrite F2 in K1. injection K1 as <-.
  exists mv, ma. eexists. eexists. split; [exact H2|]. split; [exact H4|]. split; [exact K2|]. split; [exact K4|].
  intros i j Hi Hj. assert (Hi' : (i < S nseg)%nat) by lia. destruct LF as (LF & _). destruct (LF i j Hi' Hj) as (L1 & L2).
  assert (EV : V i j = G1 i j). { destruct MM1 as (_ & _ & X), H3 as (_ & _ & Y). specialize (X i j Hi' Hj). rewrite Y in X by auto. now injection X. }
  assert (EA : A i j = G2 i j). { destruct MM2 as (_ & _ & X), K3 as (_ & _ & Y). specialize (X i j Hi' Hj). rewrite Y in X by auto. now injection X. }
  rewrite <- EV, <- EA. specialize (Pv j Hj). specialize (Pa j Hj). rewrite (Rabs_mult (1 * (/ f) ^ 1) (V i j)), (Rabs_mult (1 * (/ f) ^ 1 * (/ f) ^ 1) (A i j)).
  assert (If : 0 < / f) by (apply Rinv_0_lt_compat; auto).
  replace (Rabs (1 * (/ f) ^ 1)) with (/ f) by (rewrite pow_1, Rmult_1_l, Rabs_pos_eq; lra).
  replace (Rabs (1 * (/ f) ^ 1 * (/ f) ^ 1)) with (/ f * / f).
  2: { rewrite !pow_1, Rmult_1_l, Rabs_pos_eq; [ring|]. apply Rmult_le_pos; lra. }
  split.
  - apply (Rmult_le_reg_l f); auto. replace (f * (/ f * Rabs (V i j))) with (Rabs (V i j)) by (field; apply Rgt_not_eq; exact Hf).
    apply (Rmult_le_compat_r (vf j)) in L1; [|lra]. unfold Rdiv in L1. rewrite Rmult_assoc, Rinv_l in L1; lra.
  - assert (L3 : Rabs (A i j) / af j <= f * f).
    { assert (0 <= Rabs (A i j) / af j) by (apply Rmult_le_pos; [apply Rabs_pos|left; apply Rinv_0_lt_compat; auto]).
      rewrite <- (sqrt_sqrt (Rabs (A i j) / af j)) by auto. apply Rmult_le_compat; auto; apply sqrt_pos. }
    apply (Rmult_le_compat_r (af j)) in L3; [|lra]. unfold Rdiv in L3. rewrite Rmult_assoc, Rinv_l in L3 by lra.
    apply (Rmult_le_reg_l (f * f)); [apply Rmult_lt_0_compat; auto|].
    replace (f * f * (/ f * / f * Rabs (A i j))) with (Rabs (A i j)) by (field; apply Rgt_not_eq; exact Hf). lra.
Qed.
(** missing bounds *)
Lemma limit_missing {T} `{Num T} (g : gspline T) vb ab dt nseg : nltb dt (ten_m 8) = false ->
  (vb = None /\ ab <> None -> gs_limit_scaling g vb ab dt nseg = Throw BadOptionalAccess) /\
  (forall v, vb = Some v -> vlen v = gs_codom g -> ab = None -> gs_limit_scaling g vb ab dt nseg = Throw BadOptionalAccess).
Proof.
  intros Hd. split.
  - intros (-> & Ha). destruct ab as [a|]; [|congruence]. unfold gs_limit_scaling. rewrite Hd. reflexivity.
  - intros v -> L ->. unfold gs_limit_scaling. rewrite Hd, L, Nat.eqb_refl. reflexivity.
Qed.

(** ** operations *)
Lemma space_same g h d n codom t0 t1 t0' t1' tf cf ch : rep g d n codom t0 t1 tf cf -> rep h d n codom t0' t1' tf ch ->
  same_vector_space g h = Ok true.
Proof.
  intros (B & _ & C & V & _) (B' & _ & C' & V' & _). unfold same_vector_space.
  assert (Eb : basis_eqb (gs_basis g) (gs_basis h) = Ok true).
  { unfold basis_eqb. destruct (gs_basis g) as [dim gr|p w gr|a], (gs_basis h) as [dim' gr'|p' w' gr'|a'], d as [dd|m x|aa];
      simpl in B, B'; try contradiction; cbn [b_name bname_eqb negb b_dim b_params].
    - destruct B as (-> & _), B' as (-> & _). rewrite Nat.eqb_refl. cbn [negb vlen vnew Nat.eqb].
      apply (approx_eq_vec_same _ _ 0 (fun _ => 0)); [split; [reflexivity|intros; lia]|split; [reflexivity|intros; lia]|apply ten_m_pos].
    - destruct B as (Vp & _), B' as (Vp' & _). replace (vlen p) with m by (symmetry; apply Vp). replace (vlen p') with m by (symmetry; apply Vp').
      rewrite Nat.eqb_refl. cbn [negb]. apply (approx_eq_vec_same _ _ m x); auto. apply ten_m_pos.
    - destruct B as (-> & _), B' as (-> & _). cbn [Nat.eqb vlen vec_of_list length negb].
      apply (approx_eq_vec_same _ _ 1 (fun _ => aa)); [| |apply ten_m_pos]; (split; [reflexivity|]; intros [|i] Hi; [reflexivity|lia]). }
  rewrite Eb. unfold oand. cbn [bind]. rewrite C, C', Nat.eqb_refl. cbn [bind].
  apply (approx_eq_vec_same _ _ n tf); auto. apply ten_m_pos.
Qed.
Lemma vmap2_is (f : R -> R -> R) a b n fa fb : vec_is a n fa -> vec_is b n fb ->
  exists c, vmap2 f a b = Ok c /\ vec_is c n (fun i => f (fa i) (fb i)).
Proof.
  intros [La Ga] [Lb Gb]. unfold vmap2. rewrite La, Lb, Nat.eqb_refl. eexists. split; [reflexivity|]. split; [reflexivity|].
  intros i Hi. cbn [vget]. rewrite Ga, Gb by auto. reflexivity.
Qed.
Lemma rep_with_coef g d n codom t0 t1 tf cf c cf' : rep g d n codom t0 t1 tf cf -> vec_is c (n * d_dim d * codom) cf' ->
  rep (with_coef g c) d n codom t0 t1 tf cf'.
Proof. intros (B & D & C & V & K & L & H) Vc. unfold rep, with_coef. cbn. auto 10. Qed.
Lemma rep_copy g d n codom t0 t1 tf cf : rep g d n codom t0 t1 tf cf ->
  exists r, gs_copy g = Ok r /\ rep r d n codom t0 t1 tf cf /\ gs_coef r = gs_coef g /\ gs_tau r = gs_tau g /\ gs_basis r = gs_basis g /\
    gs_dom r = gs_dom g /\ gs_codom r = gs_codom g.
Proof.
  intros (B & D & C & V & K & L & hist & HI). unfold gs_copy, gs_n, gs_dim.
  replace (vlen (gs_coef g)) with (n * d_dim d * codom)%nat by (symmetry; apply K). replace (vlen (gs_tau g)) with n by (symmetry; apply V).
  rewrite C, (is_basis_dim _ _ B), Nat.eqb_refl. eexists. split; [reflexivity|]. split; [|cbn; auto 10].
  unfold rep. cbn. split; auto. split; auto. split; auto. split; auto. split; auto. split; auto.
  exists (hist ++ [RCopy]). rewrite (serve_all_app _ _ _ _ _ HI). reflexivity.
Qed.
Lemma rep_move g d n codom t0 t1 tf cf : rep g d n codom t0 t1 tf cf -> rep (gs_move g) d n codom t0 t1 tf cf.
Proof.
  intros (B & D & C & V & K & L & hist & HI). unfold rep, gs_move, gs_dim. cbn. split; auto. split; auto. split; auto. split; auto. split; auto.
  split; [apply is_basis_dim; auto|]. exists (hist ++ [RCopy]). rewrite (serve_all_app _ _ _ _ _ HI). reflexivity.
Qed.

(** domain of the result of a binary operation *)
Definition dom_of (o : overload) (a b : R) : R := match o with LR => b | _ => a end.
Lemma plus_R o g h d n codom t0 t1 t0' t1' tf cf ch : rep g d n codom t0 t1 tf cf -> rep h d n codom t0' t1' tf ch ->
  exists r, gs_plus o g h = Ok r /\ rep r d n codom (dom_of o t0 t0') (dom_of o t1 t1') tf (fun i => cf i + ch i).
Proof.
  intros R R'. unfold gs_plus, check_space. rewrite (space_same _ _ _ _ _ _ _ _ _ _ _ _ R R'). cbn [bind].
  pose proof R as (_ & _ & _ & _ & K & _). pose proof R' as (_ & _ & _ & _ & K' & _).
  destruct (vmap2_is nadd _ _ _ _ _ K K') as (c & E & Vc). destruct (vmap2_is nadd _ _ _ _ _ K' K) as (c' & E' & Vc').
  destruct o; cbn [dom_of].
  - destruct (rep_copy _ _ _ _ _ _ _ _ R) as (r & Er & Rr & Ec & _). rewrite Er. cbn [bind]. rewrite Ec, E. cbn [bind].
    eexists. split; [reflexivity|]. eapply rep_with_coef; eauto.
  - rewrite E'. cbn [bind]. eexists. split; [reflexivity|]. apply rep_move. eapply rep_with_coef; [exact R'|].
    eapply vec_is_ext; [exact Vc'|]. intros i _. rnum. ring.
  - rewrite E. cbn [bind]. eexists. split; [reflexivity|]. apply rep_move. eapply rep_with_coef; eauto.
  - rewrite E. cbn [bind]. eexists. split; [reflexivity|]. apply rep_move. eapply rep_with_coef; eauto.
Qed.
Lemma minus_R o g h d n codom t0 t1 t0' t1' tf cf ch : rep g d n codom t0 t1 tf cf -> rep h d n codom t0' t1' tf ch ->
  exists r, gs_minus o g h = Ok r /\ rep r d n codom (dom_of o t0 t0') (dom_of o t1 t1') tf (fun i => cf i - ch i).
Proof.
  intros R R'. unfold gs_minus, check_space. rewrite (space_same _ _ _ _ _ _ _ _ _ _ _ _ R R'). cbn [bind].
  pose proof R as (_ & _ & _ & _ & K & _). pose proof R' as (_ & _ & _ & _ & K' & _).
  destruct (vmap2_is nsub _ _ _ _ _ K K') as (c & E & Vc).
  destruct o; cbn [dom_of].
  - destruct (rep_copy _ _ _ _ _ _ _ _ R) as (r & Er & Rr & Ec & _). rewrite Er. cbn [bind]. rewrite Ec, E. cbn [bind].
    eexists. split; [reflexivity|]. apply rep_move. eapply rep_with_coef; eauto.
  - rewrite E. cbn [bind]. eexists. split; [reflexivity|]. apply rep_move. eapply rep_with_coef; eauto.
  - rewrite E. cbn [bind]. eexists. split; [reflexivity|]. apply rep_move. eapply rep_with_coef; eauto.
  - rewrite E. cbn [bind]. eexists. split; [reflexivity|]. apply rep_move. eapply rep_with_coef; eauto.
Qed.
Lemma assign_R g h d n codom t0 t1 t0' t1' tf cf ch : rep g d n codom t0 t1 tf cf -> rep h d n codom t0' t1' tf ch ->
  (exists r, gs_pluseq g h = Ok r /\ rep r d n codom t0 t1 tf (fun i => cf i + ch i)) /\
  (exists r, gs_minuseq g h = Ok r /\ rep r d n codom t0 t1 tf (fun i => cf i - ch i)).
Proof.
  intros R R'. unfold gs_pluseq, gs_minuseq, check_space. rewrite (space_same _ _ _ _ _ _ _ _ _ _ _ _ R R'). cbn [bind].
  pose proof R as (_ & _ & _ & _ & K & _). pose proof R' as (_ & _ & _ & _ & K' & _).
  destruct (vmap2_is nadd _ _ _ _ _ K K') as (c & E & Vc). destruct (vmap2_is nsub _ _ _ _ _ K K') as (c' & E' & Vc').
  rewrite E, E'. cbn [bind]. split; (eexists; split; [reflexivity|]; eapply rep_with_coef; eauto).
Qed.
Lemma scale_op_R rv a g d n codom t0 t1 tf cf : rep g d n codom t0 t1 tf cf ->
  exists r, gs_scale rv a g = Ok r /\ rep r d n codom t0 t1 tf (fun i => cf i * a).
Proof.
  intros R. pose proof R as (_ & _ & _ & _ & K & _). pose proof (vscale_is _ _ _ a K) as Vs. unfold gs_scale. destruct rv.
  - eexists. split; [reflexivity|]. apply rep_move. eapply rep_with_coef; eauto.
  - destruct (rep_copy _ _ _ _ _ _ _ _ R) as (r & Er & Rr & Ec & _). rewrite Er. cbn [bind]. rewrite Ec.
    eexists. split; [reflexivity|]. eapply rep_with_coef; eauto.
Qed.
Lemma sfun_plus d codom n t0 tf c c' cc t : sfun d codom n t0 tf (fun i => c i + c' i) cc t = sfun d codom n t0 tf c cc t + sfun d codom n t0 tf c' cc t.
Proof. unfold sfun, piece. rewrite <- Rsum_plus. apply Rsum_ext. intros; ring. Qed.
Lemma sfun_minus d codom n t0 tf c c' cc t : sfun d codom n t0 tf (fun i => c i - c' i) cc t = sfun d codom n t0 tf c cc t - sfun d codom n t0 tf c' cc t.
Proof. unfold sfun, piece. rewrite <- Rsum_minus. apply Rsum_ext. intros; ring. Qed.
Lemma sfun_scal d codom n t0 tf c a cc t : sfun d codom n t0 tf (fun i => c i * a) cc t = a * sfun d codom n t0 tf c cc t.
Proof. unfold sfun, piece. rewrite <- Rsum_scal. apply Rsum_ext. intros; ring. Qed.

(** shapes that do not match are rejected by every operation *)
Lemma space_reject {T} `{Num T} (g h : gspline T) : b_name (gs_basis g) <> b_name (gs_basis h) \/ gs_dim g <> gs_dim h ->
  same_vector_space g h = Ok false.
Proof.
  intros [N|N]; unfold same_vector_space, oand, basis_eqb.
  - destruct (bname_eqb (b_name (gs_basis g)) (b_name (gs_basis h))) eqn:E; [|reflexivity].
    exfalso. apply N. destruct (b_name (gs_basis g)), (b_name (gs_basis h)); try discriminate; reflexivity.
  - destruct (bname_eqb (b_name (gs_basis g)) (b_name (gs_basis h))); [|reflexivity]. cbn [negb].
    unfold gs_dim in N. destruct (Nat.eqb_spec (b_dim (gs_basis g)) (b_dim (gs_basis h))); [contradiction|reflexivity].
Qed.
Lemma space_reject_R g h d d' n n' codom codom' t0 t1 t0' t1' tf tf' cf ch :
  rep g d n codom t0 t1 tf cf -> rep h d' n' codom' t0' t1' tf' ch ->
  codom <> codom' \/ n <> n' \/ d_dim d <> d_dim d' \/ b_name (gs_basis g) <> b_name (gs_basis h) -> same_vector_space g h = Ok false.
Proof.
  intros R R' N. pose proof R as (B & _ & C & V & _). pose proof R' as (B' & _ & C' & V' & _).
  destruct (bname_eqb (b_name (gs_basis g)) (b_name (gs_basis h))) eqn:En.
  2: { apply space_reject. left. intros X. rewrite X in En. destruct (b_name (gs_basis h)); discriminate. }
  assert (Ename : b_name (gs_basis g) = b_name (gs_basis h)) by (destruct (b_name (gs_basis g)), (b_name (gs_basis h)); try discriminate; reflexivity).
  destruct (Nat.eq_dec (d_dim d) (d_dim d')) as [Ed|Nd].
  2: { apply space_reject. right. unfold gs_dim. now rewrite (is_basis_dim _ _ B), (is_basis_dim _ _ B'). }
  unfold same_vector_space, oand.
  assert (X : exists v, basis_eqb (gs_basis g) (gs_basis h) = Ok v).
  { unfold basis_eqb. rewrite En. cbn [negb]. rewrite (is_basis_dim _ _ B), (is_basis_dim _ _ B'), Ed, Nat.eqb_refl. cbn [negb].
    assert (Q : forall b d, is_basis b d -> exists f, vec_is (b_params b) (vlen (b_params b)) f).
    { intros b dd Bb. destruct b as [dim gr|p w gr|a], dd as [ddim|m x|aa]; simpl in Bb; try contradiction; cbn [b_params].
      - exists (fun _ => 0). split; [reflexivity|]. intros i Hi. simpl in Hi. lia.
      - exists x. destruct Bb as (Vp & _). replace (vlen p) with m by (symmetry; apply Vp). exact Vp.
      - exists (fun _ => a). split; [reflexivity|]. intros [|i] Hi; [reflexivity|simpl in Hi; lia]. }
    destruct (Q _ _ B) as (f & Vf), (Q _ _ B') as (f' & Vf').
    destruct (Nat.eqb (vlen (b_params (gs_basis g))) (vlen (b_params (gs_basis h)))); cbn [negb]; [|eauto].
    destruct (approx_eq_mat_R _ _ _ _ _ _ _ _ (ten_m 6) (vmat_is _ _ _ Vf) (vmat_is _ _ _ Vf') (ten_m_pos 6)) as (v & E & _). eauto. }
  destruct X as (v & ->). cbn [bind]. destruct v; [|reflexivity]. rewrite C, C'.
  destruct (Nat.eqb_spec codom codom') as [Ec|Nc]; cbn [bind]; [|reflexivity].
  apply approx_eq_vec_len. destruct V as (L & _), V' as (L' & _). rewrite L, L'. destruct N as [N|[N|[N|N]]]; congruence.
Qed.
Lemma ops_reject {T} `{Num T} (g h : gspline T) : same_vector_space g h = Ok false ->
  (forall o, gs_plus o g h = Throw InvalidArgument) /\ (forall o, gs_minus o g h = Throw InvalidArgument) /\
  gs_pluseq g h = Throw InvalidArgument /\ gs_minuseq g h = Throw InvalidArgument.
Proof. intros E. unfold gs_plus, gs_minus, gs_pluseq, gs_minuseq, check_space. rewrite E. cbn [bind]. repeat split; auto. Qed.

(** a constructed object *)
Lemma ctor_rep b d hist s dom codom n coef tau cf tf : is_basis b d -> serve_all b hist (bs_init b) = Ok s ->
  vec_is tau n tf -> vec_is coef (n * d_dim d * codom) cf ->
  exists g, gs_ctor dom codom n b s coef tau = Ok g /\ rep g d n codom (fst dom) (snd dom) tf cf.
Proof.
  intros B Hs V K. unfold gs_ctor. replace (vlen coef) with (n * d_dim d * codom)%nat by (symmetry; apply K).
  rewrite (is_basis_dim _ _ B), Nat.eqb_refl. eexists. split; [reflexivity|]. unfold rep. cbn.
  split; auto. split; [destruct dom; auto|]. split; auto. split; auto. split; auto. split; [auto|].
  exists (hist ++ [RCopy]). rewrite (serve_all_app _ _ _ _ _ Hs). reflexivity.
Qed.
