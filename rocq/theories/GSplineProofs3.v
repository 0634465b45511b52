(** Derivatives and time scaling of splines. *)
From Coquelicot Require Import Coquelicot.
From Coq Require Import List Arith Lia Bool ZArith Reals Lra.
From Verif Require Import Num Outcome LinAlg RSum RMat RDeriv LegendreSpec LegendreModel LegendreProofs LagrangeSpec LagrangeModel LagrangeProofs
  Basis0101Spec Basis0101Math Basis0101Model Basis0101Proofs BasisModel SplineSpec BasisFn BasisProofs BasisProofs2 BasisProofs3
  ToolsModel ToolsProofs GSplineModel GSplineProofs GSplineProofs2.
Import ListNotations.
Local Open Scope R_scope.

(** ** derivative *)
Lemma dcoef_piece b d codom k t0 tf cf iv cc t m M : is_basis b d -> blk_ok d k -> b_impl b k = Ok m -> mat_is m (d_dim d) (d_dim d) M ->
  (cc < codom)%nat -> tf iv <> 0 ->
  is_derive_n (piece d codom t0 tf cf iv cc) k t (piece d codom t0 tf (dcoef d M codom k tf cf) iv cc t).
Proof.
  intros B O E MM Hc Ht. destruct (blk_R b d k B O) as (m' & M' & E' & MM' & Der). rewrite E in E'. injection E' as <-.
  assert (EM : forall i j, (i < d_dim d)%nat -> (j < d_dim d)%nat -> M i j = M' i j).
  { intros i j Hi Hj. destruct MM as (_ & _ & G), MM' as (_ & _ & G'). specialize (G i j Hi Hj). rewrite G' in G by auto. now injection G. }
  replace (piece d codom t0 tf (dcoef d M codom k tf cf) iv cc t) with
    (series d (bp t0 tf iv) (tf iv) (fun i => blk_fac d (tf iv) k * Rsum (d_dim d) (fun j => M' i j * cf ((iv * codom + cc) * d_dim d + j)%nat)) t).
  - exact (Der (bp t0 tf iv) (tf iv) (fun bb => cf ((iv * codom + cc) * d_dim d + bb)%nat) t Ht).
  - unfold series, piece. apply Rsum_ext. intros i Hi. rewrite dcoef_at by auto. apply (f_equal (fun v => v * _)).
    apply f_equal. apply Rsum_ext. intros j Hj. now rewrite EM.
Qed.

(** strictly inside interval iv (or beyond the ends) *)
Lemma inside_locate t0 tf n t iv : (forall k, (k < n)%nat -> 0 < tf k) -> inside t0 tf n t iv -> locate t0 tf n t = iv.
Proof.
  intros P (A & B & C). eapply in_iv_unique; [exact P|apply locate_in; auto; lia|].
  split; [auto|]. split; [auto|]. destruct C; [auto|right; lra].
Qed.
Lemma inside_locally t0 tf n t iv : (forall k, (k < n)%nat -> 0 < tf k) -> inside t0 tf n t iv ->
  locally t (fun u => locate t0 tf n u = iv).
Proof.
  intros P (A & B & C).
  assert (X : locally t (fun u => inside t0 tf n u iv)).
  { assert (L1 : locally t (fun u => iv = 0%nat \/ bp t0 tf iv < u)).
    { destruct B as [B|B]; [apply filter_forall; auto|]. apply (filter_imp (fun u => bp t0 tf iv < u)); [auto|]. apply (open_gt (bp t0 tf iv)). exact B. }
    assert (L2 : locally t (fun u => iv = (n - 1)%nat \/ u < bp t0 tf (S iv))).
    { destruct C as [C|C]; [apply filter_forall; auto|]. apply (filter_imp (fun u => u < bp t0 tf (S iv))); [auto|]. apply (open_lt (bp t0 tf (S iv))). exact C. }
    apply (filter_imp (fun u => (iv = 0%nat \/ bp t0 tf iv < u) /\ (iv = (n - 1)%nat \/ u < bp t0 tf (S iv)))).
    - intros u (U1 & U2). split; auto.
    - apply filter_and; auto. }
  revert X. apply filter_imp. intros u U. apply inside_locate; auto.
Qed.

Lemma deriv_sfun g d n codom t0 t1 tf cf k : rep g d n codom t0 t1 tf cf -> blk_ok d k ->
  (forall k, (k < n)%nat -> 0 < tf k) ->
  exists g' cf', gs_derivate g k = Ok g' /\ rep g' d n codom t0 t1 tf cf' /\
    (forall iv cc t, (iv < n)%nat -> (cc < codom)%nat ->
       is_derive_n (piece d codom t0 tf cf iv cc) k t (piece d codom t0 tf cf' iv cc t)) /\
    (forall iv cc t, inside t0 tf n t iv -> (cc < codom)%nat ->
       is_derive_n (sfun d codom n t0 tf cf cc) k t (sfun d codom n t0 tf cf' cc t)).
Proof.
  intros R O P. pose proof R as (B & _). destruct (deriv_R g d n codom t0 t1 tf cf k R) as (g' & M & m & E & Ek & MM & _ & R').
  exists g', (dcoef d M codom k tf cf). split; auto. split; auto.
  assert (Pc : forall iv cc t, (iv < n)%nat -> (cc < codom)%nat ->
       is_derive_n (piece d codom t0 tf cf iv cc) k t (piece d codom t0 tf (dcoef d M codom k tf cf) iv cc t)).
  { intros iv cc t Hi Hc. eapply dcoef_piece; eauto. apply Rgt_not_eq. apply P; auto. }
  split; auto. intros iv cc t I Hc. unfold sfun at 2. rewrite (inside_locate _ _ _ _ iv P I).
  apply (is_derive_n_ext_loc (piece d codom t0 tf cf iv cc)); [|apply Pc; [apply I|auto]].
  generalize (inside_locally t0 tf n t iv P I). apply filter_imp. intros u U. unfold sfun. now rewrite U.
Qed.

(** ** time scaling *)
Definition b_scaled (b : basis R) (f : R) : basis R := match b with B0101 a => B0101 (alpha_scaled a f) | _ => b end.
Lemma b01K_pos' a : 0 < b01K a.
Proof. unfold b01K. apply Rmult_lt_0_compat; [|apply exp_pos]. assert (0 < sqrt 2) by (apply sqrt_lt_R0; lra). lra. Qed.
Lemma alpha_scaled_range a f : 0 < f -> 0 < alpha_scaled a f < 1.
Proof.
  intros Hf. unfold alpha_scaled. cbv zeta. set (k4 := 64 * (b01K a / f) ^ 4).
  assert (0 < k4). { unfold k4. apply Rmult_lt_0_compat; [lra|]. apply pow_lt. apply Rmult_lt_0_compat; [apply b01K_pos'|]. apply Rinv_0_lt_compat; auto. }
  split.
  - apply Rmult_lt_0_compat; [lra|apply Rinv_0_lt_compat; lra].
  - apply (Rmult_lt_reg_r (1 + k4)); [lra|]. unfold Rdiv. rewrite Rmult_assoc, Rinv_l; lra.
Qed.
Lemma Rpower_quarter y : 0 < y -> Rpower (y ^ 4) (/ 4) = y.
Proof.
  intros Hy. rewrite <- (Rpower_pow 4 y Hy), Rpower_mult. replace (INR 4 * / 4) with 1 by (simpl; field). apply Rpower_1. auto.
Qed.
Lemma alpha_scaled_K a f : 0 < f -> b01K (alpha_scaled a f) = b01K a / f.
Proof.
  intros Hf. unfold b01K at 1, alpha_scaled. cbv zeta. set (x := b01K a / f). set (k4 := 64 * x ^ 4).
  assert (Hx : 0 < x). { unfold x. apply Rmult_lt_0_compat; [apply b01K_pos'|]. apply Rinv_0_lt_compat; auto. }
  assert (Hk : 0 < k4). { unfold k4. apply Rmult_lt_0_compat; [lra|]. apply pow_lt; auto. }
  replace (k4 / (1 + k4) / (1 - k4 / (1 + k4))) with k4 by (field; lra).
  assert (S2 : sqrt 2 * sqrt 2 = 2) by (apply sqrt_sqrt; lra). assert (0 < sqrt 2) by (apply sqrt_lt_R0; lra).
  replace k4 with ((2 * sqrt 2 * x) ^ 4).
  - rewrite Rpower_quarter; [|apply Rmult_lt_0_compat; auto; lra].
    replace (sqrt 2 / 4 * (2 * sqrt 2 * x)) with (sqrt 2 * sqrt 2 * x / 2) by field. rewrite S2. field.
  - unfold k4. replace ((2 * sqrt 2 * x) ^ 4) with (16 * (sqrt 2 * sqrt 2) * (sqrt 2 * sqrt 2) * x ^ 4) by ring. rewrite S2. ring.
Qed.
Lemma rescale_alpha_R a f : 0 < a < 1 -> rescale_alpha a f = alpha_scaled a f.
Proof.
  intros Ha. unfold rescale_alpha, alpha_scaled.
  change (nsqrt c2 / nofZ 4 * npow a nquarter / npow (n1 - a) nquarter)%num with (b01_k a). rewrite b01_k_R by auto.
  rewrite npown_pow. rnum. cbv zeta. rewrite (Rmult_comm (_ ^ 4) 64). reflexivity.
Qed.

Lemma rescale_R g d n codom t0 t1 tf cf dom f : rep g d n codom t0 t1 tf cf -> 0 < f ->
  exists g', gs_rescale g dom f = Ok g' /\ gs_basis g' = b_scaled (gs_basis g) f /\
    rep g' (d_scaled d f) n codom (fst dom) (snd dom) (fun i => tf i * f) cf.
Proof.
  intros (B & D & C & V & K & L & hist & HI) Hf. pose proof (is_basis_dim _ _ B) as Bd.
  pose proof (vscale_is _ _ _ f V) as Vs. assert (Gn : gs_n g = n) by apply V.
  assert (Dd : d_dim (d_scaled d f) = d_dim d) by (destruct d; reflexivity).
  assert (LK : vlen (gs_coef g) = (n * d_dim d * codom)%nat) by apply K.
  unfold gs_rescale, gs_ctor. unfold rep. rewrite Dd. cbv zeta. rewrite Gn, C, LK.
  destruct (gs_basis g) as [dim gr|p w gr|a] eqn:Eb; cbn [b_scaled b_dim] in *.
  - match goal with |- context [Nat.eqb ?x ?y] => destruct (Nat.eqb_spec x y) as [_|Q]; [|exfalso; apply Q; now rewrite Bd] end.
    eexists. split; [reflexivity|]. cbn [gs_basis gs_dom gs_codom gs_tau gs_coef gs_buf gs_bst].
    split; [reflexivity|]. destruct d; simpl in B; try contradiction. cbn [d_scaled].
    split; [exact B|]. split; [destruct dom; reflexivity|]. split; [reflexivity|]. split; [exact Vs|]. split; [exact K|]. split; [exact Bd|].
    exists (hist ++ [RCopy]). rewrite (serve_all_app _ _ _ _ _ HI). reflexivity.
  - match goal with |- context [Nat.eqb ?x ?y] => destruct (Nat.eqb_spec x y) as [_|Q]; [|exfalso; apply Q; now rewrite Bd] end.
    eexists. split; [reflexivity|]. cbn [gs_basis gs_dom gs_codom gs_tau gs_coef gs_buf gs_bst].
    split; [reflexivity|]. destruct d; simpl in B; try contradiction. cbn [d_scaled].
    split; [exact B|]. split; [destruct dom; reflexivity|]. split; [reflexivity|]. split; [exact Vs|]. split; [exact K|]. split; [exact Bd|].
    exists (hist ++ [RCopy]). rewrite (serve_all_app _ _ _ _ _ HI). reflexivity.
  - destruct d as [| |a']; simpl in B; try contradiction. destruct B as (<- & Ha). cbn [d_dim d_scaled] in *. rewrite Nat.eqb_refl.
    eexists. split; [reflexivity|]. cbn [gs_basis gs_dom gs_codom gs_tau gs_coef gs_buf gs_bst]. rewrite rescale_alpha_R by auto.
    split; [reflexivity|]. split; [split; [reflexivity|apply alpha_scaled_range; auto]|]. split; [destruct dom; reflexivity|].
    split; [reflexivity|]. split; [exact Vs|]. split; [exact K|]. split; [reflexivity|]. exists [RCopy]. reflexivity.
Qed.

Lemma bp_scaled t0 tf f k : bp t0 (fun i => tf i * f) k = t0 + f * (bp t0 tf k - t0).
Proof. unfold bp. rewrite Rsum_scal_r. ring. Qed.
Lemma gint_scaled t0 tf n f t : (1 <= n)%nat -> (forall k, (k < n)%nat -> 0 < tf k) -> 0 < f ->
  gint t0 (fun i => tf i * f) n (t0 + f * (t - t0)) = gint t0 tf n t.
Proof.
  intros Hn P Hf. assert (P' : forall k, (k < n)%nat -> 0 < tf k * f) by (intros; apply Rmult_lt_0_compat; auto).
  apply (in_iv_unique t0 (fun i => tf i * f) n (t0 + f * (t - t0))); auto; [apply gint_in; auto|].
  destruct (gint_in t0 tf n t Hn P) as (A & B & C). split; [auto|]. rewrite !bp_scaled. split.
  - destruct B as [B|B]; [auto|right]. apply Rplus_lt_compat_l. apply Rmult_lt_compat_l; lra.
  - destruct C as [C|C]; [auto|right]. apply Rplus_le_compat_l. apply Rmult_le_compat_l; lra.
Qed.
Lemma window_scaled t0 tf iv f t : tf iv <> 0 -> f <> 0 ->
  gwin t0 (fun i => tf i * f) iv (t0 + f * (t - t0)) = gwin t0 tf iv t.
Proof. intros Ht Hf. rewrite !gwin_R, bp_scaled. unfold window. field. auto. Qed.
Lemma bval_scaled b d s tau f i : is_basis b d -> 0 < f -> (i < d_dim d)%nat -> bval (b_scaled b f) s (tau * f) i = bval b s tau i.
Proof.
  intros B Hf Hi. destruct b as [dim g|p w g|a]; [reflexivity|reflexivity|].
  destruct d as [| |a']; simpl in B; try contradiction. destruct B as (<- & Ha).
  rewrite (bval_R _ (D01 (alpha_scaled a f))); [|split; [reflexivity|apply alpha_scaled_range; auto]|exact I|auto].
  rewrite (bval_R _ (D01 a)); [|split; auto|exact I|auto]. cbn [phi]. rewrite alpha_scaled_K by auto. f_equal. field. lra.
Qed.
Lemma gpt_scaled b d t0 tf cf cf' r n codom t cc f : is_basis b d -> (1 <= n)%nat -> (forall k, (k < n)%nat -> 0 < tf k) -> 0 < f -> (cc < codom)%nat ->
  (forall idx, (idx < n * d_dim d * codom)%nat -> cf' idx = r * cf idx) ->
  gpt (b_scaled b f) t0 (fun i => tf i * f) cf' n codom (t0 + f * (t - t0)) cc = r * gpt b t0 tf cf n codom t cc.
Proof.
  intros B Hn P Hf Hc E. unfold gpt. replace (b_dim (b_scaled b f)) with (b_dim b) by (destruct b; reflexivity).
  rewrite (is_basis_dim _ _ B), gint_scaled by auto. pose proof (gint_bound t0 tf n t Hn) as Hi.
  rewrite window_scaled; [|apply Rgt_not_eq, P; auto|lra]. rewrite !nsum_R. rewrite <- Rsum_scal. apply Rsum_ext. intros k Hk. rnum.
  rewrite (bval_scaled b d) by auto. rewrite E; [ring|].
  assert (S (gint t0 tf n t * codom + cc) <= n * codom)%nat by nia. nia.
Qed.

(** derivative coefficients of the scaled spline *)
Lemma mpow_scal n r A k : forall i j, mpow n (fun i j => r * A i j) k i j = r ^ k * mpow n A k i j.
Proof.
  induction k as [|k IH]; intros i j; simpl; [ring|]. unfold mprod. rewrite <- Rsum_scal. apply Rsum_ext. intros l Hl. rewrite IH. ring.
Qed.
Lemma block_scaled b d f k m m' M M' : is_basis b d -> blk_ok d k -> 0 < f -> b_impl b k = Ok m -> mat_is m (d_dim d) (d_dim d) M ->
  b_impl (b_scaled b f) k = Ok m' -> mat_is m' (d_dim d) (d_dim d) M' ->
  forall tau i j, (i < d_dim d)%nat -> (j < d_dim d)%nat -> tau <> 0 ->
    blk_fac (d_scaled d f) (tau * f) k * M' i j = (/ f) ^ k * (blk_fac d tau k * M i j).
Proof.
  intros B O Hf E MM E' MM' tau i j Hi Hj Ht.
  assert (Same : b_impl b k = b_impl (b_scaled b f) k -> M' i j = M i j).
  { intros X. rewrite E, E' in X. injection X as <-. destruct MM as (_ & _ & G), MM' as (_ & _ & G').
    specialize (G i j Hi Hj). rewrite G' in G by auto. now injection G. }
  destruct b as [dim g|p w g|a], d as [dim'|n x|a']; simpl in B; try contradiction; cbn [b_scaled d_scaled blk_fac blk_ok d_dim] in *.
  - rewrite Same by reflexivity. replace (2 / (tau * f)) with (2 / tau * / f) by (field; split; lra). rewrite Rpow_mult_distr. ring.
  - rewrite Same by reflexivity. replace (2 / (tau * f)) with (2 / tau * / f) by (field; split; lra). rewrite Rpow_mult_distr. ring.
  - destruct B as (<- & Ha). pose proof (alpha_scaled_range a f Hf) as Ha'.
    assert (X : forall a m M, 0 < a < 1 -> b_impl (B0101 a) k = Ok m -> mat_is m 6 6 M -> M i j = mpow 6 (b01A (b01K a)) k i j).
    { intros b0 m0 M0 Hb E0 MM0. cbn [b_impl] in E0. destruct k as [|k].
      - inversion E0; subst. destruct MM0 as (_ & _ & G). specialize (G i j Hi Hj). simpl in G. injection G as G. rewrite <- G. reflexivity.
      - destruct (b01_impl_R b0 k Hb) as (m1 & E1 & M1). rewrite E0 in E1. injection E1 as <-.
        assert (Q : mpow 6 (b01A (b01K b0)) (2 ^ k) i j = mpow 6 (b01A (b01K b0)) (S k) i j).
        { destruct k as [|[|k]]; [reflexivity|reflexivity|lia]. }
        rewrite <- Q. destruct MM0 as (_ & _ & G), M1 as (_ & _ & G1). specialize (G i j Hi Hj). rewrite G1 in G by auto. now injection G. }
    rewrite (X _ _ _ Ha' E' MM'), (X _ _ _ Ha E MM), alpha_scaled_K by auto.
    replace (b01A (b01K a / f)) with (fun i j => / f * b01A (b01K a) i j).
    + rewrite mpow_scal. ring.
    + apply FunctionalExtensionality.functional_extensionality. intros x. apply FunctionalExtensionality.functional_extensionality. intros y.
      unfold b01A. field. lra.
Qed.
