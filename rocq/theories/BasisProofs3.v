(** The spline matrices act on coefficient vectors as jumps and derivatives (over the reals). *)
From Coquelicot Require Import Coquelicot.
From Coq Require Import List Arith Lia Bool ZArith Reals Lra.
From Verif Require Import Num Outcome LinAlg RSum RMat RDeriv RPoly
  LegendreSpec LegendreModel LegendreMath LegendreProofs
  LagrangeSpec LagrangeModel LagrangeMath LagrangeProofs
  Basis0101Spec Basis0101Math Basis0101Model Basis0101Proofs BasisModel SplineSpec BasisFn BasisProofs BasisProofs2.
Import ListNotations.
Local Open Scope R_scope.

(** ** derivatives of pieces *)
Lemma series_derive_n d t0 tau c k t : tau <> 0 ->
  is_derive_n (series d t0 tau c) k t (Rsum (d_dim d) (fun i => c i * Derive_n (tphi d t0 tau i) k t)).
Proof.
  intros Ht. apply (is_derive_n_chain (fun q u => Rsum (d_dim d) (fun i => c i * Derive_n (tphi d t0 tau i) q u))).
  intros q u. apply is_derive_Rsum. intros i Hi. apply d_scal. exact (tphi_smooth d t0 tau i (S q) u Ht Hi).
Qed.
Lemma piece_series d codom t0 tau c iv cc t :
  piece d codom t0 tau c iv cc t = series d (bp t0 tau iv) (tau iv) (fun bb => c ((iv * codom + cc) * d_dim d + bb)%nat) t.
Proof. reflexivity. Qed.
Lemma piece_derive_n d codom t0 tau c iv cc k t : tau iv <> 0 ->
  is_derive_n (piece d codom t0 tau c iv cc) k t
    (Rsum (d_dim d) (fun i => c ((iv * codom + cc) * d_dim d + i)%nat * Derive_n (tphi d (bp t0 tau iv) (tau iv) i) k t)).
Proof. intros Ht. apply (series_derive_n d (bp t0 tau iv) (tau iv) (fun bb => c ((iv * codom + cc) * d_dim d + bb)%nat)); auto. Qed.

(** ** sparse matrix times vector *)
Definition smul (m : smat R) (c : nat -> R) (row : nat) : R :=
  Rsum (scols m) (fun col => match sget m row col with Some x => x * c col | None => 0 end).

Lemma Rsum_delta2 n k f : (S k < n)%nat -> (forall i, (i < n)%nat -> i <> k -> i <> S k -> f i = 0) ->
  Rsum n f = f k + f (S k).
Proof.
  intros Hk E. replace n with (S (S k) + (n - S (S k)))%nat by lia. rewrite Rsum_app.
  rewrite (Rsum_zero (n - S (S k))). 2: { intros i Hi. apply E; lia. }
  simpl Rsum at 1. rewrite (Rsum_zero k). 2: { intros i Hi. apply E; lia. } ring.
Qed.

Lemma smul_blocks (m : smat R) c row n codom dim : scols m = (n * codom * dim)%nat ->
  smul m c row = Rsum n (fun iv => Rsum codom (fun cc => Rsum dim (fun bb =>
    match sget m row ((iv * codom + cc) * dim + bb) with Some x => x * c ((iv * codom + cc) * dim + bb)%nat | None => 0 end))).
Proof. intros C. unfold smul. rewrite C, Rsum_mul, Rsum_mul. reflexivity. Qed.

Lemma cont_mul b nm1 codom ord tf lf rf (D : nat -> nat -> nat -> R) (m : smat R) c :
  scols m = (S nm1 * codom * b_dim b)%nat ->
  (forall der iv cc iv2 cc2 bb, (der <= ord -> iv < nm1 -> cc < codom -> iv2 < S nm1 -> cc2 < codom -> bb < b_dim b ->
      sget m (codom * nm1 * der + iv * codom + cc) ((iv2 * codom + cc2) * b_dim b + bb) =
      cont_entry b tf lf rf D der iv cc iv2 cc2 bb)%nat) ->
  forall der iv cc, (der <= ord)%nat -> (iv < nm1)%nat -> (cc < codom)%nat ->
    smul m c (codom * nm1 * der + iv * codom + cc) =
      Rsum (b_dim b) (fun bb => (2 / tf iv) ^ der * (if Nat.eqb der 0 then rf bb else D der (b_dim b - 1)%nat bb) *
                                c ((iv * codom + cc) * b_dim b + bb)%nat) -
      Rsum (b_dim b) (fun bb => (2 / tf (S iv)) ^ der * (if Nat.eqb der 0 then lf bb else D der 0%nat bb) *
                                c ((S iv * codom + cc) * b_dim b + bb)%nat).
Proof.
  intros C V der iv cc Hd Hiv Hcc. rewrite (smul_blocks m c _ (S nm1) codom (b_dim b) C).
  assert (K : forall iv2, (iv2 < S nm1)%nat ->
    Rsum codom (fun cc2 => Rsum (b_dim b) (fun bb =>
      match sget m (codom * nm1 * der + iv * codom + cc) ((iv2 * codom + cc2) * b_dim b + bb) with
        Some x => x * c ((iv2 * codom + cc2) * b_dim b + bb)%nat | None => 0 end)) =
    Rsum (b_dim b) (fun bb => match cont_entry b tf lf rf D der iv cc iv2 cc bb with
        Some x => x * c ((iv2 * codom + cc) * b_dim b + bb)%nat | None => 0 end)).
  { intros iv2 Hiv2. rewrite (Rsum_delta codom cc); auto.
    - apply Rsum_ext. intros bb Hbb. rewrite V by auto. reflexivity.
    - intros cc2 Hcc2 Hne. apply Rsum_zero. intros bb Hbb. rewrite V by auto. unfold cont_entry.
      destruct (Nat.eqb_spec cc2 cc); [contradiction|reflexivity]. }
  rewrite (Rsum_delta2 (S nm1) iv).
  - rewrite !K by lia. unfold Rminus. rewrite <- Rsum_opp.
    f_equal; apply Rsum_ext; intros bb Hbb; unfold cont_entry; rewrite ?Nat.eqb_refl.
    + destruct (Nat.eqb_spec der 0) as [->|]; rewrite ?npown_pow; unfold c2; rnum; simpl; ring.
    + destruct (Nat.eqb_spec (S iv) iv); [lia|].
      destruct (Nat.eqb_spec der 0) as [->|]; rewrite ?npown_pow; unfold c2; rnum; simpl; ring.
  - lia.
  - intros iv2 Hiv2 Hn1 Hn2. rewrite K by auto. apply Rsum_zero. intros bb Hbb. unfold cont_entry.
    rewrite Nat.eqb_refl. destruct (Nat.eqb_spec iv2 iv); [lia|]. destruct (Nat.eqb_spec iv2 (S iv)); [lia|]. reflexivity.
Qed.

Lemma window_left t0 tau : tau <> 0 -> window t0 tau t0 = -1.
Proof. intros. unfold window. field. auto. Qed.
Lemma window_right t0 tau : tau <> 0 -> window t0 tau (t0 + tau) = 1.
Proof. intros. unfold window. field. auto. Qed.
Lemma bp_S t0 tau k : bp t0 tau (S k) = bp t0 tau k + tau k.
Proof. unfold bp. simpl. ring. Qed.

Lemma impl_all b d ord : is_basis b d -> blk_ok d ord ->
  exists Dm D, forall k, (k <= ord)%nat -> b_impl b k = Ok (Dm k) /\ mat_is (Dm k) (b_dim b) (b_dim b) (D k).
Proof.
  intros B O.
  assert (X : forall k, (k <= ord)%nat -> exists m M, b_impl b k = Ok m /\ mat_is m (b_dim b) (b_dim b) M).
  { intros k Hk. destruct (blk_R b d k B) as (m & M & E & MM & _).
    - destruct d; simpl in *; auto. lia.
    - exists m, M. rewrite (is_basis_dim b d B). auto. }
  clear O. induction ord as [|ord IH].
  - destruct (X 0%nat (le_n _)) as (m & M & E & MM). exists (fun _ => m), (fun _ => M). intros k Hk.
    assert (k = 0%nat) by lia. subst. auto.
  - destruct IH as (Dm & D & I). { intros; apply X; lia. }
    destruct (X (S ord) (le_n _)) as (m & M & E & MM).
    exists (fun k => if Nat.eqb k (S ord) then m else Dm k), (fun k => if Nat.eqb k (S ord) then M else D k).
    intros k Hk. destruct (Nat.eqb_spec k (S ord)) as [->|]; auto. apply I. lia.
Qed.

Lemma two_neq : 2 <> 0.
Proof. lra. Qed.

Lemma two_div x : x <> 0 -> 2 / x <> 0.
Proof. intros. unfold Rdiv. apply Rmult_integral_contrapositive_currified; [lra|apply Rinv_neq_0_compat; auto]. Qed.

(** ** nodal bases with end nodes *)
Lemma end_exact n x i : separated n x -> (i < n)%nat -> exact_at n x (x i).
Proof. intros S Hi. right. exists i. auto. Qed.

Lemma cont_lagrange pts bw g n x nm1 codom ord (taus : vec R) tf t0 c :
  is_basis (BLagrange pts bw g) (DLag n x) -> separated n x -> x 0%nat = -1 -> x (n - 1)%nat = 1 ->
  vec_is taus (S nm1) tf -> (forall i, (i < S nm1)%nat -> tf i <> 0) ->
  exists m s', continuity_matrix (BLagrange pts bw g) (S nm1) codom ord taus (bs_init (BLagrange pts bw g)) = Ok (m, s') /\
    srows m = (nm1 * codom * (ord + 1))%nat /\ scols m = (S nm1 * codom * n)%nat /\
    forall der iv cc, (der <= ord)%nat -> (iv < nm1)%nat -> (cc < codom)%nat ->
      smul m c (codom * nm1 * der + iv * codom + cc) = jump (DLag n x) codom t0 tf c der iv cc.
Proof.
  intros B Sep X0 X1 Vt Ht. set (b := BLagrange pts bw g) in *. assert (Bd := is_basis_dim b _ B). cbn [d_dim] in Bd.
  assert (Hn : (1 <= n)%nat) by (destruct B as (_ & ? & _); auto).
  destruct B as (Vp & _ & Dist & Wt). assert (B : is_basis b (DLag n x)) by (split; auto).
  assert (W1 : window (-1) 2 (-1) = -1) by (unfold window; field). assert (W2 : window (-1) 2 1 = 1) by (unfold window; field).
  destruct (b_eval_deriv_R b (DLag n x) (-1) 2 (-1) 0 (vnew n) B two_neq I) as (l0 & El & Vl); [rewrite W1, <- X0; apply end_exact; auto|reflexivity|].
  destruct (b_eval_deriv_R b (DLag n x) (-1) 2 1 0 (vnew n) B two_neq I) as (r0 & Er & Vr); [rewrite W2, <- X1; apply end_exact; auto; lia|reflexivity|].
  rewrite W1 in El. rewrite W2 in Er. cbn [d_dim] in Vl, Vr. simpl Derive_n in Vl, Vr. unfold tphi in Vl, Vr. rewrite W1 in Vl. rewrite W2 in Vr. simpl phi in Vl, Vr.
  assert (HD : forall k, exists m, b_impl b k = Ok m /\ mat_is m n n (lagD n x k)) by (intros k; apply lag_impl_R; auto).
  destruct (impl_all b (DLag n x) ord B I) as (Dm & D0 & HD0).
  assert (HD1 : forall k, (k <= ord)%nat -> b_impl b k = Ok (Dm k) /\ mat_is (Dm k) (b_dim b) (b_dim b) (lagD n x k)).
  { intros k Hk. destruct (HD k) as (m & E & M). destruct (HD0 k Hk) as (E0 & _). rewrite E in E0. injection E0 as <-. rewrite Bd. auto. }
  assert (Hb : (1 <= b_dim b)%nat) by (rewrite Bd; lia).
  rewrite <- Bd in El, Er at 1.
  assert (Vl' : vec_is l0 (b_dim b) (fun i => lagr n x i (-1))) by (rewrite Bd; exact Vl).
  assert (Vr' : vec_is r0 (b_dim b) (fun i => lagr n x i 1)) by (rewrite Bd; exact Vr).
  destruct (cont_matrix_val b nm1 codom ord taus tf l0 r0 (fun i => lagr n x i (-1)) (fun i => lagr n x i 1) Dm (lagD n x) Hb Vt El Vl' Er Vr' HD1)
    as (m & s' & Em & Rm & Cm & Vm).
  exists m, s'. split; auto. split; auto. split; [rewrite <- Bd; auto|].
  intros der iv cc Hd Hiv Hcc. rewrite (cont_mul b nm1 codom ord tf _ _ _ m c Cm Vm der iv cc) by auto.
  unfold jump. rewrite (is_derive_n_unique _ _ _ _ (piece_derive_n (DLag n x) codom t0 tf c iv cc der _ (Ht iv ltac:(lia)))).
  rewrite (is_derive_n_unique _ _ _ _ (piece_derive_n (DLag n x) codom t0 tf c (S iv) cc der _ (Ht (S iv) ltac:(lia)))).
  rewrite Bd. cbn [d_dim].
  apply (f_equal2 Rminus); apply Rsum_ext; intros bb Hbb.
  - rewrite (is_derive_n_unique (tphi (DLag n x) (bp t0 tf iv) (tf iv) bb) der (bp t0 tf (S iv)) _ (lagr_time_derive n x bb der _ _ _ Hbb)).
    rewrite bp_S, window_right by (apply Ht; lia).
    destruct (Nat.eqb_spec der 0) as [->|]; [simpl; ring|]. unfold lagD. rewrite X1. ring.
  - rewrite (is_derive_n_unique (tphi (DLag n x) (bp t0 tf (S iv)) (tf (S iv)) bb) der (bp t0 tf (S iv)) _ (lagr_time_derive n x bb der _ _ _ Hbb)).
    rewrite window_left by (apply Ht; lia).
    destruct (Nat.eqb_spec der 0) as [->|]; [simpl; ring|]. unfold lagD. rewrite X0. ring.
Qed.

(** value rows (order 0) are right for the Legendre basis too *)
Lemma cont_legendre_0 dim g nm1 codom ord (taus : vec R) tf t0 c :
  is_basis (BLegendre dim g) (DLeg dim) ->
  vec_is taus (S nm1) tf -> (forall i, (i < S nm1)%nat -> tf i <> 0) ->
  exists m s', continuity_matrix (BLegendre dim g) (S nm1) codom ord taus (bs_init (BLegendre dim g)) = Ok (m, s') /\
    srows m = (nm1 * codom * (ord + 1))%nat /\ scols m = (S nm1 * codom * dim)%nat /\
    (forall iv cc, (iv < nm1)%nat -> (cc < codom)%nat ->
      smul m c (iv * codom + cc) = jump (DLeg dim) codom t0 tf c 0 iv cc) /\
    (forall der iv cc, (1 <= der <= ord)%nat -> (iv < nm1)%nat -> (cc < codom)%nat ->
      smul m c (codom * nm1 * der + iv * codom + cc) =
        Rsum dim (fun bb => (2 / tf iv) ^ der * mpow dim legT der (dim - 1)%nat bb * c ((iv * codom + cc) * dim + bb)%nat) -
        Rsum dim (fun bb => (2 / tf (S iv)) ^ der * mpow dim legT der 0%nat bb * c ((S iv * codom + cc) * dim + bb)%nat)).
Proof.
  intros B Vt Ht. set (b := BLegendre dim g) in *. assert (Bd := is_basis_dim b _ B). cbn [d_dim] in Bd.
  assert (Hn : (2 <= dim)%nat) by (destruct B as (_ & ? & _); auto).
  assert (W1 : window (-1) 2 (-1) = -1) by (unfold window; field). assert (W2 : window (-1) 2 1 = 1) by (unfold window; field).
  destruct (b_eval_deriv_R b (DLeg dim) (-1) 2 (-1) 0 (vnew dim) B two_neq) as (l0 & El & Vl); [simpl; lia|exact I|reflexivity|].
  destruct (b_eval_deriv_R b (DLeg dim) (-1) 2 1 0 (vnew dim) B two_neq) as (r0 & Er & Vr); [simpl; lia|exact I|reflexivity|].
  rewrite W1 in El. rewrite W2 in Er. cbn [d_dim] in Vl, Vr. simpl Derive_n in Vl, Vr. unfold tphi in Vl, Vr. rewrite W1 in Vl. rewrite W2 in Vr. simpl phi in Vl, Vr.
  assert (HD : forall k, exists m, b_impl b k = Ok m /\ mat_is m dim dim (mpow dim legT k)) by (intros k; apply leg_impl_R; auto).
  destruct (impl_all b (DLeg dim) ord B I) as (Dm & D0 & HD0).
  assert (HD1 : forall k, (k <= ord)%nat -> b_impl b k = Ok (Dm k) /\ mat_is (Dm k) (b_dim b) (b_dim b) (mpow dim legT k)).
  { intros k Hk. destruct (HD k) as (m & E & M). destruct (HD0 k Hk) as (E0 & _). rewrite E in E0. injection E0 as <-. rewrite Bd. auto. }
  assert (Hb : (1 <= b_dim b)%nat) by (rewrite Bd; lia).
  rewrite <- Bd in El, Er at 1.
  assert (Vl' : vec_is l0 (b_dim b) (fun i => legP i (-1))) by (rewrite Bd; exact Vl).
  assert (Vr' : vec_is r0 (b_dim b) (fun i => legP i 1)) by (rewrite Bd; exact Vr).
  destruct (cont_matrix_val b nm1 codom ord taus tf l0 r0 (fun i => legP i (-1)) (fun i => legP i 1) Dm (mpow dim legT) Hb Vt El Vl' Er Vr' HD1)
    as (m & s' & Em & Rm & Cm & Vm).
  exists m, s'. split; auto. split; auto. split; [rewrite <- Bd; auto|].
  split.
  - intros iv cc Hiv Hcc. pose proof (cont_mul b nm1 codom ord tf _ _ _ m c Cm Vm 0 iv cc) as X.
    rewrite Nat.mul_0_r, Nat.add_0_l in X. rewrite X by (auto; lia). unfold jump. simpl Derive_n. unfold piece. rewrite Bd. cbn [d_dim].
    apply (f_equal2 Rminus); apply Rsum_ext; intros bb Hbb; unfold tphi; simpl phi; simpl pow.
    + rewrite bp_S, window_right by (apply Ht; lia). simpl. ring.
    + rewrite window_left by (apply Ht; lia). simpl. ring.
  - intros der iv cc Hd Hiv Hcc. rewrite (cont_mul b nm1 codom ord tf _ _ _ m c Cm Vm der iv cc) by (auto; lia).
    destruct (Nat.eqb_spec der 0); [lia|]. rewrite Bd. reflexivity.
Qed.

(** ** derivative matrix *)
Lemma der_matrix_R b d n codom ord (taus : vec R) tf t0 c : is_basis b d -> blk_ok d ord ->
  vec_is taus n tf -> (forall i, (i < n)%nat -> tf i <> 0) ->
  exists m s' M, gspline_derivative_matrix b n codom ord taus (bs_init b) = Ok (m, s') /\
    srows m = (n * codom * d_dim d)%nat /\ scols m = (n * codom * d_dim d)%nat /\
    b_impl b ord = Ok M /\
    (forall iv cc t, (iv < n)%nat -> (cc < codom)%nat ->
      Derive_n (piece d codom t0 tf c iv cc) ord t =
      piece d codom t0 tf (fun i => blk_fac d (tf iv) ord / (2 / tf iv) ^ ord * smul m c i) iv cc t).
Proof.
  intros B O Vt Ht. assert (Bd := is_basis_dim b d B).
  destruct (blk_R b d ord B O) as (M & Mf & E & MM & Der).
  destruct (impl_all b d ord B O) as (Dm & D0 & HD0).
  destruct (der_matrix_val b n codom ord taus tf M Mf Vt) as (m & s' & Em & Rm & Cm & Vm); auto.
  { intros k Hk. exists (Dm k). apply HD0; auto. }
  { rewrite Bd. exact MM. }
  exists m, s', M. split; auto. rewrite <- Bd. split; auto. split; auto. split; auto.
  intros iv cc t Hiv Hcc. rewrite (is_derive_n_unique (piece d codom t0 tf c iv cc) ord t _ (Der (bp t0 tf iv) (tf iv) _ t (Ht iv Hiv))).
  unfold piece, series. apply Rsum_ext. intros i Hi. apply (f_equal (fun v => v * _)).
  unfold Rdiv. rewrite Rmult_assoc. apply f_equal.
  rewrite (smul_blocks m c _ n codom (b_dim b) Cm). rewrite (Rsum_delta n iv); auto.
  - rewrite (Rsum_delta codom cc); auto.
    + rewrite Bd, <- Rsum_scal. apply Rsum_ext. intros j Hj. rewrite <- Bd. rewrite Vm by (auto; rewrite Bd; auto).
      rewrite !Nat.eqb_refl. cbn [andb]. rewrite npown_pow. unfold c2. rnum. rewrite Bd.
      change (2 * / tf iv) with (2 / tf iv). generalize (2 / tf iv) (two_div (tf iv) (Ht iv Hiv)). intros q Hq.
      field. apply pow_nonzero. exact Hq.
    + intros cc2 Hcc2 Hne. apply Rsum_zero. intros j Hj. rewrite <- Bd. rewrite Vm by (auto; rewrite Bd; auto).
      destruct (Nat.eqb_spec cc2 cc); [contradiction|]. rewrite andb_false_r. reflexivity.
  - intros iv2 Hiv2 Hne. apply Rsum_zero. intros cc2 Hcc2. apply Rsum_zero. intros j Hj. rewrite <- Bd. rewrite Vm by (auto; rewrite Bd; auto).
    destruct (Nat.eqb_spec iv2 iv); [contradiction|]. reflexivity.
Qed.

(** ** requests that succeed *)
Lemma impl_any b d k : is_basis b d -> exists m M, b_impl b k = Ok m /\ mat_is m (b_dim b) (b_dim b) M.
Proof.
  intros B. pose proof (is_basis_dim b d B) as Bd. rewrite Bd.
  destruct b as [dim g|pts bw g|a], d as [dim'|n x|a']; simpl in B; try contradiction; cbn [b_impl d_dim].
  - destruct B as (-> & _). destruct (leg_impl_R dim' k) as (m & E & M). eauto.
  - destruct B as (V & _ & D & _). destruct (lag_impl_R pts n x k V D) as (m & E & M). eauto.
  - destruct B as (-> & Ha). destruct k as [|k].
    + eexists. eexists. split; [reflexivity|]. exact (mident_is 6).
    + destruct (b01_impl_R a' k Ha) as (m & E & M). eauto.
Qed.
Lemma impl_any_upto b d ord : is_basis b d ->
  exists Dm D, forall k, (k <= ord)%nat -> b_impl b k = Ok (Dm k) /\ mat_is (Dm k) (b_dim b) (b_dim b) (D k).
Proof.
  intros B. induction ord as [|ord IH].
  - destruct (impl_any b d 0 B) as (m & M & E & MM). exists (fun _ => m), (fun _ => M). intros k Hk.
    assert (k = 0%nat) by lia. subst. auto.
  - destruct IH as (Dm & D & I). destruct (impl_any b d (S ord) B) as (m & M & E & MM).
    exists (fun k => if Nat.eqb k (S ord) then m else Dm k), (fun k => if Nat.eqb k (S ord) then M else D k).
    intros k Hk. destruct (Nat.eqb_spec k (S ord)) as [->|]; auto. apply I. lia.
Qed.

(** the end values of the basis functions for an interval of length 2 *)
Lemma ends_R b d : is_basis b d -> exact_pt d (-1) -> exact_pt d 1 ->
  exists l0 r0, b_eval_deriv b (-1) 2 0 (vnew (b_dim b)) = Ok l0 /\ vec_is l0 (b_dim b) (fun i => phi d 2 i (-1)) /\
                b_eval_deriv b 1 2 0 (vnew (b_dim b)) = Ok r0 /\ vec_is r0 (b_dim b) (fun i => phi d 2 i 1).
Proof.
  intros B P1 P2.
  assert (W1 : window (-1) 2 (-1) = -1) by (unfold window; field). assert (W2 : window (-1) 2 1 = 1) by (unfold window; field).
  assert (O : ord_ok d 0).
  { pose proof (is_basis_pos b d B). destruct d; simpl in *; auto. }
  rewrite (is_basis_dim b d B).
  destruct (b_eval_deriv_R b d (-1) 2 (-1) 0 (vnew (d_dim d)) B two_neq O) as (l0 & El & Vl); [now rewrite W1|reflexivity|].
  destruct (b_eval_deriv_R b d (-1) 2 1 0 (vnew (d_dim d)) B two_neq O) as (r0 & Er & Vr); [now rewrite W2|reflexivity|].
  rewrite W1 in El. rewrite W2 in Er. simpl Derive_n in Vl, Vr. unfold tphi in Vl, Vr. rewrite W1 in Vl. rewrite W2 in Vr.
  exists l0, r0. auto.
Qed.

Definition request_ok (d : bdesc) (q : request R) : Prop :=
  match q with
  | RBlock _ => True
  | RCont n codom ord taus => (1 <= n)%nat /\ (exists tf, vec_is taus n tf) /\ exact_pt d (-1) /\ exact_pt d 1
  | RDer n codom ord taus => exists tf, vec_is taus n tf
  | RCopy => True
  end.
Lemma serve_progress b d q s : is_basis b d -> request_ok d q -> binv b s -> exists s', serve b q s = Ok s'.
Proof.
  intros B Q I. destruct q as [k|n c o t|n c o t|]; simpl in *.
  - destruct (impl_any_upto b d k B) as (Dm & D & HD). pose proof (get_block_spec b k s (proj1 I)) as G.
    rewrite (block_of_ok b k (Dm k)) in G.
    + destruct G as (s' & -> & _). simpl. eauto.
    + intros i Hi. exists (Dm i). apply HD; auto.
    + apply HD; auto.
  - destruct Q as (Hn & (tf & Vt) & P1 & P2). destruct (impl_any_upto b d o B) as (Dm & D & HD).
    destruct (ends_R b d B P1 P2) as (l0 & r0 & El & Vl & Er & Vr). destruct n as [|nm1]; [lia|].
    assert (Hb : (1 <= b_dim b)%nat). { rewrite (is_basis_dim b d B). eapply is_basis_pos; eauto. }
    destruct (cont_matrix_val b nm1 c o t tf l0 r0 _ _ Dm D Hb Vt El Vl Er Vr HD) as (m & s1 & E & _).
    pose proof (cont_query_rel b (S nm1) c o t s I) as X. rewrite E in X.
    destruct (continuity_matrix b (S nm1) c o t s) as [[m' s']| |]; simpl in X; try contradiction. simpl. eauto.
  - destruct Q as (tf & Vt). destruct (impl_any_upto b d o B) as (Dm & D & HD).
    destruct (HD o (le_n _)) as (E0 & M0).
    destruct (der_matrix_val b n c o t tf (Dm o) (D o) Vt) as (m & s1 & E & _); auto.
    { intros k Hk. exists (Dm k). apply HD; auto. }
    pose proof (der_query_rel b n c o t s I) as X. rewrite E in X.
    destruct (gspline_derivative_matrix b n c o t s) as [[m' s']| |]; simpl in X; try contradiction. simpl. eauto.
  - eauto.
Qed.
Lemma serve_all_progress b d l : is_basis b d -> Forall (request_ok d) l -> forall s, binv b s -> exists s', serve_all b l s = Ok s'.
Proof.
  intros B. induction l as [|q l IH]; intros F s I; simpl; [eauto|]. inversion F; subst.
  destruct (serve_progress b d q s) as (s1 & E1); auto. rewrite E1. simpl. apply IH; auto. eapply serve_binv; eauto.
Qed.
Lemma smul_eq (m m' : smat R) c i : smat_eq m m' -> smul m c i = smul m' c i.
Proof. intros (_ & C & E). unfold smul. rewrite C. apply Rsum_ext. intros j _. now rewrite E. Qed.

(** after any history *)
Lemma cont_after b hist s n codom ord taus m1 s1 : serve_all b hist (bs_init b) = Ok s ->
  continuity_matrix b n codom ord taus (bs_init b) = Ok (m1, s1) ->
  exists m s', continuity_matrix b n codom ord taus s = Ok (m, s') /\ smat_eq m m1.
Proof.
  intros Hs E. assert (I : binv b s) by (eapply serve_all_binv; [apply binv_init|exact Hs]).
  pose proof (cont_query_rel b n codom ord taus s I) as X. rewrite E in X.
  destruct (continuity_matrix b n codom ord taus s) as [[m' s']| |]; simpl in X; try contradiction.
  exists m', s'. split; auto. apply X.
Qed.
Lemma der_after b hist s n codom ord taus m1 s1 : serve_all b hist (bs_init b) = Ok s ->
  gspline_derivative_matrix b n codom ord taus (bs_init b) = Ok (m1, s1) ->
  exists m s', gspline_derivative_matrix b n codom ord taus s = Ok (m, s') /\ smat_eq m m1.
Proof.
  intros Hs E. assert (I : binv b s) by (eapply serve_all_binv; [apply binv_init|exact Hs]).
  pose proof (der_query_rel b n codom ord taus s I) as X. rewrite E in X.
  destruct (gspline_derivative_matrix b n codom ord taus s) as [[m' s']| |]; simpl in X; try contradiction.
  exists m', s'. split; auto. apply X.
Qed.

Lemma block_correct b d k hist s : is_basis b d -> blk_ok d k -> serve_all b hist (bs_init b) = Ok s ->
  exists m s' M, get_block b k s = Ok (m, s') /\ mat_is m (d_dim d) (d_dim d) M /\
    forall t0 tau c t, tau <> 0 ->
      is_derive_n (series d t0 tau c) k t
        (series d t0 tau (fun i => blk_fac d tau k * Rsum (d_dim d) (fun j => M i j * c j)) t).
Proof.
  intros B O Hs. destruct (blk_R b d k B O) as (m & M & E & MM & Der).
  assert (I : binv b s) by (eapply serve_all_binv; [apply binv_init|exact Hs]).
  pose proof (get_block_spec b k s (proj1 I)) as G.
  rewrite (block_of_ok b k m) in G; auto.
  - destruct G as (s' & Eg & _). exists m, s', M. auto.
  - intros i Hi. destruct (impl_any b d i B) as (m0 & M0 & E0 & _). eauto.
Qed.

Lemma cont_lagrange_after pts bw g n x nm1 codom ord (taus : vec R) tf t0 c hist s :
  is_basis (BLagrange pts bw g) (DLag n x) -> separated n x -> x 0%nat = -1 -> x (n - 1)%nat = 1 ->
  vec_is taus (S nm1) tf -> (forall i, (i < S nm1)%nat -> tf i <> 0) ->
  serve_all (BLagrange pts bw g) hist (bs_init (BLagrange pts bw g)) = Ok s ->
  exists m s', continuity_matrix (BLagrange pts bw g) (S nm1) codom ord taus s = Ok (m, s') /\
    srows m = (nm1 * codom * (ord + 1))%nat /\ scols m = (S nm1 * codom * n)%nat /\
    forall der iv cc, (der <= ord)%nat -> (iv < nm1)%nat -> (cc < codom)%nat ->
      smul m c (codom * nm1 * der + iv * codom + cc) = jump (DLag n x) codom t0 tf c der iv cc.
Proof.
  intros B Sep X0 X1 Vt Ht Hs.
  destruct (cont_lagrange pts bw g n x nm1 codom ord taus tf t0 c B Sep X0 X1 Vt Ht) as (m & s1 & E & Rm & Cm & J).
  destruct (cont_after _ _ _ _ _ _ _ _ _ Hs E) as (m' & s' & E' & Eq). exists m', s'. split; auto.
  pose proof Eq as (Er & Ec & _). split; [congruence|]. split; [congruence|].
  intros der iv cc Hd Hi Hc. rewrite (smul_eq _ _ _ _ Eq). apply J; auto.
Qed.

Lemma der_matrix_after b d n codom ord (taus : vec R) tf t0 c hist s : is_basis b d ->
  (forall a, d <> D01 a) -> vec_is taus n tf -> (forall i, (i < n)%nat -> tf i <> 0) ->
  serve_all b hist (bs_init b) = Ok s ->
  exists m s', gspline_derivative_matrix b n codom ord taus s = Ok (m, s') /\
    srows m = (n * codom * d_dim d)%nat /\ scols m = (n * codom * d_dim d)%nat /\
    (forall iv cc t, (iv < n)%nat -> (cc < codom)%nat ->
      Derive_n (piece d codom t0 tf c iv cc) ord t = piece d codom t0 tf (smul m c) iv cc t).
Proof.
  intros B N Vt Ht Hs. assert (O : blk_ok d ord) by (destruct d; simpl; auto; exfalso; eapply N; eauto).
  destruct (der_matrix_R b d n codom ord taus tf t0 c B O Vt Ht) as (m & s1 & M & E & Rm & Cm & _ & J).
  destruct (der_after _ _ _ _ _ _ _ _ _ Hs E) as (m' & s' & E' & Eq). exists m', s'. split; auto.
  pose proof Eq as (Er & Ec & _). split; [congruence|]. split; [congruence|].
  intros iv cc t Hiv Hcc. rewrite (J iv cc t Hiv Hcc). unfold piece. apply Rsum_ext. intros bb Hbb. apply (f_equal (fun v => v * _)).
  rewrite (smul_eq _ _ _ _ Eq). assert (Ef : blk_fac d (tf iv) ord = (2 / tf iv) ^ ord) by (destruct d; simpl; auto; exfalso; eapply N; eauto).
  rewrite Ef. field_simplify_eq; [ring|]. apply pow_nonzero, two_div; auto.
Qed.

(** ** returned references *)
(** content, now, of the buffer a caller got a reference to *)
Definition held_der {T} (s : bstate T) (n codom ord : nat) : option (smat T) := option_map snd (bs_der s (n, codom, ord)).
Definition held_cont {T} (s : bstate T) (n codom ord : nat) : option (smat T) := option_map snd (bs_cont s (n, codom, ord)).
Lemma der_query_held {T} `{Num T} (b : basis T) n codom ord taus s m s' :
  gspline_derivative_matrix b n codom ord taus s = Ok (m, s') -> held_der s' n codom ord = Some m.
Proof.
  unfold gspline_derivative_matrix. intros E. apply bind_ok in E as (s1 & _ & E). apply bind_ok in E as ([src dest] & _ & E).
  apply bind_ok in E as (d & _ & E). inversion E; subst. unfold held_der. cbn [bs_der]. rewrite upd_same. reflexivity.
Qed.
Lemma cont_query_held {T} `{Num T} (b : basis T) n codom ord taus s m s' :
  continuity_matrix b n codom ord taus s = Ok (m, s') -> held_cont s' n codom ord = Some m.
Proof.
  unfold continuity_matrix. intros E. apply bind_ok in E as (s1 & _ & E). apply bind_ok in E as ([src dest] & _ & E).
  apply bind_ok in E as (d & _ & E). inversion E; subst. unfold held_cont. cbn [bs_cont]. rewrite upd_same. reflexivity.
Qed.

(** ** where the matrices are wrong *)
Definition unit_c (k : nat) : nat -> R := fun i => if Nat.eqb i k then 1 else 0.
Lemma Rsum_unit n k f : (k < n)%nat -> Rsum n (fun i => f i * unit_c k i) = f k.
Proof.
  intros Hk. rewrite (Rsum_delta n k); auto.
  - unfold unit_c. rewrite Nat.eqb_refl. ring.
  - intros i _ Hn. unfold unit_c. destruct (Nat.eqb_spec i k); [contradiction|ring].
Qed.

Lemma cont_legendre_wrong dim g nm1 codom ord (taus : vec R) tf t0 : is_basis (BLegendre dim g) (DLeg dim) ->
  vec_is taus (S nm1) tf -> (forall i, (i < S nm1)%nat -> tf i <> 0) -> (1 <= nm1)%nat -> (1 <= codom)%nat -> (1 <= ord)%nat ->
  exists c m s', continuity_matrix (BLegendre dim g) (S nm1) codom ord taus (bs_init (BLegendre dim g)) = Ok (m, s') /\
    smul m c (codom * nm1) = 0 /\ jump (DLeg dim) codom t0 tf c 1 0 0 = 2 / tf 0%nat.
Proof.
  intros B Vt Ht Hn Hc Ho. assert (Hd : (2 <= dim)%nat) by (destruct B as (_ & ? & _); auto).
  destruct (cont_legendre_0 dim g nm1 codom ord taus tf t0 (unit_c 1) B Vt Ht) as (m & s' & E & _ & _ & _ & J).
  exists (unit_c 1), m, s'. split; auto.
  assert (Z : forall f, Rsum dim (fun bb => f bb * unit_c 1 ((1 * codom + 0) * dim + bb)%nat) = 0).
  { intros f. apply Rsum_zero. intros i Hi. unfold unit_c. destruct (Nat.eqb_spec ((1 * codom + 0) * dim + i) 1); [nia|ring]. }
  split.
  - specialize (J 1%nat 0%nat 0%nat). rewrite Nat.mul_1_r in J. change (0 * codom)%nat with 0%nat in J. rewrite !Nat.add_0_r in J. rewrite J by lia.
    match goal with |- _ - ?z = 0 => replace z with 0 end.
    2: { symmetry. apply Rsum_zero. intros i Hi. unfold unit_c. destruct (Nat.eqb_spec (1 * codom * dim + i) 1); [nia|ring]. }
    change (0 * dim)%nat with 0%nat. cbn [Nat.add]. rewrite (Rsum_unit dim 1 (fun bb => (2 / tf 0%nat) ^ 1 * mpow dim legT 1 (dim - 1)%nat bb)) by lia.
    rewrite mpow_1 by lia. rewrite legT_upper by lia. ring.
  - unfold jump.
    rewrite (is_derive_n_unique _ _ _ _ (piece_derive_n (DLeg dim) codom t0 tf (unit_c 1) 0 0 1 _ (Ht 0%nat ltac:(lia)))).
    rewrite (is_derive_n_unique _ _ _ _ (piece_derive_n (DLeg dim) codom t0 tf (unit_c 1) 1 0 1 _ (Ht 1%nat ltac:(lia)))).
    cbn [d_dim].
    replace (Rsum dim (fun i => unit_c 1 ((1 * codom + 0) * dim + i)%nat * Derive_n (tphi (DLeg dim) (bp t0 tf 1) (tf 1%nat) i) 1 (bp t0 tf 1))) with 0.
    2: { symmetry. rewrite <- (Z (fun i => Derive_n (tphi (DLeg dim) (bp t0 tf 1) (tf 1%nat) i) 1 (bp t0 tf 1))). apply Rsum_ext. intros; ring. }
    change ((0 * codom + 0) * dim)%nat with 0%nat.
    rewrite (Rsum_ext dim _ (fun i => Derive_n (tphi (DLeg dim) (bp t0 tf 0) (tf 0%nat) i) 1 (bp t0 tf 1) * unit_c 1 i)) by (intros; cbn [Nat.add]; ring).
    rewrite Rsum_unit by lia.
    rewrite (is_derive_n_unique (tphi (DLeg dim) (bp t0 tf 0) (tf 0%nat) 1) 1 (bp t0 tf 1) _ (legP_time_derive 1 1 _ _ _)).
    rewrite LD_1_1. simpl. ring.
Qed.

Lemma cont_b01_wrong alpha nm1 codom ord (taus : vec R) tf t0 : 0 < alpha < 1 ->
  vec_is taus (S nm1) tf -> (forall i, (i < S nm1)%nat -> tf i <> 0) -> (1 <= nm1)%nat -> (1 <= codom)%nat ->
  exists c m s', continuity_matrix (B0101 alpha) (S nm1) codom ord taus (bs_init (B0101 alpha)) = Ok (m, s') /\
    smul m c 0 = 2 * b01K alpha /\ jump (D01 alpha) codom t0 tf c 0 0 0 = tf 0%nat * b01K alpha.
Proof.
  intros Ha Vt Ht Hn Hc. set (b := B0101 alpha). assert (B : is_basis b (D01 alpha)) by (split; auto).
  destruct (impl_any_upto b (D01 alpha) ord B) as (Dm & D & HD).
  destruct (ends_R b (D01 alpha) B I I) as (l0 & r0 & El & Vl & Er & Vr).
  assert (Hb : (1 <= b_dim b)%nat) by (cbn; lia).
  destruct (cont_matrix_val b nm1 codom ord taus tf l0 r0 _ _ Dm D Hb Vt El Vl Er Vr HD) as (m & s' & E & Rm & Cm & Vm).
  exists (unit_c 4), m, s'. split; auto. 
  assert (U : forall bb, (bb < 6)%nat -> unit_c 4 ((1 * codom + 0) * 6 + bb)%nat = 0).
  { intros bb Hbb. unfold unit_c. destruct (Nat.eqb_spec ((1 * codom + 0) * 6 + bb) 4); [lia|reflexivity]. }
  split.
  - pose proof (cont_mul b nm1 codom ord tf _ _ _ m (unit_c 4) Cm Vm 0 0 0) as X.
    rewrite !Nat.mul_0_r in X. cbn [Nat.mul Nat.add] in X. rewrite X by lia. cbn [b_dim b].
    match goal with |- _ - ?z = _ => replace z with 0 end.
    2: { symmetry. apply Rsum_zero. intros i Hi. unfold unit_c.
         match goal with |- _ * _ * (if Nat.eqb ?k 4 then _ else _) = 0 => destruct (Nat.eqb_spec k 4) as [Ek|]; [lia|ring] end. }
    rewrite (Rsum_unit 6 4 (fun bb => (2 / tf 0%nat) ^ 0 * (if Nat.eqb 0 0 then phi (D01 alpha) 2 bb 1 else _))) by lia.
    simpl. ring.
  - unfold jump, piece. cbn [Derive_n d_dim].
    rewrite (Rsum_zero 6 (fun bb => unit_c 4 ((1 * codom + 0) * 6 + bb)%nat * _)).
    2: { intros i Hi. rewrite (U i Hi). ring. }
    change ((0 * codom + 0) * 6)%nat with 0%nat.
    rewrite (Rsum_ext 6 _ (fun i => tphi (D01 alpha) (bp t0 tf 0) (tf 0%nat) i (bp t0 tf 1) * unit_c 4 i)) by (intros; cbn [Nat.add]; ring).
    rewrite Rsum_unit by lia. unfold tphi. rewrite bp_S, window_right by (apply Ht; lia). simpl. ring.
Qed.

Lemma der_b01_wrong alpha n codom (taus : vec R) tf t0 t : 0 < alpha < 1 ->
  vec_is taus n tf -> (forall i, (i < n)%nat -> tf i <> 0) -> (1 <= n)%nat -> (1 <= codom)%nat ->
  exists c m s', gspline_derivative_matrix (B0101 alpha) n codom 1 taus (bs_init (B0101 alpha)) = Ok (m, s') /\
    Derive_n (piece (D01 alpha) codom t0 tf c 0 0) 1 t = 2 * b01K alpha /\
    piece (D01 alpha) codom t0 tf (smul m c) 0 0 t = 2 / tf 0%nat * (2 * b01K alpha).
Proof.
  intros Ha Vt Ht Hn Hc. set (b := B0101 alpha). assert (B : is_basis b (D01 alpha)) by (split; auto).
  assert (O : blk_ok (D01 alpha) 1) by (cbn; lia).
  destruct (der_matrix_R b (D01 alpha) n codom 1 taus tf t0 (unit_c 4) B O Vt Ht) as (m & s' & M & E & _ & _ & _ & J).
  exists (unit_c 4), m, s'. split; auto.
  assert (D1 : Derive_n (piece (D01 alpha) codom t0 tf (unit_c 4) 0 0) 1 t = 2 * b01K alpha).
  { rewrite (is_derive_n_unique _ _ _ _ (piece_derive_n (D01 alpha) codom t0 tf (unit_c 4) 0 0 1 _ (Ht 0%nat ltac:(lia)))).
    cbn [d_dim]. change ((0 * codom + 0) * 6)%nat with 0%nat.
    rewrite (Rsum_ext 6 _ (fun i => Derive_n (tphi (D01 alpha) (bp t0 tf 0) (tf 0%nat) i) 1 t * unit_c 4 i)) by (intros; cbn [Nat.add]; ring).
    rewrite Rsum_unit by lia.
    rewrite (is_derive_n_unique (tphi (D01 alpha) (bp t0 tf 0) (tf 0%nat) 4) 1 t _ (b01_time_derive_n (b01K alpha) _ _ 1 4 t (Ht 0%nat ltac:(lia)))).
    simpl. ring. }
  split; auto. rewrite (J 0%nat 0%nat t) in D1 by lia. rewrite <- D1. unfold piece. rewrite <- Rsum_scal. apply Rsum_ext.
  intros i Hi. simpl blk_fac. simpl pow. field. apply Ht; lia.
Qed.

Lemma der_alias_wrong : exists g (t1 t2 : vec R) m1 s1 m2 s2, is_basis (BLegendre 2 g) (DLeg 2) /\
  gspline_derivative_matrix (BLegendre 2 g) 1 1 1 t1 (bs_init (BLegendre 2 g)) = Ok (m1, s1) /\
  held_der s1 1 1 1 = Some m1 /\ sget m1 0 1 = Some 1 /\
  gspline_derivative_matrix (BLegendre 2 g) 1 1 1 t2 s1 = Ok (m2, s2) /\
  exists m, held_der s2 1 1 1 = Some m /\ sget m 0 1 = Some 2.
Proof.
  destruct (leg_ctor_R 2) as (g & Eg & _). set (b := BLegendre 2 g). assert (B : is_basis b (DLeg 2)) by (repeat split; auto).
  exists g, (vec_of_list [2]), (vec_of_list [1]).
  assert (V : forall q : R, vec_is (vec_of_list [q]) 1 (fun _ => q)).
  { intros q. split; [reflexivity|]. intros i Hi. assert (i = 0%nat) by lia. subst. reflexivity. }
  destruct (leg_impl_R 2 1) as (M & E & MM).
  assert (All : forall k, (k <= 1)%nat -> exists m, b_impl b k = Ok m).
  { intros k _. destruct (leg_impl_R 2 k) as (m & Em & _). eauto. }
  destruct (der_matrix_val b 1 1 1 (vec_of_list [2]) (fun _ => 2) M _ (V 2) All E MM) as (m1 & s1 & E1 & _ & _ & V1).
  destruct (der_matrix_val b 1 1 1 (vec_of_list [1]) (fun _ => 1) M _ (V 1) All E MM) as (m2 & s2 & E2 & _ & _ & V2).
  assert (I1 : binv b s1).
  { pose proof (der_query_rel b 1 1 1 (vec_of_list [2]) (bs_init b) (binv_init b)) as X. rewrite E1 in X. apply X. }
  pose proof (der_query_rel b 1 1 1 (vec_of_list [1]) s1 I1) as X. rewrite E2 in X.
  destruct (gspline_derivative_matrix b 1 1 1 (vec_of_list [1]) s1) as [[m3 s3]| |] eqn:E3; simpl in X; try contradiction.
  destruct X as ((_ & _ & Eq) & _).
  exists m1, s1, m3, s3. split; auto. split; auto. split; [eapply der_query_held; eauto|].
  assert (L : mpow 2 legT 1 0%nat 1%nat = 1). { rewrite mpow_1 by lia. unfold legT, mT, Dent. simpl. ring. }
  split.
  - specialize (V1 0 0 0 0 0 1)%nat. cbn [Nat.mul Nat.add] in V1. rewrite V1 by (cbn; lia).
    rewrite !Nat.eqb_refl. cbn [andb npown]. rewrite L. unfold c2. rnum. f_equal. field.
  - split; auto. exists m3. split; [eapply der_query_held; eauto|]. rewrite Eq.
    specialize (V2 0 0 0 0 0 1)%nat. cbn [Nat.mul Nat.add] in V2. rewrite V2 by (cbn; lia).
    rewrite !Nat.eqb_refl. cbn [andb npown]. rewrite L. unfold c2. rnum. f_equal. field.
Qed.
