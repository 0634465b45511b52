(** The interpolation conditions determine the spline: with zero waypoints only
    the zero spline meets them. *)
From Coquelicot Require Import Coquelicot.
From Coq Require Import Reals Lra Lia Arith.
From Verif Require Import RSum RDeriv RPoly LegendreSpec LegendreMath LagrangeSpec LagrangeMath
  Basis0101Spec Basis0101Math Basis0101Proofs SplineSpec InterpSpec BasisFn BasisProofs3 InterpProofs4.
Local Open Scope R_scope.

(** ** monotone functions *)
Lemma mvt (f df : R -> R) a b : (forall u, is_derive f u (df u)) -> a < b -> exists c, a < c < b /\ f b - f a = df c * (b - a).
Proof.
  intros D Hab. destruct (MVT_cor2 f df a b Hab) as (c & E & Hc); [|eauto].
  intros c _. apply is_derive_Reals. apply D.
Qed.
Lemma grows G Q a b : (forall u, is_derive G u (Q u)) -> (forall u, 0 <= Q u) -> a <= b -> G a <= G b.
Proof.
  intros D P [Hab| ->]; [|lra]. destruct (mvt G Q a b D Hab) as (c & _ & E). assert (0 <= Q c * (b - a)); [|lra].
  apply Rmult_le_pos; [auto|lra].
Qed.
Lemma flat G Q a b t : (forall u, is_derive G u (Q u)) -> (forall u, 0 <= Q u) -> G a = G b -> a < t < b -> Q t = 0.
Proof.
  intros D P E Ht. apply (d_unique G t); [apply D|].
  apply (is_derive_ext_loc (fun _ => G a)); [|apply d_const].
  assert (He : 0 < Rmin (t - a) (b - t)) by (apply Rmin_pos; lra).
  exists (mkposreal _ He). intros y By. change (Rabs (y - t) < Rmin (t - a) (b - t)) in By.
  pose proof (Rmin_l (t - a) (b - t)). pose proof (Rmin_r (t - a) (b - t)). apply Rabs_def2 in By.
  pose proof (grows G Q a y D P ltac:(lra)). pose proof (grows G Q y b D P ltac:(lra)). lra.
Qed.
Lemma zero_up (f df : R -> R) a b : (forall u, is_derive f u (df u)) -> f a = 0 -> (forall t, a < t < b -> df t = 0) ->
  forall t, a <= t <= b -> f t = 0.
Proof.
  intros D Z Zd t [[Ht| <-] Hb]; auto. destruct (mvt f df a t D Ht) as (c & Hc & E). rewrite Zd in E by lra. lra.
Qed.
(** derivatives 0..k-1 vanish at a, derivative k on (a, b): all of them vanish on [a, b] *)
Lemma zero_chain (F : nat -> R -> R) k a b : (forall j u, is_derive (F j) u (F (S j) u)) ->
  (forall j, (j < k)%nat -> F j a = 0) -> (forall t, a < t < b -> F k t = 0) ->
  forall j t, (j < k)%nat -> a <= t <= b -> F j t = 0.
Proof.
  intros D Z Zk. assert (G : forall m j, (j + m = k)%nat -> forall t, a < t < b -> F j t = 0).
  { induction m as [|m IH]; intros j Hj t Ht; [replace j with k by lia; auto|].
    apply (zero_up (F j) (F (S j)) a b (D j)); [apply Z; lia| |lra]. apply IH. lia. }
  intros j t Hj Ht. apply (zero_up (F j) (F (S j)) a b (D j)); [apply Z; lia| |lra].
  apply (G (k - S j)%nat). lia.
Qed.

(** ** integration by parts, without the integral *)
Lemma telescope k (a : nat -> R) : Rsum k (fun j => a j - a (S j)) = a 0%nat - a k.
Proof. induction k as [|k IH]; simpl; [ring|]. rewrite IH. ring. Qed.
Definition Gk (F : nat -> R -> R) (k : nat) (t : R) : R := Rsum k (fun j => (-1) ^ j * (F (k - 1 - j)%nat t * F (k + j)%nat t)).
Lemma Gk_derive F k t : (forall j u, is_derive (F j) u (F (S j) u)) ->
  is_derive (Gk F k) t (F k t * F k t - (-1) ^ k * (F 0%nat t * F (k + k)%nat t)).
Proof.
  intros D. unfold Gk. eapply is_derive_eq.
  - apply (is_derive_Rsum k (fun j u => (-1) ^ j * (F (k - 1 - j)%nat u * F (k + j)%nat u))
       (fun j => (-1) ^ j * (F (k - j)%nat t * F (k + j)%nat t) - (-1) ^ S j * (F (k - S j)%nat t * F (k + S j)%nat t))).
    intros j Hj. eapply is_derive_eq.
    + apply d_scal. apply d_mult; apply D.
    + replace (S (k - 1 - j)) with (k - j)%nat by lia. replace (k - 1 - j)%nat with (k - S j)%nat by lia.
      replace (S (k + j)) with (k + S j)%nat by lia. simpl. ring.
  - rewrite (telescope k (fun j => (-1) ^ j * (F (k - j)%nat t * F (k + j)%nat t))).
    replace (k - 0)%nat with k by lia. replace (k + 0)%nat with k by lia. rewrite Nat.sub_diag. simpl. ring.
Qed.

(** ** pieces that fit together *)
Section Kernel.
Variables (n : nat) (b : nat -> R) (F : nat -> nat -> R -> R) (G Q : nat -> R -> R) (k0 : nat).
Hypothesis Hb : forall iv, (iv < n)%nat -> b iv < b (S iv).
Hypothesis DF : forall iv j u, (iv < n)%nat -> is_derive (F iv j) u (F iv (S j) u).
Hypothesis DG : forall iv u, (iv < n)%nat -> is_derive (G iv) u (Q iv u).
Hypothesis PQ : forall iv u, (iv < n)%nat -> 0 <= Q iv u.
Hypothesis ZQ : forall iv u, (iv < n)%nat -> Q iv u = 0 -> F iv k0 u = 0.
Hypothesis JG : forall iv, (S iv < n)%nat -> G iv (b (S iv)) = G (S iv) (b (S iv)).
Hypothesis G0 : G 0%nat (b 0%nat) = 0.
Hypothesis G1 : G (n - 1)%nat (b n) = 0.
Hypothesis J : forall iv j, (S iv < n)%nat -> (j < k0)%nat -> F iv j (b (S iv)) = F (S iv) j (b (S iv)).
Hypothesis F0 : forall j, (j < k0)%nat -> F 0%nat j (b 0%nat) = 0.

Lemma up iv : (iv < n)%nat -> 0 <= G iv (b iv).
Proof.
  induction iv as [|iv IH]; intros Hi; [rewrite G0; lra|]. rewrite <- JG by auto.
  pose proof (grows (G iv) (Q iv) (b iv) (b (S iv)) (fun u => DG iv u ltac:(lia)) (fun u => PQ iv u ltac:(lia))
    (Rlt_le _ _ (Hb iv ltac:(lia)))). specialize (IH ltac:(lia)). lra.
Qed.
Lemma down m : forall iv, (iv + m + 1 = n)%nat -> G iv (b (S iv)) <= 0.
Proof.
  induction m as [|m IH]; intros iv Hi.
  - replace iv with (n - 1)%nat by lia. replace (S (n - 1)) with n by lia. rewrite G1. lra.
  - rewrite JG by lia. specialize (IH (S iv) ltac:(lia)).
    pose proof (grows (G (S iv)) (Q (S iv)) (b (S iv)) (b (S (S iv))) (fun u => DG (S iv) u ltac:(lia)) (fun u => PQ (S iv) u ltac:(lia))
      (Rlt_le _ _ (Hb (S iv) ltac:(lia)))). lra.
Qed.
Lemma inner_zero iv t : (iv < n)%nat -> b iv < t < b (S iv) -> F iv k0 t = 0.
Proof.
  intros Hi Ht. apply ZQ; auto. apply (flat (G iv) (Q iv) (b iv) (b (S iv))); auto.
  pose proof (up iv Hi). pose proof (down (n - 1 - iv) iv ltac:(lia)).
  pose proof (grows (G iv) (Q iv) (b iv) (b (S iv)) (fun u => DG _ u Hi) (fun u => PQ _ u Hi) (Rlt_le _ _ (Hb _ Hi))). lra.
Qed.
Lemma all_zero iv : (iv < n)%nat -> forall j t, (j < k0)%nat -> b iv <= t <= b (S iv) -> F iv j t = 0.
Proof.
  induction iv as [|iv IH]; intros Hi.
  - apply zero_chain; auto. intros; apply inner_zero; auto.
  - apply zero_chain; auto; [|intros; apply inner_zero; auto].
    intros j Hj. rewrite <- J by auto. apply IH; [lia|auto|]. pose proof (Hb iv ltac:(lia)). lra.
Qed.
End Kernel.

(** ** independence of the basis functions *)
Definition desc_ok (d : bdesc) : Prop := match d with DLeg _ => True | DLag n x => distinct n x | D01 a => 0 < a < 1 end.
Lemma is_basis_desc b d : is_basis b d -> desc_ok d.
Proof. destruct b, d; simpl; intros X; try contradiction; try exact I; try tauto. destruct X as (-> & X). exact X. Qed.

Lemma window_inside t0 tau s : 0 < tau -> window t0 tau (t0 + tau * (s + 1) / 2) = s.
Proof. intros. unfold window. field. lra. Qed.
Lemma indep d t0 tau c : desc_ok d -> 0 < tau -> (forall t, t0 < t < t0 + tau -> Rsum (d_dim d) (fun i => c i * tphi d t0 tau i t) = 0) ->
  forall i, (i < d_dim d)%nat -> c i = 0.
Proof.
  intros Od Ht Z.
  assert (Zs : forall s, -1 < s < 1 -> Rsum (d_dim d) (fun i => c i * phi d tau i s) = 0).
  { intros s Hs. rewrite <- (Z (t0 + tau * (s + 1) / 2)).
    - apply Rsum_ext. intros. unfold tphi. now rewrite window_inside.
    - split; nra. }
  intros i Hi. clear Z. destruct d as [dim|n x|a]; cbn [d_dim phi desc_ok] in *.
  - assert (I1 : is_RInt (fun s => Rsum dim (fun j => c j * (legP i s * legP j s))) (-1) 1
        (Rsum dim (fun j => c j * (if Nat.eqb j i then 2 / (2 * INR i + 1) else 0)))).
    { apply (is_RInt_Rsum dim (fun j s => c j * (legP i s * legP j s))). intros j Hj. apply i_scal.
      destruct (Nat.eqb_spec j i) as [->|Ne]; [apply leg_norm|apply leg_orth; auto]. }
    assert (Iz : is_RInt (fun _ => 0 * 0) (-1) 1 0).
    { pose proof (i_scal 0 (fun _ => 0) (-1) 1 _ (i_exists (fun _ => 0) (-1) 1 (fun x => c_const 0 x))) as X. rewrite Rmult_0_l in X. exact X. }
    assert (I2 : is_RInt (fun s => Rsum dim (fun j => c j * (legP i s * legP j s))) (-1) 1 0).
    { apply (is_RInt_ext (fun s => 0 * 0)); [|exact Iz]. intros s Hs.
      rewrite Rmin_left, Rmax_right in Hs by lra. rewrite Rmult_0_l. symmetry. rewrite <- (Rmult_0_r (legP i s)). rewrite <- (Zs s) at 1 by auto.
      rewrite <- Rsum_scal. apply Rsum_ext. intros; ring. }
    pose proof (i_unique _ _ _ _ _ I1 I2) as E.
    rewrite (Rsum_delta dim i) in E; auto.
    + rewrite Nat.eqb_refl in E. apply Rmult_integral in E. destruct E as [E|E]; auto. exfalso.
      assert (0 < 2 / (2 * INR i + 1)); [|lra]. apply Rdiv_lt_0_compat; [lra|]. pose proof (pos_INR i). lra.
    + intros j Hj Ne. apply Nat.eqb_neq in Ne. rewrite Ne. ring.
  - assert (P : isPoly n (fun s => Rsum n (fun j => c j * lagr n x j s))).
    { apply isPoly_Rsum. intros j Hj. apply isPoly_scal. apply lagr_poly; auto. }
    assert (A : forall s, Rsum n (fun j => c j * lagr n x j s) = 0).
    { apply (poly_zero n _ (fun k => INR (S k) / INR (S n)) P).
      - intros k l Hk Hl Ne E. apply Ne. apply eq_add_S. apply INR_eq. pose proof (lt_0_INR (S n) ltac:(lia)).
        apply (Rmult_eq_reg_r (/ INR (S n))); [exact E|]. apply Rinv_neq_0_compat. lra.
      - intros k Hk. apply Zs. pose proof (lt_0_INR (S n) ltac:(lia)). pose proof (lt_0_INR (S k) ltac:(lia)).
        pose proof (lt_INR (S k) (S n) ltac:(lia)). split.
        + assert (0 < INR (S k) / INR (S n)) by (apply Rdiv_lt_0_compat; auto). lra.
        + apply (Rmult_lt_reg_r (INR (S n))); auto. unfold Rdiv. rewrite Rmult_assoc, Rinv_l, Rmult_1_l, Rmult_1_r by lra. auto. }
    rewrite <- (A (x i)). rewrite (Rsum_delta n i); auto.
    + rewrite lagr_self by auto. ring.
    + intros j Hj Ne. rewrite lagr_other by auto. ring.
  - assert (Dz : forall k, Rsum 6 (fun i => c i * fD k i 0) = 0).
    { intros k. pose (q := tau * b01K a). assert (Hq : 0 < q) by (apply Rmult_lt_0_compat; [auto|apply b01K_pos]).
      assert (Dn : forall u, is_derive_n (fun p => Rsum 6 (fun i => c i * b01f i p)) k u (Rsum 6 (fun i => c i * fD k i u))).
      { intros u. apply (is_derive_n_chain (fun k u => Rsum 6 (fun i => c i * fD k i u))). intros j w.
        apply (is_derive_Rsum 6 (fun i u => c i * fD j i u) (fun i => c i * fD (S j) i w)). intros. apply d_scal, fD_derive. }
      rewrite <- (is_derive_n_unique _ _ _ _ (Dn 0)). rewrite (Derive_n_ext_loc _ (fun _ => 0)).
      - destruct k; [reflexivity|]. apply Derive_n_const.
      - exists (mkposreal q Hq). intros p' Bp. set (p := p' : R). change (Rabs (p - 0) < q) in Bp. change (Rsum 6 (fun i => c i * b01f i p) = 0). clearbody p. clear p'. apply Rabs_def2 in Bp.
        rewrite <- (Zs (p / q)).
        + apply Rsum_ext. intros. fold q. f_equal. f_equal. field. lra.
        + split; apply (Rmult_lt_reg_r q); auto; unfold Rdiv; rewrite Rmult_assoc, Rinv_l by lra; lra. }
    pose proof (Dz 0%nat) as D0. pose proof (Dz 1%nat) as D1. pose proof (Dz 2%nat) as D2. pose proof (Dz 3%nat) as D3.
    pose proof (Dz 4%nat) as D4. pose proof (Dz 5%nat) as D5. unfold Rsum in *. simpl in *.
    rewrite Ropp_0, exp_0, cos_0, sin_0 in *. do 6 (try destruct i as [|i]); [lra..|lia].
Qed.

(** ** what the derivatives of the functions of each basis satisfy *)
Lemma poly_top n f x : isPoly n f -> Derive_n f n x = 0.
Proof.
  intros [c Hc]. rewrite (Derive_n_ext f (peval n c)) by auto. rewrite (is_derive_n_unique _ _ _ _ (peval_derive_n n c n x)).
  assert (Z : forall m k, (k < n)%nat -> (n <= m + k)%nat -> pdn n c m k = 0).
  { induction m as [|m IH]; intros k Hk Hm; [lia|]. simpl. unfold pd. destruct (Nat.ltb_spec (S k) n); auto.
    rewrite IH by lia. ring. }
  apply Rsum_zero. intros k Hk. rewrite Z by lia. ring.
Qed.
Lemma wD_top d tau i s : (i < d_dim d)%nat -> (forall a, d <> D01 a) -> wD d tau (d_dim d) i s = 0.
Proof.
  intros Hi N. destruct d as [dim|n x|a]; simpl in *.
  - rewrite LD_low by auto. ring.
  - rewrite poly_top by (apply lagr_poly; auto). ring.
  - destruct (N a eq_refl).
Qed.
Lemma b01K4 a : 0 < a < 1 -> (2 * b01K a) ^ 4 * (4 * (1 - a)) = a.
Proof.
  intros Ha. unfold b01K. assert (P : 0 < a / (1 - a)) by (apply Rdiv_lt_0_compat; lra).
  replace ((2 * (sqrt 2 / 4 * Rpower (a / (1 - a)) (/ 4))) ^ 4) with ((sqrt 2 * sqrt 2) ^ 2 / 16 * (Rpower (a / (1 - a)) (/ 4)) ^ 4) by field.
  rewrite sqrt_sqrt by lra. rewrite <- (Rpower_pow 4) by apply exp_pos. rewrite Rpower_mult.
  replace (/ 4 * INR 4) with 1 by (simpl; field). rewrite Rpower_1 by auto. field. lra.
Qed.
Lemma wD_01 a tau i s : 0 < a < 1 -> (i < 6)%nat -> a * wD (D01 a) tau 2 i s + (1 - a) * wD (D01 a) tau 6 i s = 0.
Proof.
  intros Ha Hi. unfold wD. set (p := tau * b01K a * s).
  assert (E : fD 6 i p = - (4) * fD 2 i p).
  { do 6 (try destruct i as [|i]); [simpl; ring..|lia]. }
  rewrite E. replace ((2 * b01K a) ^ 6) with ((2 * b01K a) ^ 2 * (2 * b01K a) ^ 4) by ring.
  pose proof (b01K4 a Ha) as K.
  replace (a * ((2 * b01K a) ^ 2 * fD 2 i p) + (1 - a) * ((2 * b01K a) ^ 2 * (2 * b01K a) ^ 4 * (- (4) * fD 2 i p)))
    with ((2 * b01K a) ^ 2 * fD 2 i p * (a - (2 * b01K a) ^ 4 * (4 * (1 - a)))) by ring.
  rewrite K. ring.
Qed.

(** ** the kernel *)
Section Unique.
Variables (d : bdesc) (h c n : nat) (t0 : R) (tf cf : nat -> R).
Hypothesis Od : desc_ok d.
Hypothesis Hh : (1 <= h)%nat.
Hypothesis Hn : (1 <= n)%nat.
Hypothesis Hd : d_dim d = (2 * h)%nat.
Hypothesis Ht : forall i, (i < n)%nat -> 0 < tf i.
Hypothesis Sol : interpolates d c n t0 tf (fun _ _ => 0) cf.
Variable cc : nat.
Hypothesis Hc : (cc < c)%nat.
Let F iv j t := Derive_n (piece d c t0 tf cf iv cc) j t.
Let b := bp t0 tf.

Lemma half : (2 * h / 2 = h)%nat.
Proof. rewrite Nat.mul_comm. apply Nat.div_mul. lia. Qed.
Lemma F_derive iv j u : (iv < n)%nat -> is_derive (F iv j) u (F iv (S j) u).
Proof.
  intros Hi. pose proof (piece_derive_n d c t0 tf cf iv cc (S j) u ltac:(specialize (Ht iv Hi); lra)) as D.
  unfold F at 2. rewrite (is_derive_n_unique _ _ _ _ D). exact D.
Qed.
Lemma F_start iv : (iv < n)%nat -> F iv 0 (b iv) = 0.
Proof. intros Hi. pose proof (Sol (CStart iv cc) (conj Hi Hc)) as E. unfold residual in E. unfold F, b. simpl. lra. Qed.
Lemma F_end iv : (iv < n)%nat -> F iv 0 (b (S iv)) = 0.
Proof. intros Hi. pose proof (Sol (CEnd iv cc) (conj Hi Hc)) as E. unfold residual in E. unfold F, b. simpl. lra. Qed.
Lemma F_cont iv j : (S iv < n)%nat -> (1 <= j <= 2 * h - 2)%nat -> F iv j (b (S iv)) = F (S iv) j (b (S iv)).
Proof.
  intros Hi Hj. destruct j as [|j]; [lia|]. pose proof (Sol (CCont iv cc j)) as E. unfold cond_ok, residual in E. rewrite Hd in E.
  specialize (E ltac:(lia)). unfold F, b. lra.
Qed.
Lemma F_first j : (j < h)%nat -> F 0 j (b 0) = 0.
Proof.
  intros Hj. destruct j as [|j]; [apply F_start; lia|]. pose proof (Sol (CFirst cc j)) as E. unfold cond_ok, residual in E.
  rewrite Hd, half in E. unfold F, b. apply E. lia.
Qed.
Lemma F_last j : (j < h)%nat -> F (n - 1) j (b n) = 0.
Proof.
  intros Hj. destruct j as [|j].
  - replace n with (S (n - 1)) at 2 by lia. apply F_end. lia.
  - pose proof (Sol (CLast cc j)) as E. unfold cond_ok, residual in E. rewrite Hd, half in E. unfold F, b. apply E. lia.
Qed.
Lemma F_exp iv k t : (iv < n)%nat -> F iv k t =
  Rsum (d_dim d) (fun i => cf ((iv * c + cc) * d_dim d + i)%nat * wD d (tf iv) k i (window (bp t0 tf iv) (tf iv) t)).
Proof.
  intros Hi. assert (T : tf iv <> 0) by (specialize (Ht iv Hi); lra). unfold F.
  rewrite (is_derive_n_unique _ _ _ _ (piece_derive_n d c t0 tf cf iv cc k t T)).
  apply Rsum_ext. intros i Hi'. rewrite wD_tphi by auto. reflexivity.
Qed.
Lemma Gk_joint iv k : (S iv < n)%nat -> (k <= h)%nat -> Gk (F iv) k (b (S iv)) = Gk (F (S iv)) k (b (S iv)).
Proof.
  intros Hi Hk. unfold Gk. apply Rsum_ext. intros j Hj. f_equal. destruct (Nat.eq_dec (k - 1 - j) 0) as [E|E].
  - rewrite E, F_end, F_start by lia. ring.
  - rewrite !(F_cont iv) by lia. ring.
Qed.
Lemma Gk_first k : (k <= h)%nat -> Gk (F 0) k (b 0) = 0.
Proof. intros Hk. apply Rsum_zero. intros j Hj. rewrite F_first by lia. ring. Qed.
Lemma Gk_last k : (k <= h)%nat -> Gk (F (n - 1)) k (b n) = 0.
Proof. intros Hk. apply Rsum_zero. intros j Hj. rewrite F_last by lia. ring. Qed.
Lemma b_lt iv : (iv < n)%nat -> b iv < b (S iv).
Proof. intros Hi. unfold b. rewrite bp_S. specialize (Ht iv Hi). lra. Qed.
Lemma F_joint iv j : (S iv < n)%nat -> (j < h)%nat -> F iv j (b (S iv)) = F (S iv) j (b (S iv)).
Proof.
  intros Hi Hj. destruct j as [|j]; [rewrite F_end, F_start by lia; auto|]. apply F_cont; lia.
Qed.

Lemma piece_zero iv t : (iv < n)%nat -> b iv <= t <= b (S iv) -> F iv 0 t = 0.
Proof.
  intros Hi Hw. assert (C : (forall a, d <> D01 a) \/ exists a, d = D01 a).
  { destruct d; [left; discriminate..|right; eauto]. }
  destruct C as [N|(a & E)].
  - apply (all_zero n b F (fun iv => Gk (F iv) h) (fun iv t => F iv h t * F iv h t) h); auto using b_lt, F_derive, F_joint, F_first, Gk_joint, Gk_last.
    + intros i u Hi'. eapply is_derive_eq; [apply Gk_derive; intros; apply F_derive; auto|].
      replace (h + h)%nat with (d_dim d) by lia. rewrite (F_exp i (d_dim d)) by auto. rewrite Rsum_zero; [ring|].
      intros j Hj. rewrite wD_top by auto. ring.
    + intros i u _. apply Rle_0_sqr.
    + intros i u _ Z. apply Rmult_integral in Z. tauto.
    + apply (Gk_first h). lia.
  - assert (Ha : 0 < a < 1). { revert Od. rewrite E. auto. }
    assert (h3 : h = 3%nat). { revert Hd. rewrite E. simpl. lia. }
    apply (all_zero n b F (fun iv t => a * Gk (F iv) 1 t + (1 - a) * Gk (F iv) 3 t)
        (fun iv t => a * (F iv 1%nat t * F iv 1%nat t) + (1 - a) * (F iv 3%nat t * F iv 3%nat t)) 1);
      auto using b_lt, F_derive.
    + intros i u Hi'. eapply is_derive_eq.
      { apply d_plus; apply d_scal; apply Gk_derive; intros; apply F_derive; auto. }
      simpl (1 + 1)%nat. simpl (3 + 3)%nat.
      assert (Z : a * F i 2%nat u + (1 - a) * F i 6%nat u = 0).
      { rewrite (F_exp i 2), (F_exp i 6) by auto. rewrite <- !Rsum_scal, <- Rsum_plus. apply Rsum_zero. intros j Hj.
        rewrite E in *. pose proof (wD_01 a (tf i) j (window (bp t0 tf i) (tf i) u) Ha Hj) as X.
        match goal with |- a * (?x * ?y) + (1 - a) * (?x * ?z) = 0 => replace (a * (x * y) + (1 - a) * (x * z)) with (x * (a * y + (1 - a) * z)) by ring end.
        rewrite X. ring. }
      transitivity (a * (F i 1%nat u * F i 1%nat u) + (1 - a) * (F i 3%nat u * F i 3%nat u) + F i 0%nat u * (a * F i 2%nat u + (1 - a) * F i 6%nat u)); [ring|].
      rewrite Z. ring.
    + intros i u _. pose proof (Rle_0_sqr (F i 1%nat u)). pose proof (Rle_0_sqr (F i 3%nat u)). unfold Rsqr in *. nra.
    + intros i u _ Z. pose proof (Rle_0_sqr (F i 1%nat u)). pose proof (Rle_0_sqr (F i 3%nat u)). unfold Rsqr in *.
      assert (F i 1%nat u * F i 1%nat u = 0) as X by nra. apply Rmult_integral in X. tauto.
    + intros i Hi'. now rewrite !(Gk_joint i) by lia.
    + rewrite !Gk_first by lia. ring.
    + rewrite !Gk_last by lia. ring.
    + intros i j Hi' Hj. apply F_joint; lia.
    + intros j Hj. apply F_first; lia.
Qed.
Lemma coef_zero iv bb : (iv < n)%nat -> (bb < 2 * h)%nat -> cf ((iv * c + cc) * (2 * h) + bb)%nat = 0.
Proof.
  intros Hi Hb. rewrite <- Hd in *. apply (indep d (bp t0 tf iv) (tf iv) (fun i => cf ((iv * c + cc) * d_dim d + i)%nat)); auto.
  intros t Hw. apply (piece_zero iv t Hi). unfold b. rewrite bp_S. lra.
Qed.
End Unique.

Theorem kernel d h c n t0 tf cf : desc_ok d -> (1 <= h)%nat -> (1 <= n)%nat -> d_dim d = (2 * h)%nat ->
  (forall i, (i < n)%nat -> 0 < tf i) -> interpolates d c n t0 tf (fun _ _ => 0) cf ->
  forall j, (j < 2 * h * c * n)%nat -> cf j = 0.
Proof.
  intros Od Hh Hn Hd Ht Sol j Hj.
  assert (E : exists iv cc bb, (iv < n /\ cc < c /\ bb < 2 * h)%nat /\ j = ((iv * c + cc) * (2 * h) + bb)%nat).
  { exists (j / (2 * h) / c)%nat, ((j / (2 * h)) mod c)%nat, (j mod (2 * h))%nat.
    assert (c <> 0)%nat by (intros ->; lia).
    pose proof (Nat.div_mod j (2 * h) ltac:(lia)) as E1. pose proof (Nat.div_mod (j / (2 * h)) c ltac:(lia)) as E2.
    pose proof (Nat.mod_upper_bound j (2 * h) ltac:(lia)). pose proof (Nat.mod_upper_bound (j / (2 * h)) c ltac:(lia)).
    repeat split; auto.
    - apply Nat.div_lt_upper_bound; [lia|]. apply Nat.div_lt_upper_bound; lia.
    - rewrite (Nat.mul_comm _ c). rewrite <- E2. rewrite Nat.mul_comm. exact E1. }
  destruct E as (iv & cc & bb & (Hi & Hc & Hb) & ->). exact (coef_zero d h c n t0 tf cf Od Hh Hn Hd Ht Sol cc Hc iv bb Hi Hb).
Qed.
