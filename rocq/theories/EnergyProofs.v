(** The interpolating spline has the least cost. *)
From Coquelicot Require Import Coquelicot.
From Coq Require Import Reals Lra Lia Arith.
From Verif Require Import RSum RDeriv LegendreSpec LagrangeSpec Basis0101Spec SplineSpec InterpSpec BasisFn BasisProofs3 InterpProofs4 InterpMath
  GSplineProofs3 InterpProofs7 EnergySpec EnergyMath.
Local Open Scope R_scope.

Lemma weight_poly d k : (forall a, d <> D01 a) -> cost_weight d k = if Nat.eqb k (d_dim d / 2) then 1 else 0.
Proof. intros N. destruct d as [| |a]; auto. now elim (N a). Qed.
Lemma poly_or_01 d : (forall a, d <> D01 a) \/ exists a, d = D01 a.
Proof. destruct d; [left; discriminate..|right; eauto]. Qed.
Lemma weight_nonneg d k : desc_ok d -> 0 <= cost_weight d k.
Proof.
  intros Od. unfold cost_weight. destruct d as [m|m x|a]; try (destruct Nat.eqb; lra).
  simpl in Od. destruct Nat.eqb; [lra|]. destruct Nat.eqb; lra.
Qed.

Section Apply.
Variables (d : bdesc) (h c n : nat) (t0 : R) (tf cf : nat -> R) (W : nat -> nat -> R) (cc : nat).
Hypothesis Od : desc_ok d.
Hypothesis Hh : (1 <= h)%nat.
Hypothesis Hn : (1 <= n)%nat.
Hypothesis Hd : d_dim d = (2 * h)%nat.
Hypothesis Ht : forall i, (i < n)%nat -> 0 < tf i.
Hypothesis Sol : interpolates d c n t0 tf W cf.
Hypothesis Hc : (cc < c)%nat.
Let F iv j t := Derive_n (piece d c t0 tf cf iv cc) j t.
Let b := bp t0 tf.
Let w := cost_weight d.

Lemma weight_half : (d_dim d / 2 = h)%nat.
Proof. rewrite Hd, Nat.mul_comm. apply Nat.div_mul. lia. Qed.
Lemma w_nonneg k : 0 <= w k.
Proof. apply weight_nonneg. exact Od. Qed.
Lemma h_01 a : d = D01 a -> h = 3%nat.
Proof. intros E. rewrite E in Hd. simpl in Hd. lia. Qed.
Lemma w_top : 0 < w h.
Proof.
  unfold w. destruct (poly_or_01 d) as [N|(a & E)].
  - rewrite weight_poly, weight_half, Nat.eqb_refl by auto. lra.
  - rewrite (h_01 a E). pose proof Od as O. rewrite E in *. simpl in *. lra.
Qed.
Lemma euler iv u : (iv < n)%nat -> Rsum (S h) (fun k => w k * ((-1) ^ k * F iv (k + k)%nat u)) = 0.
Proof.
  intros Hi.
  assert (Exp : forall k, F iv k u = Rsum (d_dim d) (fun i => cf ((iv * c + cc) * d_dim d + i)%nat * wD d (tf iv) k i (window (bp t0 tf iv) (tf iv) u)))
    by (intros; apply (F_exp d c n t0 tf cf Ht cc iv k u Hi)).
  destruct (poly_or_01 d) as [N|(a & E)].
  - apply Rsum_zero. intros k Hk. destruct (Nat.eq_dec k h) as [->|Nk].
    + replace (h + h)%nat with (d_dim d) by lia. rewrite Exp, Rsum_zero; [ring|]. intros j Hj. rewrite wD_top by auto. ring.
    + unfold w. rewrite weight_poly, weight_half by auto. destruct (Nat.eqb_spec k h); [lia|ring].
  - pose proof (h_01 a E) as h3. assert (Ha : 0 < a < 1) by (revert Od; rewrite E; auto).
    assert (Z : a * F iv 2%nat u + (1 - a) * F iv 6%nat u = 0).
    { rewrite !Exp, <- !Rsum_scal, <- Rsum_plus. apply Rsum_zero. intros j Hj. rewrite E in *.
      pose proof (wD_01 a (tf iv) j (window (bp t0 tf iv) (tf iv) u) Ha Hj) as X.
      match goal with |- a * (?x * ?y) + (1 - a) * (?x * ?z) = 0 => replace (a * (x * y) + (1 - a) * (x * z)) with (x * (a * y + (1 - a) * z)) by ring end.
      rewrite X. ring. }
    rewrite h3. unfold w, cost_weight. rewrite E. cbn [Rsum Nat.eqb Nat.add]. transitivity (- (a * F iv 2%nat u + (1 - a) * F iv 6%nat u)); [ring|rewrite Z; ring].
Qed.
Lemma joint_S iv j : (S iv < n)%nat -> (j <= 2 * h - 2)%nat -> F iv j (b (S iv)) = F (S iv) j (b (S iv)).
Proof.
  intros Hi Hj. destruct j as [|j].
  - pose proof (Sol (CEnd iv cc) ltac:(simpl; lia)) as E1. pose proof (Sol (CStart (S iv) cc) ltac:(simpl; lia)) as E2. unfold residual in *. unfold F, b. simpl. lra.
  - pose proof (Sol (CCont iv cc j) ltac:(simpl; lia)) as E. unfold residual in E. unfold F, b. lra.
Qed.

Theorem least_pieces p : piecewise_competitor h n b (fun k => W k cc) p ->
  exists Vs Vp : nat -> R,
  (forall iv, (iv < n)%nat -> is_RInt (cost_at w h (piece d c t0 tf cf iv cc)) (b iv) (b (S iv)) (Vs iv)) /\
  (forall iv, (iv < n)%nat -> is_RInt (cost_at w h (p iv)) (b iv) (b (S iv)) (Vp iv)) /\
  Rsum n Vs <= Rsum n Vp /\
  (Rsum n Vp = Rsum n Vs -> forall iv t, (iv < n)%nat -> b iv <= t <= b (S iv) -> p iv t = piece d c t0 tf cf iv cc t).
Proof.
  intros (Pp & Pj & Pe). pose proof weight_half as Eh.
  apply (least_cost n h b w F (fun iv j t => Derive_n (p iv) j t)); auto using w_nonneg, w_top, euler, joint_S.
  - intros iv Hi. unfold b. rewrite bp_S. specialize (Ht iv Hi). lra.
  - intros iv j u Hi. apply (F_derive d c n t0 tf cf Ht cc iv j u Hi).
  - intros iv j u Hi Hj. destruct (Pp iv Hi) as ((S1 & _) & _). apply Derive_correct. apply S1. exact Hj.
  - intros iv u Hi. destruct (Pp iv Hi) as ((_ & S2) & _). apply S2.
  - intros iv j Hi Hj. destruct j as [|j].
    + destruct (Pp iv ltac:(lia)) as (_ & _ & E1). destruct (Pp (S iv) Hi) as (_ & E2 & _). simpl. rewrite E1, E2. reflexivity.
    + apply Pj; lia.
  - intros iv Hi. destruct (Pp iv Hi) as (_ & E1 & _). pose proof (Sol (CStart iv cc) (conj Hi Hc)) as E. unfold residual in E. unfold F, b in *. simpl. lra.
  - intros iv Hi. destruct (Pp iv Hi) as (_ & _ & E1). pose proof (Sol (CEnd iv cc) (conj Hi Hc)) as E. unfold residual in E. unfold F, b in *. simpl. lra.
  - intros j Hj. destruct j as [|j].
    + destruct (Pp 0%nat Hn) as (_ & E1 & _). pose proof (Sol (CStart 0 cc) ltac:(simpl; lia)) as E. unfold residual in E. unfold F, b in *. simpl in *. lra.
    + rewrite (proj1 (Pe (S j) ltac:(lia))). pose proof (Sol (CFirst cc j)) as E. unfold cond_ok, residual in E. rewrite Eh in E.
      symmetry. apply E. lia.
  - intros j Hj. destruct j as [|j].
    + destruct (Pp (n - 1)%nat ltac:(lia)) as (_ & _ & E1). pose proof (Sol (CEnd (n - 1) cc) ltac:(simpl; lia)) as E. unfold residual in E.
      replace (S (n - 1)) with n in * by lia. unfold F, b in *. simpl in *. lra.
    + rewrite (proj2 (Pe (S j) ltac:(lia))). pose proof (Sol (CLast cc j)) as E. unfold cond_ok, residual in E. rewrite Eh in E.
      symmetry. apply E. lia.
Qed.

Lemma chain_sum (q : R -> R) (V : nat -> R) : (forall iv, (iv < n)%nat -> is_RInt q (b iv) (b (S iv)) (V iv)) -> is_RInt q t0 (b n) (Rsum n V).
Proof.
  intros I. assert (K : forall m, (m <= n)%nat -> is_RInt q t0 (b m) (Rsum m V)); [|apply K; lia].
  induction m as [|m IH]; intros Hm.
  - replace (b 0) with t0 by (unfold b, bp; simpl; ring). apply @is_RInt_point.
  - cbn [Rsum]. apply (is_RInt_Chasles q t0 (b m) (b (S m))); [apply IH; lia|apply I; lia].
Qed.
Lemma which_piece t : t0 <= t <= b n -> exists iv, (iv < n)%nat /\ b iv <= t <= b (S iv).
Proof.
  intros [A B]. assert (K : forall m, (1 <= m <= n)%nat -> t <= b m -> exists iv, (iv < m)%nat /\ b iv <= t <= b (S iv)).
  { induction m as [|m IH]; intros Hm Hb; [lia|]. destruct (Rle_dec (b m) t) as [L|L]; [exists m; split; [lia|split; auto]|].
    destruct m as [|m]. { unfold b, bp in L. simpl in L. lra. }
    destruct (IH ltac:(lia) ltac:(lra)) as (iv & Hi & Hv). exists iv. split; [lia|auto]. }
  apply (K n); auto; lia.
Qed.
Lemma cost_sfun iv t : (iv < n)%nat -> b iv < t < b (S iv) -> cost_at w h (sfun d c n t0 tf cf cc) t = cost_at w h (piece d c t0 tf cf iv cc) t.
Proof.
  intros Hi Hv. unfold cost_at. apply Rsum_ext. intros k _. f_equal. f_equal. apply Derive_n_ext_loc.
  assert (In : inside t0 tf n t iv) by (split; [auto|split; right; apply Hv]).
  generalize (inside_locally t0 tf n t iv Ht In). apply filter_imp. intros u U. unfold sfun. now rewrite U.
Qed.
Lemma cost_spline V : (forall iv, (iv < n)%nat -> is_RInt (cost_at w h (piece d c t0 tf cf iv cc)) (b iv) (b (S iv)) (V iv)) ->
  is_RInt (cost_at w h (sfun d c n t0 tf cf cc)) t0 (b n) (Rsum n V).
Proof.
  intros I. apply chain_sum. intros iv Hi. apply (is_RInt_ext (cost_at w h (piece d c t0 tf cf iv cc))); auto.
  assert (b iv < b (S iv)) by (unfold b; rewrite bp_S; specialize (Ht iv Hi); lra).
  intros t Hv. rewrite Rmin_left, Rmax_right in Hv by lra. symmetry. apply cost_sfun; auto.
Qed.
Lemma sfun_on iv t : (iv < n)%nat -> b iv <= t <= b (S iv) -> sfun d c n t0 tf cf cc t = piece d c t0 tf cf iv cc t.
Proof.
  intros Hi Hv. destruct (Req_dec t (b iv)) as [->|N].
  - unfold b. rewrite (sfun_bp d c n t0 tf cf W iv cc) by (auto; lia).
    pose proof (Sol (CStart iv cc) (conj Hi Hc)) as E. unfold residual in E. lra.
  - destruct (Req_dec t (b (S iv))) as [->|N2].
    + unfold b. rewrite (sfun_bp d c n t0 tf cf W (S iv) cc) by (auto; lia).
      pose proof (Sol (CEnd iv cc) (conj Hi Hc)) as E. unfold residual in E. lra.
    + unfold sfun. rewrite (inside_locate t0 tf n t iv); auto. split; [auto|]. unfold b in *. split; right; lra.
Qed.
Theorem least_function f : competitor h n b (fun k => W k cc) f ->
  exists Vs Vf, is_RInt (cost_at w h (sfun d c n t0 tf cf cc)) t0 (b n) Vs /\ is_RInt (cost_at w h f) t0 (b n) Vf /\
  Vs <= Vf /\ (Vf = Vs -> forall t, t0 <= t <= b n -> f t = sfun d c n t0 tf cf cc t).
Proof.
  intros (Sf & Wf & Ef).
  destruct (least_pieces (fun _ => f)) as (Vs & Vp & I1 & I2 & L & U).
  { split; [|split]; auto. intros iv Hi. split; auto. split; apply Wf; lia. }
  exists (Rsum n Vs), (Rsum n Vp). split; [apply cost_spline; auto|]. split; [apply chain_sum; auto|]. split; auto.
  intros E t Hv. destruct (which_piece t Hv) as (iv & Hi & Hp). rewrite (U E iv t Hi Hp). symmetry. apply sfun_on; auto.
Qed.
End Apply.
