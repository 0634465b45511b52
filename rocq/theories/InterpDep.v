(** How the interpolating spline depends on the waypoints: linearity, independence
    of the components, stability. *)
From Coquelicot Require Import Coquelicot.
From Coq Require Import List Arith Lia Bool ZArith Reals Lra.
From Verif Require Import Num Outcome LinAlg RSum RDeriv RGauss LegendreSpec LagrangeSpec BasisModel SplineSpec BasisFn BasisProofs3
  ToolsModel GSplineModel GSplineProofs GSplineProofs2 GSplineProofs5 InterpModel InterpSpec SolverSpec InterpProofs3 InterpProofs4 InterpProofs5 InterpMath InterpMath2 InterpProofs7 InterpProofs8
  OptProofs EnergySpec EnergyMath EnergyProofs.
Import ListNotations.
Local Open Scope R_scope.

(** the locate-th piece exists *)
Lemma locate_lt t0 tf n t : (1 <= n)%nat -> (locate t0 tf n t < n)%nat.
Proof.
  intros Hn. unfold locate. assert (B : forall m, (before (bp t0 tf) t m <= m)%nat); [|specialize (B (n - 1)%nat); lia].
  induction m as [|m IH]; cbn [before]; [lia|]. destruct Rlt_dec; lia.
Qed.
Lemma index_lt dim c n iv cc bb : (iv < n)%nat -> (cc < c)%nat -> (bb < dim)%nat -> ((iv * c + cc) * dim + bb < dim * c * n)%nat.
Proof. intros. assert (iv * c + cc < n * c)%nat by nia. nia. Qed.

Section Dep.
Variables (d : bdesc) (h n : nat) (t0 : R) (tf : nat -> R).
Hypothesis Od : desc_ok d.
Hypothesis Hh : (1 <= h)%nat.
Hypothesis Hn : (1 <= n)%nat.
Hypothesis Hd : d_dim d = (2 * h)%nat.
Hypothesis P : forall i, (i < n)%nat -> 0 < tf i.
Lemma lens_ne i : (i < n)%nat -> tf i <> 0.
Proof. intros Hi. specialize (P i Hi). lra. Qed.

(** ** linearity *)
Lemma piece_lin c cf1 cf2 cf a b iv cc t : (iv < n)%nat -> (cc < c)%nat ->
  (forall j, (j < d_dim d * c * n)%nat -> cf j = a * cf1 j + b * cf2 j) ->
  piece d c t0 tf cf iv cc t = a * piece d c t0 tf cf1 iv cc t + b * piece d c t0 tf cf2 iv cc t.
Proof.
  intros Hi Hc E. unfold piece. rewrite <- !Rsum_scal, <- Rsum_plus. apply Rsum_ext. intros bb Hb. rewrite E by (apply index_lt; auto). ring.
Qed.
Lemma residual_lin c cf1 cf2 W1 W2 W a b q : cond_ok (d_dim d) c n q ->
  (forall k cc, (k <= n)%nat -> (cc < c)%nat -> W k cc = a * W1 k cc + b * W2 k cc) ->
  residual d c n t0 tf W (fun j => a * cf1 j + b * cf2 j) q = a * residual d c n t0 tf W1 cf1 q + b * residual d c n t0 tf W2 cf2 q.
Proof.
  intros Ok E. rewrite !(residual_form d c n t0 _ tf _ q Hn lens_ne Ok). rewrite !(form_linear d c n tf _ q Hn Ok).
  assert (Er : rhs_of W q = a * rhs_of W1 q + b * rhs_of W2 q).
  { destruct q as [iv cc|iv cc|iv cc k|cc k|cc k]; cbn [rhs_of cond_ok] in *; try (apply E; lia); change (@n0 R Rnum) with 0; ring. }
  rewrite Er.
  transitivity (a * Rsum (d_dim d * c * n) (fun j => form d c n (unitv j) tf q * cf1 j) + b * Rsum (d_dim d * c * n) (fun j => form d c n (unitv j) tf q * cf2 j) - (a * rhs_of W1 q + b * rhs_of W2 q)); [|ring].
  f_equal. rewrite <- !Rsum_scal, <- Rsum_plus. apply Rsum_ext. intros; ring.
Qed.
Theorem interp_linear c cf1 cf2 cf W1 W2 W a b :
  interpolates d c n t0 tf W1 cf1 -> interpolates d c n t0 tf W2 cf2 -> interpolates d c n t0 tf W cf ->
  (forall k cc, (k <= n)%nat -> (cc < c)%nat -> W k cc = a * W1 k cc + b * W2 k cc) ->
  forall j, (j < d_dim d * c * n)%nat -> cf j = a * cf1 j + b * cf2 j.
Proof.
  intros S1 S2 S0 E. apply (interp_unique d h c n t0 Od Hh Hn Hd tf W cf (fun j => a * cf1 j + b * cf2 j)); auto.
  intros q Ok. rewrite (residual_lin c cf1 cf2 W1 W2 W a b q Ok E), (S1 q Ok), (S2 q Ok). ring.
Qed.
Theorem interp_linear_fun c cf1 cf2 cf W1 W2 W a b cc t : (cc < c)%nat ->
  interpolates d c n t0 tf W1 cf1 -> interpolates d c n t0 tf W2 cf2 -> interpolates d c n t0 tf W cf ->
  (forall k cc, (k <= n)%nat -> (cc < c)%nat -> W k cc = a * W1 k cc + b * W2 k cc) ->
  sfun d c n t0 tf cf cc t = a * sfun d c n t0 tf cf1 cc t + b * sfun d c n t0 tf cf2 cc t.
Proof.
  intros Hc S1 S2 S0 E. unfold sfun. apply piece_lin; auto; [apply locate_lt; auto|]. apply (interp_linear c cf1 cf2 cf W1 W2 W a b); auto.
Qed.

(** ** one component on its own *)
Definition only (c cc : nat) (cf : nat -> R) (j : nat) : R := cf ((j / d_dim d * c + cc) * d_dim d + j mod d_dim d)%nat.
Lemma only_at c cc cf iv bb : (bb < d_dim d)%nat -> only c cc cf ((iv * 1 + 0) * d_dim d + bb)%nat = cf ((iv * c + cc) * d_dim d + bb)%nat.
Proof.
  intros Hb. unfold only. rewrite Nat.mul_1_r, Nat.add_0_r, (Nat.add_comm (iv * d_dim d) bb).
  rewrite Nat.div_add, Nat.mod_add, Nat.div_small, Nat.mod_small by lia. simpl. f_equal; lia.
Qed.
Lemma piece_only c cc cf iv t : piece d 1 t0 tf (only c cc cf) iv 0 t = piece d c t0 tf cf iv cc t.
Proof. unfold piece. apply Rsum_ext. intros bb Hb. rewrite only_at by auto. reflexivity. Qed.
Lemma only_interpolates c cc cf W : (cc < c)%nat -> interpolates d c n t0 tf W cf -> interpolates d 1 n t0 tf (fun k _ => W k cc) (only c cc cf).
Proof.
  intros Hc S0 q Ok.
  assert (E : forall iv k t, Derive_n (piece d 1 t0 tf (only c cc cf) iv 0) k t = Derive_n (piece d c t0 tf cf iv cc) k t).
  { intros. apply Derive_n_ext. intros. apply piece_only. }
  destruct q as [iv e|iv e|iv e k|e k|e k]; cbn [cond_ok] in Ok; (assert (e = 0)%nat as -> by lia); cbn [residual]; rewrite ?E, ?piece_only.
  - apply (S0 (CStart iv cc)). cbn [cond_ok]; lia.
  - apply (S0 (CEnd iv cc)). cbn [cond_ok]; lia.
  - apply (S0 (CCont iv cc k)). cbn [cond_ok]; lia.
  - apply (S0 (CFirst cc k)). cbn [cond_ok]; lia.
  - apply (S0 (CLast cc k)). cbn [cond_ok]; lia.
Qed.
Lemma same_coef_fun c cf cf' cc t : (cc < c)%nat -> (forall j, (j < d_dim d * c * n)%nat -> cf j = cf' j) ->
  sfun d c n t0 tf cf cc t = sfun d c n t0 tf cf' cc t.
Proof.
  intros Hc E. unfold sfun, piece. apply Rsum_ext. intros bb Hb. rewrite E; auto. apply index_lt; auto. apply locate_lt; auto.
Qed.
Theorem interp_component c1 c2 cc1 cc2 cf1 cf2 W1 W2 t : (cc1 < c1)%nat -> (cc2 < c2)%nat ->
  interpolates d c1 n t0 tf W1 cf1 -> interpolates d c2 n t0 tf W2 cf2 -> (forall k, (k <= n)%nat -> W1 k cc1 = W2 k cc2) ->
  sfun d c1 n t0 tf cf1 cc1 t = sfun d c2 n t0 tf cf2 cc2 t.
Proof.
  intros H1 H2 S1 S2 E. pose proof (only_interpolates c1 cc1 cf1 W1 H1 S1) as I1. pose proof (only_interpolates c2 cc2 cf2 W2 H2 S2) as I2.
  transitivity (sfun d 1 n t0 tf (only c1 cc1 cf1) 0 t); [symmetry; apply piece_only|].
  transitivity (sfun d 1 n t0 tf (only c2 cc2 cf2) 0 t); [|apply piece_only].
  apply same_coef_fun; [lia|]. apply (interp_unique d h 1 n t0 Od Hh Hn Hd tf (fun k _ => W1 k cc1)); auto.
  intros q Ok. rewrite <- (I2 q Ok). destruct q as [iv e|iv e|iv e k|e k|e k]; cbn [cond_ok residual] in *; auto; rewrite E by lia; reflexivity.
Qed.

(** ** stability: conditions missed by little are met by a spline that is not far *)
Theorem interp_stable c : exists K, 0 <= K /\ forall W cf cf' r,
  interpolates d c n t0 tf W cf -> (forall q, cond_ok (d_dim d) c n q -> Rabs (residual d c n t0 tf W cf' q) <= r) ->
  forall j, (j < d_dim d * c * n)%nat -> Rabs (cf' j - cf j) <= K * r.
Proof.
  destruct (numbering d h c n Hh Hn Hd) as (qof & Q1 & Q2). pose proof (form_nonsing d h c n t0 Od Hh Hn Hd tf qof P Q1 Q2) as NS.
  set (N := (d_dim d * c * n)%nat) in *. set (A := fun i j => form d c n (unitv j) tf (qof i)) in *.
  set (inv := fun j i => gauss N A (fun k => if Nat.eqb k i then 1 else 0) j).
  set (rowsum := fun j => Rsum N (fun i => Rabs (inv j i))).
  assert (RI : forall i k, (i < N)%nat -> Rsum N (fun j => A i j * inv j k) = if Nat.eqb i k then 1 else 0).
  { intros i k Hi. unfold inv. apply (gauss_solves N A (fun l => if Nat.eqb l k then 1 else 0) NS i Hi). }
  assert (LI : forall y j, (j < N)%nat -> Rsum N (fun i => inv j i * Rsum N (fun k => A i k * y k)) = y j).
  { intros y j Hj. set (u := fun j => Rsum N (fun i => inv j i * Rsum N (fun k => A i k * y k))).
    change (u j = y j). apply Rminus_diag_uniq. apply (NS (fun j => u j - y j)); auto. intros i Hi.
    rewrite (Rsum_ext N _ (fun k => A i k * u k - A i k * y k)) by (intros; ring). rewrite Rsum_minus. apply Rminus_diag_eq.
    unfold u.
    transitivity (Rsum N (fun l => Rsum N (fun k => A i k * inv k l) * Rsum N (fun k => A l k * y k))).
    - rewrite (Rsum_ext N (fun k => A i k * _) (fun k => Rsum N (fun l => A i k * inv k l * Rsum N (fun m => A l m * y m)))).
      + rewrite Rsum_swap. apply Rsum_ext. intros l _. rewrite Rsum_scal_r. reflexivity.
      + intros k _. rewrite <- Rsum_scal. apply Rsum_ext. intros; ring.
    - rewrite (Rsum_delta N i); auto.
      + rewrite RI, Nat.eqb_refl by auto. ring.
      + intros l Hl Ne. rewrite RI by auto. destruct (Nat.eqb_spec i l); [congruence|ring]. }
  assert (R0 : forall j, 0 <= rowsum j) by (intros; apply Rsum_nonneg; intros; apply Rabs_pos).
  exists (Rsum N rowsum). split; [apply Rsum_nonneg; auto|]. intros W cf cf' r S0 Hr j Hj.
  assert (F : forall i, (i < N)%nat -> Rabs (Rsum N (fun k => A i k * (cf' k - cf k))) <= r).
  { intros i Hi. pose proof (S0 (qof i) (Q1 i Hi)) as E. pose proof (Hr (qof i) (Q1 i Hi)) as L.
    rewrite (residual_form d c n t0 cf tf W (qof i) Hn lens_ne (Q1 i Hi)), form_linear in E by auto.
    rewrite (residual_form d c n t0 cf' tf W (qof i) Hn lens_ne (Q1 i Hi)), form_linear in L by auto.
    rewrite (Rsum_ext N _ (fun k => A i k * cf' k - A i k * cf k)) by (intros; ring). rewrite Rsum_minus. fold N in E, L. unfold A.
    replace (_ - _) with (Rsum N (fun j => form d c n (unitv j) tf (qof i) * cf' j) - rhs_of W (qof i)) by lra. exact L. }
  assert (r0 : 0 <= r) by (eapply Rle_trans; [apply Rabs_pos|apply (F j Hj)]).
  rewrite <- (LI (fun k => cf' k - cf k) j Hj). eapply Rle_trans; [apply InterpMath2.Rsum_abs|].
  apply Rle_trans with (rowsum j * r).
  - unfold rowsum. rewrite <- Rsum_scal_r. apply Rsum_le. intros i Hi. rewrite Rabs_mult. apply Rmult_le_compat_l; [apply Rabs_pos|]. apply F; auto.
  - apply Rmult_le_compat_r; auto. apply Rsum_term; auto.
Qed.

(** the basis functions and their derivatives are bounded on the domain *)
Lemma tphi_bound k : exists M, 0 <= M /\ forall iv bb t, (iv < n)%nat -> (bb < d_dim d)%nat -> t0 <= t <= bp t0 tf n ->
  Rabs (Derive_n (tphi d (bp t0 tf iv) (tf iv) bb) k t) <= M.
Proof.
  assert (One : forall iv bb, (iv < n)%nat -> (bb < d_dim d)%nat -> exists M, 0 <= M /\ forall t, t0 <= t <= bp t0 tf n -> Rabs (Derive_n (tphi d (bp t0 tf iv) (tf iv) bb) k t) <= M).
  { intros iv bb Hi Hb. set (g := Derive_n (tphi d (bp t0 tf iv) (tf iv) bb) k).
    destruct (Rle_dec t0 (bp t0 tf n)) as [L|L]; [|exists 0; split; [lra|intros; lra]].
    destruct (continuity_ab_maj (fun t => Rabs (g t)) t0 (bp t0 tf n) L) as (Mx & HM & _).
    - intros t _. apply continuity_pt_filterlim. apply (continuous_comp g Rabs); [|apply continuous_Rabs].
      apply (@ex_derive_continuous R_AbsRing R_NormedModule). eexists. apply (tphi_smooth d (bp t0 tf iv) (tf iv) bb (S k) t); auto. apply lens_ne; auto.
    - exists (Rabs (g Mx)). split; [apply Rabs_pos|]. exact HM. }
  destruct (finite_choice (fun _ : nat => 0) n (fun iv f => forall bb, (bb < d_dim d)%nat -> 0 <= f bb /\ forall t, t0 <= t <= bp t0 tf n -> Rabs (Derive_n (tphi d (bp t0 tf iv) (tf iv) bb) k t) <= f bb)) as (f & Hf).
  { intros iv Hi. apply (finite_choice 0 (d_dim d) (fun bb M => 0 <= M /\ forall t, t0 <= t <= bp t0 tf n -> Rabs (Derive_n (tphi d (bp t0 tf iv) (tf iv) bb) k t) <= M)).
    intros bb Hb. apply One; auto. }
  exists (Rsum n (fun iv => Rsum (d_dim d) (f iv))). split; [apply Rsum_nonneg; intros; apply Rsum_nonneg; intros; apply Hf; auto|].
  intros iv bb t Hi Hb Ht. apply Rle_trans with (f iv bb); [apply Hf; auto|].
  apply Rle_trans with (Rsum (d_dim d) (f iv)).
  - apply (Rsum_term (d_dim d) (f iv) bb); auto. intros i Hi'. apply Hf; auto.
  - apply (Rsum_term n (fun iv => Rsum (d_dim d) (f iv)) iv); auto. intros i Hi'. apply Rsum_nonneg. intros; apply Hf; auto.
Qed.
Theorem interp_stable_fun c k : exists K, 0 <= K /\ forall W cf cf' r,
  interpolates d c n t0 tf W cf -> (forall q, cond_ok (d_dim d) c n q -> Rabs (residual d c n t0 tf W cf' q) <= r) ->
  forall iv cc t, (iv < n)%nat -> (cc < c)%nat -> t0 <= t <= bp t0 tf n ->
  Rabs (Derive_n (piece d c t0 tf cf' iv cc) k t - Derive_n (piece d c t0 tf cf iv cc) k t) <= K * r.
Proof.
  destruct (interp_stable c) as (K & K0 & HK). destruct (tphi_bound k) as (M & M0 & HM).
  exists (Rsum (d_dim d) (fun _ => K * M)). split; [apply Rsum_nonneg; intros; apply Rmult_le_pos; auto|].
  intros W cf cf' r S0 Hr iv cc t Hi Hc Ht. pose proof (HK W cf cf' r S0 Hr) as B.
  rewrite !(is_derive_n_unique _ _ _ _ (piece_derive_n d c t0 tf _ iv cc k t (lens_ne iv Hi))). rewrite <- Rsum_minus.
  eapply Rle_trans; [apply InterpMath2.Rsum_abs|]. rewrite <- Rsum_scal_r. apply Rsum_le. intros bb Hb.
  pose proof (B _ (index_lt (d_dim d) c n iv cc bb Hi Hc Hb)) as B'. pose proof (HM iv bb t Hi Hb Ht) as B2.
  rewrite <- Rmult_minus_distr_r, Rabs_mult. replace (K * M * r) with (K * r * M) by ring.
  apply Rmult_le_compat; auto; apply Rabs_pos.
Qed.
End Dep.
