(** Properties C15 (Lagrange part), C16, C17, C18, C50. *)
From Coquelicot Require Import Coquelicot.
From Coq Require Import Reals Lra Lia Arith List ZArith.
From Verif Require Import Num Outcome LinAlg RSum RMat RDeriv RPoly LegendreModel LegendreSpec LegendreProofs
  LagrangeSpec LagrangeMath LagrangeModel LagrangeProofs BasisModel.
Import ListNotations.
Local Open Scope R_scope.

(** ** C16 *)
Theorem C16_values : forall pts n x s b, vec_is pts n x -> distinct n x -> vlen b = n ->
  (forall j, (j < n)%nat -> ~ near s (x j)) ->
  exists bw b', bary_weights pts = Ok bw /\ lag_eval pts bw s b = Ok b' /\ vec_is b' n (fun j => lagr n x j s).
Proof.
  intros pts n x s b P D L F. destruct (lag_eval_exact pts b n x s P D L (or_introl F)) as (bw & b' & A & _ & B & C). eauto.
Qed.
Theorem C16_cardinal : forall pts n x i b, vec_is pts n x -> separated n x -> vlen b = n -> (i < n)%nat ->
  exists bw b', bary_weights pts = Ok bw /\ lag_eval pts bw (x i) b = Ok b' /\
    vec_is b' n (fun j => if Nat.eqb i j then 1 else 0).
Proof.
  intros pts n x i b P S L Hi. pose proof (separated_distinct n x S) as D.
  destruct (lag_eval_exact pts b n x (x i) P D L) as (bw & b' & A & _ & B & C).
  { right. exists i. auto. }
  exists bw, b'. split; auto. split; auto. eapply vec_is_ext; [exact C|]. intros j Hj. apply lagr_delta; auto.
Qed.
(** partition of unity holds for every s, snapped or not *)
Theorem C16_partition_of_unity : forall pts n x s b, vec_is pts n x -> distinct n x -> vlen b = n -> (1 <= n)%nat ->
  exists bw b' V, bary_weights pts = Ok bw /\ lag_eval pts bw s b = Ok b' /\ vec_is b' n V /\ Rsum n V = 1.
Proof.
  intros pts n x s b P D L Hn. destruct (lag_eval_R pts b n x s P D L) as (bw & b' & E & _ & E' & [[_ V]|(j & Hj & _ & _ & V)]).
  - eexists bw, b', _. split; [exact E|]. split; [exact E'|]. split; [exact V|]. apply lagr_sum; auto.
  - eexists bw, b', _. split; [exact E|]. split; [exact E'|]. split; [exact V|].
    rewrite (Rsum_delta n j); auto.
    + unfold unitv. rewrite Nat.eqb_refl. auto.
    + intros i Hi Hne. unfold unitv. destruct (Nat.eqb_spec i j); [contradiction|auto].
Qed.
(** polynomials of degree < n are reproduced *)
Theorem C16_reproduction : forall pts n x s b c, vec_is pts n x -> distinct n x -> vlen b = n ->
  (forall j, (j < n)%nat -> ~ near s (x j)) \/ (exists j, (j < n)%nat /\ s = x j /\ separated n x) ->
  exists bw b' V, bary_weights pts = Ok bw /\ lag_eval pts bw s b = Ok b' /\ vec_is b' n V /\
    Rsum n (fun j => Rsum n (fun k => c k * x j ^ k) * V j) = Rsum n (fun k => c k * s ^ k).
Proof.
  intros pts n x s b c P D L X. destruct (lag_eval_exact pts b n x s P D L X) as (bw & b' & A & _ & B & C).
  eexists bw, b', _. split; [exact A|]. split; [exact B|]. split; [exact C|].
  apply (lagr_reproduce n x (peval n c) s D). exists c. auto.
Qed.
(** any arithmetic: no access outside the buffers, every entry written *)
Theorem C16_safe : forall (T : Type) (N : Num T) (pts b : vec T) n x s, vec_is pts n x -> vlen b = n ->
  exists bw b' V, bary_weights pts = Ok bw /\ lag_eval pts bw s b = Ok b' /\ vec_is b' n V.
Proof.
  intros T N pts b n x s P L. destruct (bary_weights_gen pts n x P) as (bw & E & W).
  destruct (lag_eval_gen pts bw b n x _ s P W L) as (b' & m & _ & E' & V). eauto 8.
Qed.
Definition pts2 (n : nat) : R := match n with O => -1 | _ => 1 end.
Definition pts3 (n : nat) : R := match n with O => -1 | S O => 0 | _ => 1 end.
Lemma pts3_separated : separated 3 pts3.
Proof.
  assert (A : forall u v, 1 <= Rabs (u - v) -> Rabs u <= 1 -> Rabs v <= 1 -> ~ near u v).
  { intros u v A B C [[_ D]|(_ & D & _)]; [lra|]. assert (/ 1000000000 * Rabs u <= / 1000000000 * 1) by (apply Rmult_le_compat_l; lra). lra. }
  assert (B : forall i, Rabs (pts3 i) <= 1).
  { intros i. unfold pts3. destruct i as [|[|i]]; unfold Rabs; destruct (Rcase_abs _); lra. }
  intros i j Hi Hj Hne. apply A; auto. unfold pts3.
  destruct i as [|[|[|i]]]; destruct j as [|[|[|j]]]; try lia; unfold Rabs; destruct (Rcase_abs _); lra.
Qed.
Lemma pts2_separated : separated 2 pts2.
Proof.
  assert (A : forall u v, 1 <= Rabs (u - v) -> Rabs u <= 1 -> Rabs v <= 1 -> ~ near u v).
  { intros u v A B C [[_ D]|(_ & D & _)]; [lra|]. assert (/ 1000000000 * Rabs u <= / 1000000000 * 1) by (apply Rmult_le_compat_l; lra). lra. }
  assert (B : forall i, Rabs (pts2 i) <= 1).
  { intros i. unfold pts2. destruct i as [|i]; unfold Rabs; destruct (Rcase_abs _); lra. }
  intros i j Hi Hj Hne. apply A; auto. unfold pts2.
  destruct i as [|[|i]]; destruct j as [|[|j]]; try lia; unfold Rabs; destruct (Rcase_abs _); lra.
Qed.
Lemma half_not_near j : (j < 3)%nat -> ~ near (1/2) (pts3 j).
Proof.
  intros Hj. assert (Rabs (1/2) = 1/2) by (apply Rabs_pos_eq; lra).
  assert (1/2 <= Rabs (1/2 - pts3 j)).
  { unfold pts3. destruct j as [|[|j]]; unfold Rabs; destruct (Rcase_abs _); lra. }
  intros [[_ D]|(_ & D & _)]; lra.
Qed.
(** three nodes -1, 0, 1 at s = 1/2: values -1/8, 3/4, 3/8 *)
Example C16_nonvacuous : exists bw b', let pts := mkvec 3 (fun i => Some (pts3 i)) in
  bary_weights pts = Ok bw /\ lag_eval pts bw (1/2) (vnew 3) = Ok b' /\
  vget b' 0 = Some (-(1/8)) /\ vget b' 1 = Some (3/4) /\ vget b' 2 = Some (3/8).
Proof.
  destruct (C16_values (mkvec 3 (fun i => Some (pts3 i))) 3 pts3 (1/2) (vnew 3)) as (bw & b' & E & E' & L & G).
  - split; auto.
  - apply separated_distinct, pts3_separated.
  - reflexivity.
  - apply half_not_near.
  - exists bw, b'. cbv zeta. split; auto. split; auto. rewrite !G by lia.
    unfold lagr, Rprod, pts3. simpl. repeat split; f_equal; field.
Qed.
(** FINDING: within the tolerance the value snaps: with nodes -1, 1 the
    function "s" is evaluated to 1 at s = 1 - 1e-10 *)
Theorem C16_snap_refuted : exists s bw b' V, let pts := mkvec 2 (fun i => Some (pts2 i)) in
  (forall j, (j < 2)%nat -> s <> pts2 j) /\ -1 < s < 1 /\
  bary_weights pts = Ok bw /\ lag_eval pts bw s (vnew 2) = Ok b' /\ vec_is b' 2 V /\
  Rsum 2 (fun j => pts2 j * V j) <> s.
Proof.
  exists (1 - / 10000000000). pose proof (separated_distinct 2 pts2 pts2_separated) as D.
  destruct (lag_eval_R (mkvec 2 (fun i => Some (pts2 i))) (vnew 2) 2 pts2 (1 - / 10000000000)) as (bw & b' & E & _ & E' & V);
    [split; auto|exact D|reflexivity|].
  assert (A1 : Rabs (1 - / 10000000000) = 1 - / 10000000000) by (apply Rabs_pos_eq; lra).
  assert (A2 : Rabs (1 - / 10000000000 - 1) = / 10000000000) by (rewrite Rabs_left; lra).
  assert (A3 : Rabs 1 = 1) by (apply Rabs_pos_eq; lra).
  assert (N1 : near (1 - / 10000000000) (pts2 1)).
  { unfold near, pts2. cbv zeta. rewrite A1, A2, A3. right. split; [intros [A|A]; lra|]. lra. }
  assert (N0 : ~ near (1 - / 10000000000) (pts2 0)).
  { assert (B : 1 <= Rabs (1 - / 10000000000 - -1)) by (rewrite Rabs_pos_eq; lra).
    intros [[_ C]|(_ & C & _)]; unfold pts2 in C; lra. }
  destruct V as [[F _]|(j & Hj & Nj & F & V)]; [exfalso; apply (F 1%nat); auto|].
  assert (j = 1)%nat as ->. { destruct j as [|[|j]]; auto; [contradiction|lia]. }
  exists bw, b', (unitv 1). cbv zeta. split.
  { intros [|[|j]] Hj2; unfold pts2; [lra|lra|lia]. }
  split; [lra|]. split; auto. split; auto. split; auto.
  unfold unitv, pts2. simpl. lra.
Qed.

(** ** C17 *)
Theorem C17_entries : forall pts n x k, vec_is pts n x -> distinct n x ->
  exists m M, lag_derivative_matrix_impl pts k = Ok m /\ mat_is m n n M /\
    forall i j, (i < n)%nat -> (j < n)%nat -> is_derive_n (lagr n x j) k (x i) (M i j).
Proof.
  intros pts n x k P D. destruct (lag_impl_R pts n x k P D) as (m & E & M). exists m, (lagD n x k).
  split; auto. split; auto. intros i j Hi Hj. apply lagr_is_derive_n; auto.
Qed.
(** applied to nodal values it yields the nodal values of the derivative *)
Theorem C17_differentiates : forall pts n x k c, vec_is pts n x -> distinct n x ->
  exists m M, lag_derivative_matrix_impl pts k = Ok m /\ mat_is m n n M /\
    forall t, is_derive_n (fun u => Rsum n (fun j => c j * lagr n x j u)) k t
        (Rsum n (fun i => Rsum n (fun j => M i j * c j) * lagr n x i t)).
Proof.
  intros pts n x k c P D. destruct (lag_impl_R pts n x k P D) as (m & E & M). exists m, (lagD n x k).
  split; auto. split; auto. intros t.
  assert (Pf : isPoly n (fun u => Rsum n (fun j => c j * lagr n x j u))).
  { apply isPoly_Rsum. intros j Hj. apply isPoly_scal, lagr_poly; auto. }
  assert (E1 : Rsum n (fun i => Rsum n (fun j => lagD n x k i j * c j) * lagr n x i t) =
     Derive_n (fun u => Rsum n (fun j => c j * lagr n x j u)) k t).
  { rewrite (Derive_n_Rsum n n (fun j u => c j * lagr n x j u)) by (intros; apply isPoly_scal, lagr_poly; auto).
    rewrite (Rsum_ext n (fun i => Derive_n (fun u => c i * lagr n x i u) k t) (fun j => c j * Rsum n (fun i => lagD n x k i j * lagr n x i t))).
    - rewrite (Rsum_ext n (fun i => Rsum n (fun j => lagD n x k i j * c j) * lagr n x i t)
          (fun i => Rsum n (fun j => c j * (lagD n x k i j * lagr n x i t)))).
      + rewrite Rsum_swap. apply Rsum_ext. intros j Hj. rewrite Rsum_scal. reflexivity.
      + intros i Hi. rewrite <- Rsum_scal_r. apply Rsum_ext. intros; ring.
    - intros j Hj. rewrite Derive_n_scal_l. f_equal. symmetry. apply lagr_deriv_expand; auto. }
  rewrite E1. apply (is_derive_n_chain (fun m => Derive_n (fun u => Rsum n (fun j => c j * lagr n x j u)) m)).
  intros i u. apply (isPoly_is_derive n). exact Pf.
Qed.
(** evaluated derivatives, where the value is not snapped *)
Theorem C17_eval_derivative : forall pts n x t0 tau t k b, vec_is pts n x -> distinct n x -> vlen b = n -> 0 < tau ->
  let s := window t0 tau t in
  (forall j, (j < n)%nat -> ~ near s (x j)) \/ (exists j, (j < n)%nat /\ s = x j /\ separated n x) ->
  exists bw b' V, bary_weights pts = Ok bw /\ lag_eval_deriv pts bw s tau k b = Ok b' /\ vec_is b' n V /\
    forall j, (j < n)%nat -> is_derive_n (fun u => lagr n x j (window t0 tau u)) k t (V j).
Proof.
  intros pts n x t0 tau t k b P D L Ht s X.
  destruct (lag_eval_deriv_R pts b n x s tau k P D L X) as (bw & b' & E & E' & V).
  eexists bw, b', _. split; [exact E|]. split; [exact E'|]. split; [exact V|].
  intros j Hj. apply lagr_time_derive; auto.
Qed.
Theorem C17_tau_derivative : forall pts n x s tau k b, vec_is pts n x -> distinct n x -> vlen b = n -> tau <> 0 ->
  (forall j, (j < n)%nat -> ~ near s (x j)) \/ (exists j, (j < n)%nat /\ s = x j /\ separated n x) ->
  exists bw b' V W, bary_weights pts = Ok bw /\
    (forall th, exists bt, lag_eval_deriv pts bw s th k b = Ok bt /\ vec_is bt n (V th)) /\
    lag_eval_deriv_tau pts bw s tau k b = Ok b' /\ vec_is b' n W /\
    forall j, (j < n)%nat -> is_derive (fun th => V th j) tau (W j).
Proof.
  intros pts n x s tau k b P D L Ht X.
  destruct (lag_eval_deriv_tau_R pts b n x s tau k P D L X) as (bw & b' & E & E' & V).
  eexists bw, b', (fun th j => (2 / th) ^ k * Derive_n (lagr n x j) k s), _.
  split; [exact E|]. split; [|split; [exact E'|split; [exact V|]]].
  - intros th. destruct (lag_eval_deriv_R pts b n x s th k P D L X) as (bw2 & bt & E2 & E3 & V3).
    rewrite E in E2. injection E2 as <-. eauto.
  - intros j Hj. apply pow_tau_derive. auto.
Qed.
(** nodes -1, 0, 1: second derivative of the middle polynomial is -2 everywhere *)
Example C17_nonvacuous : exists m, lag_derivative_matrix_impl (mkvec 3 (fun i => Some (pts3 i))) 2 = Ok m /\ mget m 0 1 = Some (-2).
Proof.
  destruct (lag_impl_gen (mkvec 3 (fun i => Some (pts3 i))) 3 pts3 2) as (m & E & _ & _ & G); [split; auto|].
  exists m. split; auto. rewrite G by lia. f_equal. simpl. unfold gD1, gw. simpl. unfold nofnat. simpl. unfold pts3. field.
Qed.

(** ** C18 *)
Theorem C18_no_match : forall old new n r x y, vec_is old n x -> vec_is new r y -> distinct n x ->
  (forall k j, (k < r)%nat -> (j < n)%nat -> ~ near (y k) (x j)) ->
  exists m, lag_change old new = Ok m /\ mat_is m r n (fun k j => lagr n x j (y k)).
Proof.
  intros old new n r x y P Q D F. destruct (lag_change_R old new n r x y P Q D) as (m & M & E & MM & S).
  exists m. split; auto. eapply mat_is_ext; [exact MM|]. intros k j Hk Hj. apply S; auto. intros; apply F; auto. lia.
Qed.
(** the matrix interpolates at every new point exactly when no point that
    misses all the old nodes comes after one that hits an old node *)
Theorem C18_correct_iff : forall old new n r x y, vec_is old n x -> vec_is new r y -> separated n x -> (1 <= n)%nat ->
  (forall k, (k < r)%nat -> (exists j, (j < n)%nat /\ y k = x j) \/ (forall j, (j < n)%nat -> ~ near (y k) (x j))) ->
  exists m M, lag_change old new = Ok m /\ mat_is m r n M /\
  ((forall k c, (k < r)%nat ->
      Rsum n (fun j => M k j * Rsum n (fun d => c d * x j ^ d)) = Rsum n (fun d => c d * y k ^ d))
   <-> (forall i k, (i < k < r)%nat -> (exists j, (j < n)%nat /\ y i = x j) -> (exists j, (j < n)%nat /\ y k = x j))).
Proof.
  intros old new n r x y P Q S Hn X. pose proof (separated_distinct n x S) as D.
  destruct (lag_change_R old new n r x y P Q D) as (m & M & E & MM & F).
  exists m, M. split; auto. split; auto. split.
  - intros C i k Hik (j & Hj & Ej). destruct (X k) as [A|A]; [lia|auto|]. exfalso.
    specialize (C k (fun d => match d with O => 1 | _ => 0 end) ltac:(lia)).
    assert (Z : forall l, (l < n)%nat -> M k l = 0).
    { intros l Hl. destruct (F k l) as [_ F2]; [lia|auto|]. apply F2.
      - exists i, j. split; [lia|]. split; auto. rewrite Ej. apply near_refl.
      - apply A; auto. }
    rewrite (Rsum_zero n (fun j0 => M k j0 * _)) in C by (intros l Hl; rewrite Z by auto; ring).
    rewrite (Rsum_delta n 0) in C.
    + simpl in C. lra.
    + lia.
    + intros [|l] Hl Hne; [contradiction|ring].
  - intros C k c Hk. change (Rsum n (fun d => c d * y k ^ d)) with (peval n c (y k)).
    destruct (X k Hk) as [(j & Hj & Ej)|A].
    + rewrite (Rsum_delta n j).
      * destruct (F k j) as [_ F2]; auto. destruct F2 as [F2 _].
        { exists k, j. repeat split; auto. rewrite Ej. apply near_refl. }
        rewrite F2 by (rewrite Ej; apply near_refl). rewrite Ej. unfold peval. ring.
      * auto.
      * intros l Hl Hne. destruct (F k l) as [_ F2]; auto. destruct F2 as [_ F2].
        { exists k, j. repeat split; auto. rewrite Ej. apply near_refl. }
        rewrite F2; [ring|]. rewrite Ej. apply S; auto.
    + rewrite <- (lagr_reproduce n x (peval n c) (y k) D) by (exists c; auto).
      apply Rsum_ext. intros j Hj. destruct (F k j) as [F1 _]; auto. rewrite F1; [unfold peval; ring|].
      intros i l Hi Hl. destruct (Nat.eq_dec i k) as [->|Hne]; [apply A; auto|].
      destruct (X i) as [(a & Ha & Ea)|B]; [lia| |apply B; auto].
      destruct (C i k) as (a2 & Ha2 & Ea2); [lia|eauto|]. exfalso. apply (A a2); auto. rewrite Ea2. apply near_refl.
Qed.
(** old nodes -1, 0, 1, new points 0, 1/2: the second row is all zero *)
Definition new2 (k : nat) : R := match k with O => 0 | _ => 1/2 end.
Theorem C18_refuted : exists m, let old := mkvec 3 (fun i => Some (pts3 i)) in
  lag_change old (mkvec 2 (fun i => Some (new2 i))) = Ok m /\
  (forall j, (j < 3)%nat -> mget m 1 j = Some 0) /\ Rsum 3 (fun j => lagr 3 pts3 j (new2 1)) = 1.
Proof.
  pose proof (separated_distinct 3 pts3 pts3_separated) as D.
  destruct (lag_change_R (mkvec 3 (fun i => Some (pts3 i))) (mkvec 2 (fun i => Some (new2 i))) 3 2 pts3 new2)
    as (m & M & E & (_ & _ & G) & F); [split; auto|split; auto|auto|].
  exists m. cbv zeta. split; auto. split.
  - intros j Hj. rewrite G by lia. f_equal. destruct (F 1%nat j) as [_ F2]; [lia|auto|]. apply F2.
    + exists 0%nat, 1%nat. repeat split; try lia. apply near_refl.
    + unfold new2. apply half_not_near; auto.
  - apply lagr_sum; auto.
Qed.
Example C18_nonvacuous : exists m, lag_change (mkvec 3 (fun i => Some (pts3 i))) (mkvec 1 (fun _ => Some (1/2))) = Ok m /\
  mget m 0 1 = Some (3/4).
Proof.
  destruct (C18_no_match (mkvec 3 (fun i => Some (pts3 i))) (mkvec 1 (fun _ => Some (1/2))) 3 1 pts3 (fun _ => 1/2))
    as (m & E & _ & _ & G); [split; auto|split; auto|apply separated_distinct, pts3_separated|intros; apply half_not_near; auto|].
  exists m. split; auto. rewrite G by lia. f_equal. unfold lagr, Rprod, pts3. simpl. field.
Qed.

(** ** C15, Lagrange: whatever the uninitialised memory [g] holds *)
Theorem C15_lagrange_gram_tau : forall pts glp glw n x y w g, vec_is pts n x -> vec_is glp n y -> vec_is glw n w ->
  exists buf, lag_ctor_buffer pts glp glw (fun i j => Some (g i j)) = Ok buf /\
  forall k m M bw, mat_is m n n M -> let b := BLagrange pts bw buf in
  exists A B, (forall tau, exists m', b_add_gram b tau k m = Ok m' /\ mat_is m' n n (fun i j => M i j + A tau i j)) /\
  (forall tau, exists m', b_add_gram_tau b tau k m = Ok m' /\ mat_is m' n n (fun i j => M i j + B tau i j)) /\
  forall tau i j, 0 < tau -> (i < n)%nat -> (j < n)%nat -> is_derive (fun th => A th i j) tau (B tau i j).
Proof.
  intros pts glp glw n x y w g P Q W. destruct (lag_ctor_init pts glp glw n x y w g P Q W) as (buf & E & G).
  exists buf. split; auto. intros k m M bw Mm. cbn [b_add_gram b_add_gram_tau]. rewrite (proj1 P). destruct (Nat.le_gt_cases k n) as [Hk|Hk].
  - destruct (G k Hk) as (b & B & Eb & Mb).
    exists (fun tau i j => B i j * leg_scale tau k), (fun tau i j => B i j * leg_scale_tau tau k).
    split; [intros; eapply lag_add_gram_R; eauto|]. split; [intros; eapply lag_add_gram_tau_R; eauto|].
    intros tau i j Ht _ _. apply d_scal, leg_scale_derive. lra.
  - exists (fun _ _ _ => 0), (fun _ _ _ => 0).
    assert (Z : mat_is m n n (fun i j => M i j + 0)) by (eapply mat_is_ext; [exact Mm|]; intros; simpl; ring).
    split; [intros tau; exists m; split; [apply lag_add_gram_big; auto|exact Z]|].
    split; [intros tau; exists m; split; [apply lag_add_gram_big; auto|exact Z]|].
    intros tau i j _ _ _. apply d_const.
Qed.
Example C15_lagrange_nonvacuous : exists buf m',
  lag_ctor_buffer (mkvec 2 (fun i => Some (pts2 i))) (mkvec 2 (fun i => Some (pts2 i))) (vconst 2 1) (fun _ _ => Some 0) = Ok buf /\
  lag_add_gram_tau 2 buf 4 0 (mzero 2 2) = Ok m' /\ mget m' 1 1 = Some (1/2).
Proof.
  destruct (lag_ctor_gen (mkvec 2 (fun i => Some (pts2 i))) (mkvec 2 (fun i => Some (pts2 i))) (vconst 2 1) 2 pts2 pts2 (fun _ _ => Some 0))
    as (buf & E & _ & G0 & _); [split; auto|split; auto|auto|].
  exists buf. unfold lag_add_gram_tau. rewrite G0. simpl. eexists. split; [exact E|]. split; [reflexivity|].
  simpl. f_equal. unfold c2. simpl. field.
Qed.

(** ** C50 FINDING: the Gram matrices of the Lagrange basis are built from
    memory that was never written *)
Theorem C50_lagrange_gram_uninitialised : forall (T : Type) (N : Num T) (pts glp glw : vec T) n x y tau k,
  vec_is pts n x -> vec_is glp n y -> vlen glw = n -> (2 <= n)%nat -> (k <= n)%nat ->
  exists buf m', lag_ctor_buffer pts glp glw (fun _ _ => None) = Ok buf /\
    lag_add_gram n buf tau k (mzero n n) = Ok m' /\
    forall i j, (i < n)%nat -> (j < n)%nat -> i <> j \/ (1 <= k)%nat -> mread m' i j = UB.
Proof.
  intros T N pts glp glw n x y tau k P Q L Hn Hk.
  destruct (lag_ctor_uninit pts glp glw n x y P Q L Hn) as (buf & E & G).
  destruct (G k Hk) as (m & Em & R & C & U). exists buf. unfold lag_add_gram.
  destruct (Nat.ltb_spec k (n + 1)); [|lia]. rewrite Em. unfold madd_scaled. simpl mrows. simpl mcols.
  rewrite R, C, Nat.eqb_refl. cbn [andb]. eexists. split; [exact E|]. split; [reflexivity|].
  intros i j Hi Hj HH. unfold mread. cbn [mrows mcols mget]. rewrite (U i j Hi Hj HH).
  destruct (Nat.ltb i n && Nat.ltb j n)%bool; auto.
Qed.
(** and the result depends on what was there *)
Theorem C50_lagrange_gram_garbage : forall (pts glp glw : vec R) n x y w g, (2 <= n)%nat ->
  vec_is pts n x -> vec_is glp n y -> vec_is glw n w ->
  exists buf m', lag_ctor_buffer pts glp glw (fun _ _ => Some g) = Ok buf /\
    lag_add_gram n buf 2 0 (mzero n n) = Ok m' /\ mget m' 0 1 = Some g.
Proof.
  intros pts glp glw n x y w g Hn P Q W.
  destruct (lag_ctor_gen pts glp glw n x y (fun _ _ => Some g) P Q) as (buf & E & _ & G0 & _); [apply W|].
  exists buf. unfold lag_add_gram. destruct (Nat.ltb_spec 0 (n + 1)); [|lia]. rewrite G0.
  unfold madd_scaled. simpl mrows. simpl mcols. rewrite Nat.eqb_refl. cbn [andb].
  eexists. split; [exact E|]. split; [reflexivity|]. simpl. f_equal. unfold c2. simpl. field.
Qed.
Example C50_nonvacuous : exists buf, lag_ctor_buffer (mkvec 2 (fun i => Some (pts2 i))) (mkvec 2 (fun i => Some (pts2 i)))
   (vconst 2 1) (fun _ _ => None) = Ok buf.
Proof.
  destruct (C50_lagrange_gram_uninitialised R _ (mkvec 2 (fun i => Some (pts2 i))) (mkvec 2 (fun i => Some (pts2 i))) (vconst 2 1)
    2 pts2 pts2 1 1) as (buf & _ & E & _); [split; auto|split; auto|auto|lia|lia|]. eauto.
Qed.
