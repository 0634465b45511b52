(** Basis objects of the model and the functions they denote: one interface
    for the three implementations, over the reals. *)
From Coquelicot Require Import Coquelicot.
From Coq Require Import List Arith Lia Bool ZArith Reals Lra.
From Verif Require Import Num Outcome LinAlg RSum RMat RDeriv RPoly
  LegendreSpec LegendreModel LegendreMath LegendreProofs
  LagrangeSpec LagrangeModel LagrangeMath LagrangeProofs
  Basis0101Spec Basis0101Math Basis0101Model Basis0101Proofs BasisModel SplineSpec.
Import ListNotations.
Local Open Scope R_scope.

(** the object [b], as left by its constructor, stands for [d] *)
Definition is_basis (b : basis R) (d : bdesc) : Prop :=
  match b, d with
  | BLegendre dim g, DLeg dim' => dim = dim' /\ (2 <= dim)%nat /\ leg_ctor_buffer dim = Ok g
  | BLagrange pts bw g, DLag n x => vec_is pts n x /\ (1 <= n)%nat /\ distinct n x /\ bary_weights pts = Ok bw
  | B0101 a, D01 a' => a = a' /\ 0 < a < 1
  | _, _ => False
  end.
(** window coordinates where the Lagrange evaluation does not snap to another point *)
Definition exact_pt (d : bdesc) (s : R) : Prop :=
  match d with DLag n x => exact_at n x s | _ => True end.
(** derivative orders that eval_derivative_on_window accepts *)
Definition ord_ok (d : bdesc) (k : nat) : Prop :=
  match d with DLeg dim => (k < dim)%nat | _ => True end.

Lemma is_basis_dim b d : is_basis b d -> b_dim b = d_dim d.
Proof. destruct b, d; simpl; intros X; try contradiction; try tauto. destruct X as ((L & _) & _). exact L. Qed.
Lemma is_basis_pos b d : is_basis b d -> (1 <= d_dim d)%nat.
Proof. destruct b, d; simpl; intros X; try contradiction; lia. Qed.

Lemma tphi_smooth d t0 tau i k t : tau <> 0 -> (i < d_dim d)%nat ->
  is_derive_n (tphi d t0 tau i) k t (Derive_n (tphi d t0 tau i) k t).
Proof.
  intros Ht Hi. destruct d as [dim|n x|a].
  - pose proof (legP_time_derive k i t0 tau t) as D. unfold tphi, phi. now rewrite (is_derive_n_unique _ _ _ _ D).
  - pose proof (lagr_time_derive n x i k t0 tau t Hi) as D. unfold tphi, phi. now rewrite (is_derive_n_unique _ _ _ _ D).
  - pose proof (b01_time_derive_n (b01K a) t0 tau k i t Ht) as D.
    change (tphi (D01 a) t0 tau i) with (b01_time (b01K a) t0 tau i). now rewrite (is_derive_n_unique _ _ _ _ D).
Qed.

Lemma b_eval_R b d s tau buff : is_basis b d -> exact_pt d s -> vlen buff = d_dim d ->
  exists v, b_eval b s tau buff = Ok v /\ vec_is v (d_dim d) (fun i => phi d tau i s).
Proof.
  destruct b as [dim g|pts bw g|a], d as [dim'|n x|a']; simpl; intros X P L; try contradiction.
  - destruct X as (-> & Hd & _). exact (leg_eval_R dim' s buff Hd L).
  - destruct X as (V & _ & D & W). destruct (lag_eval_exact pts buff n x s V D L P) as (bw' & v & E & _ & E' & V').
    rewrite W in E. injection E as <-. eauto.
  - destruct X as (-> & Ha). exact (b01_eval_R a' s tau buff Ha L).
Qed.
Lemma b_eval_deriv_R b d t0 tau t k buff : is_basis b d -> tau <> 0 -> ord_ok d k -> exact_pt d (window t0 tau t) -> vlen buff = d_dim d ->
  exists v, b_eval_deriv b (window t0 tau t) tau k buff = Ok v /\
    vec_is v (d_dim d) (fun i => Derive_n (tphi d t0 tau i) k t).
Proof.
  destruct b as [dim g|pts bw g|a], d as [dim'|n x|a']; simpl; intros X Ht O P L; try contradiction.
  - destruct X as (-> & Hd & _). destruct (leg_eval_deriv_R dim' (window t0 tau t) tau k buff Hd O L) as (v & E & V).
    exists v. split; auto. eapply vec_is_ext; [exact V|]. intros i Hi. symmetry. apply is_derive_n_unique. apply legP_time_derive.
  - destruct X as (V & _ & D & W). destruct (lag_eval_deriv_R pts buff n x _ tau k V D L P) as (bw' & v & E & E' & V').
    rewrite W in E. injection E as <-. exists v. split; auto. eapply vec_is_ext; [exact V'|]. intros i Hi. symmetry.
    apply is_derive_n_unique. apply lagr_time_derive; auto.
  - destruct X as (-> & Ha). destruct (b01_eval_deriv_R a' (window t0 tau t) tau k buff Ha L) as (v & E & V).
    exists v. split; auto. eapply vec_is_ext; [exact V|]. intros i Hi. symmetry. apply is_derive_n_unique.
    apply (b01_time_derive_n (b01K a') t0 tau k i t Ht).
Qed.

(** ** coefficient differentiation *)
(** derivative orders whose cached block is the right one (C20: the blocks of basis0101 are repeated squares) *)
Definition blk_ok (d : bdesc) (k : nat) : Prop := match d with D01 _ => (k <= 2)%nat | _ => True end.
(** factor that GSpline::deriv_impl applies to the order-k block *)
Definition blk_fac (d : bdesc) (tau : R) (k : nat) : R := match d with D01 _ => 1 | _ => (2 / tau) ^ k end.

Lemma is_derive_n_window f k t0 tau t l : (forall j s, (j < k)%nat -> is_derive (Derive_n f j) s (Derive_n f (S j) s)) ->
  l = (2 / tau) ^ k * Derive_n f k (window t0 tau t) -> is_derive_n (fun u => f (window t0 tau u)) k t l.
Proof.
  intros Hf ->. revert t. induction k as [|k IH]; intros t.
  - simpl. ring.
  - assert (IH' : forall u, Derive_n (fun u => f (window t0 tau u)) k u = (2 / tau) ^ k * Derive_n f k (window t0 tau u)).
    { intros u. apply is_derive_n_unique. apply IH. intros. apply Hf. lia. }
    simpl is_derive_n. eapply is_derive_ext; [intros u; symmetry; apply IH'|].
    eapply is_derive_eq.
    + apply d_scal. apply (d_comp (Derive_n f k) (window t0 tau)); [apply Hf; lia|apply window_derive].
    + simpl. ring.
Qed.

Lemma blk_R b d k : is_basis b d -> blk_ok d k ->
  exists m M, b_impl b k = Ok m /\ mat_is m (d_dim d) (d_dim d) M /\
    forall t0 tau c t, tau <> 0 ->
      is_derive_n (series d t0 tau c) k t
        (series d t0 tau (fun i => blk_fac d tau k * Rsum (d_dim d) (fun j => M i j * c j)) t).
Proof.
  destruct b as [dim g|pts bw g|a], d as [dim'|n x|a']; cbn [is_basis blk_ok d_dim b_impl blk_fac]; intros X O; try contradiction.
  - destruct X as (-> & Hd & _). destruct (leg_impl_R dim' k) as (m & E & M). exists m, (mpow dim' legT k).
    split; auto. split; auto. intros t0 tau c t Ht. unfold series, tphi, phi. cbn [d_dim].
    apply (is_derive_n_window (leg_series dim' c)).
    + intros j s _. assert (G : forall u, Derive_n (leg_series dim' c) j u = leg_series dim' (mvec dim' (mpow dim' legT j) c) u).
      { intros u. apply is_derive_n_unique. apply leg_series_derive_n. }
      assert (G2 := leg_series_derive_n dim' c (S j) s). pose proof (is_derive_n_unique _ _ _ _ G2) as U. rewrite U. exact G2.
    + rewrite (is_derive_n_unique _ _ _ _ (leg_series_derive_n dim' c k (window t0 tau t))). unfold leg_series, mvec.
      rewrite <- Rsum_scal. apply Rsum_ext. intros; ring.
  - destruct X as (V & _ & D & W). destruct (lag_impl_R pts n x k V D) as (m & E & M). exists m, (lagD n x k).
    split; auto. split; auto. intros t0 tau c t Ht. unfold series, tphi, phi. cbn [d_dim].
    assert (G : is_derive_n (fun u => Rsum n (fun i => c i * lagr n x i (window t0 tau u))) k t
       (Rsum n (fun i => c i * ((2 / tau) ^ k * Derive_n (lagr n x i) k (window t0 tau t))))).
    { apply (is_derive_n_ext (fun u => (fun q u => Rsum n (fun i => c i * ((2 / tau) ^ q * Derive_n (lagr n x i) q (window t0 tau u)))) 0%nat u)).
      - intros u. apply Rsum_ext. intros. simpl. ring.
      - apply (is_derive_n_chain (fun q u => Rsum n (fun i => c i * ((2 / tau) ^ q * Derive_n (lagr n x i) q (window t0 tau u))))).
        intros q u. apply is_derive_Rsum. intros i Hi. apply d_scal. eapply is_derive_eq.
        + apply d_scal. apply (d_comp (Derive_n (lagr n x i) q) (window t0 tau)); [|apply window_derive].
          apply (isPoly_is_derive n). apply lagr_poly; auto.
        + simpl. ring. }
    replace (Rsum n (fun i => (2 / tau) ^ k * Rsum n (fun j => lagD n x k i j * c j) * lagr n x i (window t0 tau t)))
      with (Rsum n (fun i => c i * ((2 / tau) ^ k * Derive_n (lagr n x i) k (window t0 tau t)))); [exact G|].
    transitivity (Rsum n (fun j => Rsum n (fun i => c j * (2 / tau) ^ k * (lagD n x k i j * lagr n x i (window t0 tau t))))).
    + apply Rsum_ext. intros j Hj. rewrite Rsum_scal. rewrite <- (lagr_deriv_expand n x k j _) by auto.
      rewrite Rmult_assoc. apply f_equal. apply f_equal. apply Rsum_ext. intros; ring.
    + rewrite Rsum_swap. apply Rsum_ext. intros i Hi. rewrite <- Rsum_scal, <- Rsum_scal_r. apply Rsum_ext. intros; ring.
  - destruct X as (-> & Ha).
    assert (B : exists m M, b01_derivative_matrix_impl a' k = Ok m /\ mat_is m 6 6 M /\
              forall i j, (i < 6)%nat -> (j < 6)%nat -> M i j = mpow 6 (b01A (b01K a')) k i j).
    { destruct k as [|k].
      - eexists. exists (mI). split; [reflexivity|]. split; [exact (mident_is 6)|]. reflexivity.
      - destruct (b01_impl_R a' k Ha) as (m & E & M). exists m, (mpow 6 (b01A (b01K a')) (2 ^ k)). split; auto. split; auto.
        intros. destruct k as [|k]; [reflexivity|]. destruct k as [|k]; [reflexivity|lia]. }
    destruct B as (m & M & E & MM & EM). exists m, M. split; auto. split; auto. intros t0 tau c t Ht.
    pose proof (b01_series_derive_n (b01K a') t0 tau c k t Ht) as G. unfold series. cbn [d_dim].
    change (fun t => Rsum 6 (fun i => c i * tphi (D01 a') t0 tau i t)) with (b01_series (b01K a') t0 tau c).
    replace (Rsum 6 (fun i => 1 * Rsum 6 (fun j => M i j * c j) * tphi (D01 a') t0 tau i t))
      with (b01_series (b01K a') t0 tau (mvec 6 (mpow 6 (b01A (b01K a')) k) c) t); [exact G|].
    unfold b01_series, mvec. apply Rsum_ext. intros i Hi. rewrite Rmult_1_l. apply (f_equal (fun v => v * _)).
    apply Rsum_ext. intros j Hj. now rewrite EM.
Qed.
