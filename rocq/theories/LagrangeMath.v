(** Mathematics of Lagrange interpolation. *)
From Coquelicot Require Import Coquelicot.
From Coq Require Import Reals Lra Lia Arith List.
From Verif Require Import RSum RDeriv RPoly LagrangeSpec.
Local Open Scope R_scope.

Lemma lagr_poly n x j : (j < n)%nat -> isPoly n (lagr n x j).
Proof.
  intros Hj. unfold lagr. generalize (x j) as a. intros a.
  assert (A : forall m, (m <= j)%nat -> isPoly (S m) (fun s => Rprod m (fun i => if Nat.eqb i j then 1 else (s - x i) / (a - x i)))).
  { induction m; intros Hm; [exact (isPoly_const 1 1 (le_n _))|].
    apply (isPoly_ext (S (S m)) (fun s => (/ (a - x m) * s + - x m * / (a - x m)) * Rprod m (fun i => if Nat.eqb i j then 1 else (s - x i) / (a - x i)))).
    - intros s. simpl. destruct (Nat.eqb_spec m j); [lia|]. unfold Rdiv. ring.
    - apply isPoly_mul_lin. apply IHm. lia. }
  assert (B : forall m, (j < m)%nat -> isPoly m (fun s => Rprod m (fun i => if Nat.eqb i j then 1 else (s - x i) / (a - x i)))).
  { induction m; intros Hm; [lia|]. destruct (Nat.eq_dec m j) as [->|Hne].
    - apply (isPoly_ext (S j) (fun s => Rprod j (fun i => if Nat.eqb i j then 1 else (s - x i) / (a - x i)))).
      + intros s. simpl. rewrite Nat.eqb_refl. ring.
      + apply A. lia.
    - apply (isPoly_ext (S m) (fun s => (/ (a - x m) * s + - x m * / (a - x m)) * Rprod m (fun i => if Nat.eqb i j then 1 else (s - x i) / (a - x i)))).
      + intros s. simpl. destruct (Nat.eqb_spec m j); [lia|]. unfold Rdiv. ring.
      + apply isPoly_mul_lin. apply IHm. lia. }
  apply B. auto.
Qed.
Lemma lagr_self n x j : distinct n x -> (j < n)%nat -> lagr n x j (x j) = 1.
Proof.
  intros D Hj. unfold lagr. apply Rprod_1. intros i Hi. destruct (Nat.eqb_spec i j); auto.
  field. specialize (D j i Hj Hi). intros E. apply D; [congruence|lra].
Qed.
Lemma lagr_other n x i j : (i < n)%nat -> i <> j -> lagr n x j (x i) = 0.
Proof.
  intros Hi Hne. unfold lagr. apply (Rprod_0 n _ i); auto. destruct (Nat.eqb_spec i j); [contradiction|].
  unfold Rdiv. ring.
Qed.
Lemma lagr_delta n x i j : distinct n x -> (i < n)%nat -> (j < n)%nat ->
  lagr n x j (x i) = if Nat.eqb i j then 1 else 0.
Proof.
  intros D Hi Hj. destruct (Nat.eqb_spec i j) as [->|]; [apply lagr_self; auto|apply lagr_other; auto].
Qed.
(** interpolation reproduces polynomials of degree < n *)
Lemma lagr_reproduce n x p s : distinct n x -> isPoly n p ->
  Rsum n (fun j => p (x j) * lagr n x j s) = p s.
Proof.
  intros D P.
  assert (Z := poly_zero n (fun t => Rsum n (fun j => p (x j) * lagr n x j t) - p t) x).
  enough (Rsum n (fun j => p (x j) * lagr n x j s) - p s = 0) by lra. apply Z; auto.
  - apply isPoly_minus; auto. apply isPoly_Rsum. intros i Hi. apply isPoly_scal, lagr_poly. auto.
  - intros i Hi. rewrite (Rsum_delta n i); auto.
    + rewrite lagr_self by auto. ring.
    + intros j Hj Hne. rewrite lagr_other by auto. ring.
Qed.
Lemma lagr_sum n x s : distinct n x -> (1 <= n)%nat -> Rsum n (fun j => lagr n x j s) = 1.
Proof.
  intros D Hn. rewrite <- (lagr_reproduce n x (fun _ => 1) s D) at 1 by (apply isPoly_const; auto).
  apply Rsum_ext. intros; ring.
Qed.

(** node polynomial and weights *)
Definition wprod (n : nat) (x : nat -> R) (j : nat) : R :=
  Rprod n (fun m => if Nat.eqb m j then 1 else x j - x m).
Lemma wprod_neq0 n x j : distinct n x -> (j < n)%nat -> wprod n x j <> 0.
Proof.
  intros D Hj. apply Rprod_neq0. intros i Hi. destruct (Nat.eqb_spec i j); [lra|].
  specialize (D j i Hj Hi). intros E. apply D; [congruence|lra].
Qed.
Lemma lagr_node n x j s : distinct n x -> (j < n)%nat ->
  (s - x j) * lagr n x j s = / wprod n x j * Rprod n (fun m => s - x m).
Proof.
  intros D Hj. rewrite (Rprod_extract n (fun m => s - x m) j) by auto.
  unfold lagr, wprod.
  rewrite (Rprod_ext n _ (fun m => (if Nat.eqb m j then 1 else s - x m) * / (if Nat.eqb m j then 1 else x j - x m))).
  - rewrite Rprod_mul, Rprod_inv. ring.
  - intros i Hi. destruct (Nat.eqb i j); [field|reflexivity].
Qed.
Lemma lagr_off n x j s : distinct n x -> (j < n)%nat -> s <> x j ->
  lagr n x j s = (/ wprod n x j / (s - x j)) * Rprod n (fun m => s - x m).
Proof.
  intros D Hj Hs. apply (Rmult_eq_reg_l (s - x j)); [|lra]. rewrite lagr_node by auto. field.
  split; [apply wprod_neq0; auto|lra].
Qed.
(** barycentric denominator *)
Lemma bary_den n x s : distinct n x -> (1 <= n)%nat -> (forall j, (j < n)%nat -> s <> x j) ->
  Rsum n (fun j => / wprod n x j / (s - x j)) * Rprod n (fun m => s - x m) = 1.
Proof.
  intros D Hn Hs. rewrite <- Rsum_scal_r. rewrite <- (lagr_sum n x s D Hn). apply Rsum_ext. intros i Hi.
  symmetry. apply lagr_off; auto.
Qed.

(** derivatives at the nodes *)
Definition lagD (n : nat) (x : nat -> R) (m i j : nat) : R := Derive_n (lagr n x j) m (x i).
Lemma lagD_offdiag n x m i j : distinct n x -> (i < n)%nat -> (j < n)%nat -> i <> j ->
  lagD n x (S m) i j =
  INR (S m) / (x i - x j) * (/ wprod n x j / / wprod n x i * lagD n x m i i - lagD n x m i j).
Proof.
  intros D Hi Hj Hne. unfold lagD.
  assert (Hx : x i - x j <> 0) by (specialize (D i j Hi Hj Hne); lra).
  pose proof (wprod_neq0 n x i D Hi) as Wi. pose proof (wprod_neq0 n x j D Hj) as Wj.
  assert (E : forall y, (y - x j) * lagr n x j y = (wprod n x i / wprod n x j) * ((y - x i) * lagr n x i y)).
  { intros y. rewrite !lagr_node by auto. field. auto. }
  pose proof (Derive_n_ext _ _ (S m) (x i) E) as EE.
  rewrite (Derive_n_lin n) in EE by (apply lagr_poly; auto).
  rewrite (Derive_n_scal_l (fun y => (y - x i) * lagr n x i y)) in EE.
  rewrite (Derive_n_lin n) in EE by (apply lagr_poly; auto). simpl pred in EE.
  rewrite Rminus_eq_0, Rmult_0_l, Rplus_0_l in EE.
  apply (Rmult_eq_reg_l (x i - x j)); auto.
  replace ((x i - x j) * Derive_n (lagr n x j) (S m) (x i)) with
    (wprod n x i / wprod n x j * (INR (S m) * Derive_n (lagr n x i) m (x i)) - INR (S m) * Derive_n (lagr n x j) m (x i)) by lra.
  field. repeat split; auto.
Qed.
Lemma lagD_rowsum n x m i : distinct n x -> (1 <= n)%nat -> Rsum n (fun j => lagD n x (S m) i j) = 0.
Proof.
  intros D Hn. unfold lagD.
  rewrite <- (Derive_n_Rsum n n (lagr n x)) by (intros; apply lagr_poly; auto).
  rewrite (Derive_n_ext _ (fun _ => 1)); [apply Derive_n_const_S|]. intros t. apply lagr_sum; auto.
Qed.
Lemma lagD_diag n x m i : distinct n x -> (i < n)%nat ->
  lagD n x (S m) i i = - Rsum n (fun j => if Nat.eqb j i then 0 else lagD n x (S m) i j).
Proof.
  intros D Hi. pose proof (lagD_rowsum n x m i D ltac:(lia)) as Z.
  rewrite (Rsum_ext n _ (fun j => (if Nat.eqb j i then lagD n x (S m) i i else 0) + (if Nat.eqb j i then 0 else lagD n x (S m) i j))) in Z.
  - rewrite Rsum_plus in Z. rewrite (Rsum_delta n i) in Z; auto.
    + rewrite Nat.eqb_refl in Z. lra.
    + intros j Hj Hne. destruct (Nat.eqb_spec j i); [contradiction|auto].
  - intros j Hj. destruct (Nat.eqb_spec j i) as [->|]; ring.
Qed.
Lemma lagD_0 n x i j : distinct n x -> (i < n)%nat -> (j < n)%nat -> lagD n x 0 i j = if Nat.eqb i j then 1 else 0.
Proof. intros. unfold lagD. simpl. apply lagr_delta; auto. Qed.
(** value of the m-th derivative anywhere, from its nodal values *)
Lemma lagr_deriv_expand n x m j s : distinct n x -> (j < n)%nat ->
  Rsum n (fun i => lagD n x m i j * lagr n x i s) = Derive_n (lagr n x j) m s.
Proof.
  intros D Hj. apply (lagr_reproduce n x (Derive_n (lagr n x j) m)); auto.
  apply isPoly_Derive_n, lagr_poly; auto.
Qed.
