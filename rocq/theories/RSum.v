(** Finite sums of reals, used by specifications and proofs. *)
From Coquelicot Require Import Coquelicot.
From Coq Require Import Reals Lra Lia Arith List.
From Verif Require Import Num Outcome LinAlg.
Local Open Scope R_scope.

(** sum_{i<n} f i *)
Fixpoint Rsum (n : nat) (f : nat -> R) : R :=
  match n with
  | O => 0
  | S m => Rsum m f + f m
  end.

Lemma nsum_R n f : nsum n f = Rsum n f.
Proof. induction n; simpl; [reflexivity|]. rewrite IHn. reflexivity. Qed.
Lemma Rsum_ext n f g : (forall i, (i < n)%nat -> f i = g i) -> Rsum n f = Rsum n g.
Proof. induction n; simpl; intros E; auto. rewrite IHn, E; auto. Qed.
Lemma Rsum_plus n f g : Rsum n (fun i => f i + g i) = Rsum n f + Rsum n g.
Proof. induction n; simpl; [ring|]. rewrite IHn. ring. Qed.
Lemma Rsum_minus n f g : Rsum n (fun i => f i - g i) = Rsum n f - Rsum n g.
Proof. induction n; simpl; [ring|]. rewrite IHn. ring. Qed.
Lemma Rsum_scal n a f : Rsum n (fun i => a * f i) = a * Rsum n f.
Proof. induction n; simpl; [ring|]. rewrite IHn. ring. Qed.
Lemma Rsum_scal_r n a f : Rsum n (fun i => f i * a) = Rsum n f * a.
Proof. induction n; simpl; [ring|]. rewrite IHn. ring. Qed.
Lemma Rsum_opp n f : Rsum n (fun i => - f i) = - Rsum n f.
Proof. induction n; simpl; [ring|]. rewrite IHn. ring. Qed.
Lemma Rsum_zero n f : (forall i, (i < n)%nat -> f i = 0) -> Rsum n f = 0.
Proof. induction n; simpl; intros E; auto. rewrite IHn, E by auto. ring. Qed.
Lemma Rsum_const n a : Rsum n (fun _ => a) = INR n * a.
Proof. induction n; simpl Rsum; [simpl; ring|]. rewrite IHn, S_INR. ring. Qed.
Lemma Rsum_delta n k f : (k < n)%nat -> (forall i, (i < n)%nat -> i <> k -> f i = 0) -> Rsum n f = f k.
Proof.
  induction n; intros Hk E; [lia|]. simpl. destruct (Nat.eq_dec k n) as [->|Hn].
  - rewrite Rsum_zero; [ring|]. intros i Hi. apply E; lia.
  - rewrite IHn; [|lia|intros; apply E; lia]. rewrite (E n); [ring|lia|lia].
Qed.
Lemma Rsum_swap n m (f : nat -> nat -> R) :
  Rsum n (fun i => Rsum m (fun j => f i j)) = Rsum m (fun j => Rsum n (fun i => f i j)).
Proof.
  induction n; simpl.
  - rewrite Rsum_zero; auto.
  - rewrite IHn. rewrite <- Rsum_plus. reflexivity.
Qed.
Lemma Rsum_app n m f : Rsum (n + m) f = Rsum n f + Rsum m (fun i => f (n + i)%nat).
Proof.
  induction m; simpl.
  - rewrite Nat.add_0_r. ring.
  - rewrite Nat.add_succ_r. simpl. rewrite IHm. ring.
Qed.
Lemma Rsum_first n f : Rsum (S n) f = f 0%nat + Rsum n (fun i => f (S i)).
Proof. change (S n) with (1 + n)%nat. rewrite Rsum_app. simpl. ring. Qed.
Lemma Rsum_le n f g : (forall i, (i < n)%nat -> f i <= g i) -> Rsum n f <= Rsum n g.
Proof.
  induction n; simpl; intros E; [lra|]. apply Rplus_le_compat; [apply IHn; auto|apply E; auto].
Qed.
Lemma Rsum_nonneg n f : (forall i, (i < n)%nat -> 0 <= f i) -> 0 <= Rsum n f.
Proof.
  intros E. rewrite <- (Rsum_zero n (fun _ => 0)) by auto. apply Rsum_le. auto.
Qed.
(** mixed radix splitting of an index range *)
Lemma Rsum_mul n m f : Rsum (n * m) f = Rsum n (fun i => Rsum m (fun j => f (i * m + j)%nat)).
Proof.
  induction n; simpl; auto. rewrite Nat.add_comm, Rsum_app, IHn. reflexivity.
Qed.

Lemma is_derive_Rsum n (f : nat -> R -> R) (g : nat -> R) x :
  (forall i, (i < n)%nat -> is_derive (f i) x (g i)) ->
  is_derive (fun y => Rsum n (fun i => f i y)) x (Rsum n g).
Proof.
  induction n; simpl; intros E.
  - apply @is_derive_const.
  - apply (is_derive_plus (fun y => Rsum n (fun i => f i y)) (f n)); auto.
Qed.
Lemma is_RInt_Rsum n (f : nat -> R -> R) (g : nat -> R) a b :
  (forall i, (i < n)%nat -> is_RInt (f i) a b (g i)) ->
  is_RInt (fun y => Rsum n (fun i => f i y)) a b (Rsum n g).
Proof.
  induction n; simpl; intros E.
  - pose proof (is_RInt_const a b 0) as K. unfold scal in K; simpl in K. unfold mult in K; simpl in K. rewrite Rmult_0_r in K. exact K.
  - apply (is_RInt_plus (fun y => Rsum n (fun i => f i y)) (f n)); auto.
Qed.
Lemma continuous_Rsum n (f : nat -> R -> R) x :
  (forall i, (i < n)%nat -> continuous (f i) x) -> continuous (fun y => Rsum n (fun i => f i y)) x.
Proof.
  induction n; simpl; intros E.
  - apply continuous_const.
  - apply (continuous_plus (fun y => Rsum n (fun i => f i y)) (f n)); auto.
Qed.
Lemma mzero_isR r c : mat_is (mzero r c) r c (fun _ _ => 0).
Proof. exact (mzero_is r c). Qed.
