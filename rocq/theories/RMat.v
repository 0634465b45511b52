(** Square real matrices as functions of two indices. *)
From Coq Require Import Reals Lra Lia Arith List.
From Verif Require Import RSum.
Local Open Scope R_scope.

Definition fmat := nat -> nat -> R.
Definition mprod (n : nat) (A B : fmat) : fmat := fun i j => Rsum n (fun l => A i l * B l j).
Definition mI : fmat := fun i j => if Nat.eqb i j then 1 else 0.
Definition mT (A : fmat) : fmat := fun i j => A j i.
Fixpoint mpow (n : nat) (A : fmat) (k : nat) : fmat :=
  match k with O => mI | S k' => mprod n (mpow n A k') A end.
Definition mvec (n : nat) (A : fmat) (c : nat -> R) : nat -> R := fun i => Rsum n (fun j => A i j * c j).

Lemma mprod_assoc n A B C i j : mprod n (mprod n A B) C i j = mprod n A (mprod n B C) i j.
Proof.
  unfold mprod.
  transitivity (Rsum n (fun l => Rsum n (fun p => A i p * B p l * C l j))).
  - apply Rsum_ext. intros l _. rewrite Rsum_scal_r. reflexivity.
  - rewrite Rsum_swap. apply Rsum_ext. intros p _. rewrite <- Rsum_scal. apply Rsum_ext. intros; ring.
Qed.
Lemma mprod_ext n A A' B B' i j : (forall l, (l < n)%nat -> A i l = A' i l) ->
  (forall l, (l < n)%nat -> B l j = B' l j) -> mprod n A B i j = mprod n A' B' i j.
Proof. intros HA HB. apply Rsum_ext. intros l Hl. rewrite HA, HB; auto. Qed.
Lemma mprod_1l n A i j : (i < n)%nat -> mprod n mI A i j = A i j.
Proof.
  intros Hi. unfold mprod. rewrite (Rsum_delta n i); auto.
  - unfold mI. rewrite Nat.eqb_refl. ring.
  - intros l _ Hl. unfold mI. destruct (Nat.eqb_spec i l); [congruence|ring].
Qed.
Lemma mprod_1r n A i j : (j < n)%nat -> mprod n A mI i j = A i j.
Proof.
  intros Hj. unfold mprod. rewrite (Rsum_delta n j); auto.
  - unfold mI. rewrite Nat.eqb_refl. ring.
  - intros l _ Hl. unfold mI. destruct (Nat.eqb_spec l j); [congruence|ring].
Qed.
Lemma mpow_1 n A i j : (i < n)%nat -> mpow n A 1 i j = A i j.
Proof. intros. simpl. apply mprod_1l; auto. Qed.
Lemma mpow_comm n A k i j : (i < n)%nat -> (j < n)%nat ->
  mpow n A (S k) i j = mprod n A (mpow n A k) i j.
Proof.
  revert i j. induction k; intros i j Hi Hj.
  - simpl. rewrite mprod_1l, mprod_1r; auto.
  - change (mpow n A (S (S k))) with (mprod n (mpow n A (S k)) A).
    transitivity (mprod n (mprod n A (mpow n A k)) A i j).
    + apply mprod_ext; auto.
    + rewrite mprod_assoc. reflexivity.
Qed.
Lemma mvec_mprod n A B c i : mvec n (mprod n A B) c i = mvec n A (mvec n B c) i.
Proof.
  unfold mvec, mprod.
  transitivity (Rsum n (fun l => Rsum n (fun p => A i p * B p l * c l))).
  - apply Rsum_ext. intros l _. rewrite Rsum_scal_r. reflexivity.
  - rewrite Rsum_swap. apply Rsum_ext. intros p _. rewrite <- Rsum_scal. apply Rsum_ext. intros; ring.
Qed.
Lemma mvec_ext n A B c d i : (forall l, (l < n)%nat -> A i l = B i l) -> (forall l, (l < n)%nat -> c l = d l) ->
  mvec n A c i = mvec n B d i.
Proof. intros HA HB. apply Rsum_ext. intros l Hl. rewrite HA, HB; auto. Qed.
Lemma mvec_I n c i : (i < n)%nat -> mvec n mI c i = c i.
Proof.
  intros Hi. unfold mvec. rewrite (Rsum_delta n i); auto.
  - unfold mI. rewrite Nat.eqb_refl. ring.
  - intros l _ Hl. unfold mI. destruct (Nat.eqb_spec i l); [congruence|ring].
Qed.
Lemma mpow_upper n A : (forall i j, (j <= i)%nat -> A i j = 0) ->
  forall k i j, (j < i + k)%nat -> mpow n A k i j = 0.
Proof.
  intros HA. induction k; intros i j Hij.
  - simpl. unfold mI. destruct (Nat.eqb_spec i j); [lia|auto].
  - simpl. unfold mprod. apply Rsum_zero. intros l Hl. destruct (Nat.lt_ge_cases l (i + k)).
    + rewrite IHk by auto. ring.
    + rewrite HA by lia. ring.
Qed.
