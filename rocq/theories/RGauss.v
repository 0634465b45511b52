(** Square linear systems over the reals: elimination solves every system whose
    homogeneous part has only the zero solution. *)
From Coquelicot Require Import Coquelicot.
From Coq Require Import Reals Lra Lia Arith.
From Verif Require Import RSum.
Local Open Scope R_scope.

(** only the zero vector is mapped to zero *)
Definition nonsing (n : nat) (A : nat -> nat -> R) : Prop :=
  forall x, (forall i, (i < n)%nat -> Rsum n (fun j => A i j * x j) = 0) -> forall j, (j < n)%nat -> x j = 0.

(** some row i < m with f i <> 0, or m *)
Fixpoint pivot (f : nat -> R) (m : nat) : nat :=
  match m with
  | O => 0
  | S k => let p := pivot f k in if Nat.ltb p k then p else if Req_EM_T (f k) 0 then S k else k
  end.
Lemma pivot_spec f m : ((pivot f m < m)%nat /\ f (pivot f m) <> 0) \/ (pivot f m = m /\ forall i, (i < m)%nat -> f i = 0).
Proof.
  induction m as [|m IH]; simpl.
  - right. split; auto. intros; lia.
  - destruct IH as [(L & Nz)|(E & Z)].
    + apply Nat.ltb_lt in L. rewrite L. apply Nat.ltb_lt in L. left. split; [lia|auto].
    + rewrite E, Nat.ltb_irrefl. destruct (Req_EM_T (f m) 0) as [F|F].
      * right. split; auto. intros i Hi. destruct (Nat.eq_dec i m) as [->|]; auto. apply Z. lia.
      * left. split; [lia|auto].
Qed.

(** rows without row p: the last one takes its place *)
Definition other (n p i : nat) : nat := if Nat.eqb i p then n else i.
Fixpoint gauss (n : nat) (A : nat -> nat -> R) (b : nat -> R) (j : nat) : R :=
  match n with
  | O => 0
  | S k =>
    let p := pivot (fun i => A i k) n in
    let f i := A i k / A p k in
    let y := gauss k (fun i j => A (other k p i) j - f (other k p i) * A p j) (fun i => b (other k p i) - f (other k p i) * b p) in
    if Nat.eqb j k then (b p - Rsum k (fun j => A p j * y j)) / A p k else y j
  end.

Lemma other_spec k p i : (p < S k)%nat -> (i < S k)%nat -> i <> p -> exists i', (i' < k)%nat /\ other k p i' = i.
Proof.
  intros Hp Hi Ne. destruct (Nat.eq_dec i k) as [->|].
  - exists p. split; [lia|]. unfold other. now rewrite Nat.eqb_refl.
  - exists i. split; [lia|]. unfold other. apply Nat.eqb_neq in Ne. now rewrite Ne.
Qed.
Lemma other_lt k p i : (p < S k)%nat -> (i < k)%nat -> (other k p i < S k)%nat /\ other k p i <> p.
Proof. intros Hp Hi. unfold other. destruct (Nat.eqb_spec i p); subst; lia. Qed.

(** solving the reduced system solves the whole *)
Lemma reduce k (A : nat -> nat -> R) (b : nat -> R) p (y : nat -> R) : (p < S k)%nat -> A p k <> 0 ->
  (forall i, (i < k)%nat -> Rsum k (fun j => (A (other k p i) j - A (other k p i) k / A p k * A p j) * y j) =
     b (other k p i) - A (other k p i) k / A p k * b p) ->
  let x j := if Nat.eqb j k then (b p - Rsum k (fun j => A p j * y j)) / A p k else y j in
  forall i, (i < S k)%nat -> Rsum (S k) (fun j => A i j * x j) = b i.
Proof.
  intros Hp Nz Y x i Hi.
  assert (X : forall r, Rsum (S k) (fun j => A r j * x j) =
     Rsum k (fun j => A r j * y j) + A r k * ((b p - Rsum k (fun j => A p j * y j)) / A p k)).
  { intros r. simpl. f_equal.
    - apply Rsum_ext. intros j Hj. unfold x. destruct (Nat.eqb_spec j k); [lia|reflexivity].
    - unfold x. now rewrite Nat.eqb_refl. }
  rewrite X. destruct (Nat.eq_dec i p) as [->|Ne].
  - field. auto.
  - destruct (other_spec k p i Hp Hi Ne) as (i' & Hi' & E). specialize (Y i' Hi'). rewrite E in Y.
    assert (S : Rsum k (fun j => (A i j - A i k / A p k * A p j) * y j) =
                Rsum k (fun j => A i j * y j) - A i k / A p k * Rsum k (fun j => A p j * y j)).
    { rewrite <- Rsum_scal. rewrite <- Rsum_minus. apply Rsum_ext. intros; ring. }
    rewrite S in Y. replace (Rsum k (fun j => A i j * y j)) with (b i - A i k / A p k * b p + A i k / A p k * Rsum k (fun j => A p j * y j)) by lra.
    field. auto.
Qed.

Lemma nonsing_pivot k A : nonsing (S k) A -> let p := pivot (fun i => A i k) (S k) in (p < S k)%nat /\ A p k <> 0.
Proof.
  intros Ns p. destruct (pivot_spec (fun i => A i k) (S k)) as [G|(_ & Z)]; [exact G|exfalso].
  assert (E : (if Nat.eqb k k then 1 else 0) = 0).
  { apply (Ns (fun j => if Nat.eqb j k then 1 else 0)); [|lia]. intros i Hi. apply Rsum_zero. intros j Hj.
    destruct (Nat.eqb_spec j k) as [->|]; [rewrite Z by auto|]; ring. }
  rewrite Nat.eqb_refl in E. lra.
Qed.

Theorem gauss_solves n : forall A b, nonsing n A -> forall i, (i < n)%nat -> Rsum n (fun j => A i j * gauss n A b j) = b i.
Proof.
  induction n as [|k IH]; intros A b Ns; [intros; lia|].
  destruct (nonsing_pivot k A Ns) as (Hp & Nz). set (p := pivot (fun i => A i k) (S k)) in *.
  apply (reduce k A b p _ Hp Nz).
  apply (IH (fun i j => A (other k p i) j - A (other k p i) k / A p k * A p j)
            (fun i => b (other k p i) - A (other k p i) k / A p k * b p)).
  intros y Y j Hj.
  pose (x := fun j => if Nat.eqb j k then (0 - Rsum k (fun j => A p j * y j)) / A p k else y j).
  assert (Z : x j = 0).
  { apply (Ns x); [|lia]. apply (reduce k A (fun _ => 0) p y Hp Nz). intros i Hi. rewrite Y by auto. ring. }
  unfold x in Z. destruct (Nat.eqb_spec j k); [lia|exact Z].
Qed.
Theorem gauss_unique n A b x : nonsing n A -> (forall i, (i < n)%nat -> Rsum n (fun j => A i j * x j) = b i) ->
  forall j, (j < n)%nat -> x j = gauss n A b j.
Proof.
  intros Ns X j Hj. apply Rminus_diag_uniq. apply (Ns (fun j => x j - gauss n A b j)); auto.
  intros i Hi. rewrite <- (Rminus_diag_eq (b i) (b i) eq_refl). rewrite <- (X i Hi) at 1. rewrite <- (gauss_solves n A b Ns i Hi) at 1.
  rewrite <- Rsum_minus. apply Rsum_ext. intros; ring.
Qed.
