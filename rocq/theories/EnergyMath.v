(** Least cost: a spline whose pieces solve the Euler equation and that joins
    smoothly enough has the least cost among all competitors. *)
From Coquelicot Require Import Coquelicot.
From Coq Require Import Reals Lra Lia Arith.
From Verif Require Import RSum RDeriv InterpMath.
Local Open Scope R_scope.

(** ** integration by parts, two functions *)
Definition Bk (S_ E : nat -> R -> R) (k : nat) (t : R) : R := Rsum k (fun j => (-1) ^ j * (E (k - 1 - j)%nat t * S_ (k + j)%nat t)).
Lemma Bk_derive S_ E h k t : (forall j u, is_derive (S_ j) u (S_ (S j) u)) -> (forall j u, (j < h)%nat -> is_derive (E j) u (E (S j) u)) -> (k <= h)%nat ->
  is_derive (Bk S_ E k) t (E k t * S_ k t - (-1) ^ k * (E 0%nat t * S_ (k + k)%nat t)).
Proof.
  intros D DE Hk. unfold Bk. eapply is_derive_eq.
  - apply (is_derive_Rsum k (fun j u => (-1) ^ j * (E (k - 1 - j)%nat u * S_ (k + j)%nat u))
       (fun j => (-1) ^ j * (E (k - j)%nat t * S_ (k + j)%nat t) - (-1) ^ S j * (E (k - S j)%nat t * S_ (k + S j)%nat t))).
    intros j Hj. eapply is_derive_eq.
    + apply d_scal. apply d_mult; [apply DE; lia|apply D].
    + replace (S (k - 1 - j)) with (k - j)%nat by lia. replace (k - 1 - j)%nat with (k - S j)%nat by lia.
      replace (S (k + j)) with (k + S j)%nat by lia. simpl. ring.
  - rewrite (telescope k (fun j => (-1) ^ j * (E (k - j)%nat t * S_ (k + j)%nat t))).
    replace (k - 0)%nat with k by lia. replace (k + 0)%nat with k by lia. rewrite Nat.sub_diag. simpl. ring.
Qed.
Lemma zero_chain_h (F : nat -> R -> R) k a b : (forall j u, (j < k)%nat -> is_derive (F j) u (F (S j) u)) ->
  (forall j, (j < k)%nat -> F j a = 0) -> (forall t, a < t < b -> F k t = 0) ->
  forall j t, (j < k)%nat -> a <= t <= b -> F j t = 0.
Proof.
  intros D Z Zk. assert (G : forall m j, (j + m = k)%nat -> forall t, a < t < b -> F j t = 0).
  { induction m as [|m IH]; intros j Hj t Ht; [replace j with k by lia; auto|].
    apply (zero_up (F j) (F (S j)) a b (fun u => D j u ltac:(lia))); [apply Z; lia| |lra]. apply IH. lia. }
  intros j t Hj Ht. apply (zero_up (F j) (F (S j)) a b (fun u => D j u Hj)); [apply Z; lia| |lra].
  apply (G (k - S j)%nat). lia.
Qed.
Lemma Rsum_nonneg_zero n f : (forall i, (i < n)%nat -> 0 <= f i) -> Rsum n f = 0 -> forall i, (i < n)%nat -> f i = 0.
Proof.
  induction n as [|n IH]; intros P Z i Hi; [lia|]. cbn [Rsum] in Z.
  pose proof (Rsum_nonneg n f (fun j Hj => P j ltac:(lia))) as P1. pose proof (P n ltac:(lia)) as P2.
  destruct (Nat.eq_dec i n) as [->|N]; [lra|]. apply IH; [intros; apply P; lia|lra|lia].
Qed.
Lemma cont_sq (f : R -> R) x : continuous f x -> continuous (fun t => f t ^ 2) x.
Proof.
  intros C. apply (continuous_ext (fun t => f t * f t)); [intros; simpl; ring|]. apply (continuous_mult (K := R_AbsRing) f f); auto.
Qed.
Lemma cont_scal (a : R) (f : R -> R) x : continuous f x -> continuous (fun t => a * f t) x.
Proof. intros C. apply (continuous_mult (K := R_AbsRing) (fun _ => a) f); auto. apply continuous_const. Qed.
Lemma cont_derive (f : R -> R) x l : is_derive f x l -> continuous f x.
Proof. intros D. apply (@ex_derive_continuous R_AbsRing R_NormedModule). exists l. exact D. Qed.
(** a continuous non-negative function whose integral vanishes is zero inside *)
Lemma int_zero (q : R -> R) a b : (forall u, continuous q u) -> (forall u, 0 <= q u) -> is_RInt q a b 0 -> forall t, a < t < b -> q t = 0.
Proof.
  intros C P I t Ht. apply (flat (fun u => RInt q a u) q a b t); auto.
  - intros u. apply (is_derive_RInt q (fun u => RInt q a u) a); auto.
    apply filter_forall. intros v. apply (RInt_correct (V := R_CompleteNormedModule)). apply ex_RInt_continuous. intros; apply C.
  - rewrite RInt_point. symmetry. apply is_RInt_unique. exact I.
Qed.

Section Least.
Variables (n h : nat) (b : nat -> R) (w : nat -> R) (S_ P : nat -> nat -> R -> R).
Hypothesis Hh : (1 <= h)%nat.
Hypothesis Hn : (1 <= n)%nat.
Hypothesis Hb : forall iv, (iv < n)%nat -> b iv < b (S iv).
Hypothesis Pw : forall k, 0 <= w k.
Hypothesis Wh : 0 < w h.
Hypothesis W0 : w 0%nat = 0.
Hypothesis DS : forall iv j u, (iv < n)%nat -> is_derive (S_ iv j) u (S_ iv (S j) u).
Hypothesis DP : forall iv j u, (iv < n)%nat -> (j < h)%nat -> is_derive (P iv j) u (P iv (S j) u).
Hypothesis CP : forall iv u, (iv < n)%nat -> continuous (P iv h) u.
Hypothesis JS : forall iv j, (S iv < n)%nat -> (j <= 2 * h - 2)%nat -> S_ iv j (b (S iv)) = S_ (S iv) j (b (S iv)).
Hypothesis JP : forall iv j, (S iv < n)%nat -> (j < h)%nat -> P iv j (b (S iv)) = P (S iv) j (b (S iv)).
Hypothesis L0 : forall iv, (iv < n)%nat -> P iv 0%nat (b iv) = S_ iv 0%nat (b iv).
Hypothesis R0 : forall iv, (iv < n)%nat -> P iv 0%nat (b (S iv)) = S_ iv 0%nat (b (S iv)).
Hypothesis EndL : forall j, (j < h)%nat -> P 0%nat j (b 0%nat) = S_ 0%nat j (b 0%nat).
Hypothesis EndR : forall j, (j < h)%nat -> P (n - 1)%nat j (b n) = S_ (n - 1)%nat j (b n).
(** the Euler equation *)
Hypothesis Eul : forall iv u, (iv < n)%nat -> Rsum (S h) (fun k => w k * ((-1) ^ k * S_ iv (k + k)%nat u)) = 0.

Let E iv j t := P iv j t - S_ iv j t.
Let cst (F : nat -> R -> R) t := Rsum (S h) (fun k => w k * F k t ^ 2).
Let BB iv t := Rsum (S h) (fun k => w k * Bk (S_ iv) (E iv) k t).
Let mix iv t := Rsum (S h) (fun k => w k * (E iv k t * S_ iv k t)).

Lemma E_derive iv j u : (iv < n)%nat -> (j < h)%nat -> is_derive (E iv j) u (E iv (S j) u).
Proof. intros Hi Hj. apply d_minus; auto. Qed.
Lemma cont_S iv k u : (iv < n)%nat -> continuous (S_ iv k) u.
Proof. intros Hi. eapply cont_derive, DS, Hi. Qed.
Lemma cont_P iv k u : (iv < n)%nat -> (k <= h)%nat -> continuous (P iv k) u.
Proof. intros Hi Hk. destruct (Nat.eq_dec k h) as [->|N]; auto. eapply cont_derive, DP; auto; lia. Qed.
Lemma cont_E iv k u : (iv < n)%nat -> (k <= h)%nat -> continuous (E iv k) u.
Proof. intros Hi Hk. apply (continuous_minus (V := R_NormedModule) (P iv k) (S_ iv k)); [apply cont_P|apply cont_S]; auto. Qed.
Lemma cont_cst F u : (forall k, (k <= h)%nat -> continuous (F k) u) -> continuous (cst F) u.
Proof. intros C. apply continuous_Rsum. intros k Hk. apply cont_scal, cont_sq, C. lia. Qed.
Lemma cont_mix iv u : (iv < n)%nat -> continuous (mix iv) u.
Proof.
  intros Hi. apply continuous_Rsum. intros k Hk. apply cont_scal.
  apply (continuous_mult (K := R_AbsRing) (E iv k) (S_ iv k)); [apply cont_E; auto; lia|apply cont_S; auto].
Qed.
Lemma BB_derive iv u : (iv < n)%nat -> is_derive (BB iv) u (mix iv u).
Proof.
  intros Hi. eapply is_derive_eq.
  - apply (is_derive_Rsum (S h) (fun k t => w k * Bk (S_ iv) (E iv) k t)
      (fun k => w k * (E iv k u * S_ iv k u - (-1) ^ k * (E iv 0%nat u * S_ iv (k + k)%nat u)))).
    intros k Hk. apply d_scal. apply (Bk_derive _ _ h); [intros; apply DS; auto|intros; apply E_derive; auto|lia].
  - unfold mix. rewrite <- (Rminus_0_r (Rsum _ (fun k => w k * (E iv k u * S_ iv k u)))).
    rewrite <- (Rmult_0_r (E iv 0%nat u)), <- (Eul iv u Hi), <- Rsum_scal, <- Rsum_minus. apply Rsum_ext. intros k _. ring.
Qed.
Lemma mix_int iv : (iv < n)%nat -> is_RInt (mix iv) (b iv) (b (S iv)) (BB iv (b (S iv)) - BB iv (b iv)).
Proof.
  intros Hi. apply (is_RInt_derive (BB iv) (mix iv)); intros; [apply BB_derive|apply cont_mix]; auto.
Qed.
Lemma Bk_joint iv k : (S iv < n)%nat -> (k <= h)%nat -> Bk (S_ iv) (E iv) k (b (S iv)) = Bk (S_ (S iv)) (E (S iv)) k (b (S iv)).
Proof.
  intros Hi Hk. unfold Bk. apply Rsum_ext. intros j Hj. f_equal. unfold E. destruct (Nat.eq_dec (k - 1 - j) 0) as [Z|Z].
  - rewrite Z, (R0 iv), (L0 (S iv)) by lia. ring.
  - rewrite (JS iv (k - 1 - j)), (JS iv (k + j)), (JP iv) by lia. ring.
Qed.
Lemma Bk_first k : (k <= h)%nat -> Bk (S_ 0%nat) (E 0%nat) k (b 0%nat) = 0.
Proof. intros Hk. apply Rsum_zero. intros j Hj. unfold E. rewrite EndL by lia. ring. Qed.
Lemma Bk_last k : (k <= h)%nat -> Bk (S_ (n - 1)%nat) (E (n - 1)%nat) k (b n) = 0.
Proof. intros Hk. apply Rsum_zero. intros j Hj. unfold E. rewrite EndR by lia. ring. Qed.
Lemma mix_sum : Rsum n (fun iv => BB iv (b (S iv)) - BB iv (b iv)) = 0.
Proof.
  assert (K : forall m, (m < n)%nat -> Rsum (S m) (fun iv => BB iv (b (S iv)) - BB iv (b iv)) = BB m (b (S m)) - BB 0%nat (b 0%nat)).
  { induction m as [|m IH]; intros Hm; [simpl; ring|]. change (Rsum (S (S m)) (fun iv => BB iv (b (S iv)) - BB iv (b iv)))
      with (Rsum (S m) (fun iv => BB iv (b (S iv)) - BB iv (b iv)) + (BB (S m) (b (S (S m))) - BB (S m) (b (S m)))).
    rewrite IH by lia. replace (BB (S m) (b (S m))) with (BB m (b (S m))); [ring|].
    apply Rsum_ext. intros k Hk. rewrite Bk_joint by lia. reflexivity. }
  replace n with (S (n - 1)) at 1 by lia. rewrite K by lia. replace (S (n - 1)) with n by lia.
  replace (BB (n - 1)%nat (b n)) with 0; [|symmetry; apply Rsum_zero; intros k Hk; rewrite Bk_last by lia; ring].
  replace (BB 0%nat (b 0%nat)) with 0; [ring|symmetry; apply Rsum_zero; intros k Hk; rewrite Bk_first by lia; ring].
Qed.
Lemma int_cst F iv : (forall k u, (k <= h)%nat -> continuous (F k) u) -> is_RInt (cst F) (b iv) (b (S iv)) (RInt (cst F) (b iv) (b (S iv))).
Proof. intros C. apply (RInt_correct (V := R_CompleteNormedModule)). apply ex_RInt_continuous. intros; apply cont_cst; auto. Qed.
Lemma cst_nonneg F t : 0 <= cst F t.
Proof. apply Rsum_nonneg. intros k _. apply Rmult_le_pos; auto. apply pow2_ge_0. Qed.
Lemma int_nonneg F iv v : (iv < n)%nat -> is_RInt (cst F) (b iv) (b (S iv)) v -> 0 <= v.
Proof.
  intros Hi I. apply (is_RInt_ge_0 (cst F) (b iv) (b (S iv))); auto; [apply Rlt_le; auto|]. intros; apply cst_nonneg.
Qed.

Theorem split_cost : exists Vs Ve : nat -> R,
  (forall iv, (iv < n)%nat -> is_RInt (cst (S_ iv)) (b iv) (b (S iv)) (Vs iv)) /\
  (forall iv, (iv < n)%nat -> is_RInt (cst (E iv)) (b iv) (b (S iv)) (Ve iv)) /\
  exists Vp, (forall iv, (iv < n)%nat -> is_RInt (cst (P iv)) (b iv) (b (S iv)) (Vp iv)) /\
    Rsum n Vp = Rsum n Vs + Rsum n Ve.
Proof.
  set (Vs := fun iv => RInt (cst (S_ iv)) (b iv) (b (S iv))). set (Ve := fun iv => RInt (cst (E iv)) (b iv) (b (S iv))).
  exists Vs, Ve.
  assert (I1 : forall iv, (iv < n)%nat -> is_RInt (cst (S_ iv)) (b iv) (b (S iv)) (Vs iv)) by (intros; apply int_cst; intros; apply cont_S; auto).
  assert (I2 : forall iv, (iv < n)%nat -> is_RInt (cst (E iv)) (b iv) (b (S iv)) (Ve iv)) by (intros; apply int_cst; intros; apply cont_E; auto).
  split; auto. split; auto. exists (fun iv => (Vs iv + 2 * (BB iv (b (S iv)) - BB iv (b iv))) + Ve iv). split.
  - intros iv Hi. apply (i_ext (fun t => (cst (S_ iv) t + 2 * mix iv t) + cst (E iv) t)).
    + intros t. unfold cst, mix. rewrite <- Rsum_scal, <- !Rsum_plus. apply Rsum_ext. intros k _. unfold E. ring.
    + apply i_plus; auto. apply i_plus; auto. apply i_scal. apply mix_int; auto.
  - rewrite !Rsum_plus, Rsum_scal, mix_sum. ring.
Qed.

(** no competitor costs less, and equal cost means equal functions *)
Theorem least_cost : exists Vs Vp : nat -> R,
  (forall iv, (iv < n)%nat -> is_RInt (cst (S_ iv)) (b iv) (b (S iv)) (Vs iv)) /\
  (forall iv, (iv < n)%nat -> is_RInt (cst (P iv)) (b iv) (b (S iv)) (Vp iv)) /\
  Rsum n Vs <= Rsum n Vp /\
  (Rsum n Vp = Rsum n Vs -> forall iv t, (iv < n)%nat -> b iv <= t <= b (S iv) -> P iv 0%nat t = S_ iv 0%nat t).
Proof.
  destruct split_cost as (Vs & Ve & Is & Ie & Vp & Ip & Eq). exists Vs, Vp. split; auto. split; auto.
  assert (Pe : forall iv, (iv < n)%nat -> 0 <= Ve iv) by (intros iv Hi; apply (int_nonneg (E iv) iv); auto).
  pose proof (Rsum_nonneg n Ve Pe). split; [lra|]. intros Eq2.
  assert (Ze : forall iv, (iv < n)%nat -> Ve iv = 0) by (apply Rsum_nonneg_zero; auto; lra).
  assert (Zh : forall iv t, (iv < n)%nat -> b iv < t < b (S iv) -> E iv h t = 0).
  { intros iv t Hi Ht. pose proof (Ie iv Hi) as I. rewrite (Ze iv Hi) in I.
    assert (Z : cst (E iv) t = 0).
    { apply (int_zero (cst (E iv)) (b iv) (b (S iv))); auto; [|intros; apply cst_nonneg]. intros u. apply cont_cst. intros; apply cont_E; auto. }
    pose proof (Rsum_nonneg_zero (S h) (fun k => w k * E iv k t ^ 2) ltac:(intros; apply Rmult_le_pos; auto; apply pow2_ge_0) Z h ltac:(lia)) as K.
    cbv beta in K. apply Rmult_integral in K. destruct K as [K|K]; [lra|]. simpl in K. rewrite Rmult_1_r in K. apply Rmult_integral in K. tauto. }
  assert (All : forall iv, (iv < n)%nat -> forall j t, (j < h)%nat -> b iv <= t <= b (S iv) -> E iv j t = 0).
  { induction iv as [|iv IH]; intros Hi; apply zero_chain_h; auto using E_derive.
    - intros j Hj. unfold E. rewrite EndL by lia. ring.
    - intros j Hj. specialize (IH ltac:(lia) j (b (S iv)) Hj). unfold E in *. rewrite <- JP, <- JS by lia. apply IH.
      pose proof (Hb iv ltac:(lia)). lra. }
  intros iv t Hi Ht. specialize (All iv Hi 0%nat t ltac:(lia) Ht). unfold E in All. lra.
Qed.
End Least.
