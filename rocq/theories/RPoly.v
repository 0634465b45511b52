(** Real polynomial functions: degree bound, roots, derivatives. *)
From Coquelicot Require Import Coquelicot.
From Coq Require Import Reals Lra Lia Arith List.
From Verif Require Import RSum RDeriv.
Local Open Scope R_scope.

(** sum_{k<n} c_k x^k *)
Definition peval (n : nat) (c : nat -> R) (x : R) : R := Rsum n (fun k => c k * x ^ k).
(** f is a polynomial of degree < n *)
Definition isPoly (n : nat) (f : R -> R) : Prop := exists c, forall x, f x = peval n c x.

Lemma isPoly_ext n f g : (forall x, f x = g x) -> isPoly n f -> isPoly n g.
Proof. intros E [c H]. exists c. intros x. rewrite <- E. auto. Qed.
Lemma isPoly_mono n m f : (n <= m)%nat -> isPoly n f -> isPoly m f.
Proof.
  intros Hm [c H]. exists (fun k => if Nat.ltb k n then c k else 0). intros x. rewrite H. unfold peval.
  replace m with (n + (m - n))%nat by lia. rewrite Rsum_app.
  rewrite (Rsum_zero (m - n)).
  - rewrite Rplus_0_r. apply Rsum_ext. intros i Hi. destruct (Nat.ltb_spec i n); [auto|lia].
  - intros i _. destruct (Nat.ltb_spec (n + i) n); [lia|ring].
Qed.
Lemma isPoly_0 n : isPoly n (fun _ => 0).
Proof. exists (fun _ => 0). intros x. unfold peval. rewrite Rsum_zero; auto. intros; ring. Qed.
Lemma isPoly_const n a : (1 <= n)%nat -> isPoly n (fun _ => a).
Proof.
  intros Hn. apply (isPoly_mono 1); auto. exists (fun _ => a). intros x. unfold peval. simpl. ring.
Qed.
Lemma isPoly_plus n f g : isPoly n f -> isPoly n g -> isPoly n (fun x => f x + g x).
Proof.
  intros [c Hc] [d Hd]. exists (fun k => c k + d k). intros x. rewrite Hc, Hd. unfold peval.
  rewrite <- Rsum_plus. apply Rsum_ext. intros; ring.
Qed.
Lemma isPoly_scal n a f : isPoly n f -> isPoly n (fun x => a * f x).
Proof.
  intros [c Hc]. exists (fun k => a * c k). intros x. rewrite Hc. unfold peval.
  rewrite <- Rsum_scal. apply Rsum_ext. intros; ring.
Qed.
Lemma isPoly_minus n f g : isPoly n f -> isPoly n g -> isPoly n (fun x => f x - g x).
Proof.
  intros A B. apply (isPoly_ext n (fun x => f x + (-1) * g x)); [intros; ring|].
  apply isPoly_plus; auto. apply isPoly_scal; auto.
Qed.
Lemma isPoly_Rsum n m (f : nat -> R -> R) : (forall i, (i < m)%nat -> isPoly n (f i)) ->
  isPoly n (fun x => Rsum m (fun i => f i x)).
Proof.
  induction m; simpl; intros A; [apply isPoly_0|]. apply isPoly_plus; auto.
Qed.
Lemma isPoly_mulX n f : isPoly n f -> isPoly (S n) (fun x => x * f x).
Proof.
  intros [c Hc]. exists (fun k => match k with O => 0 | S j => c j end). intros x. rewrite Hc. unfold peval.
  rewrite Rsum_first, <- Rsum_scal, Rmult_0_l, Rplus_0_l. apply Rsum_ext. intros; simpl; ring.
Qed.
Lemma isPoly_mul_lin n a b f : isPoly n f -> isPoly (S n) (fun x => (a * x + b) * f x).
Proof.
  intros A. apply (isPoly_ext (S n) (fun x => a * (x * f x) + b * f x)); [intros; ring|].
  apply isPoly_plus; apply isPoly_scal; [apply isPoly_mulX; auto|apply (isPoly_mono n); auto].
Qed.
Lemma isPoly_pow k : isPoly (S k) (fun x => x ^ k).
Proof.
  induction k; [exact (isPoly_const 1 1 (le_n _))|]. exact (isPoly_mulX _ _ IHk).
Qed.

(** factor theorem *)
Lemma pow_factor k a : exists g, isPoly k g /\ forall x, x ^ k - a ^ k = (x - a) * g x.
Proof.
  induction k as [|k (g & Pg & E)].
  - exists (fun _ => 0). split; [apply isPoly_0|]. intros; simpl; ring.
  - exists (fun x => x * g x + a ^ k). split.
    + apply isPoly_plus; [apply isPoly_mulX; auto|apply isPoly_const; lia].
    + intros x. simpl. replace (x * x ^ k - a * a ^ k) with (x * (x ^ k - a ^ k) + (x - a) * a ^ k) by ring.
      rewrite E. ring.
Qed.
Lemma poly_factor n f a : isPoly (S n) f -> f a = 0 -> exists g, isPoly n g /\ forall x, f x = (x - a) * g x.
Proof.
  intros [c Hc] Ha.
  assert (E : forall m, (m <= S n)%nat -> exists g, isPoly n g /\
     forall x, peval m c x - peval m c a = (x - a) * g x).
  { induction m as [|m IH]; intros Hm.
    - exists (fun _ => 0). split; [apply isPoly_0|]. intros; unfold peval; simpl; ring.
    - destruct IH as (g & Pg & Eg); [lia|]. destruct (pow_factor m a) as (h & Ph & Eh).
      exists (fun x => g x + c m * h x). split.
      + apply isPoly_plus; auto. apply isPoly_scal. apply (isPoly_mono m); auto; lia.
      + intros x. unfold peval in *. simpl.
        replace (Rsum m (fun k => c k * x ^ k) + c m * x ^ m - (Rsum m (fun k => c k * a ^ k) + c m * a ^ m))
          with ((Rsum m (fun k => c k * x ^ k) - Rsum m (fun k => c k * a ^ k)) + c m * (x ^ m - a ^ m)) by ring.
        rewrite Eg, Eh. ring. }
  destruct (E (S n) ltac:(lia)) as (g & Pg & Eg). exists g. split; auto.
  intros x. rewrite <- Eg. rewrite <- !Hc, Ha. ring.
Qed.
(** a polynomial of degree < n with n distinct roots vanishes *)
Definition distinct (n : nat) (x : nat -> R) : Prop :=
  forall i j, (i < n)%nat -> (j < n)%nat -> i <> j -> x i <> x j.
Lemma poly_zero n : forall f x, isPoly n f -> distinct n x -> (forall i, (i < n)%nat -> f (x i) = 0) ->
  forall t, f t = 0.
Proof.
  induction n as [|n IH]; intros f x P D Z t.
  - destruct P as [c Hc]. rewrite Hc. reflexivity.
  - destruct (poly_factor n f (x n) P (Z n ltac:(lia))) as (g & Pg & Eg).
    rewrite Eg. rewrite (IH g x Pg); [ring| |].
    + intros i j Hi Hj. apply D; lia.
    + intros i Hi. specialize (Z i ltac:(lia)). rewrite Eg in Z. apply Rmult_integral in Z.
      destruct Z as [Z|Z]; auto. exfalso. apply (D i n); [lia|lia|lia|lra].
Qed.

(** derivatives *)
Definition pd (n : nat) (c : nat -> R) (k : nat) : R := if Nat.ltb (S k) n then INR (S k) * c (S k) else 0.
Lemma peval_derive n c x : is_derive (peval n c) x (peval n (pd n c) x).
Proof.
  unfold peval. eapply is_derive_eq.
  - apply (is_derive_Rsum n (fun k y => c k * y ^ k) (fun k => c k * (INR k * 1 * x ^ pred k))).
    intros k Hk. apply d_scal. apply (d_pow (fun y => y)). apply d_id.
  - destruct n as [|n]; [reflexivity|]. rewrite Rsum_first.
    replace (c 0%nat * (INR 0 * 1 * x ^ pred 0)) with 0 by (simpl; ring). rewrite Rplus_0_l.
    cbn [Rsum]. replace (pd (S n) c n) with 0.
    + rewrite Rmult_0_l, Rplus_0_r. apply Rsum_ext. intros i Hi. unfold pd.
      destruct (Nat.ltb_spec (S i) (S n)); [|lia]. simpl pred. ring.
    + unfold pd. destruct (Nat.ltb_spec (S n) (S n)); [lia|auto].
Qed.
Fixpoint pdn (n : nat) (c : nat -> R) (m : nat) : nat -> R :=
  match m with O => c | S k => pd n (pdn n c k) end.
Lemma peval_derive_n n c m x : is_derive_n (peval n c) m x (peval n (pdn n c m) x).
Proof. apply (is_derive_n_chain (fun j => peval n (pdn n c j))). intros. apply peval_derive. Qed.

Lemma isPoly_Derive_n n f m : isPoly n f -> isPoly n (Derive_n f m).
Proof.
  intros [c Hc]. exists (pdn n c m). intros x.
  rewrite (Derive_n_ext f (peval n c)) by auto. apply is_derive_n_unique, peval_derive_n.
Qed.
Lemma isPoly_is_derive n f m x : isPoly n f -> is_derive (Derive_n f m) x (Derive_n f (S m) x).
Proof.
  intros P. destruct (isPoly_Derive_n n f m P) as [c Hc]. simpl.
  apply Derive_correct. exists (peval n (pd n c) x).
  apply (is_derive_ext (peval n c)); [intros; auto|]. apply peval_derive.
Qed.
Lemma isPoly_continuous n f x : isPoly n f -> continuous f x.
Proof. intros P. eapply derive_continuous. exact (isPoly_is_derive n f 0 x P). Qed.

(** Leibniz rule with a linear factor *)
Lemma Derive_n_lin n f a m x : isPoly n f ->
  Derive_n (fun y => (y - a) * f y) m x = (x - a) * Derive_n f m x + INR m * Derive_n f (pred m) x.
Proof.
  intros P. revert x. induction m as [|m IH]; intros x.
  - simpl. ring.
  - change (Derive_n (fun y => (y - a) * f y) (S m) x) with (Derive (Derive_n (fun y => (y - a) * f y) m) x).
    rewrite (Derive_ext _ _ _ IH). apply is_derive_unique. eapply is_derive_eq.
    + apply d_plus.
      * apply d_mult; [apply d_minus; [apply d_id|apply d_const]|apply (isPoly_is_derive n); auto].
      * apply d_scal. apply (isPoly_is_derive n); auto.
    + destruct m as [|m]; [simpl; ring|]. simpl pred. rewrite !S_INR. ring.
Qed.
Lemma Derive_n_Rsum n m (f : nat -> R -> R) k x : (forall i, (i < n)%nat -> isPoly m (f i)) ->
  Derive_n (fun y => Rsum n (fun i => f i y)) k x = Rsum n (fun i => Derive_n (f i) k x).
Proof.
  intros P. revert x. induction k as [|k IH]; intros x; [reflexivity|]. simpl.
  rewrite (Derive_ext _ _ _ IH). apply is_derive_unique.
  apply (is_derive_Rsum n (fun i => Derive_n (f i) k) (fun i => Derive (Derive_n (f i) k) x)).
  intros i Hi. apply (isPoly_is_derive m (f i) k x); auto.
Qed.
Lemma Derive_n_scalc n f a k x : isPoly n f -> Derive_n (fun y => a * f y) k x = a * Derive_n f k x.
Proof. intros. apply Derive_n_scal_l. Qed.
Lemma Derive_n_const_S a k x : Derive_n (fun _ => a) (S k) x = 0.
Proof. apply Derive_n_const. Qed.

(** finite products *)
Fixpoint Rprod (n : nat) (f : nat -> R) : R := match n with O => 1 | S m => Rprod m f * f m end.
Lemma Rprod_ext n f g : (forall i, (i < n)%nat -> f i = g i) -> Rprod n f = Rprod n g.
Proof. induction n; simpl; intros E; auto. rewrite IHn, E; auto. Qed.
Lemma Rprod_neq0 n f : (forall i, (i < n)%nat -> f i <> 0) -> Rprod n f <> 0.
Proof.
  induction n; simpl; intros E; [lra|]. apply Rmult_integral_contrapositive. split; auto.
Qed.
Lemma Rprod_0 n f i : (i < n)%nat -> f i = 0 -> Rprod n f = 0.
Proof.
  induction n; intros Hi E; [lia|]. simpl. destruct (Nat.eq_dec i n) as [->|]; [rewrite E; ring|].
  rewrite IHn by (auto; lia). ring.
Qed.
Lemma Rprod_1 n f : (forall i, (i < n)%nat -> f i = 1) -> Rprod n f = 1.
Proof. induction n; simpl; intros E; auto. rewrite IHn, E by auto. ring. Qed.
Lemma Rprod_mul n f g : Rprod n (fun i => f i * g i) = Rprod n f * Rprod n g.
Proof. induction n; simpl; [ring|]. rewrite IHn. ring. Qed.
Lemma Rprod_inv n f : Rprod n (fun i => / f i) = / Rprod n f.
Proof. induction n; simpl; [field|]. rewrite IHn, Rinv_mult. reflexivity. Qed.
(** take one factor out *)
Lemma Rprod_extract n f j : (j < n)%nat ->
  Rprod n f = f j * Rprod n (fun i => if Nat.eqb i j then 1 else f i).
Proof.
  induction n; intros Hj; [lia|]. simpl. destruct (Nat.eqb_spec n j) as [->|Hne].
  - rewrite (Rprod_ext j (fun i => if Nat.eqb i j then 1 else f i) f); [ring|].
    intros i Hi. destruct (Nat.eqb_spec i j); [lia|auto].
  - rewrite IHn by lia. ring.
Qed.
