(** Derivative and integral rules at R, in plain real notation. *)
From Coquelicot Require Import Coquelicot.
From Coq Require Import Reals Lra Lia Arith List.
Local Open Scope R_scope.

Lemma is_derive_eq (f : R -> R) (x l l' : R) : is_derive f x l -> l = l' -> is_derive f x l'.
Proof. intros; subst; auto. Qed.
Lemma d_const (c x : R) : is_derive (fun _ : R => c) x 0.
Proof. apply @is_derive_const. Qed.
Lemma d_id (x : R) : is_derive (fun y : R => y) x 1.
Proof. apply @is_derive_id. Qed.
Lemma d_plus (f g : R -> R) (x a b : R) : is_derive f x a -> is_derive g x b ->
  is_derive (fun y => f y + g y) x (a + b).
Proof. intros A B. exact (is_derive_plus f g x a b A B). Qed.
Lemma d_minus (f g : R -> R) (x a b : R) : is_derive f x a -> is_derive g x b ->
  is_derive (fun y => f y - g y) x (a - b).
Proof. intros A B. exact (is_derive_minus f g x a b A B). Qed.
Lemma d_opp (f : R -> R) (x a : R) : is_derive f x a -> is_derive (fun y => - f y) x (- a).
Proof. intros A. exact (is_derive_opp f x a A). Qed.
Lemma d_mult (f g : R -> R) (x a b : R) : is_derive f x a -> is_derive g x b ->
  is_derive (fun y => f y * g y) x (a * g x + f x * b).
Proof. intros A B. exact (is_derive_mult f g x a b A B Rmult_comm). Qed.
Lemma d_scal (c : R) (f : R -> R) (x a : R) : is_derive f x a -> is_derive (fun y => c * f y) x (c * a).
Proof. intros A. exact (is_derive_scal f x c a A). Qed.
Lemma d_scalr (c : R) (f : R -> R) (x a : R) : is_derive f x a -> is_derive (fun y => f y * c) x (a * c).
Proof.
  intros A. apply (is_derive_ext (fun y => c * f y)); [intros; apply Rmult_comm|].
  rewrite Rmult_comm. apply d_scal; auto.
Qed.
Lemma d_divc (c : R) (f : R -> R) (x a : R) : is_derive f x a -> is_derive (fun y => f y / c) x (a / c).
Proof. intros A. unfold Rdiv. apply d_scalr; auto. Qed.
Lemma d_comp (f g : R -> R) (x a b : R) : is_derive f (g x) a -> is_derive g x b ->
  is_derive (fun y => f (g y)) x (a * b).
Proof.
  intros A B. eapply is_derive_eq; [exact (is_derive_comp f g x a b A B)|].
  unfold scal; simpl; unfold mult; simpl. ring.
Qed.
Lemma d_pow (f : R -> R) (x a : R) n : is_derive f x a ->
  is_derive (fun y => f y ^ n) x (INR n * a * f x ^ pred n).
Proof. intros A. exact (is_derive_pow f n x a A). Qed.
Lemma d_inv (f : R -> R) (x a : R) : is_derive f x a -> f x <> 0 ->
  is_derive (fun y => / f y) x (- a / f x ^ 2).
Proof. intros A B. exact (is_derive_inv f x a A B). Qed.
Lemma d_unique (f : R -> R) (x a b : R) : is_derive f x a -> is_derive f x b -> a = b.
Proof. intros A B. rewrite <- (is_derive_unique f x a A). apply is_derive_unique; auto. Qed.

(** iterated derivatives from a chain of derivatives *)
Lemma is_derive_n_chain (F : nat -> R -> R) k x :
  (forall j y, is_derive (F j) y (F (S j) y)) -> is_derive_n (F 0%nat) k x (F k x).
Proof.
  intros H. destruct k; simpl; [reflexivity|].
  assert (E : forall j y, Derive_n (F 0%nat) j y = F j y).
  { induction j; intros y; simpl; auto.
    rewrite (Derive_ext _ (F j)); [|exact IHj]. apply is_derive_unique, H. }
  apply (is_derive_ext (F k)); [intros; symmetry; apply E|]. apply H.
Qed.

Lemma i_plus (f g : R -> R) (a b p q : R) : is_RInt f a b p -> is_RInt g a b q ->
  is_RInt (fun y => f y + g y) a b (p + q).
Proof. intros A B. exact (is_RInt_plus f g a b p q A B). Qed.
Lemma i_minus (f g : R -> R) (a b p q : R) : is_RInt f a b p -> is_RInt g a b q ->
  is_RInt (fun y => f y - g y) a b (p - q).
Proof. intros A B. exact (is_RInt_minus f g a b p q A B). Qed.
Lemma i_scal (c : R) (f : R -> R) (a b p : R) : is_RInt f a b p -> is_RInt (fun y => c * f y) a b (c * p).
Proof. intros A. exact (is_RInt_scal f a b c p A). Qed.
Lemma i_unique (f : R -> R) (a b p q : R) : is_RInt f a b p -> is_RInt f a b q -> p = q.
Proof. intros A B. rewrite <- (is_RInt_unique f a b p A). apply is_RInt_unique; auto. Qed.
Lemma i_ext (f g : R -> R) (a b p : R) : (forall x, f x = g x) -> is_RInt f a b p -> is_RInt g a b p.
Proof. intros E A. apply (is_RInt_ext f); auto. Qed.
Lemma i_ftc (F f : R -> R) (a b : R) : (forall x, is_derive F x (f x)) -> (forall x, continuous f x) ->
  is_RInt f a b (F b - F a).
Proof. intros D C. exact (is_RInt_derive F f a b (fun x _ => D x) (fun x _ => C x)). Qed.
Lemma i_exists (f : R -> R) (a b : R) : (forall x, continuous f x) -> is_RInt f a b (RInt f a b).
Proof. intros C. apply (RInt_correct f a b). apply @ex_RInt_continuous. auto. Qed.
Lemma derive_continuous (f : R -> R) x l : is_derive f x l -> continuous f x.
Proof. intros A. apply @ex_derive_continuous. exists l. exact A. Qed.
Lemma c_mult (f g : R -> R) x : continuous f x -> continuous g x -> continuous (fun y => f y * g y) x.
Proof. intros A B. exact (continuous_mult f g x A B). Qed.
Lemma c_plus (f g : R -> R) x : continuous f x -> continuous g x -> continuous (fun y => f y + g y) x.
Proof. intros A B. exact (continuous_plus f g x A B). Qed.
Lemma c_minus (f g : R -> R) x : continuous f x -> continuous g x -> continuous (fun y => f y - g y) x.
Proof. intros A B. exact (continuous_minus f g x A B). Qed.
Lemma c_const (c x : R) : continuous (fun _ : R => c) x.
Proof. apply continuous_const. Qed.
Lemma c_id (x : R) : continuous (fun y : R => y) x.
Proof. apply continuous_id. Qed.
Lemma c_comp (f g : R -> R) x : continuous g x -> continuous f (g x) -> continuous (fun y => f (g y)) x.
Proof. intros A B. exact (continuous_comp g f x A B). Qed.

(** strict positivity of the integral of a continuous non-negative function
    that is positive at the right end *)
Lemma RInt_pos_right (f : R -> R) a b : a < b -> (forall x, continuous f x) -> (forall x, 0 <= f x) ->
  0 < f b -> 0 < RInt f a b.
Proof.
  intros Hab C N P.
  assert (E : forall u v, ex_RInt f u v) by (intros; apply @ex_RInt_continuous; auto).
  destruct (C b (fun y => 0 < y)) as [d Hd].
  { exists (mkposreal (f b) P). intros y Hy. unfold ball in Hy; simpl in Hy.
    unfold AbsRing_ball, abs, minus, plus, opp in Hy; simpl in Hy.
    apply Rabs_def2 in Hy. simpl in Hy. lra. }
  set (c := Rmax a (b - d / 2)).
  assert (Hc : a <= c < b).
  { unfold c. pose proof (cond_pos d). split; [apply Rmax_l|]. apply Rmax_lub_lt; lra. }
  rewrite <- (RInt_Chasles f a c b) by auto.
  assert (0 <= RInt f a c) by (apply RInt_ge_0; auto; lra).
  assert (0 < RInt f c b).
  { apply RInt_gt_0; auto; [lra|]. intros x Hx. apply Hd. unfold ball; simpl.
    unfold AbsRing_ball, abs, minus, plus, opp; simpl.
    pose proof (cond_pos d). assert (b - d / 2 <= c) by apply Rmax_r.
    apply Rabs_def1; lra. }
  unfold plus; simpl. lra.
Qed.
