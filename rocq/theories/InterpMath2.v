(** Solutions of linear systems that depend on a parameter; the coefficients of the interpolating
    spline as functions of an interval length. *)
From Coquelicot Require Import Coquelicot.
From Coq Require Import Reals Lra Lia Arith.
From Verif Require Import RSum RDeriv RGauss LegendreSpec SplineSpec InterpSpec BasisFn BasisProofs3 InterpProofs InterpProofs3 InterpProofs4 InterpProofs5 InterpMath.
Local Open Scope R_scope.

Lemma Rsum_abs n f : Rabs (Rsum n f) <= Rsum n (fun i => Rabs (f i)).
Proof. induction n as [|n IH]; simpl; [rewrite Rabs_R0; lra|]. eapply Rle_trans; [apply Rabs_triang|]. lra. Qed.
Lemma Rsum_term n f j : (forall i, (i < n)%nat -> 0 <= f i) -> (j < n)%nat -> f j <= Rsum n f.
Proof.
  induction n as [|n IH]; intros P Hj; [lia|]. simpl. destruct (Nat.eq_dec j n) as [->|].
  - assert (0 <= Rsum n f) by (apply Rsum_nonneg; intros; apply P; lia). lra.
  - specialize (IH ltac:(intros; apply P; lia) ltac:(lia)). specialize (P n ltac:(lia)). lra.
Qed.
Lemma derive_zero_mult (g h : R -> R) x0 g' : g x0 = 0 -> is_derive g x0 g' -> continuous h x0 -> is_derive (fun x => g x * h x) x0 (g' * h x0).
Proof.
  intros G0 Dg Ch. apply is_derive_Reals. apply is_derive_Reals in Dg. intros eps He.
  assert (H1 : 0 < eps / (2 * (Rabs (h x0) + 1))) by (apply Rdiv_lt_0_compat; [auto|pose proof (Rabs_pos (h x0)); lra]).
  assert (H2 : 0 < Rmin 1 (eps / (2 * (Rabs g' + 1)))).
  { apply Rmin_pos; [lra|]. apply Rdiv_lt_0_compat; [auto|pose proof (Rabs_pos g'); lra]. }
  destruct (Dg _ H1) as (d1 & G1).
  destruct (Ch (fun y => Rabs (y - h x0) < Rmin 1 (eps / (2 * (Rabs g' + 1))))) as (d2 & G2).
  { exists (mkposreal _ H2). intros y By. exact By. }
  assert (Hm : 0 < Rmin d1 d2) by (apply Rmin_pos; apply cond_pos).
  exists (mkposreal _ Hm). intros u Nu Hu. simpl in Hu. pose proof (Rmin_l d1 d2). pose proof (Rmin_r d1 d2).
  specialize (G1 u Nu ltac:(lra)). specialize (G2 (x0 + u)).
  assert (Bu : ball x0 d2 (x0 + u)). { change (Rabs (x0 + u - x0) < d2). replace (x0 + u - x0) with u by ring. lra. }
  specialize (G2 Bu). rewrite G0 in *. set (q := (g (x0 + u) - 0) / u) in *.
  replace ((g (x0 + u) * h (x0 + u) - 0 * h x0) / u - g' * h x0) with ((q - g') * h (x0 + u) + g' * (h (x0 + u) - h x0)) by (unfold q; field; auto).
  set (k := h (x0 + u)) in *. pose proof (Rmin_l 1 (eps / (2 * (Rabs g' + 1)))). pose proof (Rmin_r 1 (eps / (2 * (Rabs g' + 1)))).
  assert (Bk : Rabs k <= Rabs (h x0) + 1).
  { replace k with (h x0 + (k - h x0)) by ring. eapply Rle_trans; [apply Rabs_triang|]. lra. }
  eapply Rle_lt_trans; [apply Rabs_triang|]. rewrite !Rabs_mult.
  assert (T1 : Rabs (q - g') * Rabs k <= eps / (2 * (Rabs (h x0) + 1)) * (Rabs (h x0) + 1)).
  { apply Rmult_le_compat; try apply Rabs_pos; lra. }
  assert (T2 : Rabs g' * Rabs (k - h x0) <= Rabs g' * (eps / (2 * (Rabs g' + 1)))).
  { apply Rmult_le_compat_l; [apply Rabs_pos|lra]. }
  assert (T3 : eps / (2 * (Rabs (h x0) + 1)) * (Rabs (h x0) + 1) = eps / 2). { field. pose proof (Rabs_pos (h x0)). lra. }
  assert (T4 : Rabs g' * (eps / (2 * (Rabs g' + 1))) < eps / 2).
  { apply Rlt_le_trans with ((Rabs g' + 1) * (eps / (2 * (Rabs g' + 1)))).
    - apply Rmult_lt_compat_r; [apply Rdiv_lt_0_compat; [auto|pose proof (Rabs_pos g'); lra]|lra].
    - apply Req_le. field. pose proof (Rabs_pos g'). lra. }
  lra.
Qed.

Section Param.
Variables (N : nat) (A : R -> nat -> nat -> R) (dA : nat -> nat -> R) (b : nat -> R) (x0 : R) (X : R -> nat -> R) (v : nat -> R).
Hypothesis Ns : nonsing N (A x0).
Hypothesis DA : forall i j, (i < N)%nat -> (j < N)%nat -> is_derive (fun x => A x i j) x0 (dA i j).
Hypothesis SX : locally x0 (fun x => forall i, (i < N)%nat -> Rsum N (fun j => A x i j * X x j) = b i).
Hypothesis SV : forall i, (i < N)%nat -> Rsum N (fun j => A x0 i j * v j) = - Rsum N (fun j => dA i j * X x0 j).

Definition invA (j i : nat) : R := gauss N (A x0) (fun k => if Nat.eqb k i then 1 else 0) j.
Lemma right_inv i k : (i < N)%nat -> Rsum N (fun j => A x0 i j * invA j k) = if Nat.eqb i k then 1 else 0.
Proof. intros Hi. apply (gauss_solves N (A x0) (fun i => if Nat.eqb i k then 1 else 0) Ns i Hi). Qed.
Lemma left_inv y j : (j < N)%nat -> Rsum N (fun i => invA j i * Rsum N (fun k => A x0 i k * y k)) = y j.
Proof.
  intros Hj. apply Rminus_diag_uniq. revert j Hj.
  apply (Ns (fun j => Rsum N (fun i => invA j i * Rsum N (fun k => A x0 i k * y k)) - y j)). intros r Hr.
  transitivity (Rsum N (fun j => Rsum N (fun i => A x0 r j * invA j i * Rsum N (fun k => A x0 i k * y k))) - Rsum N (fun j => A x0 r j * y j)).
  { rewrite <- Rsum_minus. apply Rsum_ext. intros j Hj. rewrite Rmult_minus_distr_l. f_equal. rewrite <- Rsum_scal. apply Rsum_ext. intros; ring. }
  rewrite Rsum_swap. rewrite (Rsum_delta N r); auto.
  - rewrite Rsum_scal_r, right_inv, Nat.eqb_refl by auto. ring.
  - intros i Hi Ne. rewrite Rsum_scal_r, right_inv by auto. destruct (Nat.eqb_spec r i); [lia|ring].
Qed.
Definition corr (j : nat) (x : R) : R := Rsum N (fun i => invA j i * Rsum N (fun k => (A x i k - A x0 i k) * X x k)).
Lemma X_eq : locally x0 (fun x => forall j, (j < N)%nat -> X x j = X x0 j - corr j x).
Proof.
  assert (S0 := locally_singleton _ _ SX). generalize SX. apply filter_imp. intros x Sx j Hj. apply Rminus_diag_uniq.
  unfold corr.
  pose proof (left_inv (fun k => X x k - X x0 k) j Hj) as L. cbv beta in L.
  assert (Z : Rsum N (fun i => invA j i * Rsum N (fun k => A x0 i k * (X x k - X x0 k))) = - Rsum N (fun i => invA j i * Rsum N (fun k => (A x i k - A x0 i k) * X x k))).
  { rewrite <- Rsum_opp. apply Rsum_ext. intros i Hi. rewrite Ropp_mult_distr_r. f_equal. rewrite <- Rsum_opp.
    pose proof (Sx i Hi) as E1. pose proof (S0 i Hi) as E2. rewrite <- E2 in E1.
    transitivity (Rsum N (fun k => A x0 i k * X x k) - Rsum N (fun k => A x0 i k * X x0 k)).
    - rewrite <- Rsum_minus. apply Rsum_ext. intros; ring.
    - rewrite <- E1. rewrite <- Rsum_minus. apply Rsum_ext. intros; ring. }
  rewrite Z in L. lra.
Qed.
Definition epsA (x : R) : R := Rsum N (fun j => Rsum N (fun i => Rabs (invA j i) * Rsum N (fun k => Rabs (A x i k - A x0 i k)))).
Lemma ep_cont : continuous epsA x0.
Proof.
  unfold epsA. apply (continuous_Rsum N (fun j x => Rsum N (fun i => Rabs (invA j i) * Rsum N (fun k => Rabs (A x i k - A x0 i k))))). intros j Hj.
  apply (continuous_Rsum N (fun i x => Rabs (invA j i) * Rsum N (fun k => Rabs (A x i k - A x0 i k)))). intros i Hi.
  apply c_mult; [apply c_const|]. apply (continuous_Rsum N (fun k x => Rabs (A x i k - A x0 i k))). intros k Hk.
  apply (c_comp Rabs (fun x => A x i k - A x0 i k)); [|apply continuous_Rabs].
  apply c_minus; [|apply c_const]. eapply derive_continuous. apply DA; auto.
Qed.
Lemma ep_0 : epsA x0 = 0.
Proof.
  unfold epsA. apply Rsum_zero. intros j _. apply Rsum_zero. intros i _. rewrite Rsum_zero; [ring|]. intros k _.
  rewrite Rminus_diag_eq by auto. apply Rabs_R0.
Qed.
Definition normX (x : R) : R := Rsum N (fun k => Rabs (X x k)).
Lemma G_sum x : Rsum N (fun j => Rabs (corr j x)) <= epsA x * normX x.
Proof.
  unfold epsA. rewrite <- Rsum_scal_r. apply Rsum_le. intros j Hj. unfold corr. eapply Rle_trans; [apply Rsum_abs|].
  rewrite <- Rsum_scal_r. apply Rsum_le. intros i Hi. rewrite Rabs_mult, Rmult_assoc. apply Rmult_le_compat_l; [apply Rabs_pos|].
  eapply Rle_trans; [apply Rsum_abs|]. rewrite <- Rsum_scal_r. apply Rsum_le. intros k Hk. rewrite Rabs_mult.
  apply Rmult_le_compat_l; [apply Rabs_pos|]. apply (Rsum_term N (fun k => Rabs (X x k))); auto. intros; apply Rabs_pos.
Qed.
Lemma X_near : locally x0 (fun x => forall j, (j < N)%nat -> Rabs (X x j - X x0 j) <= epsA x * (2 * normX x0)).
Proof.
  assert (L : locally x0 (fun x => epsA x < 1 / 2)).
  { apply (ep_cont (fun y => y < 1 / 2)). rewrite ep_0. exists (mkposreal (1 / 2) ltac:(lra)). intros y By.
    change (Rabs (y - 0) < 1 / 2) in By. apply Rabs_def2 in By. lra. }
  generalize (filter_and _ _ L X_eq). apply filter_imp. intros x (Lx & Ex) j Hj. pose proof (G_sum x) as B.
  assert (P : 0 <= normX x) by (apply Rsum_nonneg; intros; apply Rabs_pos).
  assert (Pe : 0 <= epsA x).
  { apply Rsum_nonneg. intros; apply Rsum_nonneg. intros. apply Rmult_le_pos; [apply Rabs_pos|]. apply Rsum_nonneg. intros; apply Rabs_pos. }
  assert (S1 : normX x <= normX x0 + Rsum N (fun j => Rabs (corr j x))).
  { unfold normX. rewrite <- Rsum_plus. apply Rsum_le. intros k Hk. rewrite (Ex k Hk). unfold Rminus. eapply Rle_trans; [apply Rabs_triang|].
    rewrite Rabs_Ropp. lra. }
  assert (S2 : normX x <= 2 * normX x0) by nra.
  rewrite (Ex j Hj). replace (X x0 j - corr j x - X x0 j) with (- corr j x) by ring. rewrite Rabs_Ropp.
  apply Rle_trans with (Rsum N (fun j => Rabs (corr j x))).
  - apply (Rsum_term N (fun j => Rabs (corr j x))); auto. intros; apply Rabs_pos.
  - eapply Rle_trans; [exact B|]. apply Rmult_le_compat_l; auto.
Qed.
Lemma X_cont j : (j < N)%nat -> continuous (fun x => X x j) x0.
Proof.
  intros Hj P [e HP].
  assert (C : continuous (fun x => epsA x * (2 * normX x0)) x0) by (apply c_mult; [apply ep_cont|apply c_const]).
  assert (L : locally x0 (fun x => epsA x * (2 * normX x0) < e)).
  { apply (C (fun y => y < e)). rewrite ep_0, Rmult_0_l. exists e. intros y By. change (Rabs (y - 0) < e) in By. apply Rabs_def2 in By. lra. }
  unfold filtermap. generalize (filter_and _ _ L X_near). apply filter_imp. intros x (Lx & Nx). apply HP.
  change (Rabs (X x j - X x0 j) < e). eapply Rle_lt_trans; [apply Nx; auto|exact Lx].
Qed.
Theorem param_derive j : (j < N)%nat -> is_derive (fun x => X x j) x0 (v j).
Proof.
  intros Hj. apply (is_derive_ext_loc (fun x => X x0 j - corr j x)).
  - generalize X_eq. apply filter_imp. intros x Ex. symmetry. auto.
  - eapply is_derive_eq.
    + apply d_minus; [apply d_const|]. unfold corr.
      apply (is_derive_Rsum N (fun i x => invA j i * Rsum N (fun k => (A x i k - A x0 i k) * X x k)) (fun i => invA j i * Rsum N (fun k => dA i k * X x0 k))).
      intros i Hi. apply d_scal. apply (is_derive_Rsum N (fun k x => (A x i k - A x0 i k) * X x k) (fun k => dA i k * X x0 k)).
      intros k Hk. apply (derive_zero_mult (fun x => A x i k - A x0 i k) (fun x => X x k)).
      * ring.
      * eapply is_derive_eq; [apply d_minus; [apply DA; auto|apply d_const]|ring].
      * apply X_cont. auto.
    + rewrite <- (left_inv v j Hj). unfold Rminus. rewrite Rplus_0_l, <- Rsum_opp. apply Rsum_ext. intros i Hi. rewrite SV by auto. ring.
Qed.
End Param.

(** ** the forms as rows of a matrix *)
Definition unitv (j k : nat) : R := if Nat.eqb k j then 1 else 0.
Lemma unit_sum N (cf : nat -> R) k : (k < N)%nat -> Rsum N (fun j => unitv j k * cf j) = cf k.
Proof.
  intros Hk. rewrite (Rsum_delta N k); auto.
  - unfold unitv. rewrite Nat.eqb_refl. ring.
  - intros i Hi Ne. unfold unitv. destruct (Nat.eqb_spec k i); [lia|ring].
Qed.
Lemma side_linear d c n tf cf iv cc k s : (iv < n)%nat -> (cc < c)%nat ->
  side d c cf tf iv cc k s = Rsum (d_dim d * c * n) (fun j => side d c (unitv j) tf iv cc k s * cf j).
Proof.
  intros Hi Hc. unfold side.
  transitivity (Rsum (d_dim d * c * n) (fun j => Rsum (d_dim d) (fun bb => wD d (tf iv) k bb s * unitv j ((iv * c + cc) * d_dim d + bb)%nat * cf j))).
  - rewrite Rsum_swap. apply Rsum_ext. intros bb Hb. rewrite <- (unit_sum (d_dim d * c * n) cf) at 1.
    + rewrite <- Rsum_scal. apply Rsum_ext. intros; ring.
    + assert (iv * c + cc < n * c)%nat by nia. nia.
  - apply Rsum_ext. intros j Hj. rewrite <- Rsum_scal_r. reflexivity.
Qed.
Lemma form_linear d c n tf cf q : (1 <= n)%nat -> cond_ok (d_dim d) c n q ->
  form d c n cf tf q = Rsum (d_dim d * c * n) (fun j => form d c n (unitv j) tf q * cf j).
Proof.
  intros Hn Ok. destruct q as [iv cc|iv cc|iv cc k|cc k|cc k]; unfold cond_ok in Ok; cbn [form].
  - apply side_linear; tauto.
  - apply side_linear; tauto.
  - rewrite (side_linear d c n tf cf iv), (side_linear d c n tf cf (S iv)) by lia. rewrite <- Rsum_minus. apply Rsum_ext. intros; ring.
  - apply side_linear; lia.
  - apply side_linear; lia.
Qed.
Lemma dside_linear d c n tf idx cf iv cc k s : (iv < n)%nat -> (cc < c)%nat ->
  dside d c cf tf idx iv cc k s = Rsum (d_dim d * c * n) (fun j => dside d c (unitv j) tf idx iv cc k s * cf j).
Proof.
  intros Hi Hc. unfold dside. destruct (Nat.eqb_spec iv idx) as [->|Ne].
  2:{ symmetry. apply Rsum_zero. intros; ring. }
  transitivity (Rsum (d_dim d * c * n) (fun j => Rsum (d_dim d) (fun bb => wDt d (tf idx) k bb s * unitv j ((idx * c + cc) * d_dim d + bb)%nat * cf j))).
  - rewrite Rsum_swap. apply Rsum_ext. intros bb Hb. rewrite <- (unit_sum (d_dim d * c * n) cf) at 1.
    + rewrite <- Rsum_scal. apply Rsum_ext. intros; ring.
    + assert (idx * c + cc < n * c)%nat by nia. nia.
  - apply Rsum_ext. intros j Hj. rewrite <- Rsum_scal_r. reflexivity.
Qed.
Lemma dform_linear d c n tf idx cf q : (1 <= n)%nat -> cond_ok (d_dim d) c n q ->
  dform d c n cf tf idx q = Rsum (d_dim d * c * n) (fun j => dform d c n (unitv j) tf idx q * cf j).
Proof.
  intros Hn Ok. destruct q as [iv cc|iv cc|iv cc k|cc k|cc k]; unfold cond_ok in Ok; cbn [dform].
  - apply dside_linear; tauto.
  - apply dside_linear; tauto.
  - rewrite (dside_linear d c n tf idx cf iv), (dside_linear d c n tf idx cf (S iv)) by lia. rewrite <- Rsum_minus. apply Rsum_ext. intros; ring.
  - apply dside_linear; lia.
  - apply dside_linear; lia.
Qed.

Lemma finite_choice {A} (dflt : A) N (P : nat -> A -> Prop) : (forall i, (i < N)%nat -> exists a, P i a) -> exists f, forall i, (i < N)%nat -> P i (f i).
Proof.
  induction N as [|N IH]; intros H; [exists (fun _ => dflt); intros; lia|].
  destruct IH as (f & F); [intros; apply H; lia|]. destruct (H N ltac:(lia)) as (a & Ha).
  exists (fun i => if Nat.eqb i N then a else f i). intros i Hi. destruct (Nat.eqb_spec i N) as [->|]; auto. apply F. lia.
Qed.

(** ** existence and uniqueness of the interpolating spline *)
Section Exist.
Variables (d : bdesc) (h c n : nat) (t0 : R).
Hypothesis Od : desc_ok d.
Hypothesis Hh : (1 <= h)%nat.
Hypothesis Hn : (1 <= n)%nat.
Hypothesis Hd : d_dim d = (2 * h)%nat.
Let N := (d_dim d * c * n)%nat.

(** conditions numbered *)
Lemma numbering : exists qof : nat -> cond, (forall i, (i < N)%nat -> cond_ok (d_dim d) c n (qof i)) /\
  forall q, cond_ok (d_dim d) c n q -> exists i, (i < N)%nat /\ qof i = q.
Proof.
  destruct (finite_choice (CStart 0 0) N (fun i q => cond_ok (d_dim d) c n q /\ rowof (2 * h) c n q = i)) as (qof & Q).
  { intros i Hi. unfold N in Hi. rewrite Hd in *. apply (row_surj h c n Hh Hn); auto. }
  exists qof. split; [intros i Hi; apply (Q i Hi)|]. intros q Ok. rewrite Hd in Ok. pose proof (row_lt h c n Hh Hn q Ok) as L.
  exists (rowof (2 * h) c n q). unfold N. rewrite Hd. split; auto. unfold N in Q. rewrite Hd in Q. destruct (Q _ L) as (Ok' & E).
  apply (row_inj h c n Hh Hn); auto.
Qed.
Lemma form_nonsing tf qof : (forall i, (i < n)%nat -> 0 < tf i) -> (forall i, (i < N)%nat -> cond_ok (d_dim d) c n (qof i)) ->
  (forall q, cond_ok (d_dim d) c n q -> exists i, (i < N)%nat /\ qof i = q) ->
  nonsing N (fun i j => form d c n (unitv j) tf (qof i)).
Proof.
  intros P Q1 Q2 x Z j Hj. apply (kernel d h c n t0 tf x Od Hh Hn Hd P); [|rewrite <- Hd; exact Hj].
  intros q Ok. destruct (Q2 q Ok) as (i & Hi & E). rewrite (residual_form d c n t0 x tf _ q); auto.
  - rewrite form_linear by auto. rewrite <- E. fold N. rewrite Z by auto. destruct (qof i); cbn [rhs_of]; change (@Num.n0 R Num.Rnum) with 0; ring.
  - intros k Hk. specialize (P k Hk). lra.
Qed.
Theorem interp_map W : exists S : (nat -> R) -> nat -> R, forall tf, (forall i, (i < n)%nat -> 0 < tf i) -> interpolates d c n t0 tf W (S tf).
Proof.
  destruct numbering as (qof & Q1 & Q2).
  exists (fun tf => gauss N (fun i j => form d c n (unitv j) tf (qof i)) (fun i => rhs_of W (qof i))). intros tf P q Ok.
  destruct (Q2 q Ok) as (i & Hi & <-). rewrite (residual_form d c n t0 _ tf W (qof i)); auto; [|intros k Hk; specialize (P k Hk); lra].
  rewrite form_linear by auto. fold N.
  rewrite (gauss_solves N (fun i j => form d c n (unitv j) tf (qof i)) (fun i => rhs_of W (qof i)) (form_nonsing tf qof P Q1 Q2) i Hi). ring.
Qed.
Theorem interp_exists tf W : (forall i, (i < n)%nat -> 0 < tf i) -> exists cf, interpolates d c n t0 tf W cf.
Proof. intros P. destruct (interp_map W) as (S & H). exists (S tf). auto. Qed.
Theorem interp_unique tf W cf cf' : (forall i, (i < n)%nat -> 0 < tf i) -> interpolates d c n t0 tf W cf -> interpolates d c n t0 tf W cf' ->
  forall j, (j < N)%nat -> cf j = cf' j.
Proof.
  intros P S S' j Hj. apply Rminus_diag_uniq.
  apply (kernel d h c n t0 tf (fun j => cf j - cf' j) Od Hh Hn Hd P); [|unfold N in Hj; rewrite Hd in Hj; exact Hj].
  intros q Ok. specialize (S q Ok). specialize (S' q Ok).
  assert (T : forall i, (i < n)%nat -> tf i <> 0) by (intros i Hi; specialize (P i Hi); lra).
  rewrite (residual_form d c n t0 cf tf W q Hn T Ok) in S. rewrite (residual_form d c n t0 cf' tf W q Hn T Ok) in S'.
  rewrite (residual_form d c n t0 _ tf _ q Hn T Ok). rewrite form_linear in * by auto.
  transitivity (Rsum (d_dim d * c * n) (fun j => form d c n (unitv j) tf q * cf j) - Rsum (d_dim d * c * n) (fun j => form d c n (unitv j) tf q * cf' j)).
  - rewrite <- Rsum_minus. rewrite <- (Rminus_0_r (Rsum _ (fun i => _ - _))). f_equal; [apply Rsum_ext; intros; ring|]. destruct q; reflexivity.
  - lra.
Qed.
(** the coefficients as functions of one interval length *)
Theorem interp_derive tf idx W X v : (forall i, (i < n)%nat -> 0 < tf i) -> (idx < n)%nat ->
  locally (tf idx) (fun x => interpolates d c n t0 (set_len tf idx x) W (X x)) ->
  (forall q, cond_ok (d_dim d) c n q ->
    is_derive (fun x => residual d c n t0 (set_len tf idx x) W (X (tf idx)) q) (tf idx) (- residual d c n t0 tf (fun _ _ => 0) v q)) ->
  forall j, (j < N)%nat -> is_derive (fun x => X x j) (tf idx) (v j).
Proof.
  intros P Hi SX SV. destruct numbering as (qof & Q1 & Q2).
  assert (T : forall i, (i < n)%nat -> tf i <> 0) by (intros i Hi'; specialize (P i Hi'); lra).
  assert (E0 : forall i, (i < n)%nat -> set_len tf idx (tf idx) i = tf i).
  { intros i _. unfold set_len. destruct (Nat.eqb_spec i idx) as [->|]; reflexivity. }
  assert (F0 : forall cf q, cond_ok (d_dim d) c n q -> form d c n cf (set_len tf idx (tf idx)) q = form d c n cf tf q).
  { intros cf q Ok. destruct q as [iv cc|iv cc|iv cc k|cc k|cc k]; unfold cond_ok in Ok; cbn [form]; unfold side; rewrite ?E0 by lia; reflexivity. }
  apply (param_derive N (fun x i j => form d c n (unitv j) (set_len tf idx x) (qof i)) (fun i j => dform d c n (unitv j) tf idx (qof i))
     (fun i => rhs_of W (qof i)) (tf idx) X v).
  - intros x Z. apply (form_nonsing tf qof P Q1 Q2). intros i Hi'. rewrite <- (Z i Hi'). apply Rsum_ext. intros j _. rewrite F0 by auto. reflexivity.
  - intros i j Hi' Hj. apply form_derive. auto.
  - assert (L : locally (tf idx) (fun x => 0 < x)).
    { exists (mkposreal _ (P idx Hi)). intros y By. change (Rabs (y - tf idx) < tf idx) in By. apply Rabs_def2 in By. lra. }
    generalize (filter_and _ _ L SX). apply filter_imp. intros x (Lx & Sx) i Hi'. unfold N. rewrite <- form_linear by auto.
    pose proof (Sx (qof i) (Q1 i Hi')) as E. rewrite residual_form in E; auto; [lra|].
    intros k Hk. unfold set_len. destruct (Nat.eqb_spec k idx); [lra|apply T; auto].
  - intros i Hi'. unfold N. rewrite <- dform_linear by auto.
    pose proof (SV (qof i) (Q1 i Hi')) as D.
    pose proof (residual_derive d c n t0 (X (tf idx)) tf idx W (qof i) Hn Hi P (Q1 i Hi')) as D'.
    pose proof (d_unique _ _ _ _ D D') as E. rewrite <- E. rewrite (residual_form d c n t0 v tf _ (qof i) Hn T (Q1 i Hi')).
    rewrite form_linear by auto. fold N.
    transitivity (Rsum N (fun j => form d c n (unitv j) tf (qof i) * v j)); [apply Rsum_ext; intros j _; rewrite F0 by auto; reflexivity|].
    destruct (qof i); cbn [rhs_of]; change (@Num.n0 R Num.Rnum) with 0; ring.
Qed.
End Exist.
