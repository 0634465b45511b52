(** Properties C11-C15 (Legendre part). *)
From Coquelicot Require Import Coquelicot.
From Coq Require Import Reals Lra Lia Arith List ZArith.
From Verif Require Import Num Outcome LinAlg RSum RMat RDeriv LegendreModel LegendreSpec LegendreMath LegendreProofs.
Import ListNotations.
Local Open Scope R_scope.

(** ** C11 *)
Theorem C11_legendre_values : forall dim s b, (2 <= dim)%nat -> vlen b = dim ->
  exists b', leg_eval dim s b = Ok b' /\ vec_is b' dim (fun i => legP i s).
Proof. exact leg_eval_R. Qed.
(** what [legP] is: degree, value at 1, orthogonality, norm *)
Theorem C11_degree : forall n, exists c : nat -> R, c n <> 0 /\ (forall k, (n < k)%nat -> c k = 0) /\
  forall x, legP n x = Rsum (S n) (fun k => c k * x ^ k).
Proof. exact legP_poly. Qed.
Theorem C11_at_one : forall n, legP n 1 = 1.
Proof. exact legP_at_1. Qed.
Theorem C11_orthogonal : forall m n, m <> n -> is_RInt (fun x => legP m x * legP n x) (-1) 1 0.
Proof. exact leg_orth. Qed.
Theorem C11_norm : forall n, is_RInt (fun x => legP n x * legP n x) (-1) 1 (2 / (2 * INR n + 1)).
Proof. exact leg_norm. Qed.
(** any arithmetic: which dimensions are evaluated without leaving the buffer *)
Theorem C11_safe_iff : forall (T : Type) (N : Num T) dim (s : T) b, vlen b = dim ->
  ((2 <= dim)%nat -> exists b' f, leg_eval dim s b = Ok b' /\ vec_is b' dim f) /\
  ((dim < 2)%nat -> leg_eval dim s b = UB).
Proof.
  intros T N dim s b L. split; intros Hd.
  - destruct (leg_eval_gen dim s b Hd L) as (b' & E & V). eauto.
  - apply leg_eval_small; auto.
Qed.
Example C11_nonvacuous : exists b', leg_eval 4 (1/2) (vnew 4) = Ok b' /\ vget b' 3 = Some (- (7/16)).
Proof.
  destruct (C11_legendre_values 4 (1/2) (vnew 4)) as (b' & E & L & V); [lia|reflexivity|].
  exists b'. split; auto. rewrite V by lia. f_equal. unfold legP. simpl. field.
Qed.

(** ** C12 *)
Theorem C12_legendre_derivatives : forall dim s tau k b, (2 <= dim)%nat -> (k < dim)%nat -> vlen b = dim ->
  exists b' V, leg_eval_deriv dim s tau k b = Ok b' /\ vec_is b' dim V /\
    forall i, (i < dim)%nat -> exists D, is_derive_n (legP i) k s D /\ V i = (2 / tau) ^ k * D.
Proof.
  intros dim s tau k b Hd Hk L. destruct (leg_eval_deriv_R dim s tau k b Hd Hk L) as (b' & E & V).
  exists b', (fun i => (2 / tau) ^ k * LD k i s). split; auto. split; auto.
  intros i Hi. exists (LD k i s). split; auto. apply LD_derive_n.
Qed.
Theorem C12_time_derivative : forall dim t0 tau t k b, (2 <= dim)%nat -> (k < dim)%nat -> vlen b = dim -> 0 < tau ->
  exists b' V, leg_eval_deriv dim (window t0 tau t) tau k b = Ok b' /\ vec_is b' dim V /\
    forall i, (i < dim)%nat -> is_derive_n (fun u => legP i (window t0 tau u)) k t (V i).
Proof.
  intros dim t0 tau t k b Hd Hk L Ht.
  destruct (leg_eval_deriv_R dim (window t0 tau t) tau k b Hd Hk L) as (b' & E & V).
  exists b', (fun i => (2 / tau) ^ k * LD k i (window t0 tau t)). split; auto. split; auto.
  intros i Hi. apply legP_time_derive.
Qed.
(** eval_derivative_wrt_tau_on_window is the tau-derivative of eval_derivative_on_window *)
Theorem C12_tau_derivative : forall dim s tau k b, (2 <= dim)%nat -> (k < dim)%nat -> vlen b = dim -> tau <> 0 ->
  exists b' V W, (forall th, exists bt, leg_eval_deriv dim s th k b = Ok bt /\ vec_is bt dim (V th)) /\
    leg_eval_deriv_tau dim s tau k b = Ok b' /\ vec_is b' dim W /\
    forall i, (i < dim)%nat -> is_derive (fun th => V th i) tau (W i).
Proof.
  intros dim s tau k b Hd Hk L Ht.
  destruct (leg_eval_deriv_tau_R dim s tau k b Hd Hk L) as (b' & E & V).
  eexists b', (fun th i => (2 / th) ^ k * LD k i s), _. split; [|split; [exact E|split; [exact V|]]].
  - intros th. apply leg_eval_deriv_R; auto.
  - intros i Hi. apply leg_tau_derive. auto.
Qed.
Theorem C12_out_of_bounds : forall (T : Type) (N : Num T) dim (s tau : T) k b, vlen b = dim ->
  (dim < 2)%nat \/ (dim <= k)%nat -> leg_eval_deriv dim s tau k b = UB.
Proof.
  intros T N dim s tau k b L HH. destruct (Nat.lt_ge_cases dim 2).
  - apply leg_eval_deriv_small; auto.
  - apply leg_eval_deriv_oob; auto. lia.
Qed.
Theorem C12_safe : forall (T : Type) (N : Num T) dim (s tau : T) k b, vlen b = dim ->
  (2 <= dim)%nat -> (k < dim)%nat -> exists b' f, leg_eval_deriv dim s tau k b = Ok b' /\ vec_is b' dim f.
Proof.
  intros T N dim s tau k b L Hd Hk. destruct (leg_eval_deriv_gen dim s tau k b Hd Hk L) as (b' & E & V). eauto.
Qed.
(** P_3'' = 15 s; on an interval of length 1/2 the factor is 16 *)
Example C12_nonvacuous : exists b', leg_eval_deriv 4 (1/2) (1/2) 2 (vnew 4) = Ok b' /\ vget b' 3 = Some 120.
Proof.
  destruct (leg_eval_deriv_R 4 (1/2) (1/2) 2 (vnew 4)) as (b' & E & L & V); [lia|lia|reflexivity|].
  exists b'. split; auto. rewrite V by lia. f_equal. unfold LD, LDpair, legP. simpl. field.
Qed.

(** ** C13 *)
Theorem C13_matrix_entries : forall dim, exists m, leg_dmat dim = Ok m /\
  mat_is m dim dim (fun i j => if andb (Nat.ltb j i) (Nat.odd (i - j)) then 2 * INR j + 1 else 0).
Proof. exact leg_dmat_R. Qed.
Theorem C13_rows_are_derivatives : forall dim, exists m D, leg_dmat dim = Ok m /\ mat_is m dim dim D /\
  forall i x, (i < dim)%nat -> is_derive (legP i) x (Rsum dim (fun j => D i j * legP j x)).
Proof.
  intros dim. destruct (leg_dmat_R dim) as (m & E & M). exists m, Dent. split; auto. split; auto.
  intros i x Hi. rewrite <- LD1_series by lia. apply legP_derive.
Qed.
Theorem C13_block_differentiates : forall dim k, exists m M, leg_derivative_matrix_impl dim k = Ok m /\
  mat_is m dim dim M /\
  forall c x, is_derive_n (leg_series dim c) k x
                (leg_series dim (fun i => Rsum dim (fun j => M i j * c j)) x).
Proof.
  intros dim k. destruct (leg_impl_R dim k) as (m & E & M). exists m, (mpow dim legT k).
  split; auto. split; auto. intros c x. apply leg_series_derive_n.
Qed.
Example C13_nonvacuous : exists m, leg_derivative_matrix_impl 4 2 = Ok m /\ mget m 1 3 = Some 15 /\ mget m 3 1 = Some 0.
Proof.
  destruct (leg_impl_R 4 2) as (m & E & _ & _ & G). exists m. split; auto.
  rewrite !G by lia. unfold mpow, mprod, mI, legT, mT, Dent, lodd; simpl. split; f_equal; ring.
Qed.

(** ** C14 *)
(** the matrix of integrals of products of k-th time derivatives *)
Theorem C14_gram_correct_iff : forall dim buf tau k m M, (1 <= dim)%nat -> 0 < tau ->
  leg_ctor_buffer dim = Ok buf -> mat_is m dim dim M ->
  exists m' A, leg_add_gram dim buf tau k m = Ok m' /\ mat_is m' dim dim (fun i j => M i j + A i j) /\
  ((forall i j, (i < dim)%nat -> (j < dim)%nat ->
     is_RInt (fun t => Derive_n (fun u => legP i (window 0 tau u)) k t *
                       Derive_n (fun u => legP j (window 0 tau u)) k t) 0 tau (A i j))
   <-> k = 0%nat \/ (dim <= k)%nat).
Proof.
  intros dim buf tau k m M Hd Ht Eb Mm. destruct (leg_add_gram_R dim buf tau k m M Eb Mm) as (m' & E & M').
  exists m', (fun i j => leg_added dim k i j * leg_scale tau k). split; auto. split; auto.
  apply (leg_gram_iff dim tau k Hd Ht).
Qed.
Theorem C14_gram_order0 : forall dim buf tau m M, 0 < tau ->
  leg_ctor_buffer dim = Ok buf -> mat_is m dim dim M ->
  exists m' A, leg_add_gram dim buf tau 0 m = Ok m' /\ mat_is m' dim dim (fun i j => M i j + A i j) /\
  forall i j, (i < dim)%nat -> (j < dim)%nat ->
     is_RInt (fun t => legP i (window 0 tau t) * legP j (window 0 tau t)) 0 tau (A i j).
Proof.
  intros dim buf tau m M Ht Eb Mm. destruct dim as [|d].
  - destruct (leg_add_gram_R 0 buf tau 0 m M Eb Mm) as (m' & E & M'). eexists m', _. split; [exact E|].
    split; [exact M'|]. intros; lia.
  - destruct (C14_gram_correct_iff (S d) buf tau 0 m M ltac:(lia) Ht Eb Mm) as (m' & A & E & M' & I).
    exists m', A. split; auto. split; auto. apply I. auto.
Qed.
Example C14_nonvacuous : exists buf, leg_ctor_buffer (T:=R) 4 = Ok buf /\ mat_is (mzero 4 4) 4 4 (fun _ _ => 0).
Proof. destruct (leg_ctor_R 4) as (buf & E & _). exists buf. split; auto. exact (mzero_isR 4 4). Qed.
(** dimension 2, order 1, unit window: the code adds 2/3 at (0,0), the integral there is 0 *)
Theorem C14_gram_refuted : exists buf m', leg_ctor_buffer 2 = Ok buf /\
  leg_add_gram 2 buf 2 1 (mzero 2 2) = Ok m' /\ mget m' 0 0 = Some (2/3) /\ mget m' 1 1 = Some 0 /\
  is_RInt (fun t => Derive_n (fun u => legP 1 (window 0 2 u)) 1 t * Derive_n (fun u => legP 1 (window 0 2 u)) 1 t) 0 2 2.
Proof.
  destruct (leg_ctor_R 2) as (buf & E & _). exists buf.
  destruct (leg_add_gram_R 2 buf 2 1 (mzero 2 2) (fun _ _ => 0) E (mzero_isR 2 2)) as (m' & E' & _ & _ & G).
  exists m'. split; auto. split; auto. rewrite !G by lia.
  unfold leg_added, legG, legL, leg_scale, mpow, mprod, mI, legT, mT, Dent, lodd; simpl.
  split; [f_equal; field|]. split; [f_equal; field|].
  apply (i_ext (fun _ => 1)).
  - intros x. symmetry. transitivity (leg_dprod 2 1 1 1 x); [reflexivity|]. rewrite leg_dprod_eq. rewrite LD_1_1. simpl. field.
  - pose proof (is_RInt_const 0 2 1) as K. unfold scal in K; simpl in K; unfold mult in K; simpl in K.
    replace ((2 - 0) * 1) with 2 in K by ring. exact K.
Qed.

(** ** C15, Legendre *)
Theorem C15_legendre_gram_tau : forall dim buf k m M, leg_ctor_buffer dim = Ok buf -> mat_is m dim dim M ->
  exists A B, (forall tau, exists m', leg_add_gram dim buf tau k m = Ok m' /\ mat_is m' dim dim (fun i j => M i j + A tau i j)) /\
  (forall tau, exists m', leg_add_gram_tau dim buf tau k m = Ok m' /\ mat_is m' dim dim (fun i j => M i j + B tau i j)) /\
  forall tau i j, 0 < tau -> (i < dim)%nat -> (j < dim)%nat -> is_derive (fun th => A th i j) tau (B tau i j).
Proof.
  intros dim buf k m M Eb Mm.
  exists (fun tau i j => leg_added dim k i j * leg_scale tau k), (fun tau i j => leg_added dim k i j * leg_scale_tau tau k).
  split; [intros; apply leg_add_gram_R; auto|]. split; [intros; apply leg_add_gram_tau_R; auto|].
  intros tau i j Ht _ _. apply d_scal, leg_scale_derive. lra.
Qed.
Example C15_legendre_nonvacuous : exists buf m', leg_ctor_buffer 2 = Ok buf /\
  leg_add_gram_tau 2 buf 4 1 (mzero 2 2) = Ok m' /\ mget m' 0 0 = Some (- (1/12)).
Proof.
  destruct (leg_ctor_R 2) as (buf & E & _). exists buf.
  destruct (leg_add_gram_tau_R 2 buf 4 1 (mzero 2 2) (fun _ _ => 0) E (mzero_isR 2 2)) as (m' & E' & _ & _ & G).
  exists m'. split; auto. split; auto. rewrite !G by lia.
  unfold leg_added, legG, legL, leg_scale_tau, mpow, mprod, mI, legT, mT, Dent, lodd; simpl.
  f_equal. field.
Qed.
