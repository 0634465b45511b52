(** Approximate equality. *)
From Coquelicot Require Import Coquelicot.
From Coq Require Import List Arith Lia Bool ZArith Reals Lra.
From Verif Require Import Num Outcome LinAlg ToolsSpec ToolsModel ToolsProofs.
Import ListNotations.
Local Open Scope R_scope.

(** ** C10 *)
(** what the answer means *)
Theorem C10_numbers : forall a b tol, approx_eq a b tol = true <-> close (Rabs (a - b)) (Rabs a) (Rabs b) tol.
Proof. exact approx_eq_R. Qed.
Theorem C10_matrices : forall (a b : mat R) r c r' c' A B tol, mat_is a r c A -> mat_is b r' c' B -> 0 < tol ->
  exists v, approx_eq_mat a b tol = Ok v /\
    (v = true <-> r = r' /\ c = c' /\ ((r * c = 0)%nat \/ exists err la ra,
        maxabs r c (fun i j => A i j - B i j) err /\ maxabs r c A la /\ maxabs r c B ra /\ close err la ra tol)).
Proof. exact approx_eq_mat_R. Qed.
Theorem C10_symmetric : (forall a b tol : R, approx_eq a b tol = approx_eq b a tol) /\
  (forall (a b : mat R) r c r' c' A B tol, mat_is a r c A -> mat_is b r' c' B -> 0 < tol ->
     approx_eq_mat a b tol = approx_eq_mat b a tol).
Proof.
  split; [|exact approx_eq_mat_sym]. intros a b tol. apply eq_iff_eq_true. rewrite !approx_eq_R, (Rabs_minus_sym b a).
  split; apply close_sym.
Qed.
Theorem C10_reflexive : (forall a tol : R, 0 < tol -> approx_eq a a tol = true) /\
  (forall (a b : mat R) r c A tol, mat_is a r c A -> mat_is b r c A -> 0 < tol -> approx_eq_mat a b tol = Ok true).
Proof.
  split; [|exact approx_eq_mat_same]. intros a tol Ht. apply approx_eq_R.
  replace (Rabs (a - a)) with 0 by (rewrite Rminus_diag_eq by reflexivity; symmetry; apply Rabs_R0). apply close_zero. exact Ht.
Qed.
(** in any arithmetic *)
Theorem C10_shape : forall T (HN : Num T) (a b : mat T) tol, mrows a <> mrows b \/ mcols a <> mcols b -> approx_eq_mat a b tol = Ok false.
Proof.
  intros T HN a b tol [N|N]; unfold approx_eq_mat.
  - destruct (Nat.eqb_spec (mrows a) (mrows b)); [contradiction|reflexivity].
  - destruct (Nat.eqb_spec (mcols a) (mcols b)); [contradiction|]. rewrite andb_false_r. reflexivity.
Qed.
(** comparison with zero: every entry is smaller than the tolerance; an empty matrix does not pass *)
Theorem C10_zero : (forall a tol : R, approx_zero a tol = true <-> Rabs a < tol) /\
  (forall (a : mat R) r c A tol, mat_is a r c A -> exists v, approx_zero_mat a tol = Ok v /\
     (v = true <-> (r * c <> 0)%nat /\ forall i j, (i < r)%nat -> (j < c)%nat -> Rabs (A i j) < tol)).
Proof.
  split.
  - intros a tol. exact (Rltb_true (Rabs a) tol).
  - intros a r c A tol (Er & Ec & M). unfold approx_zero_mat. rewrite Er, Ec. destruct (Nat.eqb_spec (r * c) 0) as [E0|N0].
    + exists false. split; [reflexivity|]. split; [discriminate|intros (X & _); contradiction].
    + assert (Hr : (1 <= r)%nat) by (destruct r; [exfalso; apply N0; reflexivity|lia]). assert (Hc : (1 <= c)%nat) by (destruct c; [exfalso; apply N0, Nat.mul_0_r|lia]).
      destruct (maxcoeff_R r c (fun i j => x <- mread a i j ;; Ok (nabs x)) (fun i j => Rabs (A i j)) Hr Hc) as (mx & -> & Up & (i & j & Hi & Hj & Em)).
      { intros i j Hi Hj. unfold mread. rewrite Er, Ec, (M i j Hi Hj), (proj2 (Nat.ltb_lt i r) Hi), (proj2 (Nat.ltb_lt j c) Hj). reflexivity. }
      cbn [bind]. exists (if Rlt_dec mx tol then true else false). split; [reflexivity|]. destruct (Rlt_dec mx tol) as [L|L]; (split; [|]); intros K; try discriminate; auto.
      * split; [exact N0|]. intros i' j' Hi' Hj'. eapply Rle_lt_trans; [apply Up; auto|exact L].
      * exfalso. apply L. rewrite Em. apply K; auto.
Qed.
Example C10_zero_ex : exists v, approx_zero_mat (mkmat 1 2 (fun _ j => Some (nth j [0; 3] 0))) 1 = Ok v /\ v = false.
Proof.
  destruct (proj2 C10_zero (mkmat 1 2 (fun _ j => Some (nth j [0; 3] 0))) 1%nat 2%nat (fun _ j => nth j [0; 3] 0) 1) as (v & E & V).
  { split; [reflexivity|]. split; [reflexivity|]. intros i j _ _. reflexivity. }
  exists v. split; [exact E|]. apply not_true_iff_false. rewrite V. intros (_ & K). pose proof (K 0%nat 1%nat ltac:(lia) ltac:(lia)) as L. cbn in L. rewrite Rabs_pos_eq in L; lra.
Qed.
(** FINDING: not an equivalence relation *)
Theorem C10_not_transitive : forall tol, 0 < tol < 1 -> exists a b c : R,
  approx_eq a b tol = true /\ approx_eq b c tol = true /\ approx_eq a c tol = false.
Proof.
  intros tol Ht. exists 0, (3 / 4 * tol), (3 / 2 * tol).
  assert (A0 : Rabs 0 = 0) by apply Rabs_R0.
  assert (A1 : Rabs (3 / 4 * tol) = 3 / 4 * tol) by (apply Rabs_pos_eq; lra).
  assert (A2 : Rabs (3 / 2 * tol) = 3 / 2 * tol) by (apply Rabs_pos_eq; lra).
  assert (B1 : Rabs (0 - 3 / 4 * tol) = 3 / 4 * tol) by (rewrite Rabs_minus_sym, Rminus_0_r; exact A1).
  assert (B2 : Rabs (3 / 4 * tol - 3 / 2 * tol) = 3 / 4 * tol) by (rewrite Rabs_minus_sym; replace (3 / 2 * tol - 3 / 4 * tol) with (3 / 4 * tol) by field; exact A1).
  assert (B3 : Rabs (0 - 3 / 2 * tol) = 3 / 2 * tol) by (rewrite Rabs_minus_sym, Rminus_0_r; exact A2).
  split; [apply approx_eq_R; rewrite A0, A1, B1; left; lra|]. split; [apply approx_eq_R; rewrite A1, A2, B2; left; lra|].
  apply not_true_iff_false. rewrite approx_eq_R, A0, A2, B3. intros [(_ & X)|(X & _)]; lra.
Qed.
(** both branches of the comparison are met *)
Example C10_ex : approx_eq 1 (1 + / 4) (/ 2) = true /\ approx_eq 1 (1 + / 2) (/ 2) = false /\ approx_eq 0 (/ 4) (/ 2) = true.
Proof.
  assert (N : forall x y t, approx_eq x y t = false <-> ~ close (Rabs (x - y)) (Rabs x) (Rabs y) t)
    by (intros; rewrite <- approx_eq_R; symmetry; apply not_true_iff_false).
  rewrite N, !approx_eq_R. unfold close.
  assert (P : forall x, 0 <= x -> Rabs x = x) by (intros; apply Rabs_pos_eq; auto).
  assert (Q : forall x y, x <= y -> Rabs (x - y) = y - x) by (intros; rewrite Rabs_minus_sym; apply Rabs_pos_eq; lra).
  rewrite !Q, !P by lra. repeat split; [right; lra| |left; lra]. intros [X|X]; lra.
Qed.
Example C10_matrices_ex : exists a b : mat R, mat_is a 2 1 (fun i _ => nth i [1; 2] 0) /\ mat_is b 2 1 (fun i _ => nth i [1; 2] 0) /\ 0 < / 10.
Proof.
  exists (vmat (vec_of_list [1; 2])), (vmat (vec_of_list [1; 2])).
  assert (M : mat_is (vmat (vec_of_list [1; 2])) 2 1 (fun i _ => nth i [1; 2] 0)).
  { split; [reflexivity|]. split; [reflexivity|]. intros [|[|i]] j Hi Hj; try reflexivity; lia. }
  repeat split; auto; try apply M; lra.
Qed.
