(** C43, C44: operators that are used more than once. *)
From Coquelicot Require Import Coquelicot.
From Coq Require Import List Arith Lia Bool ZArith Reals Lra.
From Verif Require Import Num Outcome LinAlg RSum GSplineModel GLModel GLLModel GLFModel GLFProofs GLFProofs2.
Import ListNotations.
Local Open Scope R_scope.

(** A matrix operator that has been updated can be updated again; what it was before is forgotten. *)
Theorem C43_matrix_again rows cols nglp n ms1 ms2 P1 P2 : length ms1 = (nglp * n)%nat -> length ms2 = (nglp * n)%nat ->
  (forall k p, nth_error ms1 k = Some p -> mat_is p rows cols (P1 k)) -> (forall k p, nth_error ms2 k = Some p -> mat_is p rows cols (P2 k)) ->
  exists r1 r2, mlm_update (mlm_new (T := R) cols nglp n rows) ms1 = Ok r1 /\ mlm_update r1 ms2 = Ok r2 /\
  mcells (ml_mat r2) n rows cols nglp (fun iv b i iv' b' i' => if Nat.eqb iv iv' && Nat.eqb i i' then P2 (iv * nglp + i)%nat b b' else 0).
Proof.
  intros L1 L2 H1 H2. destruct (mlm_update_ok (mlm_new cols nglp n rows) ms1 P1 _ (mlm_new_cells cols nglp n rows) L1 H1) as (m1 & E1 & M1).
  destruct (mlm_update_ok (mlm_with (mlm_new cols nglp n rows) m1) ms2 P2 _ M1 L2 H2) as (m2 & E2 & M2).
  do 2 eexists. split; [exact E1|]. split; [exact E2|]. eapply mcells_ext; [exact M2|]. intros iv b i iv' b' i' _ _ _ _ _ _. cbv beta. cbn [mlm_new mlm_with ml_nglp]. destruct (Nat.eqb iv iv' && Nat.eqb i i'); reflexivity.
Qed.
Example C43_matrix_again_case : exists ms1 ms2 : list (mat R), length ms1 = (2 * 1)%nat /\ length ms2 = (2 * 1)%nat /\
  (forall k p, nth_error ms1 k = Some p -> mat_is p 1 3 (fun _ _ => 0)) /\ (forall k p, nth_error ms2 k = Some p -> mat_is p 1 3 (fun _ j => INR j)).
Proof.
  exists (repeat (mzero 1 3) 2), (repeat (mkmat 1 3 (fun _ j => Some (INR j))) 2). split; [reflexivity|]. split; [reflexivity|].
  split; intros [|[|k]] p E; try (destruct k; discriminate); injection E as <-; (split; [reflexivity|split; [reflexivity|intros i j Hi Hj; reflexivity]]).
Qed.
(** The matrix whose address [differential] returns holds the gradient at the spline of the last call, also for those who kept the
    address from an earlier call. *)
Theorem C44_differential_last : forall T (HN : Num T) fresh (s : sdist T) h (calls : list (gspline T)) g h',
  (fold_left (fun h g => h <- h ;; sd_differential fresh s h g) (calls ++ [g]) (Ok h)) = Ok h' -> sd_diff_matrix fresh s g = Ok (dh_diff h').
Proof.
  intros T HN fresh s h calls g h' E. rewrite fold_left_app in E. cbn [fold_left] in E. destruct (fold_left _ calls (Ok h)) as [h1|x|]; cbn [bind] in E; try discriminate.
  unfold sd_differential in E. destruct (sd_diff_matrix fresh s g) as [m|x|]; cbn [bind] in E; [injection E as <-; reflexivity|discriminate|discriminate].
Qed.
