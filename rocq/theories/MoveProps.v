(** C83: spline variables, copies and moves. *)
From Coquelicot Require Import Coquelicot.
From Coq Require Import List Arith Lia Bool ZArith Reals Lra.
From Verif Require Import Num Outcome LinAlg RSum RMat RDeriv LegendreModel LegendreProofs LagrangeModel LegendreSpec Basis0101Spec BasisModel BasisProofs SplineSpec BasisFn
  ToolsModel GSplineModel GSplineProofs GSplineProofs2 GSplineProofs3 GSplineProofs4 GSplineProofs5 GSplineProofs6 MoveModel MoveSpec MoveProofs MoveProofs2 MoveProofs3.
Import ListNotations.
Local Open Scope R_scope.

(** Every program that does not use a variable after moving it away: no statement fails, every variable that still has a value reports
    its domain, shape and interval lengths and evaluates to its function; exactly the variables moved away are empty. *)
Theorem C83_values : forall p e, vrun [] p e -> exists st, run [] p = Ok st /\ length st = length e /\
  (forall i v, nth_error e i = Some (Some v) -> exists o, nth_error st i = Some o /\
    gs_dom (so_g o) = (v_t0 v, v_t1 v) /\ gs_codom (so_g o) = v_codom v /\ vec_is (gs_tau (so_g o)) (v_n v) (v_tau v) /\
    forall pts pf np, vec_is pts np pf -> (forall k, (k < np)%nat -> exact_pt (v_d v) (wpos (v_t0 v) (v_tau v) (v_n v) (pf k))) ->
      exists m, so_value o pts = Ok m /\ mat_is m np (v_codom v) (fun k cc => v_at v cc (pf k))) /\
  (forall i, nth_error e i = Some None -> exists o, nth_error st i = Some o /\ emptied o).
Proof.
  intros p e V. destruct (vrun_agree p [] [] e (Forall2_nil _) V) as (st & E & F). exists st. split; auto. split; [apply (agree_length _ _ F)|]. split.
  - intros i v Hi. destruct (F2_nth _ _ _ _ _ F Hi) as (o & Eo & D). exists o. split; auto. pose proof D as (cf & Rp & _).
    split; [apply Rp|]. split; [apply Rp|]. split; [apply Rp|]. intros. eapply denotes_value; eauto.
  - intros i Hi. destruct (F2_nth _ _ _ _ _ F Hi) as (o & Eo & D). eauto.
Qed.
(** Such a program may go on with copying, moving, scaling, negating or differentiating the empty variables; what it gets is empty too. *)
Theorem C83_moved_from : forall st i o, nth_error st i = Some o -> emptied o ->
  (exists z, exec st (SCopy i) = Ok (st ++ [z]) /\ emptied z /\ gs_dom (so_g z) = gs_dom (so_g o) /\ gs_codom (so_g z) = gs_codom (so_g o)) /\
  (exists y z, exec st (SMove i) = Ok (sput st i y ++ [z]) /\ emptied y /\ emptied z) /\
  (forall a, exists y z, exec st (SScale a true i) = Ok (sput st i y ++ [z]) /\ emptied y /\ emptied z) /\
  (forall a, exists z, exec st (SScale a false i) = Ok (st ++ [z]) /\ emptied z) /\
  (exists y z, exec st (SNeg true i) = Ok (sput st i y ++ [z]) /\ emptied y /\ emptied z) /\
  (exists z, exec st (SNeg false i) = Ok (st ++ [z]) /\ emptied z) /\
  (forall k, exists z, exec st (SDeriv k i) = Ok (st ++ [z]) /\ emptied z).
Proof. exact emptied_safe. Qed.
(** Adding or subtracting an empty and a live variable throws in every overload and on either side. *)
Theorem C83_mixed : forall p e st i j v, vrun [] p e -> run [] p = Ok st ->
  (nth_error e i = Some None /\ nth_error e j = Some (Some v)) \/ (nth_error e i = Some (Some v) /\ nth_error e j = Some None) ->
  forall ri rj, exec st (SPlus ri i rj j) = Throw InvalidArgument /\ exec st (SMinus ri i rj j) = Throw InvalidArgument /\
    exec st (SPlusEq i j) = Throw InvalidArgument /\ exec st (SMinusEq i j) = Throw InvalidArgument.
Proof.
  intros p e st i j v V E X. destruct (vrun_agree p [] [] e (Forall2_nil _) V) as (st' & E' & F). rewrite E in E'. injection E' as <-.
  destruct X as [(A & B)|(A & B)]; destruct (F2_nth _ _ _ _ _ F A) as (oa & Ea & Da); destruct (F2_nth _ _ _ _ _ F B) as (ob & Eb & Db);
    eapply mixed_throws; eauto.
Qed.
(** Evaluating an empty variable anywhere reads out of bounds; without points nothing is read. *)
Theorem C83_moved_value : forall o, emptied o ->
  (forall pts np pf, vec_is pts np pf -> (1 <= np)%nat -> so_value o pts = UB) /\ (exists m, so_value o (vnew 0) = Ok m /\ mrows m = 0%nat).
Proof.
  intros o M. split; [|apply emptied_value_none; auto]. intros pts np pf V L. assert (Ln : vlen pts = np) by apply V.
  apply (emptied_value o pts M) with (pf := pf); rewrite Ln; auto.
Qed.
(** Changing the execution time works on an empty spline over polynomials and reads out of bounds over the exponential basis. *)
Theorem C83_moved_time : forall l st i o, nth_error st i = Some o -> emptied o -> / 10 ^ 8 <= l ->
  (b_name (gs_basis (so_g o)) <> N0101 -> exists z, exec st (STime l i) = Ok (st ++ [z]) /\ emptied z) /\
  (b_name (gs_basis (so_g o)) = N0101 -> exec st (STime l i) = UB).
Proof.
  intros l st i o E M Hl. destruct (emptied_time l st i o E M Hl) as (A & B). split; intros N; [apply A|apply B]; destruct (gs_basis (so_g o)); cbn in *; congruence.
Qed.
(** The basis of a spline that was moved away, still reachable through get_basis(): polynomial bases evaluate and differentiate
    as before, after any past. *)
Theorem C83_basis_left : forall T (HN : Num T) (b : basis T), b_name b <> N0101 ->
  b_name (basis_left b) = b_name b /\ b_dim (basis_left b) = b_dim b /\
  (forall s tau buf, b_eval (basis_left b) s tau buf = b_eval b s tau buf) /\
  (forall s tau k buf, b_eval_deriv (basis_left b) s tau k buf = b_eval_deriv b s tau k buf) /\
  (forall s tau k buf, b_eval_deriv_tau (basis_left b) s tau k buf = b_eval_deriv_tau b s tau k buf) /\
  (forall h s k, serve_all b h (bs_init b) = Ok s ->
    match get_block b k s with
    | Ok (m, _) => exists s', get_block (basis_left b) k (bs_left s) = Ok (m, s')
    | Throw x => get_block (basis_left b) k (bs_left s) = Throw x
    | UB => get_block (basis_left b) k (bs_left s) = UB
    end).
Proof.
  intros T HN b N. destruct b as [d g|p w g|a]; [| |cbn in N; congruence]; (split; [reflexivity|]; split; [reflexivity|]; do 3 (split; [intros; reflexivity|])); intros h s k Hs; eapply left_block; eauto.
Qed.

(** ** concrete programs *)
Lemma two_leg : exists b, is_basis b (DLeg 2).
Proof. destruct (leg_basis 2 (le_n 2)) as (b & B & _). eauto. Qed.
Definition line (x0 : R) : val := mkval (DLeg 2) 1 1 x0 (x0 + 2) (fun i => nth i [2] 0) (piece (DLeg 2) 1 x0 (fun i => nth i [2] 0) (fun i => nth i [0; 1] 0)).
Lemma line_at x0 t : v_piece (line x0) 0 0 t = t - x0 - 1.
Proof. unfold line, v_piece, piece, tphi, phi, window, bp, legP. cbn [d_dim Rsum Nat.mul Nat.add nth leg2 fst]. field. Qed.
Definition new_line (b : basis R) (x0 : R) : stmt R := SNew (x0, x0 + 2) 1 1 b (bs_init b) (vec_of_list [0; 1]) (vec_of_list [2]).
Lemma new_line_ok b x0 e : is_basis b (DLeg 2) -> vexec e (new_line b x0) (e ++ [Some (line x0)]).
Proof.
  intros B. apply (VNew e (DLeg 2) [] x0 (x0 + 2) 1 1 b (bs_init b) (vec_of_list [0; 1]) (vec_of_list [2]) (fun i => nth i [2] 0) (fun i => nth i [0; 1] 0)); auto.
  - apply (vec_of_list_is [2]).
  - apply (vec_of_list_is [0; 1]).
  - intros i Hi. replace i with 0%nat by lia. cbn. lra.
  - lra.
Qed.
Lemma alike_refl a : alike a a.
Proof. repeat split. Qed.
(** y = 3 * std::move(x); z = y + std::move(y); w = z.derivate(); u = z in half the time *)
Example C83_case : exists b p e v w u, is_basis b (DLeg 2) /\ p = [new_line b 0; SScale 3 true 0; SPlus false 1 true 1; SDeriv 1 2; STime 1 2] /\ vrun [] p e /\
  e = [None; None; Some v; Some w; Some u] /\
  forall t, v_at v 0 t = 6 * (t - 1) /\ v_at w 0 t = 6 /\ v_at u 0 t = 6 * (2 * t - 1).
Proof.
  destruct two_leg as (b & B). exists b. eexists. eexists. exists (vadd (vmul 3 (line 0)) (vmul 3 (line 0))). eexists. eexists. split; [exact B|]. split; [reflexivity|]. split.
  { eapply vrun_cons; [apply (new_line_ok b 0); exact B|]. cbn [app].
    eapply vrun_cons; [apply (VScale _ 3 true 0 (line 0)); reflexivity|]. cbn [used vput app].
    eapply vrun_cons; [apply (VPlus _ false 1 true 1 (vmul 3 (line 0)) (vmul 3 (line 0))); [reflexivity|reflexivity|apply alike_refl]|]. cbn [used vput app].
    eapply vrun_cons; [apply (VDeriv _ 1 2 (vadd (vmul 3 (line 0)) (vmul 3 (line 0)))); [reflexivity|exact Logic.I]|]. cbn [app].
    eapply vrun_cons; [apply (VTime _ 1 2 (vadd (vmul 3 (line 0)) (vmul 3 (line 0)))); [reflexivity|]|]. { assert (1 <= 10 ^ 8) by (apply pow_R1_Rle; lra). rewrite <- Rinv_1. apply Rinv_le_contravar; lra. }
    cbn [app]. apply vrun_nil. }
  split; [reflexivity|]. intros t.
  assert (P : forall t, v_piece (vadd (vmul 3 (line 0)) (vmul 3 (line 0))) 0 0 t = 6 * (t - 1)).
  { intros u. cbn [vadd vmul vmap v_piece]. change (3 * v_piece (line 0) 0 0 u + 3 * v_piece (line 0) 0 0 u = 6 * (u - 1)). rewrite line_at. ring. }
  split; [|split].
  - unfold v_at. cbn [v_n vadd vmul vmap line locate Nat.sub before]. apply P.
  - unfold v_at. cbn [v_n vder vadd vmul vmap line locate Nat.sub before]. change (Derive_n (v_piece (vadd (vmul 3 (line 0)) (vmul 3 (line 0))) 0 0) 1 t = 6).
    rewrite (Derive_n_ext _ (fun t => 6 * (t - 1))) by exact P. cbn [Derive_n]. apply is_derive_unique. auto_derive; auto. ring.
  - unfold v_at. cbn [v_n vtime vadd vmul vmap line locate Nat.sub before].
    change (v_piece (vadd (vmul 3 (line 0)) (vmul 3 (line 0))) 0 0 (0 + (t - 0) / (1 / (0 + 2 - 0))) = 6 * (2 * t - 1)). rewrite P. field.
Qed.
(** FINDING: after [GSpline y(std::move(x))] the variable x still reports its domain, and evaluating it there is undefined *)
Theorem C83_moved_value_refuted : exists b st o, is_basis b (DLeg 2) /\ run [] [new_line b 0; SMove 0] = Ok st /\ nth_error st 0 = Some o /\
  gs_dom (so_g o) = (0, 0 + 2) /\ forall t, so_value o (vec_of_list [t]) = UB.
Proof.
  destruct two_leg as (b & B). assert (V : vrun [] [new_line b 0; SMove 0] [None; Some (line 0)]).
  { eapply vrun_cons; [apply (new_line_ok b 0); exact B|]. cbn [app]. eapply vrun_cons; [apply (VMove _ 0 (line 0)); reflexivity|]. apply vrun_nil. }
  destruct (C83_values _ _ V) as (st & E & _ & _ & M). destruct (M 0%nat eq_refl) as (o & Eo & Mo). exists b, st, o. split; auto. split; auto. split; auto. split.
  - cbn [run] in E. apply bind_ok in E as (st1 & E1 & E). apply bind_ok in E as (st2 & E2 & E). injection E as <-.
    cbn [exec new_line] in E1. apply bind_ok in E1 as (g & Eg & E1). injection E1 as <-. cbn in E2. injection E2 as <-. cbn in Eo. injection Eo as <-.
    cbn. unfold gs_ctor in Eg. destruct (Nat.eqb _ _); [|discriminate]. injection Eg as <-. reflexivity.
  - intros t. apply (proj1 (C83_moved_value o Mo) _ 1%nat (fun i => nth i [t] 0)); [apply (vec_of_list_is [t])|lia].
Qed.
(** FINDING: the Gram matrices of a basis are moved away with the spline: every norm asked of get_basis() afterwards reads out of bounds *)
Theorem C83_basis_gram_refuted : forall T (HN : Num T) (b : basis T) tau deg m, b_name b <> N0101 -> (deg <= b_dim b)%nat ->
  b_add_gram (basis_left b) tau deg m = UB /\ b_add_gram_tau (basis_left b) tau deg m = UB.
Proof. intros T HN b tau deg m N L. apply left_gram; auto. destruct b; cbn in *; congruence. Qed.
(** which it did not before the move *)
Example C83_basis_gram_case : exists b : basis R, is_basis b (DLeg 2) /\ b_name b = NLegendre /\ forall tau, exists m, b_add_gram b tau 0 (mzero 2 2) = Ok m.
Proof.
  destruct (leg_ctor_R 2) as (g & Eg & _). exists (BLegendre 2 g). split; [repeat split; auto|]. split; [reflexivity|]. intros tau.
  destruct (leg_add_gram_R 2 g tau 0 (mzero 2 2) (fun _ _ => 0) Eg (mzero_isR 2 2)) as (m & E & _). exists m. exact E.
Qed.
(** FINDING: a moved-from spline over the exponential basis cannot even be given another execution time *)
Theorem C83_moved_time_refuted : forall a, 0 < a < 1 -> exists st o, run [] [SNew (0, 1) 1 1 (B0101 a) (bs_init (B0101 a)) (vec_of_list [0; 0; 0; 0; 0; 1]) (vec_of_list [1]); SMove 0] = Ok st /\
  nth_error st 0 = Some o /\ gs_dom (so_g o) = (0, 1) /\ exec st (STime 2 0) = UB.
Proof.
  intros a Ha. cbn [run exec]. unfold gs_ctor. cbn [vlen vec_of_list length b_dim Nat.mul Nat.add Nat.eqb bind]. cbn. eexists. eexists. split; [reflexivity|]. split; [reflexivity|]. split; [reflexivity|].
  assert (L : / 10 ^ 8 <= 2) by (assert (1 <= 10 ^ 8) by (apply pow_R1_Rle; lra); assert (/ 10 ^ 8 <= / 1) by (apply Rinv_le_contravar; lra); lra).
  match goal with |- context [@cons (sobj R) ?x ?y] => refine (proj2 (C83_moved_time 2 (x :: y) 0%nat _ eq_refl _ L) eq_refl) end. repeat split.
Qed.
Example C83_moved_time_case : exists a : R, 0 < a < 1.
Proof. exists (1 / 2). lra. Qed.
