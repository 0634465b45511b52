(** C85: splines used by several threads. *)
From Coquelicot Require Import Coquelicot.
From Coq Require Import List Arith Bool Lia Reals Lra.
From Verif Require Import Num Outcome LinAlg RSum RMat LegendreModel LegendreMath LegendreProofs BasisModel SplineSpec BasisFn GSplineModel GSplineProofs2 GSplineProofs4 GSplineProofs5 GSplineProofs6 GSplineProps HeapModel ShareModel ShareSpec ShareProofs ShareProofs2 ShareProofs3.
Import ListNotations.

(** Any number of threads, any schedule.  Operations on different splines never race.  On one spline: one thread may compute
    values while others copy and differentiate; any number of threads may copy; any number may copy and take derivatives whose
    order has been taken before.  Every thread that has finished has the result it would have alone. *)
Theorem C85_parallel : forall (T : Type) (HN : Num T) (vars : list (gspline T)) ops ps m,
  holds vars m -> compatible vars ops -> Forall2 (fun o p => thread vars o = Ok p) ops ps ->
  forall ps' m', steps (ps, m) (ps', m') ->
    ~ race (ps', m') /\
    forall i o r, nth_error ops i = Some o -> nth_error ps' i = Some (Ret r) -> r = sequential vars o.
Proof.
  intros T HN vars ops ps m Hm C F ps' m' St.
  set (rd := fun i l => match nth_error ops i with
     | Some (OValue x _) => only (Scratch x) l | Some (ODeriv x _) => only (Array x) l | Some (OCopy x) => only (Array x) l | None => False end).
  set (grow := fun x k => k <> 0%nat /\ exists g, nth_error vars x = Some g /\ ~ (k < length (bs_blocks (gs_bst g)))%nat).
  set (wr := fun i l => match nth_error ops i with
     | Some (OValue x _) => only (Scratch x) l | Some (ODeriv x k) => only_if x (grow x k) l | Some (OCopy x) => False | None => False end).
  set (want := fun i => match nth_error ops i with Some o => sequential vars o | None => UB end).
  assert (G : forall x k, prepared vars x k -> grow x k -> False).
  { intros x k [E|P] (Nk & g & Eg & L); [auto|]. apply L. apply P. exact Eg. }
  assert (D : forall i j l, i <> j -> wr i l -> rd j l -> False).
  { intros i j l N A B. unfold wr, rd, only, only_if in A, B. destruct (nth_error ops i) as [a|] eqn:Ei; [|destruct A]. destruct (nth_error ops j) as [b|] eqn:Ej; [|destruct B].
    pose proof (C i j a b N Ei Ej) as M. unfold may_overlap in M. destruct a as [x pa|x k|x], b as [y pb|y k'|y]; cbn [target] in M; try tauto; try (destruct A as (A & Gx)); subst l; try discriminate; injection B as <-; destruct M as [M|M]; try tauto; try (eapply G; [|exact Gx]; tauto). }
  assert (I0 : inv rd wr want (ps, m)).
  { intros i p Ep. cbn [fst snd] in *. assert (O : exists o, nth_error ops i = Some o /\ thread vars o = Ok p).
    { clear -F Ep. revert i Ep. induction F as [|o q ops ps E F IH]; intros [|i] Ep; try discriminate; cbn [nth_error] in *; [injection Ep as ->; eauto|eauto]. }
    destruct O as (o & Eo & Et). unfold rd, wr, want. rewrite Eo.
    assert (X : forall A B (q : prog T A) (f : A -> B), fst (alone (pbind q (fun r => Ret (Ok (f r)))) m) = omap f (fst (alone q m))).
    { intros A B q f. rewrite alone_bind. destruct (alone q m) as [[a|e|] m1]; reflexivity. }
    assert (okj : forall A (a b : A), Ok a = Ok b -> b = a) by congruence.
    destruct o as [x pts|x k|x]; cbn [thread] in Et; destruct (nth_error vars x) as [g|] eqn:Eg; cbn [of_option bind] in Et; try discriminate; apply okj in Et; subst p; destruct (Hm x g Eg) as (Hb & Ha); cbn [sequential]; rewrite ?Eg; (split; [apply inside_bind; [|intros a _; exact Logic.I]|rewrite X; f_equal]).
    - apply value_inside.
    - apply value_sim. exact Hb.
    - apply derivate_inside. destruct (Nat.eq_dec k 0) as [->|Nk]; [auto|right]. unfold ready. rewrite Ha. destruct (lt_dec k (length (bs_blocks (gs_bst g)))) as [L|L]; [right; exact L|left]. split; [exact Nk|]. exists g. auto.
    - apply derivate_sim. exact Ha.
    - apply copy_inside.
    - apply copy_sim. exact Ha. }
  pose proof (inv_steps rd wr want D _ _ I0 St) as I1. split; [apply (inv_no_race rd wr want D _ I1)|].
  intros i o r Eo Er. pose proof (inv_result rd wr want _ i r I1 Er) as W. unfold want in W. rewrite Eo in W. exact W.
Qed.
(** No schedule goes on for ever, and a thread that has not finished can always go on (whatever the threads do). *)
Theorem C85_ends : forall (T : Type) (A : Type) (ps : list (prog T A)) (m : mem T),
  Acc (fun c' c => step c c') (ps, m) /\
  forall p, In p ps -> (exists r, p = Ret r) \/ (exists c, step (ps, m) c).
Proof.
  intros T A ps m. split; [apply step_acc|]. intros p I0. apply In_nth_error in I0 as (i & E). destruct (act p m) as [[p' m']|] eqn:X.
  - right. eexists. econstructor; eauto.
  - left. destruct p; try discriminate. eauto.
Qed.
(** How to prepare a spline: take the derivative of the highest order once, before the threads start. *)
Theorem C85_prepare : forall (T : Type) (HN : Num T) (vars : list (gspline T)) x g k d m p,
  nth_error vars x = Some g -> holds vars m -> (1 <= gs_n g)%nat -> (1 <= gs_codom g)%nat -> gs_derivate g k = Ok d -> thread vars (ODeriv x k) = Ok p ->
  exists m', steps ([p], m) ([Ret (Ok (Spline d))], m') /\ forall k', (k' <= k)%nat -> k' = 0%nat \/ (k' < length (m_arr m' x))%nat.
Proof.
  intros T HN vars x g k d m p Eg Hm Hn Hc Ed Et. cbn [thread] in Et. rewrite Eg in Et. cbn in Et. injection Et as <-. destruct (Hm x g Eg) as (_ & Ha).
  destruct (after_derivate x g k d m Ha Hn Hc Ed) as (E1 & E2). pose proof (run_thread [] [] (pbind (derivate x g k) (fun r => Ret (Ok (Spline r)))) m) as R1. cbn [app] in R1.
  rewrite alone_bind in R1. destruct (alone (derivate x g k) m) as [r m1]. cbn [fst snd] in *. subst r. cbn [alone fst snd] in R1. exists m1. split; [exact R1|]. intros k' L. lia.
Qed.
(** FINDING: two threads that take the first derivative of a spline for the first time race.  Even if push_back were indivisible,
    there is a schedule in which both get the right derivative and the array of the spline is left with the first differentiation
    matrix twice: from then on the matrix of order 2 is the matrix of order 1, also without threads. *)
Theorem C85_first_refuted : forall (T : Type) (HN : Num T) (g : gspline T) i0 b1 d,
  bs_blocks (gs_bst g) = [i0] -> b_impl (gs_basis g) 1 = Ok b1 -> (1 <= gs_n g)%nat -> (1 <= gs_codom g)%nat -> gs_derivate g 1 = Ok d ->
  exists p, thread [g] (ODeriv 0 1) = Ok p /\ forall m, holds [g] m ->
    (exists c, steps ([p; p], m) c /\ race c) /\
    exists d1 d2 m', steps ([p; p], m) ([Ret (Ok (Spline d1)); Ret (Ok (Spline d2))], m') /\
      gs_coef d1 = gs_coef d /\ gs_coef d2 = gs_coef d /\
      m_arr m' 0 = [i0; b1; b1] /\ steps ([block 0 (gs_basis g) 2], m') ([Ret (Ok b1)], m').
Proof.
  intros T HN g i0 b1 d Eb Ei Hn Hc Ed. cbn [thread nth_error of_option bind]. set (p := pbind (derivate 0 g 1) (fun r => Ret (Ok (Spline r)))). exists p. split; [reflexivity|]. intros m Hm.
  destruct (Hm 0%nat g eq_refl) as (_ & Ha). rewrite Eb in Ha.
  assert (Sc : exists sc, (if is_0101 (gs_basis g) then Ok n1 else bind (vread (gs_tau g) 0) (fun ti => Ok (npown (ndiv c2 ti) 1))) = Ok sc).
  { unfold gs_derivate, gs_deriv_impl in Ed. cbn [Nat.ltb Nat.leb] in Ed. destruct (gs_n g) as [|n]; [lia|]. destruct (gs_codom g) as [|cd]; [lia|]. unfold for_ in Ed. cbn [Nat.sub for_n] in Ed. unfold deriv_seg at 1 in Ed.
    destruct (if is_0101 _ then _ else _) as [sc|e|]; [eauto|discriminate|discriminate]. }
  destruct Sc as (sc & Sc).
  assert (Sh : exists F H, p = Load 0 F /\ F [i0] = Push 0 b1 (Load 0 H) /\ forall l, (2 <= length l)%nat -> F l = Load 0 H).
  { unfold p, derivate. cbn [Nat.ltb Nat.leb]. destruct (gs_n g) as [|n]; [lia|]. destruct (gs_codom g) as [|cd] eqn:Ec; [lia|]. cbn [pfor]. unfold dseg at 1. rewrite Sc. cbn [pbind]. unfold block at 1. cbn [pbind].
    eexists. eexists. split; [reflexivity|]. cbn beta. split.
    - cbn [length Nat.sub push_from]. rewrite Ei. cbn [pbind]. reflexivity.
    - intros l L. replace (2 - length l)%nat with 0%nat by lia. cbn [push_from pbind]. reflexivity. }
  destruct Sh as (F & H & Ep & F1 & F2).
  assert (S2 : steps ([p; p], m) ([Push 0 b1 (Load 0 H); Push 0 b1 (Load 0 H)], m)).
  { rewrite Ep. eapply steps_cons; [apply (step_at [] [_]); reflexivity|]. cbn [app]. rewrite Ha, F1. eapply steps_cons; [apply (step_at [_] []); reflexivity|]. cbn [app]. rewrite Ha, F1. apply steps_nil. }
  split.
  - eexists. split; [exact S2|]. exists 0%nat, 1%nat. eexists. eexists. eexists. eexists. eexists. split; [discriminate|]. split; [reflexivity|]. split; [reflexivity|]. split; [reflexivity|]. split; [reflexivity|]. left. reflexivity.
  - set (m2 := push (push m 0 b1) 0 b1). set (s2 := mkbs [i0; b1; b1] (fun _ => None) (fun _ => None) : bstate T).
    assert (A2 : m_arr m2 0 = [i0; b1; b1]) by (cbn; rewrite Ha; reflexivity).
    assert (Gg : with_bst g (gs_bst g) = g) by (destruct g; reflexivity).
    destruct (first_any g i0 b1 Ei (gs_bst g) s2 d) as (d' & Ed' & _ & _ & Cd & _); [left; exact Eb|right; reflexivity|rewrite Gg; exact Ed|].
    assert (Run : forall m3, m_arr m3 0 = [i0; b1; b1] -> fst (alone (Load 0 H) m3) = Ok (Spline d') /\ m_arr (snd (alone (Load 0 H) m3)) 0 = [i0; b1; b1]).
    { intros m3 A3. assert (X : alone (Load 0 H) m3 = alone p m3). { rewrite Ep. cbn [alone]. rewrite A3. rewrite (F2 [i0; b1; b1]) by (cbn; lia). cbn [alone]. rewrite A3. reflexivity. }
      rewrite X. pose proof (derivate_sim 0 (with_bst g s2) 1 m3) as Y. change (derivate 0 (with_bst g s2) 1) with (derivate 0 g 1) in Y. rewrite Ed' in Y.
      unfold p. rewrite alone_bind.
      assert (Fr : at_loc m3 (snd (alone (derivate 0 g 1) m3)) (Array 0)).
      { apply (frozen (only (Array 0))). assert (W : forall A (q : prog T A) m0, inside (only (Array 0)) (only_if 0 False) q m0 -> inside (only (Array 0)) (fun _ => False) q m0).
        { intros A q. induction q as [r|y v k IH|y k IH|y k IH|y a k IH]; intros m0; cbn [inside]; unfold only_if; intros I1; try tauto; destruct I1; split; auto. }
        apply W. apply derivate_inside. right. right. rewrite A3. cbn. lia. }
      cbn [at_loc] in Fr. destruct (alone (derivate 0 g 1) m3) as [r m4]. cbn [fst snd] in *. rewrite (Y A3). cbn [alone fst snd]. split; [reflexivity|]. congruence. }
    destruct (Run m2 A2) as (R1 & R2). destruct (Run _ R2) as (R3 & R4).
    exists d', d', (snd (alone (Load 0 H) (snd (alone (Load 0 H) m2)))). split; [|split; [exact Cd|split; [exact Cd|split; [exact R4|]]]].
    + eapply steps_app; [exact S2|]. eapply steps_cons; [apply (step_at [] [_]); reflexivity|]. cbn [app]. eapply steps_cons; [apply (step_at [_] []); reflexivity|]. cbn [app]. fold m2.
      eapply steps_app; [apply (run_thread [] [_])|]. rewrite R1. cbn [app]. eapply steps_app; [apply (run_thread [_] [])|]. rewrite R3. cbn [app]. apply steps_nil.
    + set (m4 := snd _) in *. eapply steps_cons; [apply (step_at [] []); reflexivity|]. cbn [app]. rewrite R4. cbn [length Nat.sub push_from pbind]. eapply steps_cons; [apply (step_at [] []); reflexivity|]. cbn [app]. rewrite R4. cbn. apply steps_nil.
Qed.

(** ** concrete threads *)
(** a quadratic spline, and the same spline after a first derivative: a value, a second derivative, and at the other two first
    derivatives, a copy and a value; the hypotheses of [C85_first_refuted] and [C85_prepare] hold for the first spline, and the
    matrices of order 1 and 2 differ *)
Example C85_case : exists (g : gspline R) b1 b2 s1 d, gs_derivate g 1 = Ok d /\ bs_blocks (gs_bst g) = [mident 3] /\ b_impl (gs_basis g) 1 = Ok b1 /\
  b_impl (gs_basis g) 2 = Ok b2 /\ mget b1 0 1 = Some 1%R /\ mget b2 0 1 = Some 0%R /\ gs_n g = 2%nat /\ gs_codom g = 2%nat /\
  get_block (gs_basis g) 1 (gs_bst g) = Ok (b1, s1) /\
  forall pts, let vars := [g; with_bst g s1] in let ops := [OValue 0 pts; ODeriv 0 2; ODeriv 1 1; ODeriv 1 1; OCopy 1; OValue 1 pts] in
  compatible vars ops /\ (exists ps, Forall2 (fun o p => thread vars o = Ok p) ops ps) /\ exists m, holds vars m.
Proof.
  destruct (leg_ctor_R 3) as (gr & Egr & _). set (b := BLegendre 3 gr). assert (B : is_basis b (DLeg 3)) by (repeat split; auto; lia).
  set (lc := [1; 2; 3; 0; -1; 0; 2; 0; 1; 5; 5; 5]%R). set (lt := [1; 2]%R).
  destruct (ctor_rep b (DLeg 3) [] (bs_init b) (1, 4)%R 2 2 (vec_of_list lc) (vec_of_list lt) (fun i => nth i lc 0%R) (fun i => nth i lt 0%R) B eq_refl) as (g & E & Rp).
  { apply (vec_of_list_is lt). } { apply (vec_of_list_is lc). }
  assert (P : forall i, (i < 2)%nat -> (0 < nth i lt 0)%R) by (intros [|[|i]] Hi; cbn; try lra; lia).
  destruct (C27_derivative g _ _ _ _ _ _ _ 1 Rp Logic.I ltac:(lia) P) as (d & _ & Ed & _). cbn in E. injection E as <-.
  destruct (leg_impl_R 3 1) as (b1 & E1 & _ & _ & M1). destruct (leg_impl_R 3 2) as (b2 & E2 & _ & _ & M2).
  assert (Gb : get_block b 1 (bs_copy (bs_init b)) = Ok (b1, mkbs [mident 3; b1] (fun _ => None) (fun _ => None))).
  { unfold get_block. cbn [bs_copy bs_init bs_blocks length Nat.sub push_blocks bs_cont bs_der]. change (b_impl b 1) with (leg_derivative_matrix_impl (T := R) 3 1). rewrite E1. reflexivity. }
  eexists. exists b1, b2. eexists. exists d. split; [exact Ed|]. split; [reflexivity|]. split; [exact E1|]. split; [exact E2|]. split; [|split]; [| |split; [reflexivity|split; [reflexivity|split; [exact Gb|]]]].
  - rewrite M1 by lia. unfold mpow, mprod, mI, legT, mT, Dent, lodd; simpl. f_equal; ring.
  - rewrite M2 by lia. unfold mpow, mprod, mI, legT, mT, Dent, lodd; simpl. f_equal; ring.
  - intros pts. cbn zeta. split; [|split].
    + intros i j o o' N Ei Ej. destruct i as [|[|[|[|[|[|i]]]]]]; cbn in Ei; try (destruct i; discriminate); injection Ei as <-;
      destruct j as [|[|[|[|[|[|j]]]]]]; cbn in Ej; try (destruct j; discriminate); injection Ej as <-; try lia; unfold may_overlap; cbn [target]; try (left; discriminate); right; auto; try split; right; intros g' Eg'; cbn in Eg'; injection Eg' as <-; cbn; lia.
    + eexists. repeat constructor.
    + exists (mkmem (fun _ => vnew 3) (fun x => match x with 0%nat => [mident 3] | _ => [mident 3; b1] end)). intros [|[|x]] g' Eg'; cbn in Eg'; [injection Eg' as <-; cbn; split; reflexivity|injection Eg' as <-; cbn; split; reflexivity|destruct x; discriminate].
Qed.
