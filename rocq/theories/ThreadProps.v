(** C84: threads that use expression variables at the same time. *)
From Coq Require Import List Arith Bool Lia Reals Lra.
From Verif Require Import Num Outcome FunModel FunSpec FunProofs FunProofs3 HeapModel HeapSpec HeapProofs HeapProofs2 ThreadModel ThreadSpec ThreadProofs ThreadProofs2.
Import ListNotations.

(** Any number of threads, any schedule: evaluations of different variables, evaluations of one variable without splines, and at most
    one copy never race, and every thread that has finished has the result it would have alone. *)
Theorem C84_parallel : forall (T : Type) (HN : Num T) fill use dbg (s : state T) ops ps,
  (forall sp k t, use sp k t (fill sp k t) = sp k t) -> compatible s ops -> Forall2 (fun o p => thread fill use dbg s o = Ok p) ops ps ->
  forall m ps' m', steps (ps, m) (ps', m') ->
    ~ race (ps', m') /\
    forall i o r, nth_error ops i = Some o -> nth_error ps' i = Some (Ret r) -> r = sequential dbg s o.
Proof.
  intros T HN fill use dbg s ops ps FU C F m ps' m' St.
  set (own := fun (i : nat) (l : option place) => match nth_error ops i with
     | Some (OEval x _) => exists way f, look_var s x = Ok f /\ has_spline f = true /\ l = Some (x, way)
     | Some (OCopy _) => l = None | None => False end).
  set (want := fun i => match nth_error ops i with Some o => sequential dbg s o | None => UB end).
  assert (D : forall i j l, i <> j -> own i l -> own j l -> False).
  { intros i j l N A B. unfold own in A, B. destruct (nth_error ops i) as [a|] eqn:Ei; [|destruct A]. destruct (nth_error ops j) as [b|] eqn:Ej; [|destruct B].
    pose proof (C i j a b N Ei Ej) as M. destruct a as [x pa|x], b as [y pb|y]; cbn [may_overlap] in M.
    - destruct A as (wa & f & Lf & Sf & ->). destruct B as (wb & g & Lg & Sg & E). injection E as -> ->. destruct M as [M|M]; [congruence|]. specialize (M _ Lf). congruence.
    - destruct A as (wa & f & Lf & Sf & ->). discriminate.
    - destruct B as (wa & f & Lf & Sf & ->). discriminate.
    - exact M. }
  assert (I0 : inv own want (ps, m)).
  { intros i p Ep. cbn [fst snd] in *. assert (O : exists o, nth_error ops i = Some o /\ thread fill use dbg s o = Ok p).
    { clear -F Ep. revert i Ep. induction F as [|o q ops ps E F IH]; intros [|i] Ep; try discriminate; cbn [nth_error] in *; [injection Ep as ->; eauto|eauto]. }
    destruct O as (o & Eo & Et). unfold own, want. rewrite Eo. destruct o as [x pts|x]; cbn [thread] in Et; apply bind_ok in Et as (f & Lf & Et); injection Et as <-.
    - split.
      + apply inside_bind; [|intros a; exact Logic.I]. apply (evalp_inside fill use dbg _ (fun g w => fst w = x /\ (has_spline g = true -> has_spline f = true))); [| | |auto].
        * intros d c sp k [y way] (Ey & Sf). cbn [fst] in Ey. subst y. exists way, f. auto.
        * intros d f1 f2 w (Ew & Sf). cbn [has_spline] in Sf. split; split; auto; intros X; apply Sf; rewrite X; [reflexivity|apply orb_true_r].
        * intros ty d c args w j g (Ew & Sf) Eg. cbn [has_spline] in Sf. split; auto. intros X. apply Sf. apply existsb_exists. exists g. split; auto. eapply nth_error_In; eauto.
      + cbn [sequential]. unfold call_var. rewrite Lf. cbn [bind]. unfold FunModel.call. pose proof (evalp_gives fill use dbg FU f (x, []) pts (fcod f) m) as G. rewrite alone_bind. destruct (alone _ m) as [r m1]. cbn [fst] in G. subst r.
        destruct (eval dbg f pts (fcod f)); reflexivity.
    - split; [apply count_inside; reflexivity|]. rewrite count_alone. cbn [fst sequential]. rewrite Lf. reflexivity. }
  pose proof (inv_steps own want D _ _ I0 St) as I1. split; [apply (inv_no_race own want D _ I1)|].
  intros i o r Eo Er. pose proof (inv_result own want _ i r I1 Er) as W. unfold want in W. rewrite Eo in W. exact W.
Qed.
(** No schedule goes on for ever, and a thread that has not finished can always go on (whatever the threads do). *)
Theorem C84_ends : forall (T : Type) (A : Type) (ps : list (prog T A)) (m : mem T),
  Acc (fun c' c => step c c') (ps, m) /\
  forall p, In p ps -> (exists r, p = Ret r) \/ (exists c, step (ps, m) c).
Proof.
  intros T A ps m. split; [apply step_acc|]. intros p I0. apply In_nth_error in I0 as (i & E). destruct (act p m) as [[p' m']|] eqn:X.
  - right. eexists. econstructor; eauto.
  - left. destruct p; try discriminate. eauto.
Qed.
(** An evaluation touches only the buffers of splines in its own tree, and buffers are named by the variable and the way down to the
    spline: these are different objects in every state that a program reaches. *)
Theorem C84_buffers : forall (T : Type) (HN : Num T) fill use dbg (p : list (stmt T)) s, run start p = Ok s ->
  (forall x pts pr w, thread fill use dbg s (OEval x pts) = Ok pr -> touches pr w ->
    exists f d c sp k, look_var s x = Ok f /\ fst w = x /\ at_way f (snd w) = Some (FExt d c sp k)) /\
  (forall x f way a, look_var s x = Ok f -> node_at s (x, way) = Some a -> exists g, at_way f way = Some g /\ look (st_heap s) (Some a) = Ok g) /\
  (forall w w' a, node_at s w = Some a -> node_at s w' = Some a -> w = w').
Proof.
  intros T HN fill use dbg p s E. split; [|split].
  - intros x pts pr w Et Tw. cbn [thread] in Et. apply bind_ok in Et as (f & Lf & Et). injection Et as <-.
    assert (I0 : inside (fun l => exists w d c sp k, l = Some w /\ fst w = x /\ at_way f (snd w) = Some (FExt d c sp k)) (pbind (evalp fill use dbg f (x, []) pts (fcod f)) (fun r => Ret (Ok (Rows r))))).
    { apply inside_bind; [|intros a; exact Logic.I]. apply (evalp_inside fill use dbg _ (fun g w => fst w = x /\ at_way f (snd w) = Some g)); [| | |auto].
      - intros d c sp k w' (Ew & Ea). exists w', d, c, sp, k. auto.
      - intros d f1 f2 w' (Ew & Ea). unfold child. cbn [fst snd at_way]. rewrite Ea. auto.
      - intros ty d c args w' i g (Ew & Ea) Eg. unfold child. cbn [fst snd at_way]. rewrite Ea. auto. }
    destruct (touches_inside _ _ _ Tw I0) as (w' & d & c & sp & k & Ew & Ex & Ea). injection Ew as <-. exists f, d, c, sp, k. auto.
  - intros x f way a Lf. apply (node_tree s x f Lf way).
  - intros [x wx] [y wy] a. apply node_inj. intros b. rewrite (one_owner p s E b). destruct (b <? _)%nat; lia.
Qed.
(** FINDING: two threads that evaluate the same spline variable race, and the first can return what belongs to the point of the second *)
Theorem C84_shared_refuted : forall (T : Type) (HN : Num T) fill use dbg (d : dom T) c sp, exists s, run start [SNew (FExt d c sp 0)] = Ok s /\
  forall t u m, exists p q, thread fill use dbg s (OEval 0 [t]) = Ok p /\ thread fill use dbg s (OEval 0 [u]) = Ok q /\
    race ([p; q], m) /\ exists c', steps ([p; q], m) c' /\ nth_error (fst c') 0 = Some (Ret (Ok (Rows [use sp 0%nat t (fill sp 0%nat u)]))).
Proof.
  intros T HN fill use dbg d c sp. eexists. split; [reflexivity|]. intros t u m. cbn. rewrite andb_false_r. rewrite Nat.eqb_refl. cbn. eexists. eexists. split; [reflexivity|]. split; [reflexivity|]. split.
  - exists 0%nat, 1%nat. eexists. eexists. eexists. eexists. eexists. split; [discriminate|]. split; [reflexivity|]. split; [reflexivity|]. split; [reflexivity|]. split; [reflexivity|]. left. reflexivity.
  - eexists. split.
    + eapply steps_cons; [apply (step_at [] [_]); reflexivity|]. cbn [app]. eapply steps_cons; [apply (step_at [_] []); reflexivity|]. cbn [app]. eapply steps_cons; [apply (step_at [] [_]); reflexivity|]. cbn [app]. apply steps_nil.
    + cbn [fst nth_error put m_buf]. rewrite place_refl. reflexivity.
Qed.
(** FINDING: two threads that copy expressions race at the static counter of calls, also if the expressions have nothing in common;
    calls get lost *)
Theorem C84_copies_refuted : forall (T : Type) (HN : Num T) fill use dbg (s : state T) x y f g, look_var s x = Ok f -> look_var s y = Ok g ->
  exists p q, thread fill use dbg s (OCopy x) = Ok p /\ thread fill use dbg s (OCopy y) = Ok q /\
  forall m, (exists c, steps ([p; q], m) c /\ race c) /\
    exists c, steps ([p; q], m) ([Ret (Ok (Tree f)); Ret (Ok (Tree g))], c) /\ (m_cnt c < m_cnt m + expressions f + expressions g)%nat.
Proof.
  intros T HN fill use dbg s x y f g Lf Lg. cbn [thread]. rewrite Lf, Lg. cbn [bind]. eexists. eexists. split; [reflexivity|]. split; [reflexivity|].
  assert (E : forall z h, look_var s z = Ok h -> (1 <= expressions h)%nat).
  { intros z h L. unfold look_var in L. apply bind_ok in L as (o & _ & L). apply bind_ok in L as (fs & _ & L). injection L as <-. cbn. lia. }
  pose proof (E _ _ Lf) as Ef. pose proof (E _ _ Lg) as Eg. intros m. split.
  - destruct (expressions f) as [|n]; [lia|]. destruct (expressions g) as [|k]; [lia|]. cbn [count_calls]. eexists. split; [eapply steps_cons; [apply (step_at [] [_]); reflexivity|apply steps_nil]|]. cbn [app].
    exists 0%nat, 1%nat. eexists. eexists. eexists. eexists. eexists. split; [discriminate|]. split; [reflexivity|]. split; [reflexivity|]. split; [reflexivity|]. split; [reflexivity|]. left. reflexivity.
  - destruct (lost_update (expressions f) (expressions g) f g m Ef Eg) as (c & St & Cn). exists c. split; [exact St|]. lia.
Qed.

(** A copy made while nobody else copies adds to the counter one call for every expression in the tree: the variable itself and every
    nested expression. *)
Theorem C84_counts : forall (T : Type) (HN : Num T) fill use dbg (s : state T) x f p, look_var s x = Ok f -> thread fill use dbg s (OCopy x) = Ok p ->
  exists ways, NoDup ways /\ (forall way, In way ways <-> exists ty d c args, at_way f way = Some (FExpr ty d c args)) /\
    forall m, exists m', steps ([p], m) ([Ret (Ok (Tree f))], m') /\ m_cnt m' = (m_cnt m + length ways)%nat /\ m_buf m' = m_buf m.
Proof.
  intros T HN fill use dbg s x f p Lf Et. cbn [thread] in Et. rewrite Lf in Et. cbn [bind] in Et. injection Et as <-.
  destruct (expressions_counted f) as (ws & Nw & Iw & Lw). exists ws. split; [exact Nw|]. split; [exact Iw|]. intros m. eexists. split; [|split].
  - pose proof (run_thread [] [] (count_calls (expressions f) f) m) as X. rewrite count_alone in X. exact X.
  - cbn [m_cnt snd]. rewrite Lw. reflexivity.
  - reflexivity.
Qed.

(** ** concrete threads *)
(** x0 = spline, x1 = a copy of x0 plus the sine; three threads: x0(t), x1(u), a copy of x0 *)
Definition sp (k : nat) (t : R) : list R := [INR k + t]%R.
Definition D1 : dom R := (0, 1)%R.
Definition ex_prog : list (stmt R) := [SNew (FExt D1 1 sp 0); SNew (FSin D1); SBin BAdd (false, 0%nat) (false, 1%nat)].
Example C84_case : exists s p q r, run start ex_prog = Ok s /\
  compatible s [OEval 0 [1%R]; OEval 2 [(1 / 2)%R; 1%R]; OCopy 0] /\
  Forall2 (fun o p => thread (fun sp k t => sp k t) (fun _ _ _ b => b) true s o = Ok p) [OEval 0 [1%R]; OEval 2 [(1 / 2)%R; 1%R]; OCopy 0] [p; q; r] /\
  node_at s (0%nat, [0%nat]) <> node_at s (2%nat, [0%nat]) /\ node_at s (2%nat, [0%nat]) <> None.
Proof.
  set (s0 := mkstate [NLeaf (FExt D1 1 sp 0); NLeaf (FSin D1); NLeaf (FExt D1 1 sp 0); NLeaf (FSin D1)] [mkobj UNIQUE D1 1 [Some 0%nat]; mkobj UNIQUE D1 1 [Some 1%nat]; mkobj SUM D1 1 [Some 2%nat; Some 3%nat]]).
  assert (R1 : run start ex_prog = Ok s0).
  { unfold ex_prog. cbn [run exec bind h_new alloc declare start st_heap st_vars length app]. unfold h_add, declare, getv. cbn [st_vars st_heap app nth_error of_option bind snd].
    unfold shape, sum_throw. cbn [edom ecod o_dom o_cod fdom fcod]. rewrite same_domain_refl. reflexivity. }
  exists s0. assert (L0 : look_var s0 0 = Ok (FExpr UNIQUE D1 1 [FExt D1 1 sp 0])) by reflexivity. assert (L2 : look_var s0 2 = Ok (FExpr SUM D1 1 [FExt D1 1 sp 0; FSin D1])) by reflexivity.
  eexists. eexists. eexists. split; [exact R1|]. split.
  { intros [|[|[|i]]] [|[|[|j]]] a b N Ea Eb; cbn in Ea, Eb; try discriminate; try congruence; try (destruct i; discriminate); try (destruct j; discriminate); injection Ea as <-; injection Eb as <-; cbn [may_overlap]; auto; left; discriminate. }
  split. { repeat constructor; cbn [thread]; rewrite ?L0, ?L2; reflexivity. }
  split; discriminate.
Qed.
