(** Programs over the memory of splines: running alone, locations touched, any interleaving. *)
From Coq Require Import List Arith Bool Lia.
From Verif Require Import Num Outcome LinAlg LegendreModel BasisModel GSplineModel HeapModel HeapProofs2 ShareModel ShareSpec.
Import ListNotations.

Section P.
Context {T : Type} `{Num T}.

(** ** alone *)
Fixpoint alone {A} (p : prog T A) (m : mem T) : outcome A * mem T :=
  match p with
  | Ret r => (r, m)
  | Put x v k => alone k (put m x v)
  | Get x k => alone (k (m_buf m x)) m
  | Load x k => alone (k (m_arr m x)) m
  | Push x a k => alone k (push m x a)
  end.
Lemma alone_bind {A B} (p : prog T A) (f : A -> prog T B) : forall m,
  alone (pbind p f) m = match alone p m with (Ok a, m') => alone (f a) m' | (Throw e, m') => (Throw e, m') | (UB, m') => (UB, m') end.
Proof. induction p as [[a|e|]|x v k IH|x k IH|x k IH|x a k IH]; intros m; cbn [pbind alone]; auto. Qed.

(** ** locations that a run touches *)
Definition at_loc (m m' : mem T) (l : loc) : Prop := match l with Scratch x => m_buf m x = m_buf m' x | Array x => m_arr m x = m_arr m' x end.
Section Foot.
Variables (rd wr : loc -> Prop).
Fixpoint inside {A} (p : prog T A) (m : mem T) : Prop :=
  match p with
  | Ret _ => True
  | Put x v k => (rd (Scratch x) /\ wr (Scratch x)) /\ inside k (put m x v)
  | Get x k => rd (Scratch x) /\ inside (k (m_buf m x)) m
  | Load x k => rd (Array x) /\ inside (k (m_arr m x)) m
  | Push x a k => (rd (Array x) /\ wr (Array x)) /\ inside k (push m x a)
  end.
Definition agree (m m' : mem T) : Prop := forall l, rd l -> at_loc m m' l.
Lemma agree_put m m' x v : agree m m' -> agree (put m x v) (put m' x v).
Proof. intros G [y|y] Ry; specialize (G _ Ry); cbn in *; auto. destruct (Nat.eqb y x); auto. Qed.
Lemma agree_push m m' x a : agree m m' -> agree (push m x a) (push m' x a).
Proof. intros G [y|y] Ry; specialize (G _ Ry); cbn in *; auto. destruct (Nat.eqb y x); auto. now rewrite G. Qed.
Lemma local {A} (p : prog T A) : forall m m', inside p m -> agree m m' -> inside p m' /\ fst (alone p m') = fst (alone p m).
Proof.
  induction p as [r|x v k IH|x k IH|x k IH|x a k IH]; cbn [inside alone]; intros m m' I0 G; auto.
  - destruct I0 as (Rx & I1). destruct (IH _ (put m' x v) I1 ltac:(apply agree_put; auto)). auto.
  - destruct I0 as (Rx & I1). pose proof (G _ Rx) as E. cbn in E. rewrite <- E. destruct (IH _ _ m' I1 G). auto.
  - destruct I0 as (Rx & I1). pose proof (G _ Rx) as E. cbn in E. rewrite <- E. destruct (IH _ _ m' I1 G). auto.
  - destruct I0 as (Rx & I1). destruct (IH _ (push m' x a) I1 ltac:(apply agree_push; auto)). auto.
Qed.
Lemma inside_bind {A B} (p : prog T A) (f : A -> prog T B) : forall m, inside p m ->
  (forall a, fst (alone p m) = Ok a -> inside (f a) (snd (alone p m))) -> inside (pbind p f) m.
Proof.
  induction p as [[a|e|]|x v k IH|x k IH|x k IH|x a k IH]; intros m; cbn [pbind inside alone fst snd]; intros I0 K; auto; try (destruct I0; split; auto).
Qed.
Lemma inside_for {S} (J : mem T -> Prop) (body : nat -> S -> prog T S) : (forall i s m, J m -> inside (body i s) m /\ J (snd (alone (body i s) m))) ->
  forall n lo s m, J m -> inside (pfor lo n body s) m /\ J (snd (alone (pfor lo n body s) m)).
Proof.
  intros K. induction n as [|n IH]; intros lo s m Jm; cbn [pfor]; [cbn; auto|]. destruct (K lo s m Jm) as (I1 & J1). split.
  - apply inside_bind; auto. intros a _. apply IH. exact J1.
  - rewrite alone_bind. destruct (alone (body lo s) m) as [[a|e|] m1]; cbn [snd] in *; auto. apply IH. exact J1.
Qed.
End Foot.

(** ** interleavings *)
Lemma act_inside {A} rd wr (p p' : prog T A) m m' : inside rd wr p m -> act p m = Some (p', m') ->
  inside rd wr p' m' /\ fst (alone p' m') = fst (alone p m) /\ (forall l, ~ wr l -> at_loc m m' l).
Proof.
  destruct p as [r|x v k|x k|x k|x a k]; cbn [act inside]; intros I0 E; try discriminate; injection E as <- <-; destruct I0 as (Px & I1).
  - split; auto. split; [reflexivity|]. intros [y|y] N; cbn; auto. destruct (Nat.eqb_spec y x); auto. subst. tauto.
  - split; auto. split; [reflexivity|]. intros [y|y] N; cbn; auto.
  - split; auto. split; [reflexivity|]. intros [y|y] N; cbn; auto.
  - split; auto. split; [reflexivity|]. intros [y|y] N; cbn; auto. destruct (Nat.eqb_spec y x); auto. subst. tauto.
Qed.
Section Inter.
Context {A : Type}.
Variables (rd wr : nat -> loc -> Prop) (want : nat -> outcome A).
Hypothesis apart : forall i j l, i <> j -> wr i l -> rd j l -> False.
Definition inv (c : list (prog T A) * mem T) : Prop :=
  forall i p, nth_error (fst c) i = Some p -> inside (rd i) (wr i) p (snd c) /\ fst (alone p (snd c)) = want i.
Lemma inv_step c c' : inv c -> step c c' -> inv c'.
Proof.
  intros I0 St. destruct St as [i ps m p p' m' Ep Ea]. intros j q Ej. cbn [fst snd] in *. destruct (I0 i p Ep) as (Ip & Wp). cbn [snd] in *. destruct (act_inside _ _ _ _ _ _ Ip Ea) as (Ip' & Wp' & Ag).
  destruct (Nat.eq_dec i j) as [<-|N].
  - rewrite set_nth_same in Ej by (apply nth_error_Some; congruence). injection Ej as <-. split; auto. congruence.
  - rewrite set_nth_other in Ej by auto. destruct (I0 j q Ej) as (Iq & Wq). cbn [snd] in *.
    destruct (local (rd j) (wr j) q m m' Iq) as (Iq' & Wq'); [|split; auto; congruence]. intros l Rl. apply Ag. intros Wl. apply (apart i j l); auto.
Qed.
Lemma inv_steps c c' : inv c -> steps c c' -> inv c'.
Proof. intros I0 St. induction St; auto. apply IHSt. eapply inv_step; eauto. Qed.
Lemma inv_no_race c : inv c -> ~ race c.
Proof.
  assert (N : forall i p m l b, inside (rd i) (wr i) p m -> next (A := A) p = Some (l, b) -> rd i l /\ (b = true -> wr i l)).
  { intros i p m l b I0 E. destruct p; cbn [inside next] in *; try discriminate; injection E as <- <-; destruct I0 as (X & _); (split; [tauto|intros Q; try discriminate Q; tauto]). }
  intros I0 (i & j & p & q & l & a & b & D & Ep & Eq & Np & Nq & W). destruct (I0 i p Ep) as (Ip & _). destruct (I0 j q Eq) as (Iq & _).
  destruct (N _ _ _ _ _ Ip Np) as (R1 & W1). destruct (N _ _ _ _ _ Iq Nq) as (R2 & W2). destruct W as [W|W]; [apply (apart i j l)|apply (apart j i l)]; auto.
Qed.
Lemma inv_result c i r : inv c -> nth_error (fst c) i = Some (Ret r) -> r = want i.
Proof. intros I0 E. destruct (I0 i _ E) as (_ & W). exact W. Qed.
End Inter.

(** ** every schedule ends *)
Inductive sub {A} : prog T A -> prog T A -> Prop :=
| sub_put x v k : sub k (Put x v k)
| sub_get x k v : sub (k v) (Get x k)
| sub_load x k l : sub (k l) (Load x k)
| sub_push x a k : sub k (Push x a k).
Lemma sub_acc {A} (p : prog T A) : Acc sub p.
Proof. induction p as [r|x v k IH|x k IH|x k IH|x a k IH]; constructor; intros q S0; inversion S0; subst; auto. Qed.
Definition one_sub {A} (l' l : list (prog T A)) : Prop := exists i p p', nth_error l i = Some p /\ sub p' p /\ l' = set_nth l i p'.
Lemma one_sub_acc {A} (l : list (prog T A)) : Acc one_sub l.
Proof.
  induction l as [|p l IH].
  - constructor. intros l' ([|i] & p & p' & E & _); discriminate.
  - revert l IH. induction (sub_acc p) as [p _ IHp]. intros l Al. induction Al as [l Hl IHl].
    constructor. intros l' ([|i] & q & q' & E & S0 & ->); cbn [nth_error set_nth] in *.
    + injection E as <-. apply IHp; [auto|]. constructor. exact Hl.
    + apply IHl. exists i, q, q'. auto.
Qed.
Lemma step_sub {A} (c c' : list (prog T A) * mem T) : step c c' -> one_sub (fst c') (fst c).
Proof.
  intros St. destruct St as [i ps m p p' m' Ep Ea]. exists i, p, p'. split; auto. split; auto.
  destruct p; cbn [act] in Ea; try discriminate; injection Ea as <- <-; constructor.
Qed.
Lemma step_acc {A} (ps : list (prog T A)) : forall m, Acc (fun c' c => step c c') (ps, m).
Proof.
  induction (one_sub_acc ps) as [ps _ IH]. intros m. constructor. intros [ps' m'] St. apply IH. exact (step_sub _ _ St).
Qed.
Lemma steps_app {A} (a b c : list (prog T A) * mem T) : steps a b -> steps b c -> steps a c.
Proof. induction 1; auto. intros. econstructor; eauto. Qed.
Lemma step_at {A} (l r : list (prog T A)) p p' m m' : act p m = Some (p', m') -> step (l ++ p :: r, m) (l ++ p' :: r, m').
Proof.
  intros E. replace (l ++ p' :: r) with (set_nth (l ++ p :: r) (length l) p').
  - constructor 1 with (p := p); auto. rewrite nth_error_app2, Nat.sub_diag; auto.
  - induction l as [|x l IH]; cbn; congruence.
Qed.
Lemma run_thread {A} (l r : list (prog T A)) p : forall m, steps (l ++ p :: r, m) (l ++ Ret (fst (alone p m)) :: r, snd (alone p m)).
Proof.
  induction p as [o|x v k IH|x k IH|x k IH|x a k IH]; intros m; cbn [alone fst snd]; try (econstructor; [apply step_at; reflexivity|apply IH]). constructor.
Qed.
End P.
