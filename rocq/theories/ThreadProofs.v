(** Programs over shared memory: running alone, staying inside a set of locations, any interleaving. *)
From Coq Require Import List Arith Bool Lia.
From Verif Require Import Num Outcome FunModel FunProofs HeapModel HeapProofs2 ThreadModel ThreadSpec.
Import ListNotations.

Section P.
Context {T : Type} `{Num T}.

Lemma place_eqb_spec (a b : place) : place_eqb a b = true <-> a = b.
Proof.
  destruct a as [x p], b as [y q]. unfold place_eqb. cbn [fst snd]. rewrite andb_true_iff, Nat.eqb_eq.
  destruct (list_eq_dec Nat.eq_dec p q); split; try congruence; intros; intuition congruence.
Qed.
Lemma place_refl (a : place) : place_eqb a a = true. Proof. now apply place_eqb_spec. Qed.

(** ** alone *)
Fixpoint alone {A} (p : prog T A) (m : mem T) : outcome A * mem T :=
  match p with
  | Ret r => (r, m)
  | Put w v k => alone k (put m w v)
  | Get w k => alone (k (m_buf m w)) m
  | Load k => alone (k (m_cnt m)) m
  | Store n k => alone k (mkmem (m_buf m) n)
  end.
Lemma alone_bind {A B} (p : prog T A) (f : A -> prog T B) : forall m,
  alone (pbind p f) m = match alone p m with (Ok a, m') => alone (f a) m' | (Throw e, m') => (Throw e, m') | (UB, m') => (UB, m') end.
Proof. induction p as [[a|e|]|w v k IH|w k IH|k IH|n k IH]; intros m; cbn [pbind alone]; auto. Qed.
Definition gives {A} (p : prog T A) (r : outcome A) : Prop := forall m, fst (alone p m) = r.
Lemma gives_ret {A} (r : outcome A) : gives (Ret r) r. Proof. intros m. reflexivity. Qed.
Lemma gives_bind {A B} (p : prog T A) (f : A -> prog T B) r g :
  gives p r -> (forall a, r = Ok a -> gives (f a) (g a)) -> gives (pbind p f) (bind r g).
Proof.
  intros G K m. rewrite alone_bind. specialize (G m). destruct (alone p m) as [r' m']. cbn [fst] in G. subst r'. destruct r; cbn [bind]; auto. apply K; auto.
Qed.
Lemma gives_mapM {A B} (f : A -> prog T B) g l : (forall a, In a l -> gives (f a) (g a)) -> gives (pmapM f l) (mapM g l).
Proof.
  induction l as [|a l IH]; intros G; cbn [pmapM mapM]; [apply gives_ret|]. apply gives_bind; [apply G; left; auto|]. intros b _.
  apply gives_bind; [apply IH; intros; apply G; right; auto|]. intros r _. apply gives_ret.
Qed.
Lemma gives_eq {A} (p : prog T A) r r' : gives p r -> r = r' -> gives p r'. Proof. intros G <-. exact G. Qed.

Section Ev.
Variables (fill : (nat -> T -> list T) -> nat -> T -> list T) (use : (nat -> T -> list T) -> nat -> T -> list T -> list T) (dbg : bool).
Hypothesis FU : forall s k t, use s k t (fill s k t) = s k t.

Lemma spline_gives w s k pts : gives (spline_value fill use w s k pts) (Ok (map (s k) pts)).
Proof.
  unfold spline_value. eapply gives_eq; [apply (gives_mapM _ (fun t => Ok (s k t)))|].
  - intros t _ m. cbn [alone put m_buf fst]. rewrite place_refl. now rewrite FU.
  - apply mapM_map. auto.
Qed.
Lemma find_gives w t c0 (B1 : prog T (rows (T := T))) B2 : gives B1 B2 -> forall l i,
  Forall (fun f => forall w pts cols, gives (evalp fill use dbg f w pts cols) (eval dbg f pts cols)) l ->
  gives ((fix find (i : nat) (l : list (fn T)) : prog T (rows (T := T)) :=
    match l with [] => B1 | g :: l' => if is_point_in_domain g t then evalp fill use dbg g (child w i) [t] c0 else find (S i) l' end) i l)
    ((fix find (l : list (fn T)) : outcome (rows (T := T)) :=
    match l with [] => B2 | g :: l' => if is_point_in_domain g t then eval dbg g [t] c0 else find l' end) l).
Proof. intros G. induction l as [|g l IH]; intros i F; auto. inversion F; subst. destruct (is_point_in_domain g t); auto. Qed.
Lemma last_gives w x c0 : forall l i,
  Forall (fun f => forall w pts cols, gives (evalp fill use dbg f w pts cols) (eval dbg f pts cols)) l ->
  gives ((fix evlast (i : nat) (l : list (fn T)) : prog T (rows (T := T)) :=
    match l with [] => Ret UB | g :: l' => match l' with [] => evalp fill use dbg g (child w i) [x] c0 | _ => evlast (S i) l' end end) i l)
    ((fix evlast (l : list (fn T)) : outcome (rows (T := T)) :=
    match l with [] => UB | g :: l' => match l' with [] => eval dbg g [x] c0 | _ => evlast l' end end) l).
Proof. induction l as [|g l IH]; intros i F; [apply gives_ret|]. inversion F; subst. destruct l as [|g' l]; [auto|]. apply (IH (S i)); auto. Qed.
Lemma evalp_gives f : forall w pts cols, gives (evalp fill use dbg f w pts cols) (eval dbg f pts cols).
Proof.
  induction f as [d v|d a|d|d|d|d c|d f1 f2 IH1 IH2|d c s k|d c s k|ty d c args IH] using fn_ind'; intros w pts cols; cbn [evalp eval]; try apply gives_ret.
  - apply gives_bind; [apply IH1|]. intros r1 _. apply gives_bind; [apply IH2|]. intros r2 _. apply gives_ret.
  - destruct (Nat.eqb cols c); [apply spline_gives|apply gives_ret].
  - destruct ty.
    + destruct args as [|g0 rest]; [apply gives_ret|]. inversion IH as [|x y I0 I1]; subst. apply gives_bind; [apply I0|]. intros t _. destruct (Nat.eqb cols (fcod g0)); [|apply gives_ret].
      generalize (rows_add (rows_zero (length pts) cols) t) as acc. generalize 1%nat as i. revert I1. clear.
      induction rest as [|g l IHl]; intros IH i acc; [apply gives_ret|]. inversion IH; subst. apply gives_bind; [auto|]. intros t _. apply IHl; auto.
    + destruct args as [|g0 rest]; [apply gives_ret|]. inversion IH as [|x y I0 I1]; subst. apply gives_bind; [apply I0|]. intros r0 _. generalize 1%nat at 2 as i. revert r0 I1. clear.
      induction rest as [|g l IHl]; intros acc IH i; [apply gives_ret|]. inversion IH; subst. apply gives_bind; [auto|]. intros t _. apply IHl; auto.
    + generalize 0%nat at 2 as i. revert pts IH. induction args as [|g l IHl]; intros pts IH i; [apply gives_ret|]. inversion IH; subst. destruct l as [|g' l]; [auto|].
      apply gives_bind; [auto|]. intros t _. apply IHl; auto.
    + destruct args as [|g0 rest]; [apply gives_ret|]. apply gives_mapM. intros t _. apply gives_bind; [|intros r _; apply gives_ret].
      set (gl := last (g0 :: rest) g0). apply (find_gives w t (fcod g0)) with (l := g0 :: rest) (i := 0%nat); [|exact IH].
      destruct (nleb t (fst (fdom g0))); [apply (Forall_inv IH)|]. destruct (nleb (snd (fdom gl)) t); [|apply gives_ret]. apply (last_gives w (snd (fdom gl)) (fcod g0) (g0 :: rest) 0 IH).
    + destruct args as [|g l]; [apply gives_ret|]. destruct (dbg && negb (Nat.eqb (length l) 0)); [apply gives_ret|]. apply (Forall_inv IH).
    + destruct args as [|g l]; [apply gives_ret|]. destruct (dbg && negb (Nat.eqb (length l) 0)); [apply gives_ret|]. apply gives_bind; [apply (Forall_inv IH)|]. intros r _. apply gives_ret.
Qed.
End Ev.

(** ** inside a set of locations *)
Fixpoint inside {A} (P : option place -> Prop) (p : prog T A) : Prop :=
  match p with
  | Ret _ => True
  | Put w _ k => P (Some w) /\ inside P k
  | Get w k => P (Some w) /\ forall v, inside P (k v)
  | Load k => P None /\ forall n, inside P (k n)
  | Store _ k => P None /\ inside P k
  end.
Lemma inside_bind {A B} P (p : prog T A) (f : A -> prog T B) : inside P p -> (forall a, inside P (f a)) -> inside P (pbind p f).
Proof. induction p as [[a|e|]|w v k IH|w k IH|k IH|n k IH]; cbn; intuition. Qed.
Lemma inside_mapM {A B} P (f : A -> prog T B) l : (forall a, inside P (f a)) -> inside P (pmapM f l).
Proof. intros G. induction l as [|a l IH]; cbn [pmapM]; [exact Logic.I|]. apply inside_bind; auto. intros b. apply inside_bind; auto. intros r. exact Logic.I. Qed.
Section Ins.
Variables (fill : (nat -> T -> list T) -> nat -> T -> list T) (use : (nat -> T -> list T) -> nat -> T -> list T -> list T) (dbg : bool) (P : option place -> Prop).
(** [K f w]: the object f is at w *)
Variable K : fn T -> place -> Prop.
Hypothesis Kext : forall d c s k w, K (FExt d c s k) w -> P (Some w).
Hypothesis Kdot : forall d f1 f2 w, K (FDot d f1 f2) w -> K f1 (child w 0) /\ K f2 (child w 1).
Hypothesis Kexpr : forall ty d c args w i g, K (FExpr ty d c args) w -> nth_error args i = Some g -> K g (child w i).
Let ok (f : fn T) := forall w pts cols, K f w -> inside P (evalp fill use dbg f w pts cols).
Let kids_at (w : place) (i : nat) (l : list (fn T)) := forall j g, nth_error l j = Some g -> K g (child w (i + j)).
Lemma kids_hd w i g l : kids_at w i (g :: l) -> K g (child w i).
Proof. intros X. specialize (X 0%nat g eq_refl). rewrite Nat.add_0_r in X. exact X. Qed.
Lemma kids_tl w i g l : kids_at w i (g :: l) -> kids_at w (S i) l.
Proof. intros X j h E. specialize (X (S j) h E). rewrite Nat.add_succ_r in X. exact X. Qed.
Lemma find_inside w t c0 (B1 : prog T (rows (T := T))) : inside P B1 -> forall l i, Forall ok l -> kids_at w i l ->
  inside P ((fix find (i : nat) (l : list (fn T)) : prog T (rows (T := T)) :=
    match l with [] => B1 | g :: l' => if is_point_in_domain g t then evalp fill use dbg g (child w i) [t] c0 else find (S i) l' end) i l).
Proof.
  intros G. induction l as [|g l IH]; intros i F E; auto. inversion F; subst. destruct (is_point_in_domain g t).
  - apply H2. apply (kids_hd _ _ _ _ E).
  - apply IH; auto. apply (kids_tl _ _ _ _ E).
Qed.
Lemma last_inside w x c0 : forall l i, Forall ok l -> kids_at w i l ->
  inside P ((fix evlast (i : nat) (l : list (fn T)) : prog T (rows (T := T)) :=
    match l with [] => Ret UB | g :: l' => match l' with [] => evalp fill use dbg g (child w i) [x] c0 | _ => evlast (S i) l' end end) i l).
Proof.
  induction l as [|g l IH]; intros i F E; [exact Logic.I|]. inversion F; subst. destruct l as [|g' l].
  - apply H2. apply (kids_hd _ _ _ _ E).
  - apply (IH (S i)); auto. apply (kids_tl _ _ _ _ E).
Qed.
Lemma evalp_inside f : ok f.
Proof.
  induction f as [d v|d a|d|d|d|d c|d f1 f2 IH1 IH2|d c s k|d c s k|ty d c args IH] using fn_ind'; intros w pts cols E; cbn [evalp]; try exact Logic.I.
  - destruct (Kdot _ _ _ _ E) as (E1 & E2). apply inside_bind; [apply IH1; exact E1|]. intros r1. apply inside_bind; [apply IH2; exact E2|]. intros r2. exact Logic.I.
  - destruct (Nat.eqb cols c); [|exact Logic.I]. apply inside_mapM. intros t. cbn. apply Kext in E. auto.
  - assert (KA : kids_at w 0 args) by (intros j g X; exact (Kexpr _ _ _ _ _ _ _ E X)). destruct ty.
    + destruct args as [|g0 rest]; [exact Logic.I|]. inversion IH as [|x y I0 I1]; subst. apply inside_bind; [apply I0; apply (kids_hd _ _ _ _ KA)|]. intros t. destruct (Nat.eqb cols (fcod g0)); [|exact Logic.I].
      generalize (rows_add (rows_zero (length pts) cols) t) as acc. apply kids_tl in KA. clear E IH. revert I1 KA. generalize 1%nat as i.
      induction rest as [|g l IHl]; intros i I1 KA acc; [exact Logic.I|]. inversion I1; subst. apply inside_bind; [apply H2; apply (kids_hd _ _ _ _ KA)|]. intros t'. apply IHl; auto. apply (kids_tl _ _ _ _ KA).
    + destruct args as [|g0 rest]; [exact Logic.I|]. inversion IH as [|x y I0 I1]; subst. apply inside_bind; [apply I0; apply (kids_hd _ _ _ _ KA)|]. intros r0.
      apply kids_tl in KA. clear E IH. revert r0 I1 KA. generalize 1%nat at 1 3 as i.
      induction rest as [|g l IHl]; intros i acc I1 KA; [exact Logic.I|]. inversion I1; subst. apply inside_bind; [apply H2; apply (kids_hd _ _ _ _ KA)|]. intros t'. apply IHl; auto. apply (kids_tl _ _ _ _ KA).
    + clear E. revert pts IH KA. generalize 0%nat at 1 3 as i. induction args as [|g l IHl]; intros i pts IH KA; [exact Logic.I|]. inversion IH; subst. destruct l as [|g' l]; [apply H2; apply (kids_hd _ _ _ _ KA)|].
      apply inside_bind; [apply H2; apply (kids_hd _ _ _ _ KA)|]. intros t. apply IHl; auto. apply (kids_tl _ _ _ _ KA).
    + destruct args as [|g0 rest]; [exact Logic.I|]. apply inside_mapM. intros t. apply inside_bind; [|intros r; exact Logic.I].
      set (gl := last (g0 :: rest) g0). apply (find_inside w t (fcod g0)) with (l := g0 :: rest) (i := 0%nat); [|exact IH|exact KA].
      destruct (nleb t (fst (fdom g0))); [apply (Forall_inv IH); apply (kids_hd _ _ _ _ KA)|].
      destruct (nleb (snd (fdom gl)) t); [|exact Logic.I]. apply (last_inside w (snd (fdom gl)) (fcod g0) (g0 :: rest) 0 IH KA).
    + destruct args as [|g l]; [exact Logic.I|]. destruct (dbg && negb (Nat.eqb (length l) 0)); [exact Logic.I|]. apply (Forall_inv IH). apply (kids_hd _ _ _ _ KA).
    + destruct args as [|g l]; [exact Logic.I|]. destruct (dbg && negb (Nat.eqb (length l) 0)); [exact Logic.I|]. apply inside_bind; [apply (Forall_inv IH); apply (kids_hd _ _ _ _ KA)|]. intros r. exact Logic.I.
Qed.
End Ins.

Definition agree (P : option place -> Prop) (m m' : mem T) : Prop := (forall w, P (Some w) -> m_buf m w = m_buf m' w) /\ (P None -> m_cnt m = m_cnt m').
Lemma alone_local {A} P (p : prog T A) : inside P p -> forall m m', agree P m m' -> fst (alone p m) = fst (alone p m').
Proof.
  induction p as [r|w v k IH|w k IH|k IH|n k IH]; cbn [inside alone]; intros I0 m m' (A1 & A2); auto.
  - destruct I0 as (Pw & I1). apply IH; auto. split; cbn [put m_buf m_cnt]; auto. intros a Pa. destruct (place_eqb a w); auto.
  - destruct I0 as (Pw & I1). rewrite (A1 _ Pw). apply IH; auto. split; auto.
  - destruct I0 as (Pw & I1). rewrite (A2 Pw). apply IH; auto. split; auto.
  - destruct I0 as (Pw & I1). apply IH; auto. split; cbn [m_buf m_cnt]; auto.
Qed.

(** ** interleavings *)
Lemma act_inside {A} P (p p' : prog T A) m m' : inside P p -> act p m = Some (p', m') ->
  inside P p' /\ fst (alone p' m') = fst (alone p m) /\ (forall Q : option place -> Prop, (forall l, P l -> Q l -> False) -> agree Q m m').
Proof.
  destruct p as [r|w v k|w k|k|n k]; cbn [act inside]; intros I0 E; try discriminate; injection E as <- <-; destruct I0 as (Pw & I1).
  - split; auto. split; [reflexivity|]. intros Q D. split; cbn [put m_buf m_cnt]; auto. intros a Qa. destruct (place_eqb a w) eqn:X; auto. apply place_eqb_spec in X. subst a. destruct (D _ Pw Qa).
  - split; auto. split; [reflexivity|]. intros Q D. split; auto.
  - split; auto. split; [reflexivity|]. intros Q D. split; auto.
  - split; auto. split; [reflexivity|]. intros Q D. split; cbn [m_buf m_cnt]; auto. intros X. destruct (D _ Pw X).
Qed.
Section Inter.
Context {A : Type}.
Variables (own : nat -> option place -> Prop) (want : nat -> outcome A).
Hypothesis disjoint : forall i j l, i <> j -> own i l -> own j l -> False.
Definition inv (c : list (prog T A) * mem T) : Prop :=
  forall i p, nth_error (fst c) i = Some p -> inside (own i) p /\ fst (alone p (snd c)) = want i.
Lemma inv_step c c' : inv c -> step c c' -> inv c'.
Proof.
  intros I0 St. destruct St as [i ps m p p' m' Ep Ea]. intros j q Ej. cbn [fst snd] in *. destruct (I0 i p Ep) as (Ip & Wp). cbn [snd] in Wp. destruct (act_inside _ _ _ _ _ Ip Ea) as (Ip' & Wp' & Ag).
  destruct (Nat.eq_dec i j) as [<-|N].
  - rewrite set_nth_same in Ej by (apply nth_error_Some; congruence). injection Ej as <-. split; auto. congruence.
  - rewrite set_nth_other in Ej by auto. destruct (I0 j q Ej) as (Iq & Wq). split; auto. cbn [snd] in Wq. rewrite <- Wq. symmetry. apply (alone_local (own j)); auto. apply Ag. intros l. apply disjoint; auto.
Qed.
Lemma inv_steps c c' : inv c -> steps c c' -> inv c'.
Proof. intros I0 St. induction St; auto. apply IHSt. eapply inv_step; eauto. Qed.
Lemma next_own i p l b : inside (A := A) (own i) p -> next p = Some (l, b) -> own i l.
Proof. destruct p; cbn [inside next]; intros I0 E; try discriminate; injection E as <- <-; apply I0. Qed.
Lemma inv_no_race c : inv c -> ~ race c.
Proof.
  intros I0 (i & j & p & q & l & a & b & N & Ep & Eq & Np & Nq & _). destruct (I0 i p Ep) as (Ip & _). destruct (I0 j q Eq) as (Iq & _).
  apply (disjoint i j l N); eapply next_own; eauto.
Qed.
Lemma inv_result c i r : inv c -> nth_error (fst c) i = Some (Ret r) -> r = want i.
Proof. intros I0 E. destruct (I0 i _ E) as (_ & W). exact W. Qed.
End Inter.

(** ** every schedule ends *)
Inductive sub {A} : prog T A -> prog T A -> Prop :=
| sub_put w v k : sub k (Put w v k)
| sub_get w k v : sub (k v) (Get w k)
| sub_load k n : sub (k n) (Load k)
| sub_store n k : sub k (Store n k).
Lemma sub_acc {A} (p : prog T A) : Acc sub p.
Proof. induction p as [r|w v k IH|w k IH|k IH|n k IH]; constructor; intros q S0; inversion S0; subst; auto. Qed.
Definition one_sub {A} (l' l : list (prog T A)) : Prop := exists i p p', nth_error l i = Some p /\ sub p' p /\ l' = set_nth l i p'.
Lemma one_sub_acc {A} (l : list (prog T A)) : Acc one_sub l.
Proof.
  induction l as [|p l IH].
  - constructor. intros l' ([|i] & p & p' & E & _); discriminate.
  - revert l IH. induction (sub_acc p) as [p _ IHp]. intros l Al. induction Al as [l Hl IHl].
    constructor. intros l' ([|i] & q & q' & E & S0 & ->); cbn [nth_error set_nth] in *.
    + injection E as <-. apply IHp; [auto|]. constructor. exact Hl.
    + apply IHl. exists i, q, q'. auto.
Qed.
Lemma step_sub {A} (c c' : list (prog T A) * mem T) : step c c' -> one_sub (fst c') (fst c).
Proof.
  intros St. destruct St as [i ps m p p' m' Ep Ea]. exists i, p, p'. split; auto. split; auto.
  destruct p; cbn [act] in Ea; try discriminate; injection Ea as <- <-; constructor.
Qed.
Lemma step_acc {A} (ps : list (prog T A)) : forall m, Acc (fun c' c => step c c') (ps, m).
Proof.
  induction (one_sub_acc ps) as [ps _ IH]. intros m. constructor. intros [ps' m'] St. apply IH. exact (step_sub _ _ St).
Qed.
End P.
