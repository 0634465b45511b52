(** Derivatives of order 0: the expressions they build have the values, sizes, slopes and roundings of the original. *)
From Coquelicot Require Import Coquelicot.
From Coq Require Import List Arith Lia Bool ZArith Reals Lra.
From Verif Require Import Num Outcome FunModel FunSpec FunProofs IEEEModel IEEESpec IEEEProofs IEEEHorner IEEEFunSpec IEEEFunProofs IEEEFunProofs2 IEEEFunProofs3 Expr64Spec Expr64Proofs Expr64Proofs2.
Import ListNotations.
Local Open Scope R_scope.

Definition same (f g : fn b64) : Prop := fcod g = fcod f /\ (forall n, ops g n = ops f n) /\ (forall a, sizes g a = sizes f a) /\ (forall a, rates g a = rates f a) /\ (forall a, fits f a -> fits g a) /\
  (forall dbg pts, eval dbg (exact_fn g) pts (fcod f) = eval dbg (exact_fn f) pts (fcod f)).
Lemma same_refl f : same f f.
Proof. repeat split; auto. Qed.
Lemma same_trans f g h : same f g -> same g h -> same f h.
Proof.
  intros (A1 & A2 & A3 & A4 & A5 & A6) (B1 & B2 & B3 & B4 & B5 & B6). split; [congruence|]. split; [intros; rewrite B2; auto|]. split; [intros; rewrite B3; auto|]. split; [intros; rewrite B4; auto|]. split; [auto|].
  intros dbg pts. rewrite <- A6. rewrite <- A1. apply B6.
Qed.
Lemma unique_eval dbg (d : dom R) c (f : fn R) pts k : eval dbg (FExpr UNIQUE d c [f]) pts k = eval dbg f pts k.
Proof. cbn [eval length Nat.eqb negb]. rewrite andb_false_r. reflexivity. Qed.
Lemma exact_unique d c f : exact_fn (FExpr UNIQUE d c [f]) = FExpr UNIQUE (val (fst d), val (snd d)) c [exact_fn f].
Proof. reflexivity. Qed.
Lemma same_wrap d f : same f (FExpr UNIQUE d (fcod f) [f]).
Proof. split; [reflexivity|]. split; [reflexivity|]. split; [reflexivity|]. split; [reflexivity|]. split; [intros a F; split; auto|]. intros dbg pts. rewrite exact_unique. apply unique_eval. Qed.
Lemma same_unique d d' f g : same f g -> same (FExpr UNIQUE d (fcod f) [f]) (FExpr UNIQUE d' (fcod f) [g]).
Proof.
  intros (A1 & A2 & A3 & A4 & A5 & A6). split; [reflexivity|]. split; [exact A2|]. split; [exact A3|]. split; [exact A4|]. split; [intros a (_ & F); split; auto|]. intros dbg pts. rewrite !exact_unique, !unique_eval. apply A6.
Qed.
Lemma same_neg d d' f g : same f g -> same (FExpr NEGATIVE d (fcod f) [f]) (FExpr NEGATIVE d' (fcod f) [g]).
Proof.
  intros (A1 & A2 & A3 & A4 & A5 & A6). split; [reflexivity|]. split; [exact A2|]. split; [exact A3|]. split; [exact A4|]. split; [intros a (_ & F); split; auto|]. intros dbg pts.
  change (exact_fn (FExpr NEGATIVE d (fcod f) [f])) with (FExpr NEGATIVE (val (fst d), val (snd d)) (fcod f) [exact_fn f]). change (exact_fn (FExpr NEGATIVE d' (fcod f) [g])) with (FExpr NEGATIVE (val (fst d'), val (snd d')) (fcod f) [exact_fn g]).
  cbn [eval length Nat.eqb negb fcod]. rewrite andb_false_r. rewrite A6. reflexivity.
Qed.
Lemma same_sum d d' c args ds : Forall2 same args ds -> Forall (fun g => fcod g = c) args -> same (FExpr SUM d c args) (FExpr SUM d' c ds).
Proof.
  intros F C. split; [reflexivity|]. split.
  { intros n. cbn [ops]. generalize n at 2 4. clear C. induction F as [|f g args ds (_ & A2 & _) F IH]; intros k; cbn [fold_left]; [reflexivity|]. rewrite A2. apply IH. }
  assert (SZ : forall a, sizes (FExpr SUM d' c ds) a = sizes (FExpr SUM d c args) a). { intros a. cbn [sizes]. generalize (repeat 0 c). clear C. induction F as [|f g args ds (_ & _ & A3 & _) F IH]; intros k; cbn [fold_left]; [reflexivity|]. rewrite A3. apply IH. }
  split; [exact SZ|]. split.
  { intros a. cbn [rates]. generalize (repeat 0 c). clear C SZ. induction F as [|f g args ds (_ & _ & _ & A4 & _) F IH]; intros k; cbn [fold_left]; [reflexivity|]. rewrite A4. apply IH. }
  split.
  { intros a (N & G & T). split; [intros ->; inversion F; subst; contradiction|]. split; [|rewrite SZ; exact T]. clear C SZ N T. induction F as [|f g args ds (A1 & _ & _ & _ & A5 & _) F IH]; cbn [fold_right] in *; [exact Logic.I|]. destruct G as (G1 & G2 & G). split; [congruence|]. auto. }
  intros dbg pts. destruct F as [|f g args ds Sm F]; [reflexivity|]. change (exact_fn (FExpr SUM d c (f :: args))) with (FExpr SUM (val (fst d), val (snd d)) c (exact_fn f :: map exact_fn args)). change (exact_fn (FExpr SUM d' c (g :: ds))) with (FExpr SUM (val (fst d'), val (snd d')) c (exact_fn g :: map exact_fn ds)). cbn [fcod]. rewrite !eval_sum_loop.
  rewrite !fcod_exact. replace (fcod g) with (fcod f) by (symmetry; apply Sm). apply Forall_cons_iff in C as C'. destruct C' as (Cf & _). rewrite Cf. clear SZ.
  change (exact_fn f :: map exact_fn args) with (map exact_fn (f :: args)). change (exact_fn g :: map exact_fn ds) with (map exact_fn (g :: ds)). generalize (rows_zero (T := R) (length pts) c). assert (F' : Forall2 same (f :: args) (g :: ds)) by (constructor; auto). revert F' C. generalize (f :: args), (g :: ds). clear. intros l k F. induction F as [|f g l k (A1 & _ & _ & _ & _ & A6) F IH]; intros C acc; [reflexivity|]. apply Forall_cons_iff in C as (Cf & C). cbn [map esum].
  rewrite Cf in A6. rewrite A6. destruct (eval dbg (exact_fn f) pts c); cbn [bind]; try reflexivity. destruct (c =? c)%nat; [|reflexivity]. apply IH. exact C.
Qed.
Lemma same_dom ty d d' c args : same (FExpr ty d c args) (FExpr ty d' c args).
Proof. destruct ty; (split; [reflexivity|]; split; [reflexivity|]; split; [reflexivity|]; split; [reflexivity|]; split; [intros a F; exact F|]; intros dbg pts; reflexivity). Qed.
Lemma same_dot d d' f1 f2 g1 g2 : same f1 g1 -> same f2 g2 -> same (FDot d f1 f2) (FDot d' g1 g2).
Proof.
  intros (A1 & A2 & A3 & A4 & A5 & A6) (B1 & B2 & B3 & B4 & B5 & B6). split; [reflexivity|]. split; [intros n; cbn [ops]; rewrite A2, B2, A1; reflexivity|]. split; [intros a; cbn [sizes]; rewrite A3, B3; reflexivity|]. split; [intros a; cbn [rates]; rewrite A3, B3, A4, B4; reflexivity|].
  split; [intros a; cbn [fits sizes]; rewrite A3, B3, A1, B1; intuition|]. intros dbg pts. unfold exact_fn. cbn [fn_map eval fcod]. fold exact_fn. change (fn_map val (fun _ _ _ => [])) with exact_fn. rewrite !fcod_exact, A1, B1, A6, B6. reflexivity.
Qed.

Lemma cshape_of {T} c (l : list (fn T)) : (fix go (l : list (fn T)) : Prop :=
         match l with
         | [] => True
         | g :: l' => shaped g /\ fcod g = match l' with [] => c | _ => 1%nat end /\ go l'
         end) l -> cshape c l.
Proof. induction l as [|g l IH]; intros F; [exact Logic.I|]. destruct F as (A & B & C). cbn [cshape]. auto. Qed.

(** with any arithmetic of binary64 *)
Section Zero.
Variable m : libm.
Local Instance BN : Num b64 := B64num m.
Variable dbg : bool.
Theorem deriv_zero f : shaped f -> exists g, deriv dbg f 0 = Ok g /\ same f g /\ fcod g = fcod f.
Proof.
  assert (K : shaped f -> exists g, deriv dbg f 0 = Ok g /\ same f g); [|intros S0; destruct (K S0) as (g & E & Sm); exists g; split; [exact E|split; [exact Sm|apply Sm]]].
  induction f as [d v|d c|d|d|d|d c|d f1 f2 IH1 IH2|d c s k|d c s k|ty d c args IH] using fn_ind'; intros S0.
  - exists (FConst d v). split; [reflexivity|]. apply same_refl.
  - eexists. split; [reflexivity|]. apply (same_wrap d (FDil d c)).
  - eexists. split; [reflexivity|]. apply same_refl.
  - eexists. split; [reflexivity|]. apply (same_wrap d (FCos d)).
  - eexists. split; [reflexivity|]. apply (same_wrap d (FSin d)).
  - eexists. split; [reflexivity|]. apply same_refl.
  - eexists. split; [reflexivity|]. apply (same_wrap d (FDot d f1 f2)).
  - destruct S0.
  - destruct S0.
  - destruct ty; cbn [shaped] in S0.
    + destruct S0 as (N & S0). destruct args as [|g0 rest]; [contradiction|]. destruct (fold_parts c _ S0) as (C & Sh). assert (E : exists ds, mapM (fun g => deriv dbg g 0) (g0 :: rest) = Ok ds /\ Forall2 same (g0 :: rest) ds).
      { clear - IH Sh. revert IH Sh. generalize (g0 :: rest). intros l IH Sh. induction l as [|g l IHl]; [exists []; split; [reflexivity|constructor]|]. apply Forall_cons_iff in IH as (I0 & IH). apply Forall_cons_iff in Sh as (S0 & Sh). destruct (I0 S0) as (g' & E & Sm). destruct (IHl IH Sh) as (ds & E' & F).
        exists (g' :: ds). cbn [mapM]. rewrite E. cbn [bind]. rewrite E'. cbn [bind]. split; [reflexivity|]. constructor; auto. }
      destruct E as (ds & E & F). exists (FExpr SUM (fdom g0) (fcod g0) ds). split; [cbn [deriv]; change (mapM (fun g => deriv dbg g 0) (g0 :: rest)) with (mapM (fun g => deriv dbg g 0) (g0 :: rest)) in E; rewrite E; reflexivity|]. apply Forall_cons_iff in C as C'. destruct C' as (C0 & _). rewrite C0. apply same_sum; auto.
    + destruct args as [|g0 rest]; [tauto|]. destruct S0 as (C0 & _). eexists. split; [reflexivity|]. rewrite C0. apply same_dom.
    + destruct S0 as (N & S0). destruct args as [|g0 rest]; [contradiction|]. eexists. split; [reflexivity|]. replace (fcod (last (g0 :: rest) g0)) with c; [apply same_dom|].
      assert (Q : cshape c (g0 :: rest)) by (apply cshape_of; exact S0). clear - Q. revert Q. generalize g0 at 3. revert g0. induction rest as [|g1 rest IH]; intros g0 x (Sg & Cg & Q); [exact (eq_sym Cg)|]. change (last (g0 :: g1 :: rest) x) with (last (g1 :: rest) x). apply (IH g1 x). exact Q.
    + destruct S0.
    + destruct args as [|g [|]]; try tauto. destruct S0 as (C & S0). apply Forall_cons_iff in IH as (I0 & _). destruct (I0 S0) as (g' & E & Sm). eexists. split; [cbn [deriv length Nat.eqb negb]; rewrite andb_false_r, E; reflexivity|]. rewrite <- C. apply same_unique. exact Sm.
    + destruct args as [|g [|]]; try tauto. destruct S0 as (C & S0). apply Forall_cons_iff in IH as (I0 & _). destruct (I0 S0) as (g' & E & Sm). eexists. split; [cbn [deriv length Nat.eqb negb]; rewrite andb_false_r, E; reflexivity|]. rewrite <- C. apply same_neg. exact Sm.
Qed.
End Zero.
