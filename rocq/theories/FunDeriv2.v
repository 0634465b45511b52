(** The derivate method: it succeeds and returns the derivative. *)
From Coquelicot Require Import Coquelicot.
From Coq Require Import List Reals Lra Lia Bool Arith.
From Verif Require Import Num Outcome FunModel FunSpec FunProofs FunProofs2 FunDeriv.
Import ListNotations.
Local Open Scope R_scope.

Lemma same_domain_close d1 d2 : same_domain d1 d2 = true <-> close d1 d2.
Proof.
  unfold same_domain, close, dom_tol. simpl. rewrite andb_true_iff, !Rltb_true. tauto.
Qed.
Lemma same_domain_sym d1 d2 : same_domain d1 d2 = same_domain d2 d1.
Proof.
  unfold same_domain. simpl. rewrite (Rabs_minus_sym (fst d1)), (Rabs_minus_sym (snd d1)). reflexivity.
Qed.

Lemma inner_nth a : forall b n, length a = n -> length b = n ->
  inner a b = rsum (map (fun j => nth j a 0 * nth j b 0) (seq 0 n)).
Proof.
  induction a as [|x a IH]; intros [|y b] n Ha Hb; simpl in *; subst n; try discriminate; auto.
  unfold inner in *. simpl. rewrite (IH b (length a)) by lia.
  rewrite <- seq_shift, map_map. reflexivity.
Qed.

Section Py.
Variable py : Prop.
Notation sm := (smp py).
Notation derived := (derivedp py).

Lemma dot_derive f1 f2 d1 d2 : wf f1 -> wf f2 -> fcod f1 = fcod f2 ->
  derived f1 d1 -> derived f2 d2 -> forall t,
  is_derive (fun u => row_dot (den f1 u) (den f2 u)) t
    (row_dot (den f2 t) (den d1 t) + row_dot (den f1 t) (den d2 t)).
Proof.
  intros W1 W2 C (Wd1 & _ & C1 & _ & D1) (Wd2 & _ & C2 & _ & D2) t.
  set (n := fcod f1).
  pose proof (fun u => den_length f1 W1 u) as L1.
  pose proof (fun u => den_length f2 W2 u) as L2.
  pose proof (fun u => den_length d1 Wd1 u) as L3.
  pose proof (fun u => den_length d2 Wd2 u) as L4.
  assert (K : is_derive (fun u => rsum (map (fun j => nth j (den f1 u) 0 * nth j (den f2 u) 0) (seq 0 n))) t
    (rsum (map (fun j => nth j (den d1 t) 0 * nth j (den f2 t) 0 + nth j (den f1 t) 0 * nth j (den d2 t) 0) (seq 0 n)))).
  { generalize (seq 0 n). induction l as [|j l IH]; simpl.
    - apply is_derive_zero.
    - apply is_derive_add; auto.
      apply (is_derive_mul (fun u => nth j (den f1 u) 0) (fun u => nth j (den f2 u) 0)); auto. }
  eapply is_derive_ext_eq; [| |exact K].
  - intros u. simpl. rewrite row_dot_inner, (inner_nth _ _ n); auto. rewrite L2; auto.
  - rewrite !row_dot_inner.
    rewrite (inner_nth (den f2 t) _ n), (inner_nth (den f1 t) _ n); try congruence.
    generalize (seq 0 n). induction l as [|j l IH]; simpl; [ring|]. rewrite IH. ring.
    all: unfold n; rewrite ?L1, ?L2, ?L3, ?L4; congruence.
Qed.

Lemma wf_to_expr f : wf f -> wf (fe (to_expression f)).
Proof. intros. simpl. intuition eauto. Qed.

Theorem deriv1_ok dbg f : wf f -> sm f -> exists f', deriv1 dbg f = Ok f' /\ derived f f'.
Proof.
  induction f using fn_ind'; intros W S.
  - (* const *) exists (deriv_const d v 1). split; [reflexivity|].
    split; [exact I|]. split; [exact I|]. split; [simpl; apply repeat_length|].
    split; [simpl; tauto|]. intros j t. simpl. rewrite Rmult_0_r, nth_repeat.
    apply @is_derive_const.
  - (* dilation *) eexists. split; [reflexivity|].
    split; [simpl; intuition eauto|]. split; [simpl; auto|]. split; [reflexivity|].
    split; [simpl; tauto|].
    apply (Dj_scalar _ _ (fun t => a * t) (fun _ => a)); intros; simpl; auto.
    + f_equal. ring.
    + auto_derive; auto. ring.
  - eexists. split; [reflexivity|].
    split; [simpl; auto|]. split; [simpl; auto|]. split; [reflexivity|]. split; [simpl; tauto|].
    apply (Dj_scalar _ _ exp exp); intros; simpl; auto. apply is_derive_exp.
  - eexists. split; [reflexivity|].
    split; [simpl; intuition eauto|]. split; [simpl; auto|]. split; [reflexivity|].
    split; [simpl; tauto|].
    apply (Dj_scalar _ _ cos (fun t => sin t * -1)); intros; simpl; auto.
    auto_derive; auto. ring.
  - eexists. split; [reflexivity|].
    split; [simpl; intuition eauto|]. split; [simpl; auto|]. split; [reflexivity|].
    split; [simpl; tauto|].
    apply (Dj_scalar _ _ sin cos); intros; simpl; auto.
    auto_derive; auto. ring.
  - destruct (deriv_poly1 d c W) as (c' & E & Hc' & HD). exists (FPoly d c').
    split; [exact E|]. split; [exact Hc'|]. split; [exact I|]. split; [reflexivity|]. split; [simpl; tauto|].
    apply (Dj_scalar _ _ (power_sum c) (power_sum c')); auto.
  - destruct W as (W1 & W2 & C). destruct S as (S1 & S2 & U1 & U2 & SD).
    destruct (IHf1 W1 S1) as (d1 & E1 & D1). destruct (IHf2 W2 S2) as (d2 & E2 & D2).
    simpl deriv1. rewrite E1, E2. simpl bind. unfold dot_first_deriv, add, sum_throw.
    cbn [edom ecod to_expression dot fdom fcod].
    rewrite same_domain_sym, SD. cbn [negb Nat.eqb bind].
    eexists. split; [reflexivity|].
    pose proof D1 as (Wd1 & Sd1 & C1 & Ud1 & _). pose proof D2 as (Wd2 & Sd2 & C2 & Ud2 & _).
    assert (WT : wf (FExpr SUM (fdom f2) 1
      [FDot (fdom f2) (fe (to_expression f2)) (fe (to_expression d1));
       FDot (fdom f1) (fe (to_expression f1)) (fe (to_expression d2))])).
    { split.
      - apply wf_args. repeat constructor; try (apply wf_to_expr; auto).
        all: cbn; auto; try congruence. all: eauto.
      - split; [discriminate|]. repeat constructor. }
    match type of WT with wf ?T => change (derived (FDot d f1 f2) T) end.
    split; [exact WT|]. split; [|split; [reflexivity|split; [simpl; tauto|]]].
    + assert (Sd : fdom d1 = fdom f1) by auto. assert (Sd' : fdom d2 = fdom f2) by auto.
      simpl. rewrite Sd, Sd', SD. rewrite same_domain_sym, SD. intuition.
    + intros j t. rewrite nth_den_sum by exact WT.
      destruct j as [|j].
      * eapply is_derive_ext_eq; [| |apply (dot_derive f1 f2 d1 d2 W1 W2 C D1 D2 t)].
        -- reflexivity.
        -- unfold rsum; simpl. ring.
      * eapply is_derive_ext_eq; [| |apply (is_derive_zero t)].
        -- intros; simpl. destruct j; reflexivity.
        -- unfold rsum; simpl. destruct j; ring.
  - exists (FExt d c s (k + 1)). split; [reflexivity|].
    split; [exact W|]. split; [exact S|]. split; [reflexivity|]. split; [simpl; tauto|].
    intros j t. simpl. rewrite Nat.add_1_r. apply S.
  - exists (FPy d c s (k + 1)). split; [reflexivity|].
    split; [exact W|]. split; [exact S|]. split; [reflexivity|]. split; [simpl; tauto|].
    intros j t. simpl. rewrite Nat.add_1_r. apply S.
  - assert (Hty : ty <> CONCATENATION) by (intros ->; exact S).
    assert (SA : Forall sm args). { apply sm_args. destruct ty; auto; congruence. }
    pose proof W as [Wa Wt]. apply wf_args in Wa.
    assert (HA : Forall (fun g => exists g', deriv1 dbg g = Ok g' /\ derived g g') args).
    { rewrite Forall_forall in *. intros g Hg. apply H; auto. }
    destruct (mapM_derived _ _ _ HA) as (ds & Eds & F).
    assert (Hne : args <> []).
    { destruct ty; try (destruct Wt as (? & -> & ?); discriminate).
      - tauto.
      - destruct args; [contradiction|discriminate].
      - destruct Wt as (init & g & -> & _). destruct init; discriminate.
      - congruence. }
    destruct args as [|g0 rest]; [congruence|].
    cbn [deriv1]. destruct ty; try congruence.
    + rewrite Eds. cbn [bind]. eexists. split; [reflexivity|].
      assert (E : fcod g0 = c). { destruct Wt as [_ Wt]. apply Forall_cons_iff in Wt. tauto. }
      rewrite E. apply sum_derived; auto.
    + rewrite Eds. cbn [bind]. eexists. split; [reflexivity|].
      destruct Wt as [E _]. rewrite E. apply mul_derived; auto.
    + rewrite Eds. cbn [bind]. eexists. split; [reflexivity|].
      assert (E : fcod (last (g0 :: rest) g0) = c).
      { destruct Wt as (init & g & -> & E & _). now rewrite last_last. }
      rewrite E. apply comp_derived; auto.
    + destruct Wt as (g & Eg & C). inversion Eg; subst. cbn [length Nat.eqb negb].
      rewrite andb_false_r. apply Forall_cons_iff in HA as [(g' & E & D) _]. rewrite E. cbn [bind].
      eexists. split; [reflexivity|]. destruct D as (W' & S' & C' & _ & D').
      split; [simpl; intuition eauto|]. split; [simpl; auto|]. split; [reflexivity|].
      split; [simpl; auto|]. exact D'.
    + destruct Wt as (g & Eg & C). inversion Eg; subst. cbn [length Nat.eqb negb].
      rewrite andb_false_r. apply Forall_cons_iff in HA as [(g' & E & D) _]. rewrite E. cbn [bind].
      eexists. split; [reflexivity|]. destruct D as (W' & S' & C' & _ & D').
      split; [simpl; intuition eauto|]. split; [simpl; auto|]. split; [reflexivity|].
      split; [simpl; tauto|].
      intros j t.
      eapply is_derive_ext_eq; [| |apply (is_derive_mul (fun u => nth j (den g u) 0) (fun _ => -1) t _ 0 (D' j t))].
      * intros u. symmetry. apply (nth_scale (-1)).
      * symmetry. rewrite Rmult_0_r, Rplus_0_r. apply (nth_scale (-1)).
      * apply @is_derive_const.
Qed.

(** ** higher orders *)
Lemma nth_derivative_ext k : forall F F1 G G1, (forall t, F t = F1 t) -> (forall t, G t = G1 t) ->
  nth_derivative k F G -> nth_derivative k F1 G1.
Proof.
  induction k; simpl; intros F F1 G G1 HF HG H.
  - intros t. now rewrite <- HF, <- HG.
  - destruct H as (F' & H1 & H2). exists F'. split.
    + eapply IHk; [exact HF| |exact H1]. auto.
    + intros t. rewrite <- HG. auto.
Qed.
Lemma nth_derivative_left k : forall F F' G, (forall t, is_derive F t (F' t)) ->
  nth_derivative k F' G -> nth_derivative (S k) F G.
Proof.
  induction k; intros F F' G HD HN.
  - simpl in *. exists F. split; auto. intros t. rewrite <- HN. auto.
  - destruct HN as (H & H1 & H2). exists H. split; auto. eapply IHk; eauto.
Qed.
Lemma nth_derivative_add k : forall F G F' G', nth_derivative k F F' -> nth_derivative k G G' ->
  nth_derivative k (fun t => F t + G t) (fun t => F' t + G' t).
Proof.
  induction k; simpl; intros F G F' G' HF HG.
  - intros t. now rewrite HF, HG.
  - destruct HF as (F1 & HF1 & HF2). destruct HG as (G1 & HG1 & HG2).
    exists (fun t => F1 t + G1 t). split; auto. intros t. apply is_derive_add; auto.
Qed.
Lemma nth_derivative_scal k a : forall F F', nth_derivative k F F' ->
  nth_derivative k (fun t => F t * a) (fun t => F' t * a).
Proof.
  induction k; simpl; intros F F' HF.
  - intros t. now rewrite HF.
  - destruct HF as (F1 & HF1 & HF2). exists (fun t => F1 t * a). split; auto.
    intros t. eapply is_derive_ext_eq; [| |apply (is_derive_mul F1 (fun _ => a) t _ 0 (HF2 t))].
    + reflexivity.
    + cbn beta. rewrite Rmult_0_r, Rplus_0_r. reflexivity.
    + apply @is_derive_const.
Qed.
Lemma nth_derivative_zero k : nth_derivative k (fun _ => 0) (fun _ => 0).
Proof. induction k; simpl; auto. exists (fun _ => 0). split; auto. intros; apply is_derive_zero. Qed.
Lemma nth_derivative_const k c : (1 <= k)%nat -> nth_derivative k (fun _ => c) (fun _ => 0).
Proof.
  destruct k; [lia|]. intros _. apply (nth_derivative_left k _ (fun _ => 0)).
  - intros; apply @is_derive_const.
  - apply nth_derivative_zero.
Qed.
Lemma nth_derivative_is_derive_n k : forall F G, nth_derivative k F G ->
  forall t, is_derive_n F k t (G t).
Proof.
  induction k; simpl; intros F G H t; auto.
  destruct H as (F' & H1 & H2). eapply is_derive_ext; [|apply H2].
  intros u. symmetry. apply is_derive_n_unique. apply IHk. auto.
Qed.

Definition nderivedp (k : nat) (f f' : fn R) : Prop :=
  wf f' /\ sm f' /\ fcod f' = fcod f /\
  forall j, nth_derivative k (fun t => nth j (den f t) 0) (fun t => nth j (den f' t) 0).
Notation nderived := nderivedp.

Lemma nderived_scalar k f f' F F' : wf f' -> sm f' -> fcod f' = fcod f ->
  (forall t, den f t = [F t]) -> (forall t, den f' t = [F' t]) -> nth_derivative k F F' ->
  nderived k f f'.
Proof.
  intros W S C E E' H. split; auto. split; auto. split; auto. intros [|j].
  - eapply nth_derivative_ext; [| |exact H]; intros; simpl.
    + now rewrite E.
    + now rewrite E'.
  - eapply nth_derivative_ext; [| |apply (nth_derivative_zero k)]; intros; simpl.
    + rewrite E. destruct j; reflexivity.
    + rewrite E'. destruct j; reflexivity.
Qed.

Lemma iter_deriv1_ok dbg k f : wf f -> sm f ->
  exists f', iter_deriv1 dbg k f = Ok f' /\ nderived k f f'.
Proof.
  intros W S. induction k as [|k (g & E & Wg & Sg & Cg & Ng)]; simpl.
  - exists f. split; auto. split; auto. split; auto. split; auto. simpl; auto.
  - rewrite E. simpl. destruct (deriv1_ok dbg g Wg Sg) as (g' & E' & (W' & S' & C' & _ & D')).
    exists g'. split; auto. split; auto. split; auto. split; [congruence|].
    intros j. simpl. eexists. split; [apply Ng|]. intros t. apply D'.
Qed.
Lemma deriv1_iter_ok dbg k f : wf f -> sm f ->
  exists f', (g <- deriv1 dbg f ;; iter_deriv1 dbg k g) = Ok f' /\ nderived (S k) f f'.
Proof.
  intros W S. destruct (deriv1_ok dbg f W S) as (g & E & (Wg & Sg & Cg & _ & Dg)).
  rewrite E. simpl. destruct (iter_deriv1_ok dbg k g Wg Sg) as (g' & E' & (W' & S' & C' & N')).
  exists g'. split; auto. split; auto. split; auto. split; [congruence|].
  intros j. eapply nth_derivative_left; [|apply N']. intros t. apply Dg.
Qed.

(** powers of the derivative of sin / cos *)
Lemma nth_derivative_exp k : nth_derivative k exp exp.
Proof. induction k; simpl; auto. exists exp. split; auto. intros; apply is_derive_exp. Qed.

Definition sin_cycle (k : nat) (t : R) : R :=
  match Nat.modulo k 4 with
  | 0%nat => sin t | 1%nat => cos t | 2%nat => sin t * -1 | _ => cos t * -1 end.
Definition cos_cycle (k : nat) (t : R) : R :=
  match Nat.modulo k 4 with
  | 0%nat => cos t | 1%nat => sin t * -1 | 2%nat => cos t * -1 | _ => sin t end.
Lemma mod4_S k : Nat.modulo (S k) 4 =
  match Nat.modulo k 4 with 0%nat => 1%nat | 1%nat => 2%nat | 2%nat => 3%nat | _ => 0%nat end.
Proof.
  pose proof (Nat.mod_upper_bound k 4 ltac:(lia)) as B.
  pose proof (Nat.div_mod k 4 ltac:(lia)) as E.
  destruct (Nat.modulo k 4) as [|[|[|[|m]]]] eqn:M; try lia.
  - symmetry. apply (Nat.mod_unique _ _ (k / 4)); lia.
  - symmetry. apply (Nat.mod_unique _ _ (k / 4)); lia.
  - symmetry. apply (Nat.mod_unique _ _ (k / 4)); lia.
  - symmetry. apply (Nat.mod_unique _ _ (S (k / 4))); lia.
Qed.
Lemma nth_derivative_sin k : nth_derivative k sin (sin_cycle k).
Proof.
  induction k; simpl; auto. exists (sin_cycle k). split; auto. intros t.
  unfold sin_cycle. rewrite mod4_S.
  pose proof (Nat.mod_upper_bound k 4 ltac:(lia)) as B.
  destruct (Nat.modulo k 4) as [|[|[|[|m]]]]; try lia; auto_derive; auto; ring.
Qed.
Lemma nth_derivative_cos k : nth_derivative k cos (cos_cycle k).
Proof.
  induction k; simpl; auto. exists (cos_cycle k). split; auto. intros t.
  unfold cos_cycle. rewrite mod4_S.
  pose proof (Nat.mod_upper_bound k 4 ltac:(lia)) as B.
  destruct (Nat.modulo k 4) as [|[|[|[|m]]]]; try lia; auto_derive; auto; ring.
Qed.

Lemma poly_loop_ok k : forall c, c <> [] -> poly_deriv_loop k c <> [] /\
  nth_derivative k (power_sum c) (power_sum (poly_deriv_loop k c)).
Proof.
  induction k; intros c Hc.
  - simpl. auto.
  - cbn [poly_deriv_loop]. destruct (poly_shift c) as [|x c'] eqn:S.
    + split; [discriminate|].
      assert (L : length (poly_shift c) = 0%nat) by (rewrite S; reflexivity).
      rewrite poly_shift_length in L. destruct c as [|a [|b c]]; simpl in L; try lia; try congruence.
      eapply nth_derivative_ext; [| |apply (nth_derivative_const (Datatypes.S k) a)]; try lia;
        intros; simpl; ring.
    + assert (Hne : x :: c' <> []) by discriminate. destruct (IHk _ Hne) as [H1 H2].
      split; auto. eapply nth_derivative_left; [|apply H2]. intros t. rewrite <- S. apply poly_shift_derive.
Qed.
Lemma poly_loop_exhaust k : forall c, c <> [] -> (length c <= k)%nat -> poly_deriv_loop k c = [0].
Proof.
  induction k; intros c Hc HL.
  - destruct c; simpl in *; [congruence|lia].
  - cbn [poly_deriv_loop]. destruct (poly_shift c) as [|x c'] eqn:S; auto.
    apply IHk; [discriminate|]. rewrite <- S, poly_shift_length. lia.
Qed.

Lemma mapM_nderived k (df : fn R -> outcome (fn R)) args :
  Forall (fun g => exists g', df g = Ok g' /\ nderived k g g') args ->
  exists ds, mapM df args = Ok ds /\ Forall2 (nderived k) args ds.
Proof.
  induction 1 as [|g args (g' & E & Dg) _ (ds & Es & Hs)]; simpl.
  - exists []. auto.
  - exists (g' :: ds). rewrite E. simpl. rewrite Es. simpl. auto.
Qed.

(** every class written in Python is below a product, a composition or a dot
    product: those differentiate one order at a time *)
Fixpoint py_inner (f : fn R) : Prop :=
  match f with
  | FPy _ _ _ _ => False
  | FExpr (MULTIPLICATION | COMPOSITION) _ _ _ => True
  | FExpr _ _ _ args => fold_right (fun g P => py_inner g /\ P) True args
  | _ => True
  end.
Lemma py_inner_args (args : list (fn R)) :
  fold_right (fun g P => py_inner g /\ P) True args <-> Forall py_inner args.
Proof.
  induction args; simpl; split; intros; auto; try (inversion H; subst); intuition.
Qed.

Theorem deriv_ok dbg k f : wf f -> sm f -> (py -> k = 1%nat \/ py_inner f) -> exists f', deriv dbg f k = Ok f' /\ nderived k f f'.
Proof.
  induction f using fn_ind'; intros W S PY.
  - exists (deriv_const d v k). split; [reflexivity|]. destruct k as [|k]; simpl.
    + split; auto. split; auto. split; auto. simpl; auto.
    + split; [exact I|]. split; [exact I|]. split; [simpl; apply repeat_length|].
      intros j. apply nth_derivative_ext with (F := fun _ => nth j v 0) (G := fun _ => 0).
      * reflexivity.
      * intros. simpl. now rewrite Rmult_0_r, nth_repeat.
      * apply nth_derivative_const. lia.
  - exists (deriv_dil d a k). split; [reflexivity|].
    destruct k as [|[|k]]; simpl.
    + eapply nderived_scalar with (F := fun t => a * t) (F' := fun t => a * t); simpl; auto; intuition eauto.
    + eapply nderived_scalar with (F := fun t => a * t) (F' := fun t => 1 * a); simpl; auto; intuition eauto.
      exists (fun t => a * t). split; auto. intros; auto_derive; auto; ring.
    + eapply nderived_scalar with (F := fun t => a * t) (F' := fun t => 1 * 0); auto; try (simpl; intuition eauto; fail).
      apply (nth_derivative_left (Datatypes.S k) _ (fun _ => a)).
      * intros; auto_derive; auto; ring.
      * eapply nth_derivative_ext; [reflexivity| |apply (nth_derivative_const (Datatypes.S k) a); lia].
        intros; simpl; ring.
  - exists (FExp d). split; [reflexivity|].
    apply nderived_scalar with (F := exp) (F' := exp); simpl; auto. apply nth_derivative_exp.
  - exists (deriv_cos d k). split; [reflexivity|].
    pose proof (nth_derivative_cos k) as N.
    unfold deriv_cos, cos_cycle in *.
    destruct (Nat.modulo k 4) as [|[|[|m]]]; eapply nderived_scalar; try exact N; simpl; auto; intuition eauto.
  - exists (deriv_sin d k). split; [reflexivity|].
    pose proof (nth_derivative_sin k) as N.
    unfold deriv_sin, sin_cycle in *.
    destruct (Nat.modulo k 4) as [|[|[|m]]]; eapply nderived_scalar; try exact N; simpl; auto; intuition eauto.
  - simpl deriv. simpl in W. destruct (poly_loop_ok k c W) as [L1 L2].
    assert (K : deriv_poly d c k = Ok (FPoly d (poly_deriv_loop k c))).
    { unfold deriv_poly. destruct k as [|k]; [reflexivity|].
      destruct (Nat.eqb_spec (length c) (Datatypes.S k)) as [E|E].
      - rewrite poly_loop_exhaust; auto. lia.
      - destruct c; [congruence|reflexivity]. }
    rewrite K. eexists. split; [reflexivity|].
    eapply nderived_scalar; [exact L1|exact I|reflexivity| | |exact L2]; reflexivity.
  - destruct k as [|k].
    + eexists. split; [reflexivity|]. split; [apply wf_to_expr; auto|]. split; [simpl in *; auto|].
      split; [reflexivity|]. intros j t. reflexivity.
    + apply deriv1_iter_ok; auto.
  - exists (FExt d c s (k0 + k)). split; [reflexivity|].
    split; [exact W|]. split; [exact S|]. split; [reflexivity|].
    intros j. simpl. clear - S. induction k as [|k IH]; simpl.
    + intros t. now rewrite Nat.add_0_r.
    + eexists. split; [apply IH|]. intros t. rewrite Nat.add_succ_r. apply S.
  - destruct (PY (proj1 S)) as [->|[]]. exists (FPy d c s (k0 + 1)). split; [reflexivity|].
    split; [exact W|]. split; [exact S|]. split; [reflexivity|].
    intros j. simpl. eexists. split; [reflexivity|]. intros t. rewrite Nat.add_1_r. apply S.
  - assert (Hty : ty <> CONCATENATION) by (intros ->; exact S).
    assert (SA : Forall sm args). { apply sm_args. destruct ty; auto; congruence. }
    pose proof W as [Wa Wt]. apply wf_args in Wa.
    assert (HA : ty <> MULTIPLICATION -> ty <> COMPOSITION ->
      Forall (fun g => exists g', deriv dbg g k = Ok g' /\ nderived k g g') args).
    { intros T1 T2. rewrite Forall_forall in *. intros g Hg. apply H; auto.
      intros HP. destruct (PY HP) as [K|K]; auto. right.
      assert (KA : Forall py_inner args). { apply py_inner_args. destruct ty; auto; congruence. }
      rewrite Forall_forall in KA. auto. }
    assert (Hne : args <> []).
    { destruct ty; try (destruct Wt as (? & -> & ?); discriminate).
      - tauto.
      - destruct args; [contradiction|discriminate].
      - destruct Wt as (init & g & -> & _). destruct init; discriminate.
      - congruence. }
    destruct args as [|g0 rest]; [congruence|].
    destruct ty; try congruence.
    + destruct (mapM_nderived k _ _ (HA ltac:(discriminate) ltac:(discriminate))) as (ds & Eds & F).
      cbn [deriv]. rewrite Eds. cbn [bind]. eexists. split; [reflexivity|].
      assert (E : fcod g0 = c). { destruct Wt as [_ Wt]. apply Forall_cons_iff in Wt. tauto. }
      assert (W' : wf (FExpr SUM (fdom g0) (fcod g0) ds)).
      { split.
        - apply wf_args. clear - F. induction F; constructor; auto. apply H.
        - split; [intros ->; inversion F|].
          destruct Wt as [_ Wt]. rewrite E. clear - F Wt. induction F; constructor;
            apply Forall_cons_iff in Wt as [Wg Wt]; auto.
          destruct H as (_ & _ & C & _). congruence. }
      split; auto. split.
      { apply sm_expr; auto. clear - F. induction F; constructor; auto. apply H. }
      split; [simpl; auto|]. intros j.
      eapply nth_derivative_ext; [intros t; symmetry; apply nth_den_sum; exact W
                                 |intros t; symmetry; apply nth_den_sum; exact W'|].
      clear - F. induction F as [|g g' args ds D _ IH]; simpl.
      * apply nth_derivative_zero.
      * apply nth_derivative_add; auto. apply D.
    + destruct k as [|k].
      * cbn [deriv]. destruct Wt as [E Wr]. eexists. split; [reflexivity|].
        rewrite E. split; [split; auto; apply wf_args; auto|]. split; [apply sm_expr; auto|].
        split; [reflexivity|]. intros j t. reflexivity.
      * apply deriv1_iter_ok; auto.
    + destruct k as [|k].
      * cbn [deriv]. eexists. split; [reflexivity|].
        assert (E : fcod (last (g0 :: rest) g0) = c).
        { destruct Wt as (init & g & -> & E & _). now rewrite last_last. }
        rewrite E. split; [split; auto; apply wf_args; auto|]. split; [apply sm_expr; auto|].
        split; [reflexivity|]. intros j t. reflexivity.
      * apply deriv1_iter_ok; auto.
    + cbn [deriv]. destruct Wt as (g & Eg & C). inversion Eg; subst. cbn [length Nat.eqb negb].
      rewrite andb_false_r. specialize (HA ltac:(discriminate) ltac:(discriminate)). apply Forall_cons_iff in HA as [(g' & E & D) _]. rewrite E. cbn [bind].
      eexists. split; [reflexivity|]. destruct D as (W' & S' & C' & D').
      split; [simpl; intuition eauto|]. split; [simpl; auto|]. split; [reflexivity|]. exact D'.
    + cbn [deriv]. destruct Wt as (g & Eg & C). inversion Eg; subst. cbn [length Nat.eqb negb].
      rewrite andb_false_r. specialize (HA ltac:(discriminate) ltac:(discriminate)). apply Forall_cons_iff in HA as [(g' & E & D) _]. rewrite E. cbn [bind].
      eexists. split; [reflexivity|]. destruct D as (W' & S' & C' & D').
      split; [simpl; intuition eauto|]. split; [simpl; auto|]. split; [reflexivity|].
      intros j. eapply nth_derivative_ext; [| |apply (nth_derivative_scal k (-1) _ _ (D' j))].
      * intros t. symmetry. apply (nth_scale (-1)).
      * intros t. symmetry. apply (nth_scale (-1)).
Qed.

(** ** programs *)
(** the domains of the two operands of every dot product agree (otherwise
    derivate throws) *)
Fixpoint dots_close (p : prog) : Prop :=
  match p with
  | PLeaf _ _ | PNeg _ _ => True
  | PAdd _ p q | PMul _ p q | PComp _ p q | PIAdd p q | PIMul p q => dots_close p /\ dots_close q
  | PScal _ _ p | PIAddSelf p | PIMulSelf p => dots_close p
  | PDot _ p q => dots_close p /\ dots_close q /\
      (forall e1 e2, build p = Ok e1 -> build q = Ok e2 -> close (edom e1) (edom e2))
  | PSub _ p _ _ => dots_close p
  end.

Lemma sm_flat op e : sm (fe e) -> Forall sm (flat_or_clone op e).
Proof.
  intros S. unfold flat_or_clone.
  destruct (ftype_eqb (ety e) op || ftype_eqb (ety e) UNIQUE).
  - apply sm_args. destruct e as [ty d c args]; destruct ty; simpl in *; tauto.
  - constructor; auto.
Qed.
Lemma sm_comp_args e : sm (fe e) -> Forall sm (comp_args e).
Proof.
  intros S. unfold comp_args. destruct (ftype_eqb (ety e) COMPOSITION).
  - apply sm_args. destruct e as [ty d c args]; destruct ty; simpl in *; tauto.
  - constructor; auto.
Qed.

Lemma add_sm o e1 e2 r : sm (fe e1) -> sm (fe e2) -> add o e1 e2 = Ok r -> sm (fe r).
Proof.
  intros S1 S2 E. unfold add in E. destruct (sum_throw e1 e2); try discriminate. simpl in E.
  assert (K : Forall sm (flat_or_clone SUM e1 ++ flat_or_clone SUM e2)).
  { apply Forall_app; split; apply sm_flat; auto. }
  destruct o; inversion E; subst; apply sm_expr; auto; discriminate.
Qed.
Lemma mul_sm o e1 e2 r : sm (fe e1) -> sm (fe e2) -> mul o e1 e2 = Ok r -> sm (fe r).
Proof.
  intros S1 S2 E. unfold mul in E. destruct (compatibility_mul e1 e2); try discriminate. simpl in E.
  assert (K : Forall sm (flat_or_clone MULTIPLICATION e1 ++ flat_or_clone MULTIPLICATION e2)).
  { apply Forall_app; split; apply sm_flat; auto. }
  assert (K' : Forall sm (flat_or_clone MULTIPLICATION e2 ++ flat_or_clone MULTIPLICATION e1)).
  { apply Forall_app; split; apply sm_flat; auto. }
  unfold first_or_max, second_or_min in E.
  destruct (Nat.leb (ecod e2) (ecod e1)); destruct o; inversion E; subst; apply sm_expr; auto; discriminate.
Qed.
Lemma compose_sm o e1 e2 r : sm (fe e1) -> sm (fe e2) -> compose o e1 e2 = Ok r -> sm (fe r).
Proof.
  intros S1 S2 E. unfold compose in E. destruct (comp_throw e1 e2); try discriminate. simpl in E.
  assert (K : Forall sm (comp_args e2 ++ comp_args e1)).
  { apply Forall_app; split; apply sm_comp_args; auto. }
  assert (X : exists d, r = mkexpr COMPOSITION d (ecod e1) (comp_args e2 ++ comp_args e1)).
  { assert (K' : ftype_eqb (ety e1) COMPOSITION = true -> comp_args e1 = eargs e1).
    { intros K'. unfold comp_args. now rewrite K'. }
    destruct o; try (inversion E; eexists; reflexivity);
    destruct (ftype_eqb (ety e1) COMPOSITION); inversion E; eexists;
      first [reflexivity | rewrite K'; reflexivity]. }
  destruct X as [d ->]. apply sm_expr; auto; discriminate.
Qed.

Lemma iadd_sm e1 e2 : sm (fe e1) -> sm (fe e2) -> sm (fe (iadd e1 e2)).
Proof. intros S1 S2. rewrite iadd_flat. apply sm_expr; [discriminate|]. apply Forall_app; split; [apply sm_flat; auto|constructor; [auto|constructor]]. Qed.
Lemma imul_sm e1 e2 : sm (fe e1) -> sm (fe e2) -> sm (fe (imul e1 e2)).
Proof. intros S1 S2. rewrite imul_flat. apply sm_expr; [discriminate|]. apply Forall_app; split; [apply sm_flat; auto|constructor; [auto|constructor]]. Qed.
End Py.

Lemma leaf_sm d l : leaf_ok l -> leaf_smooth l -> smp True (leaf_fn d l).
Proof.
  destruct l; simpl; auto; intros [Hc HL] HS; [|split; [exact I|]]; intros k j t;
  (destruct (Nat.lt_ge_cases j c) as [L|L]; [apply HS; auto|];
  eapply is_derive_ext_eq; [| |apply (is_derive_zero t)];
  [intros u; simpl; rewrite nth_overflow; auto; rewrite HL; auto
  |rewrite nth_overflow; auto; rewrite HL; auto]).
Qed.

Theorem build_sm p : prog_ok p -> prog_smooth p -> dots_close p ->
  forall e, build p = Ok e -> smp True (fe e).
Proof.
  induction p; intros HP HS HD e E; cbn [build prog_ok prog_smooth dots_close] in *.
  - inversion E; subst. simpl. split; auto. apply leaf_sm; auto.
  - apply bind_ok in E. destruct E as (e1 & E1 & E). apply bind_ok in E. destruct E as (e2 & E2 & E).
    eapply add_sm; [apply IHp1|apply IHp2|exact E]; tauto.
  - apply bind_ok in E. destruct E as (e1 & E1 & E). apply bind_ok in E. destruct E as (e2 & E2 & E).
    eapply mul_sm; [apply IHp1|apply IHp2|exact E]; tauto.
  - apply bind_ok in E. destruct E as (e1 & E1 & E).
    unfold scal in E. eapply mul_sm; [|apply (IHp HP HS HD _ E1)|exact E]. simpl; auto.
  - apply bind_ok in E. destruct E as (e1 & E1 & E). apply bind_ok in E. destruct E as (e2 & E2 & E).
    eapply compose_sm; [apply IHp1|apply IHp2|exact E]; tauto.
  - apply bind_ok in E. destruct E as (e1 & E1 & E). apply bind_ok in E. destruct E as (e2 & E2 & E).
    inversion E; subst; clear E.
    assert (S1 : smp True (fe e1)) by (apply IHp1; tauto). assert (S2 : smp True (fe e2)) by (apply IHp2; tauto).
    destruct HD as (_ & _ & HD). specialize (HD _ _ E1 E2). apply same_domain_close in HD.
    pose proof HD as HD'. rewrite same_domain_sym in HD'.
    assert (T1 : smp True (fe (to_expression (fe e1)))) by (cbn [fe to_expression ety edom ecod eargs]; apply sm_expr; [discriminate|repeat constructor; auto]).
    assert (T2 : smp True (fe (to_expression (fe e2)))) by (cbn [fe to_expression ety edom ecod eargs]; apply sm_expr; [discriminate|repeat constructor; auto]).
    unfold fe at 1. cbn [to_expression ety edom ecod eargs]. apply sm_expr; [discriminate|].
    constructor; auto. unfold dot. destruct o; cbn [smp]; repeat split; auto.
  - inversion E; subst. simpl. split; auto. apply leaf_sm; auto.
  - apply bind_ok in E. destruct E as (e1 & E1 & E).
    unfold sub in E. apply bind_ok in E. destruct E as ([] & _ & E).
    assert (X : exists o', add o' e1 (neg (to_expression (leaf_fn d l))) = Ok e).
    { destruct o; eauto. }
    destruct X as [o' X]. eapply add_sm; [apply IHp| |exact X]; try tauto.
    simpl. split; auto. apply leaf_sm; tauto.
  - apply bind_ok in E. destruct E as (e1 & E1 & E). apply bind_ok in E. destruct E as (e2 & E2 & E).
    inversion E; subst. apply iadd_sm; [apply IHp1|apply IHp2]; tauto.
  - apply bind_ok in E. destruct E as (e1 & E1 & E). apply bind_ok in E. destruct E as (e2 & E2 & E).
    inversion E; subst. apply imul_sm; [apply IHp1|apply IHp2]; tauto.
  - apply bind_ok in E. destruct E as (e1 & E1 & E). inversion E; subst.
    assert (S1 : smp True (fe e1)) by (apply IHp; tauto). rewrite iadd_self_eq. apply iadd_sm; auto.
    apply sm_expr; [discriminate|]. apply sm_flat; auto.
  - apply bind_ok in E. destruct E as (e1 & E1 & E). inversion E; subst.
    assert (S1 : smp True (fe e1)) by (apply IHp; tauto). rewrite imul_self_eq. apply imul_sm; auto.
    apply sm_expr; [discriminate|]. apply sm_flat; auto.
Qed.

(** classes written in Python below products, compositions or dot products *)
Lemma inner_flat e : py_inner (fe e) -> Forall py_inner (flat_or_clone SUM e).
Proof.
  intros S. unfold flat_or_clone. destruct e as [ty d c args].
  destruct ty; simpl in *; try (constructor; auto; fail); apply py_inner_args; auto.
Qed.
Lemma inner_sum d c args : Forall py_inner args -> py_inner (FExpr SUM d c args).
Proof. intros H. apply py_inner_args in H. exact H. Qed.
Lemma add_inner o e1 e2 r : py_inner (fe e1) -> py_inner (fe e2) -> add o e1 e2 = Ok r -> py_inner (fe r).
Proof.
  intros S1 S2 E. unfold add in E. destruct (sum_throw e1 e2); try discriminate. simpl in E.
  assert (K : Forall py_inner (flat_or_clone SUM e1 ++ flat_or_clone SUM e2)).
  { apply Forall_app; split; apply inner_flat; auto. }
  destruct o; inversion E; subst; apply inner_sum; auto.
Qed.
Lemma iadd_inner e1 e2 : py_inner (fe e1) -> py_inner (fe e2) -> py_inner (fe (iadd e1 e2)).
Proof. intros S1 S2. rewrite iadd_flat. apply inner_sum. apply Forall_app; split; [apply inner_flat; auto|constructor; [auto|constructor]]. Qed.
Lemma mul_inner o e1 e2 r : mul o e1 e2 = Ok r -> py_inner (fe r).
Proof.
  intros E. unfold mul in E. destruct (compatibility_mul e1 e2); try discriminate. simpl in E.
  unfold first_or_max, second_or_min in E.
  destruct (Nat.leb (ecod e2) (ecod e1)); destruct o; inversion E; subst; exact I.
Qed.
Lemma compose_inner o e1 e2 r : compose o e1 e2 = Ok r -> py_inner (fe r).
Proof.
  intros E. unfold compose in E. destruct (comp_throw e1 e2); try discriminate. simpl in E.
  destruct o; try (inversion E; exact I); destruct (ftype_eqb (ety e1) COMPOSITION); inversion E; exact I.
Qed.
Lemma leaf_inner d l : ~ is_py l -> py_inner (leaf_fn d l).
Proof. destruct l; simpl; auto. Qed.
Theorem build_inner p : py_inside p -> forall e, build p = Ok e -> py_inner (fe e).
Proof.
  induction p; intros HP e E; cbn [build py_inside] in *.
  - inversion E; subst. simpl. split; auto. apply leaf_inner; auto.
  - apply bind_ok in E. destruct E as (e1 & E1 & E). apply bind_ok in E. destruct E as (e2 & E2 & E).
    eapply add_inner; [apply IHp1|apply IHp2|exact E]; tauto.
  - apply bind_ok in E. destruct E as (e1 & E1 & E). apply bind_ok in E. destruct E as (e2 & E2 & E).
    eapply mul_inner; exact E.
  - apply bind_ok in E. destruct E as (e1 & E1 & E). unfold scal in E. eapply mul_inner; exact E.
  - apply bind_ok in E. destruct E as (e1 & E1 & E). apply bind_ok in E. destruct E as (e2 & E2 & E).
    eapply compose_inner; exact E.
  - apply bind_ok in E. destruct E as (e1 & E1 & E). apply bind_ok in E. destruct E as (e2 & E2 & E).
    inversion E; subst. destruct o; simpl; auto.
  - inversion E; subst. simpl. split; auto. apply leaf_inner; auto.
  - apply bind_ok in E. destruct E as (e1 & E1 & E).
    unfold sub in E. apply bind_ok in E. destruct E as ([] & _ & E).
    assert (X : exists o', add o' e1 (neg (to_expression (leaf_fn d l))) = Ok e).
    { destruct o; eauto. }
    destruct X as [o' X]. eapply add_inner; [apply IHp| |exact X]; try tauto.
    simpl. split; auto. apply leaf_inner; tauto.
  - apply bind_ok in E. destruct E as (e1 & E1 & E). apply bind_ok in E. destruct E as (e2 & E2 & E).
    inversion E; subst. apply iadd_inner; [apply IHp1|apply IHp2]; tauto.
  - apply bind_ok in E. destruct E as (e1 & E1 & E). apply bind_ok in E. destruct E as (e2 & E2 & E).
    inversion E; subst. rewrite imul_flat. exact I.
  - apply bind_ok in E. destruct E as (e1 & E1 & E). inversion E; subst.
    assert (S1 : py_inner (fe e1)) by (apply IHp; tauto). rewrite iadd_self_eq. apply iadd_inner; auto.
    apply inner_sum. apply inner_flat; auto.
  - apply bind_ok in E. destruct E as (e1 & E1 & E). inversion E; subst. rewrite imul_self_eq, imul_flat. exact I.
Qed.

Theorem program_derivative dbg p e k : prog_ok p -> prog_smooth p -> dots_close p ->
  k = 1%nat \/ py_inside p -> build p = Ok e ->
  exists f', deriv dbg (fe e) k = Ok f' /\ fcod f' = pcod p /\
  exists G, (forall pts, call dbg f' pts = Ok (map G pts)) /\
            (forall t, length (G t) = pcod p) /\
            forall j, nth_derivative k (fun t => nth j (psem p t) 0) (fun t => nth j (G t) 0).
Proof.
  intros HP HS HD HY E. destruct (build_ok p HP e E) as (W & C & _ & D).
  pose proof (build_sm p HP HS HD e E) as S.
  destruct (deriv_ok True dbg k _ W S) as (f' & Ef & (W' & S' & C' & N)).
  { intros _. destruct HY as [HY|HY]; [left; exact HY|right; exact (build_inner p HY e E)]. }
  exists f'. split; auto. assert (CC : fcod f' = pcod p) by (rewrite C'; exact C).
  split; auto. exists (den f'). split; [|split].
  - intros pts. apply eval_den; auto.
  - intros t. rewrite den_length; auto.
  - intros j. eapply nth_derivative_ext; [| |apply (N j)]; intros; cbn beta; rewrite ?D; reflexivity.
Qed.

Theorem program_derivative_times dbg p e k : prog_ok p -> prog_smooth p -> dots_close p ->
  build p = Ok e ->
  exists f', deriv_times dbg k (fe e) = Ok f' /\ fcod f' = pcod p /\
  exists G, (forall pts, call dbg f' pts = Ok (map G pts)) /\
            (forall t, length (G t) = pcod p) /\
            forall j, nth_derivative k (fun t => nth j (psem p t) 0) (fun t => nth j (G t) 0).
Proof.
  intros HP HS HD E. destruct (build_ok p HP e E) as (W & C & _ & D).
  pose proof (build_sm p HP HS HD e E) as S.
  assert (K : exists f', deriv_times dbg k (fe e) = Ok f' /\ nderivedp True k (fe e) f').
  { induction k as [|k (g & Eg & Wg & Sg & Cg & Ng)]; cbn [deriv_times].
    - exists (fe e). split; auto. split; auto. split; auto. split; auto. intros j t. reflexivity.
    - rewrite Eg. cbn [bind]. destruct (deriv_ok True dbg 1 g Wg Sg) as (g' & E' & W' & S' & C' & N'); [auto|].
      exists g'. split; auto. split; auto. split; auto. split; [congruence|].
      intros j. destruct (N' j) as (H1 & H2 & H3). exists (fun t => nth j (den g t) 0). split; [apply Ng|].
      intros t. eapply is_derive_ext_eq; [|reflexivity|apply H3]. intros u. symmetry. apply H2. }
  destruct K as (f' & Ef & (W' & S' & C' & N)).
  exists f'. split; auto. assert (CC : fcod f' = pcod p) by (rewrite C'; exact C).
  split; auto. exists (den f'). split; [|split].
  - intros pts. apply eval_den; auto.
  - intros t. rewrite den_length; auto.
  - intros j. eapply nth_derivative_ext; [| |apply (N j)]; intros; cbn beta; rewrite ?D; reflexivity.
Qed.

Notation sm := (smp False).
Notation derived := (derivedp False).
Notation nderived := (nderivedp False).
