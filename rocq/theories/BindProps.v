(** * C70: functions used from Python *)
From Coquelicot Require Import Coquelicot.
From Coq Require Import List Reals Lra Lia Bool Arith.
From Verif Require Import Num Outcome GSplineModel FunModel FunSpec FunProofs FunProofs3 FunDeriv2 BindModel BindSpec BindProofs.
Import ListNotations.
Local Open Scope R_scope.

(** Every object that Python code builds with constructors, + - *, unary minus,
    compose, dot, concat and deriv evaluates to the function it denotes, and no
    evaluation raises. *)
Theorem C70_value : forall dbg s a F pts, pymeans dbg s a F -> py_call dbg a pts = Ok (map F pts).
Proof. exact pymeans_value. Qed.

(** Which operations raise TypeError, which ValueError, which succeed. *)
Theorem C70_acceptance : forall dbg m k f k' g, fits k f -> fits k' g -> m <> Mdot ->
  (takes m k k' ->
     ((exists r, py_binary dbg m (PF k f) (PF k' g) = Ok r) <->
        compatible m (fdom f) (fdom g) (fcod f) (fcod g)) /\
     ((exists r, py_binary dbg m (PF k f) (PF k' g) = Ok r) \/
        py_binary dbg m (PF k f) (PF k' g) = Throw InvalidArgument)) /\
  (~ takes m k k' -> py_binary dbg m (PF k f) (PF k' g) = Throw TypeError).
Proof. exact py_takes. Qed.
(** dot takes any two functions; only a debug build looks at their components *)
Theorem C70_dot_acceptance : forall dbg k (f : fn R) k' g,
  (fcod f = fcod g -> exists r, py_binary dbg Mdot (PF k f) (PF k' g) = Ok r) /\
  (fcod f <> fcod g -> py_binary true Mdot (PF k f) (PF k' g) = Throw AssertFail) /\
  (fcod f <> fcod g -> exists r, py_binary false Mdot (PF k f) (PF k' g) = Ok r /\
     forall pts, (exists v, call false f pts = Ok v) -> (exists v, call false g pts = Ok v) ->
       py_call false r pts = UB).
Proof.
  intros dbg k f k' g. rewrite !py_binary_dot. unfold make_dot. split; [|split].
  - intros E. rewrite E, Nat.eqb_refl, andb_false_r. eauto.
  - intros E. apply Nat.eqb_neq in E. rewrite E. reflexivity.
  - intros E. eexists. split; [reflexivity|]. intros pts [v Ev] [w Ew].
    apply Nat.eqb_neq in E. unfold call in Ev, Ew. cbn [py_call]. unfold call. cbn [dot fcod].
    change (eval false (FDot (fdom f) (fe (to_expression f)) (fe (to_expression g))) pts 1)
      with (r1 <- eval false f pts (fcod f) ;; r2 <- eval false g pts (fcod g) ;;
            if Nat.eqb (fcod f) (fcod g) then col_result 1 (map2 row_dot r1 r2) else UB).
    rewrite Ev, Ew. cbn [bind]. now rewrite E.
Qed.
(** an object that is no function is refused on either side *)
Theorem C70_foreign : forall dbg m (a : pobj R),
  py_binary dbg m a PForeign = Throw TypeError /\ py_binary dbg m PForeign a = Throw TypeError /\
  py_neg (PForeign (T:=R)) = Throw TypeError.
Proof. intros dbg m a. destruct a; auto. Qed.

(** minus is defined on expressions and on elementary functions, not on splines or the bare base class; the domain and the number of components stay *)
Theorem C70_negation : forall k (f : fn R), let refused := k = KFunctionBase \/ k = KGSplineBase \/ k = KGSpline in
  (refused -> py_neg (PF k f) = Throw TypeError) /\
  (~ refused -> exists r, py_neg (PF k f) = Ok r /\ py_domain r = Some (fdom f) /\ py_codom r = Some (fcod f)).
Proof.
  intros k f refused. unfold refused. split.
  - intros [-> | [-> | ->]]; reflexivity.
  - intros N. assert (K : isinstance k KFunctionExpression || isinstance k KFunction = true) by (destruct k; try reflexivity; exfalso; tauto).
    cbn [py_neg]. rewrite K. destruct f; eexists; (split; [reflexivity|]); split; try reflexivity; destruct ty; reflexivity.
Qed.
Example C70_negation_case : exists r, py_neg (PF KSin (FSin (0, 1) : fn R)) = Ok r /\ py_domain r = Some (0, 1) /\ py_codom r = Some 1%nat.
Proof. apply (C70_negation KSin (FSin (0, 1))). intros [E | [E | E]]; discriminate. Qed.
(** DotProduct(f, g) takes expressions only *)
Theorem C70_new_dot : forall dbg k (f : fn R) k' g,
  (k <> KFunctionExpression \/ k' <> KFunctionExpression -> py_new_dot dbg (PF k f) (PF k' g) = Throw TypeError) /\
  (fcod f = fcod g -> exists r, py_new_dot dbg (PF KFunctionExpression f) (PF KFunctionExpression g) = Ok r /\ py_codom r = Some 1%nat).
Proof.
  intros dbg k f k' g. split.
  - intros [N|N]; cbn [py_new_dot]; [destruct k; try congruence; reflexivity|destruct k'; try congruence; now rewrite andb_false_r].
  - intros E. cbn [py_new_dot isinstance mro existsb pclass_eqb orb andb]. unfold make_dot. rewrite E, Nat.eqb_refl, andb_false_r. eexists. split; reflexivity.
Qed.
Example C70_new_dot_case : py_new_dot true (PF KSin (FSin (0, 1) : fn R)) (py_zero (0, 1) 1) = Throw TypeError /\ exists r, py_new_dot true (py_zero (0, 1) 1) (py_zero (T := R) (0, 1) 1) = Ok r.
Proof. split; [reflexivity|]. destruct (C70_new_dot true KSin (FExpr UNIQUE (0, 1) 1 [const_function (0, 1) 1 0]) KSin (FExpr UNIQUE (0, 1) 1 [const_function (0, 1) 1 0])) as (_ & H). destruct (H eq_refl) as (r & E & _). exists r. exact E. Qed.

(** The domain that the result reports.  In Python the in-place overloads that
    report a stale domain (C05) cannot be reached. *)
Theorem C70_domain : forall dbg m k f k' g r, fits k f -> fits k' g ->
  py_binary dbg m (PF k f) (PF k' g) = Ok r ->
  exists d, py_domain r = Some d /\ result_domain m (fdom f) (fdom g) d.
Proof. exact py_result_domain. Qed.

(** deriv succeeds on every smooth object and gives its derivative of the order
    asked for, with the same number of components. *)
Theorem C70_derivative : forall dbg k a F, pymeans dbg true a F -> exists r G,
  py_deriv dbg a k = Some (Ok r) /\ (forall pts, py_call dbg r pts = Ok (map G pts)) /\
  py_codom r = py_codom a /\
  (forall t, Some (length (G t)) = py_codom a) /\
  forall j, nth_derivative k (fun t => nth j (F t) 0) (fun t => nth j (G t) 0).
Proof. exact pymeans_deriv. Qed.

(** [==] and [!=] on splines are opposite although the binding of operator!= is
    misspelled; a comparison with anything else raises. *)
Theorem C70_equality : forall (T : Type) (HN : Num T) (g h : gspline T),
  (py_spline_eq g (Some h) = Ok true <-> py_spline_ne g (Some h) = Ok false) /\
  (py_spline_eq g (Some h) = Ok false <-> py_spline_ne g (Some h) = Ok true) /\
  py_spline_eq g None = Throw TypeError /\ py_spline_ne g None = Throw TypeError.
Proof.
  intros T HN g h. unfold py_spline_ne, py_spline_eq.
  destruct (gs_eqb g h) as [[]|x|]; cbn [bind negb]; repeat split; intros; try congruence; auto.
Qed.

(** ** A concrete case: in Python
      s, c = Sin((0, 1)), Cos((0, 1))
      e = (s + c) * s - c          # FunctionExpression
      p = GSpline(...)             # two components
      q = p.compose(e)             # p(e(t))
      w = q.dot(q).deriv()
    and a concatenation. *)
Definition ex_s : pobj R := py_leaf (0, 1) LSin.
Definition ex_c : pobj R := py_leaf (0, 1) LCos.
Definition ex_spline : pobj R := py_leaf (0, 1) (LExt 2 (fun k t => [match k with O => t | S O => 1 | _ => 0 end; 0])).
Definition ex_sc (t : R) : R := (sin t + cos t) * sin t - cos t.

Lemma ex_close : same_domain (0, 1) (0, 1) = true.
Proof. apply same_domain_refl. Qed.
Lemma ex_add o (e1 e2 : expr R) : edom e1 = (0, 1) -> edom e2 = (0, 1) -> ecod e1 = ecod e2 ->
  add o e1 e2 = Ok (mkexpr SUM (0, 1) (ecod e1) (flat_or_clone SUM e1 ++ flat_or_clone SUM e2)).
Proof.
  intros D1 D2 C. unfold add, sum_throw. rewrite D1, D2, C, ex_close, Nat.eqb_refl. cbn [negb bind].
  destruct o; reflexivity.
Qed.
Lemma ex_mul o (e1 e2 : expr R) : edom e1 = (0, 1) -> edom e2 = (0, 1) -> ecod e1 = 1%nat -> ecod e2 = 1%nat ->
  mul o e1 e2 = Ok (mkexpr MULTIPLICATION (0, 1) 1 (flat_or_clone MULTIPLICATION e1 ++ flat_or_clone MULTIPLICATION e2)).
Proof.
  intros D1 D2 C1 C2. unfold mul, compatibility_mul, first_or_max, second_or_min.
  rewrite D1, D2, C1, C2, ex_close. cbn [negb bind Nat.ltb Nat.leb andb].
  destruct o; rewrite ?D1, ?C1; reflexivity.
Qed.

Definition ex_sum : pobj R := PF KFunctionExpression (FExpr SUM (0, 1) 1 [FSin (0, 1); FCos (0, 1)]).
Definition ex_product : pobj R := PF KFunctionExpression
  (FExpr MULTIPLICATION (0, 1) 1 [FExpr SUM (0, 1) 1 [FSin (0, 1); FCos (0, 1)]; FSin (0, 1)]).
Definition ex_difference : pobj R := PF KFunctionExpression
  (FExpr SUM (0, 1) 1
     [FExpr MULTIPLICATION (0, 1) 1 [FExpr SUM (0, 1) 1 [FSin (0, 1); FCos (0, 1)]; FSin (0, 1)];
      FExpr NEGATIVE (0, 1) 1 [FCos (0, 1)]]).

Lemma ex_sum_eq dbg : py_binary dbg Madd ex_s ex_c = Ok ex_sum.
Proof.
  change (py_binary dbg Madd ex_s ex_c) with
    (ret_expression (add RR (to_expression (FSin (0, 1))) (to_expression (FCos (0, 1))))).
  rewrite ex_add; reflexivity.
Qed.
Lemma ex_product_eq dbg : py_binary dbg Mmul ex_sum ex_s = Ok ex_product.
Proof.
  change (py_binary dbg Mmul ex_sum ex_s) with
    (ret_expression (mul LR (mkexpr SUM (0, 1) 1 [FSin (0, 1); FCos (0, 1)]) (to_expression (FSin (0, 1))))).
  rewrite ex_mul; reflexivity.
Qed.
Lemma ex_difference_eq dbg : py_binary dbg Msub ex_product ex_c = Ok ex_difference.
Proof.
  change (py_binary dbg Msub ex_product ex_c) with
    (ret_expression (sub LR (mkexpr MULTIPLICATION (0, 1) 1
       [FExpr SUM (0, 1) 1 [FSin (0, 1); FCos (0, 1)]; FSin (0, 1)]) (to_expression (FCos (0, 1))))).
  unfold sub, sum_throw. cbn [edom ecod to_expression fdom fcod Nat.eqb]. rewrite ex_close. cbn [negb bind].
  rewrite ex_add; reflexivity.
Qed.
Lemma ex_s_means dbg : pymeans dbg true ex_s (lsem LSin).
Proof. apply YLeaf; intros; [exact I|split; [exact I|exact (fun H => H)]]. Qed.
Lemma ex_c_means dbg : pymeans dbg true ex_c (lsem LCos).
Proof. apply YLeaf; intros; [exact I|split; [exact I|exact (fun H => H)]]. Qed.
Lemma ex_difference_means dbg : exists F, pymeans dbg true ex_difference F /\ forall t, F t = [ex_sc t].
Proof.
  pose proof (YAdd _ _ _ _ _ _ _ (ex_s_means dbg) (ex_c_means dbg) (ex_sum_eq dbg)) as M1.
  pose proof (YMul _ _ _ _ _ _ _ M1 (ex_s_means dbg) (ex_product_eq dbg)) as M2.
  pose proof (YSub _ _ _ _ _ _ _ M2 (ex_c_means dbg) (eq_refl Plain) (ex_difference_eq dbg)) as M3.
  eexists. split; [exact M3|]. intros t. cbn. unfold ex_sc. f_equal. ring.
Qed.

Lemma ex_spline_means dbg : pymeans dbg true ex_spline (fun t => [t; 0]).
Proof.
  apply (YLeaf dbg true (0, 1) (LExt 2 (fun k t => [match k with O => t | S O => 1 | _ => 0 end; 0]))).
  - split; [lia|reflexivity].
  - intros _. split; [|exact (fun H => H)]. intros k j t Hj. destruct j as [|[|j]]; [| |lia]; cbn [nth].
    + destruct k as [|[|k]].
      * apply (is_derive_id (K := R_AbsRing)).
      * apply (is_derive_const (K := R_AbsRing) (V := R_NormedModule)).
      * apply (is_derive_const (K := R_AbsRing) (V := R_NormedModule)).
    + apply (is_derive_const (K := R_AbsRing) (V := R_NormedModule)).
Qed.

(** spline.compose(expression), dot with itself, first derivative *)
Example C70_case dbg : exists q w v G,
  py_binary dbg Mcompose ex_spline ex_difference = Ok q /\
  py_binary dbg Mdot q q = Ok w /\
  py_deriv dbg w 1 = Some (Ok v) /\
  (forall pts, py_call dbg w pts = Ok (map (fun t => [ex_sc t * ex_sc t]) pts)) /\
  (forall pts, py_call dbg v pts = Ok (map G pts)) /\
  forall t, nth 0 (G t) 0 = 2 * ex_sc t * ((cos t - sin t) * sin t + (sin t + cos t) * cos t + sin t).
Proof.
  destruct (ex_difference_means dbg) as (F & M & EF). pose proof (ex_spline_means dbg) as Ms.
  destruct ex_spline as [ks fs|] eqn:ES; [|discriminate]. destruct ex_difference as [kd fd|] eqn:ED; [|discriminate].
  assert (Fs : fits ks fs) by (inversion ES; discriminate). assert (Fd : fits kd fd) by (inversion ED; reflexivity).
  destruct (proj1 (C70_acceptance dbg Mcompose ks fs kd fd Fs Fd ltac:(discriminate))) as [[_ X] _].
  { left. inversion ES. reflexivity. }
  destruct X as [q Eq]. { inversion ED. apply le_n. }
  pose proof (YCompose _ _ _ _ _ _ _ Ms M Eq) as Mq.
  destruct (pymeans_fits _ _ _ _ Mq) as (k & f & -> & Ff).
  destruct (proj1 (C70_dot_acceptance dbg k f k f) eq_refl) as [w Ew].
  destruct (C70_domain _ _ _ _ _ _ _ Fs Fd Eq) as (d & Ed & _).
  assert (Mw : pymeans dbg true w (fun t => [inner [first_comp (F t); 0] [first_comp (F t); 0]])).
  { apply (YDot dbg true _ _ _ (fun t => [first_comp (F t); 0]) (fun t => [first_comp (F t); 0]) Mq Mq); auto.
    intros _. exists d, d. repeat split; auto; rewrite Rminus_eq_0, Rabs_R0; lra. }
  destruct (C70_derivative dbg 1 w _ Mw) as (v & G & Ev & Cv & _ & _ & DG).
  exists (PF k f), w, v, G. split; [exact Eq|]. split; [exact Ew|]. split; [exact Ev|].
  assert (V : forall t, [inner [first_comp (F t); 0] [first_comp (F t); 0]] = [ex_sc t * ex_sc t]).
  { intros t. rewrite EF. cbn. f_equal. ring. }
  split; [|split; [exact Cv|]].
  - intros pts. rewrite (C70_value _ _ _ _ pts Mw). f_equal. apply map_ext. exact V.
  - intros t. specialize (DG 0%nat). cbn [nth_derivative] in DG. destruct DG as (F' & HF' & HD).
    specialize (HD t). apply is_derive_unique in HD. rewrite <- HD. apply is_derive_unique.
    apply (is_derive_ext (fun u => ex_sc u * ex_sc u)).
    + intros u. rewrite <- HF'. change (ex_sc u * ex_sc u = nth 0 [inner [first_comp (F u); 0] [first_comp (F u); 0]] 0).
      rewrite V. reflexivity.
    + unfold ex_sc. auto_derive; [auto|ring].
Qed.

(** a concatenation of two plain functions *)
Example C70_concat_case dbg : exists r, pymeans dbg false r (piecewise (0, 1) (1, 3) (lsem LSin) (lsem LCos)).
Proof.
  assert (M1 : pymeans dbg false (py_leaf (0, 1) LSin) (lsem LSin)) by (apply YLeaf; intros; [exact I|split; [exact I|exact (fun H => H)]]).
  assert (M2 : pymeans dbg false (py_leaf (1, 3) LCos) (lsem LCos)) by (apply YLeaf; intros; [exact I|split; [exact I|exact (fun H => H)]]).
  assert (F1 : fits KSin (FSin (0, 1))) by discriminate.
  assert (F2 : fits KCos (FCos (1, 3))) by discriminate.
  assert (Z : takes Mconcat KSin KCos) by (right; discriminate).
  pose proof (proj1 (C70_acceptance dbg Mconcat KSin (FSin (0, 1)) KCos (FCos (1, 3)) F1 F2 ltac:(discriminate))) as X.
  destruct (X Z) as [[_ Y] _].
  assert (W : compatible Mconcat (fdom (FSin (0, 1))) (fdom (FCos (1, 3))) (fcod (FSin (0, 1))) (fcod (FCos (1, 3)))).
  { split; [reflexivity|]. cbn [fdom fst snd]. rewrite Rminus_eq_0, Rabs_R0. lra. }
  destruct (Y W) as [r Er].
  exists r. apply (YConcat dbg false _ _ _ _ _ (0, 1) (1, 3) eq_refl M1 M2 Er); try reflexivity; cbn [fst snd]; lra.
Qed.

(** ** What fails *)
(** REFUTED: the operators that C++ offers on all functions are missing for
    splines in Python.  Two splines on one domain cannot be added, nor can a
    spline be added to an expression; C++ accepts both. *)
Theorem C70_splines_refuted : forall dbg,
  (forall m, m = Madd \/ m = Msub \/ m = Mmul ->
     py_binary dbg m ex_spline ex_spline = Throw TypeError /\
     py_binary dbg m ex_spline ex_difference = Throw TypeError /\
     py_binary dbg m ex_difference ex_spline = Throw TypeError) /\
  py_neg ex_spline = Throw TypeError /\
  forall s, ex_spline = PF KGSpline s -> exists r, add LL (to_expression s) (to_expression s) = Ok r.
Proof.
  intros dbg. split; [|split; [reflexivity|]].
  - intros m [-> | [-> | ->]]; repeat split; reflexivity.
  - intros s E. inversion E. apply add_accepts. split; [|reflexivity].
    apply same_domain_close. apply same_domain_refl.
Qed.

(** REFUTED: compose depends on the class of the receiver: a one-component
    spline p composes with sin one way only. *)
Definition ex_scalar_spline : pobj R := py_leaf (0, 1) (LExt 1 (fun k t => [match k with O => t | S O => 1 | _ => 0 end])).
Theorem C70_compose_refuted : forall dbg,
  py_binary dbg Mcompose ex_s ex_scalar_spline = Throw TypeError /\
  (exists r, py_binary dbg Mcompose ex_scalar_spline ex_s = Ok r) /\
  forall s, ex_scalar_spline = PF KGSpline s ->
    exists r, compose LL (to_expression (FSin (0, 1))) (to_expression s) = Ok r.
Proof.
  intros dbg. split; [reflexivity|]. split; [eexists; reflexivity|].
  intros s E. inversion E. apply compose_accepts. cbn. lia.
Qed.

(** REFUTED: subtracting an expression.  [c - (s + c)] should be -s; a debug
    build aborts, a release build returns c - s. *)
Theorem C70_difference_refuted : exists r, (forall dbg, py_binary dbg Msub ex_c ex_sum = Ok r) /\
  (forall t, py_call true r [t] = Throw AssertFail) /\
  forall t, py_call false r [t] = Ok [[cos t - sin t]].
Proof.
  exists (PF KFunctionExpression (FExpr SUM (0, 1) 1 [FCos (0, 1); FExpr NEGATIVE (0, 1) 1 [FSin (0, 1); FCos (0, 1)]])).
  split; [|split].
  - intros dbg. change (py_binary dbg Msub ex_c ex_sum) with
      (ret_expression (sub RL (to_expression (FCos (0, 1))) (mkexpr SUM (0, 1) 1 [FSin (0, 1); FCos (0, 1)]))).
    unfold sub, sum_throw. cbn [edom ecod to_expression fdom fcod Nat.eqb]. rewrite ex_close. cbn [negb bind].
    rewrite ex_add; reflexivity.
  - intros t. reflexivity.
  - intros t. cbn. do 3 f_equal. ring.
Qed.
