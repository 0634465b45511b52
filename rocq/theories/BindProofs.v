(** Proofs about the Python operators. *)
From Coquelicot Require Import Coquelicot.
From Coq Require Import List Reals Lra Lia Bool Arith.
From Verif Require Import Num Outcome GSplineModel FunModel FunSpec FunProofs FunProofs2 FunDeriv FunDeriv2 FunConcat
  FunProofs3 BindModel BindSpec.
Import ListNotations.
Local Open Scope R_scope.

(** the operand as the C++ operator sees it *)
Definition ex (f : fn R) : expr R :=
  match f with FExpr ty d c args => mkexpr ty d c args | _ => to_expression f end.

Definition cop (m : mname) : vcat -> expr R -> expr R -> outcome (expr R) :=
  match m with
  | Mcompose => compose | Mconcat => concat_ | Madd => add | Msub => sub | Mmul => mul
  | Mdot => fun _ e1 e2 => Ok (to_expression (dot LL (fe e1) (fe e2)))
  end.

Lemma ex_dom f : edom (ex f) = fdom f.
Proof. destruct f; reflexivity. Qed.
Lemma ex_cod f : ecod (ex f) = fcod f.
Proof. destruct f; reflexivity. Qed.

(** value categories that occur *)
Definition vc_ok (o : vcat) (f : fn R) (e1 : expr R) : Prop :=
  e1 = ex f /\ (o = LL \/ o = LR \/ ety e1 = UNIQUE).

Lemma virtual_op_ex op (f : fn R) rv e : exists o,
  virtual_op op f rv e = op o (ex f) e /\ vc_ok o f (ex f).
Proof.
  unfold vc_ok.
  destruct f; cbn [virtual_op ex]; destruct rv; eexists; (split; [reflexivity|]); auto.
Qed.

Lemma with_expression_ex op (f g : fn R) : fits KFunctionExpression g -> exists o,
  with_expression op f g = ret_expression (op o (ex f) (ex g)) /\ vc_ok o f (ex f).
Proof.
  intros Hg. unfold with_expression. destruct g; simpl in Hg; try congruence.
  cbn [as_expression bind ex]. destruct (virtual_op_ex op f false (mkexpr ty d c args)) as (o & E & V).
  exists o. rewrite E. auto.
Qed.
Lemma with_function_ex op (f g : fn R) : exists o,
  with_function op f g = ret_expression (op o (ex f) (to_expression g)) /\ vc_ok o f (ex f).
Proof.
  unfold with_function. destruct (virtual_op_ex op f true (to_expression g)) as (o & E & V).
  exists o. rewrite E. auto.
Qed.

Definition takesb (m : mname) (k k' : pclass) : bool :=
  let opq k := match kind_of k with Opaque => true | _ => false end in
  match m with
  | Mdot => true
  | Mcompose | Mconcat => opq k || negb (opq k')
  | _ => negb (opq k) && negb (opq k')
  end.
Lemma takesb_ok m k k' : takesb m k k' = true <-> takes m k k'.
Proof.
  unfold takesb, takes.
  destruct m; destruct (kind_of k), (kind_of k'); cbn; intuition (try discriminate; try congruence).
Qed.

Lemma py_binary_dispatch dbg m k f k' g : fits k' g -> m <> Mdot -> takesb m k k' = true ->
  exists o e2, py_binary dbg m (PF k f) (PF k' g) = ret_expression (cop m o (ex f) e2) /\
    vc_ok o f (ex f) /\ (e2 = ex g \/ e2 = to_expression g).
Proof.
  intros Fg Hm Ht.
  assert (A : forall op, exists o e2, with_function op f g = ret_expression (op o (ex f) e2) /\
              vc_ok o f (ex f) /\ (e2 = ex g \/ e2 = to_expression g)).
  { intros op. destruct (with_function_ex op f g) as (o & E & V). eauto 8. }
  assert (B : k' = KFunctionExpression -> forall op, exists o e2,
              with_expression op f g = ret_expression (op o (ex f) e2) /\
              vc_ok o f (ex f) /\ (e2 = ex g \/ e2 = to_expression g)).
  { intros -> op. destruct (with_expression_ex op f g Fg) as (o & E & V). eauto 8. }
  destruct m; try congruence; destruct k; try discriminate Ht; destruct k'; try discriminate Ht;
    first [ apply (A compose) | apply (A concat_) | apply (A add) | apply (A sub) | apply (A mul)
          | apply (B eq_refl compose) | apply (B eq_refl concat_) | apply (B eq_refl add)
          | apply (B eq_refl sub) | apply (B eq_refl mul) ].
Qed.
Lemma py_binary_dot dbg k f k' g : py_binary dbg Mdot (PF k f) (PF k' g) = make_dot dbg f g.
Proof. destruct k; destruct k'; reflexivity. Qed.
Lemma py_binary_reject dbg m k f k' g : takesb m k k' = false ->
  py_binary dbg m (PF k f) (PF k' g) = @Throw (pobj R) TypeError.
Proof. destruct m; destruct k; destruct k'; intros E; try discriminate E; reflexivity. Qed.

(** the C++ operators raise nothing but invalid_argument *)
Lemma cop_outcome m o e1 e2 : (exists r, cop m o e1 e2 = Ok r) \/ cop m o e1 e2 = Throw InvalidArgument.
Proof.
  destruct m; cbn [cop].
  - left; eauto.
  - destruct (Nat.ltb_spec 1 (ecod e2)); [right; now apply compose_rejects|left; apply compose_accepts; lia].
  - destruct (concat_throw e1 e2) as [[]|x|] eqn:E.
    + left. unfold concat_. rewrite E. cbn [bind]. destruct o; eauto; destruct (ftype_eqb (ety e1) CONCATENATION); eauto.
    + right. unfold concat_. rewrite E. cbn [bind]. unfold concat_throw in E.
      destruct (negb (Nat.eqb (ecod e1) (ecod e2))); [congruence|].
      match type of E with (if ?b then _ else _) = _ => destruct b end; congruence.
    + unfold concat_throw in E. destruct (negb (Nat.eqb (ecod e1) (ecod e2))); [congruence|].
      match type of E with (if ?b then _ else _) = _ => destruct b end; congruence.
  - unfold add, sum_throw. destruct (same_domain (edom e1) (edom e2)); cbn; auto.
    destruct (Nat.eqb (ecod e1) (ecod e2)); cbn; eauto.
  - unfold sub, add, sum_throw. cbn [neg edom ecod].
    destruct (same_domain (edom e1) (edom e2)); cbn; auto.
    destruct (Nat.eqb (ecod e1) (ecod e2)); destruct o; cbn; eauto.
  - unfold mul, compatibility_mul. destruct (same_domain (edom e1) (edom e2)); cbn; auto.
    match goal with |- context [if ?b then Throw _ else _] => destruct b end; cbn; auto.
    destruct o; eauto.
Qed.

Lemma cop_accepts m o e1 e2 : m <> Mdot ->
  ((exists r, cop m o e1 e2 = Ok r) <-> compatible m (edom e1) (edom e2) (ecod e1) (ecod e2)).
Proof.
  intros Hm. destruct m; cbn [cop compatible]; try congruence.
  - apply compose_accepts.
  - apply concat_accepts.
  - apply add_accepts.
  - apply sub_accepts.
  - apply mul_accepts.
Qed.

Lemma cop_domain m o e1 e2 r f : vc_ok o f e1 -> m <> Mdot -> cop m o e1 e2 = Ok r ->
  result_domain m (edom e1) (edom e2) (edom r).
Proof.
  intros [_ V] Hm E. destruct m; try congruence; cbn [cop result_domain] in *.
  - unfold compose in E. apply bind_ok in E. destruct E as (u & _ & E).
    destruct V as [ -> | [ -> | V]]; try (inversion E; reflexivity).
    rewrite V in E. destruct o; inversion E; reflexivity.
  - unfold concat_ in E. apply bind_ok in E. destruct E as (u & _ & E).
    destruct V as [ -> | [ -> | V]]; try (inversion E; reflexivity).
    rewrite V in E. destruct o; inversion E; reflexivity.
  - unfold add in E. apply bind_ok in E. destruct E as (u & _ & E). inversion E; reflexivity.
  - unfold sub in E. apply bind_ok in E. destruct E as (u & _ & E). unfold add in E.
    destruct o; apply bind_ok in E; destruct E as (u' & _ & E); inversion E; reflexivity.
  - unfold mul in E. apply bind_ok in E. destruct E as (u & _ & E). unfold first_or_max in E.
    destruct o; inversion E; cbn [edom]; auto.
    destruct (Nat.leb (ecod e2) (ecod e1)); auto.
Qed.

Lemma to_expression_dom (f : fn R) : edom (to_expression f) = fdom f. Proof. reflexivity. Qed.
Lemma to_expression_cod (f : fn R) : ecod (to_expression f) = fcod f. Proof. reflexivity. Qed.

(** ** acceptance *)
Theorem py_takes dbg m k f k' g : fits k f -> fits k' g -> m <> Mdot ->
  (takes m k k' ->
     ((exists r, py_binary dbg m (PF k f) (PF k' g) = Ok r) <->
        compatible m (fdom f) (fdom g) (fcod f) (fcod g)) /\
     ((exists r, py_binary dbg m (PF k f) (PF k' g) = Ok r) \/
        py_binary dbg m (PF k f) (PF k' g) = Throw InvalidArgument)) /\
  (~ takes m k k' -> py_binary dbg m (PF k f) (PF k' g) = Throw TypeError).
Proof.
  intros Ff Fg Hm. split; intros Ht.
  - apply takesb_ok in Ht.
    destruct (py_binary_dispatch dbg m k f k' g Fg Hm Ht) as (o & e2 & E & V & E2).
    rewrite E.
    assert (D2 : edom e2 = fdom g) by (destruct E2 as [-> | ->]; [apply ex_dom|reflexivity]).
    assert (C2 : ecod e2 = fcod g) by (destruct E2 as [-> | ->]; [apply ex_cod|reflexivity]).
    pose proof (cop_accepts m o (ex f) e2 Hm) as X. rewrite ex_dom, ex_cod, D2, C2 in X.
    split.
    + rewrite <- X. split; intros [r Er].
      * unfold ret_expression in Er. apply bind_ok in Er. destruct Er as (e & Er & _). eauto.
      * rewrite Er. cbn [ret_expression bind]. eauto.
    + destruct (cop_outcome m o (ex f) e2) as [[r Er]|Er]; rewrite Er; cbn [ret_expression bind]; eauto.
  - apply py_binary_reject. destruct (takesb m k k') eqn:E; auto. apply takesb_ok in E. tauto.
Qed.

(** ** domains *)
Theorem py_result_domain dbg m k f k' g r : fits k f -> fits k' g ->
  py_binary dbg m (PF k f) (PF k' g) = Ok r ->
  exists d, py_domain r = Some d /\ result_domain m (fdom f) (fdom g) d.
Proof.
  intros Ff Fg E. destruct (takesb m k k') eqn:Ht.
  2:{ rewrite py_binary_reject in E by auto. discriminate. }
  assert (Hm : m = Mdot \/ m <> Mdot) by (destruct m; auto; right; discriminate).
  destruct Hm as [-> |Hm].
  - rewrite py_binary_dot in E. unfold make_dot in E.
    match type of E with (if ?b then _ else _) = _ => destruct b end; [discriminate|].
    inversion E; subst r. eexists. split; reflexivity.
  - destruct (py_binary_dispatch dbg m k f k' g Fg Hm Ht) as (o & e2 & E' & V & E2).
    rewrite E' in E. unfold ret_expression in E. apply bind_ok in E. destruct E as (e & Ee & Er).
    inversion Er; subst r. exists (edom e). split; [reflexivity|].
    assert (D2 : edom e2 = fdom g) by (destruct E2 as [-> | ->]; [apply ex_dom|reflexivity]).
    pose proof (cop_domain m o (ex f) e2 e f V Hm Ee) as X. now rewrite ex_dom, D2 in X.
Qed.

(** ** values *)
Definition pinv (s : bool) (a : pobj R) (F : R -> list R) : Prop :=
  exists k f, a = PF k f /\ fits k f /\ k <> KFunctionBase /\ k <> KGSplineBase /\
    (k = KGSpline -> exists d c sp n, f = FExt d c sp n) /\
    cinv (ex f) /\ wf f /\ (s = true -> sm f) /\ forall t, den f t = F t.

Lemma pinv_expr s e F : cinv e -> (s = true -> sm (fe e)) -> (forall t, den (fe e) t = F t) ->
  pinv s (PF KFunctionExpression (fe e)) F.
Proof.
  intros K M D. exists KFunctionExpression, (fe e). split; auto. split; [reflexivity|].
  split; [discriminate|]. split; [discriminate|]. split; [discriminate|].
  split; [destruct e; exact K|]. split; [apply K|auto].
Qed.
Lemma ex_den f t : wf f -> den (fe (ex f)) t = den f t.
Proof. intros W. destruct f; try reflexivity. Qed.
Lemma to_cinv f : cinv (ex f) -> wf f -> cinv (to_expression f).
Proof.
  intros (W & P & _) Wf. apply not_concat_cinv; [apply to_expression_ok; auto| |discriminate].
  rewrite ex_cod in P. exact P.
Qed.
Lemma to_sm (f : fn R) : sm f -> sm (fe (to_expression f)).
Proof. intros S. unfold fe; cbn [to_expression ety edom ecod eargs]. apply sm_expr; [discriminate|auto]. Qed.
Lemma ex_sm f : sm f -> sm (fe (ex f)).
Proof. intros M. destruct f; first [exact M | apply to_sm; exact M]. Qed.
Lemma second_operand e2 g : cinv (ex g) -> wf g -> (e2 = ex g \/ e2 = to_expression g) ->
  cinv e2 /\ (forall t, den (fe e2) t = den g t) /\ edom e2 = fdom g /\ ecod e2 = fcod g /\
  (sm g -> sm (fe e2)).
Proof.
  intros K W [-> | ->].
  - split; auto. split; [intros; apply ex_den; auto|]. split; [apply ex_dom|]. split; [apply ex_cod|apply ex_sm].
  - split; [apply to_cinv; auto|]. split; [intros; apply to_expression_ok; auto|]. split; [reflexivity|].
    split; [reflexivity|apply to_sm].
Qed.

Lemma plain_ex k f : fits k f -> kind_of k = Plain -> ex f = to_expression f.
Proof. destruct f; simpl; intros E K; try reflexivity. subst k. discriminate. Qed.

Lemma leaf_sm_cpp d l : leaf_ok l -> leaf_smooth l /\ ~ is_py l -> sm (leaf_fn d l).
Proof.
  intros A [B C]. pose proof (leaf_sm d l A B) as K. destruct l; try exact K. exfalso; apply C; exact I.
Qed.
Lemma fits_leaf d l : fits (leaf_class l) (leaf_fn d l).
Proof. destruct l; simpl; discriminate. Qed.
Lemma ex_leaf d l : ex (leaf_fn d l) = to_expression (leaf_fn d l).
Proof. destruct l; reflexivity. Qed.

Lemma make_dot_inv dbg s f g F G r : cinv (ex f) -> cinv (ex g) -> wf f -> wf g ->
  (s = true -> sm f) -> (s = true -> sm g) -> (s = true -> close (fdom f) (fdom g)) ->
  (forall t, den f t = F t) -> (forall t, den g t = G t) -> fcod f = fcod g ->
  make_dot dbg f g = Ok r -> pinv s r (fun t => [inner (F t) (G t)]).
Proof.
  intros Kf Kg Wf Wg Sf Sg Cl Df Dg C E. unfold make_dot in E.
  match type of E with (if ?b then _ else _) = _ => destruct b end; [discriminate|].
  inversion E; subst r; clear E.
  destruct (to_expression_ok _ Wf) as [Tf Ef]. destruct (to_expression_ok _ Wg) as [Tg Eg].
  assert (W : wf (dot LL f g)).
  { unfold dot; cbn [wf]; (split; [|split]); auto. }
  exists KDotProduct, (dot LL f g). split; auto. split; [discriminate|].
  split; [discriminate|]. split; [discriminate|]. split; [discriminate|]. split; [|split; [auto|split]].
  - cbn [ex dot]. apply not_concat_cinv; [apply to_expression_ok; exact W|simpl; lia|discriminate].
  - intros Hs. cbn [dot smp]. split; [apply to_sm; auto|]. split; [apply to_sm; auto|].
    split; [reflexivity|]. split; [reflexivity|]. apply same_domain_close. exact (Cl Hs).
  - intros t. cbn [dot den]. rewrite row_dot_inner. rewrite <- Df, <- Dg. reflexivity.
Qed.

(** derivatives are unique *)
Lemma nth_derivative_unique k : forall F G G', nth_derivative k F G -> nth_derivative k F G' ->
  forall t, G t = G' t.
Proof.
  intros F G G' N N' t.
  pose proof (nth_derivative_is_derive_n k F G N t) as X.
  pose proof (nth_derivative_is_derive_n k F G' N' t) as X'.
  apply is_derive_n_unique in X. apply is_derive_n_unique in X'. congruence.
Qed.

(** the derivative of an expression is an expression *)
Definition is_expr (f : fn R) : Prop := match f with FExpr _ _ _ _ => True | _ => False end.
Lemma deriv1_expr dbg f g : is_expr f -> deriv1 dbg f = Ok g -> is_expr g.
Proof.
  destruct f; simpl is_expr; try tauto. intros _ E. cbn [deriv1] in E. destruct args as [|g0 rest]; [discriminate|].
  destruct ty; try (apply bind_ok in E; destruct E as (? & _ & E); inversion E; exact I);
    (match type of E with (if ?b then _ else _) = _ => destruct b end; [discriminate|]);
    apply bind_ok in E; destruct E as (? & _ & E); inversion E; exact I.
Qed.
Lemma iter_deriv1_expr dbg k : forall f g, is_expr f -> iter_deriv1 dbg k f = Ok g -> is_expr g.
Proof.
  induction k; cbn [iter_deriv1]; intros f g F E; [inversion E; subst; auto|].
  apply bind_ok in E. destruct E as (h & E1 & E2). apply (deriv1_expr dbg h); auto. eapply IHk; eauto.
Qed.
Lemma deriv_expr dbg k f g : is_expr f -> deriv dbg f k = Ok g -> is_expr g.
Proof.
  destruct f; simpl is_expr; try tauto. intros _ E. cbn [deriv] in E. destruct args as [|g0 rest]; [discriminate|].
  destruct ty; try (apply bind_ok in E; destruct E as (? & _ & E); inversion E; exact I);
    try (destruct k as [|k]; [inversion E; exact I|]; apply bind_ok in E; destruct E as (h & E1 & E2);
         apply (iter_deriv1_expr dbg k h); auto; eapply deriv1_expr; [|exact E1]; exact I);
    (match type of E with (if ?b then _ else _) = _ => destruct b end; [discriminate|]);
    apply bind_ok in E; destruct E as (? & _ & E); inversion E; exact I.
Qed.

(** what deriv returns *)
Lemma py_deriv_ok dbg k a F : pinv true a F -> exists r f g,
  py_deriv dbg a k = Some (Ok r) /\ py_codom a = Some (fcod f) /\ (forall t, den f t = F t) /\
  nderived k f g /\ pinv true r (den g).
Proof.
  intros (c & f & -> & Ff & N1 & N2 & GS & Kf & Wf & Sf & Df). specialize (Sf eq_refl).
  destruct (deriv_ok False dbg k f Wf Sf ltac:(tauto)) as (g & Eg & Ng).
  pose proof Ng as (Wg & Sg & Cg & Dg).
  assert (PC : (1 <= fcod f)%nat) by (destruct Kf as (_ & P & _); now rewrite ex_cod in P).
  destruct (isinstance c KFunctionExpression) eqn:E1.
  { exists (PF KFunctionExpression g), f, g.
    split; [cbn [py_deriv]; rewrite E1, Eg; reflexivity|].
    split; [reflexivity|]. split; [auto|]. split; [auto|].
    assert (IE : is_expr g).
    { apply (deriv_expr dbg k f g); auto. destruct f; simpl in Ff; try exact I; destruct c; try discriminate E1; congruence. }
    destruct g as [| | | | | | | | |ty d n args]; try contradiction IE.
    apply (pinv_expr true (mkexpr ty d n args)); auto.
    apply not_concat_cinv; auto; [simpl in Cg; simpl; lia|]. simpl. intros ->. exact Sg. }
  destruct (isinstance c KFunction) eqn:E2.
  { exists (PF KFunctionExpression (FExpr UNIQUE (fdom f) (fcod f) [g])), f, g.
    split.
    { cbn [py_deriv]; rewrite E1, E2. unfold fe, to_expression; cbn [ety edom ecod eargs].
      cbn [deriv length Nat.eqb negb]. rewrite andb_false_r, Eg. reflexivity. }
    split; [reflexivity|]. split; [auto|]. split; [auto|].
    apply (pinv_expr true (mkexpr UNIQUE (fdom f) (fcod f) [g])).
    - apply not_concat_cinv; [|exact PC|discriminate]. unfold fe; cbn [ety edom ecod eargs wf].
      split; [split; [auto|exact I]|]. eauto.
    - intros _. apply sm_expr; [discriminate|]. constructor; [exact Sg|constructor].
    - reflexivity. }
  assert (c = KGSpline) by (destruct c; try reflexivity; try discriminate E1; try discriminate E2; congruence).
  subst c.
  destruct (GS eq_refl) as (d & c & sp & n & ->). cbn [deriv] in Eg. inversion Eg; subst g; clear Eg.
  exists (PF KGSpline (FExt d c sp (n + k))), (FExt d c sp n), (FExt d c sp (n + k)).
  split; [reflexivity|]. split; [reflexivity|]. split; [auto|]. split; [auto|].
  exists KGSpline, (FExt d c sp (n + k)). split; auto. split; [discriminate|]. split; [discriminate|].
  split; [discriminate|]. split; [eauto|]. split; [|auto].
  cbn [ex]. apply not_concat_cinv; [apply to_expression_ok; auto|exact PC|discriminate].
Qed.

Theorem pymeans_inv dbg s a F : pymeans dbg s a F -> pinv s a F.
Proof.
  assert (BIN : forall m s a b r F G, m <> Mdot -> pinv s a F -> pinv s b G -> py_binary dbg m a b = Ok r ->
    exists o e1 e2 e, cop m o e1 e2 = Ok e /\ r = PF KFunctionExpression (fe e) /\
      cinv e1 /\ cinv e2 /\ (forall t, den (fe e1) t = F t) /\ (forall t, den (fe e2) t = G t) /\
      (s = true -> sm (fe e1)) /\ (s = true -> sm (fe e2)) /\
      Some (edom e1) = py_domain a /\ Some (edom e2) = py_domain b /\
      result_domain m (edom e1) (edom e2) (edom e) /\
      (plain b -> exists g, e2 = to_expression g /\ wf g /\ (s = true -> sm g) /\ forall t, den g t = G t)).
  { intros m s0 a0 b0 r0 F0 G0 Hm (k & f & -> & Ff & _ & _ & _ & Kf & Wf & Sf & Df)
      (k' & g & -> & Fg & _ & _ & _ & Kg & Wg & Sg & Dg) E.
    destruct (takesb m k k') eqn:Ht.
    2:{ rewrite py_binary_reject in E by auto. discriminate. }
    destruct (py_binary_dispatch dbg m k f k' g Fg Hm Ht) as (o & e2 & E' & V & E2).
    rewrite E' in E. unfold ret_expression in E. apply bind_ok in E. destruct E as (e & Ee & Er).
    destruct (second_operand e2 g Kg Wg E2) as (K2 & D2 & Dm2 & C2 & S2).
    exists o, (ex f), e2, e. split; auto. split; [congruence|]. split; auto. split; auto.
    split; [intros t; rewrite ex_den; auto|]. split; [intros t; rewrite D2; auto|].
    split; [intros Hs; apply ex_sm; auto|]. split; [auto|].
    split; [cbn; now rewrite ex_dom|]. split; [cbn; now rewrite Dm2|].
    split; [eapply cop_domain; eauto|].
    intros P. exists g. split; auto. simpl in P. destruct E2 as [-> | ->]; auto. eapply plain_ex; eauto. }
  induction 1 as [s d l L LS | s d c C | s a b r F G Ma IHa Mb IHb E | s a b r F G Ma IHa Mb IHb P E
    | s a b r F G Ma IHa Mb IHb E | s a r F Ma IHa P E | s a b r F G Ma IHa Mb IHb E
    | s a b r F G Ma IHa Mb IHb Hc Hd E | s a b r F G Ma IHa Mb IHb Hc Hd E
    | s a b r F G d1 d2 Hs Ma IHa Mb IHb E D1 D2 AB L1 L2
    | s k a r F G c Ma IHa E Hc HL HN].
  - exists (leaf_class l), (leaf_fn d l). split; auto. split; [apply fits_leaf|].
    split; [destruct l; discriminate|]. split; [destruct l; discriminate|].
    split; [destruct l; try discriminate; simpl; eauto|].
    split; [|split; [apply leaf_wf; auto|split; [intros Hs; apply leaf_sm_cpp; auto|intros; apply leaf_den]]].
    rewrite ex_leaf. apply not_concat_cinv; [apply to_expression_ok, leaf_wf; auto| |discriminate].
    simpl. rewrite leaf_cod. apply leaf_pos; auto.
  - assert (Wc : wf (const_function d c 0)) by exact I.
    assert (Cc : fcod (const_function d c 0) = c) by (simpl; apply repeat_length).
    unfold py_zero. change (FExpr UNIQUE d c [const_function d c n0]) with (fe (mkexpr UNIQUE d c [const_function d c 0])).
    apply pinv_expr.
    + apply not_concat_cinv; [|exact C|discriminate]. simpl. split; [split; exact I|].
      eexists. split; [reflexivity|]. exact Cc.
    + intros _. simpl. auto.
    + intros t. simpl. rewrite ?map_repeat. f_equal; ring.
  - destruct (BIN Madd s a b r F G ltac:(discriminate) IHa IHb E)
      as (o & e1 & e2 & e & Ec & -> & K1 & K2 & D1 & D2 & S1 & S2 & _).
    cbn [cop] in Ec. pose proof Ec as Ec'. destruct K1 as (W1 & P1 & _). destruct K2 as (W2 & P2 & _).
    apply add_ok in Ec; auto. destruct Ec as (W & C & C' & D). apply pinv_expr.
    + apply not_concat_cinv; auto; [lia|].
      unfold add in Ec'. apply bind_ok in Ec'. destruct Ec' as ([] & _ & Ec'). inversion Ec'; discriminate.
    + intros Hs. eapply add_sm; [apply S1|apply S2|exact Ec']; auto.
    + intros t. rewrite D, D1, D2. symmetry. apply zip_with_map2.
  - destruct (BIN Msub s a b r F G ltac:(discriminate) IHa IHb E)
      as (o & e1 & e2 & e & Ec & -> & K1 & K2 & D1 & D2 & S1 & S2 & _ & _ & _ & X).
    destruct (X P) as (g & -> & Wg & Sg & Dg). destruct K1 as (W1 & P1 & _).
    cbn [cop] in Ec. unfold sub in Ec. apply bind_ok in Ec. destruct Ec as ([] & _ & Ec).
    assert (Y : exists o', add o' e1 (neg (to_expression g)) = Ok e) by (destruct o; eauto).
    destruct Y as [o' Y]. clear Ec.
    destruct (neg_ok (fdom g) (fcod g) g Wg eq_refl) as [Wn Dn].
    pose proof Y as Y'. apply add_ok in Y; auto. destruct Y as (W & C & C' & D). apply pinv_expr.
    + apply not_concat_cinv; auto; [lia|].
      unfold add in Y'. apply bind_ok in Y'. destruct Y' as ([] & _ & Y'). inversion Y'; discriminate.
    + intros Hs. eapply add_sm; [apply S1| |exact Y']; auto.
    + intros t. rewrite D, D1. unfold to_expression. rewrite Dn, Dg. apply vadd_neg.
  - destruct (BIN Mmul s a b r F G ltac:(discriminate) IHa IHb E)
      as (o & e1 & e2 & e & Ec & -> & K1 & K2 & D1 & D2 & S1 & S2 & _).
    cbn [cop] in Ec. pose proof Ec as Ec'. destruct K1 as (W1 & P1 & _). destruct K2 as (W2 & P2 & _).
    apply mul_ok in Ec; auto. destruct Ec as (W & C & D). apply pinv_expr.
    + apply not_concat_cinv; auto; [lia|].
      unfold mul in Ec'. apply bind_ok in Ec'. destruct Ec' as ([] & _ & Ec'). destruct o; inversion Ec'; discriminate.
    + intros Hs. eapply mul_sm; [apply S1|apply S2|exact Ec']; auto.
    + intros t. now rewrite D, D1, D2.
  - destruct IHa as (k & f & -> & Ff & _ & _ & _ & Kf & Wf & Sf & Df). simpl in P. cbn [py_neg] in E.
    assert (X : r = PF KFunctionExpression (fe (neg (to_expression f)))).
    { match type of E with (if ?b then _ else _) = _ => destruct b end; [|discriminate].
      destruct f; try congruence. simpl in Ff. subst k. discriminate. }
    subst r. clear E. destruct (neg_ok (fdom f) (fcod f) f Wf eq_refl) as [Wn Dn]. apply pinv_expr.
    + apply not_concat_cinv; [exact Wn| |discriminate]. destruct Kf as (_ & P1 & _). rewrite ex_cod in P1. exact P1.
    + intros Hs. simpl. split; auto.
    + intros t. unfold to_expression. rewrite Dn, Df. reflexivity.
  - destruct (BIN Mcompose s a b r F G ltac:(discriminate) IHa IHb E)
      as (o & e1 & e2 & e & Ec & -> & K1 & K2 & D1 & D2 & S1 & S2 & _).
    cbn [cop] in Ec. pose proof Ec as Ec'. destruct K1 as (W1 & P1 & _). destruct K2 as (W2 & P2 & _).
    apply compose_ok in Ec; auto. destruct Ec as (W & C & C' & D). apply pinv_expr.
    + apply not_concat_cinv; auto; [lia|].
      unfold compose in Ec'. apply bind_ok in Ec'. destruct Ec' as ([] & _ & Ec').
      destruct o; try (inversion Ec'; discriminate); destruct (ftype_eqb (ety e1) COMPOSITION); inversion Ec'; discriminate.
    + intros Hs. eapply compose_sm; [apply S1|apply S2|exact Ec']; auto.
    + intros t. rewrite D, D1, D2. f_equal. unfold first_comp. destruct (G t); reflexivity.
  - destruct IHa as (k & f & -> & Ff & _ & _ & _ & Kf & Wf & Sf & Df).
    destruct IHb as (k' & g & -> & Fg & _ & _ & _ & Kg & Wg & Sg & Dg).
    rewrite py_binary_dot in E. simpl in Hc. inversion Hc.
    apply (make_dot_inv dbg s f g F G r); auto.
    intros Hs. destruct (Hd Hs) as (d1 & d2 & X1 & X2 & X3). simpl in X1, X2. congruence.
  - destruct IHa as (k & f & -> & Ff & _ & _ & _ & Kf & Wf & Sf & Df).
    destruct IHb as (k' & g & -> & Fg & _ & _ & _ & Kg & Wg & Sg & Dg).
    simpl in Hc. inversion Hc. cbn [py_new_dot] in E.
    match type of E with (if ?b then _ else _) = _ => destruct b end; [|discriminate].
    apply (make_dot_inv dbg s f g F G r); auto.
    intros Hs. destruct (Hd Hs) as (d1 & d2 & X1 & X2 & X3). simpl in X1, X2. congruence.
  - destruct (BIN Mconcat s a b r F G ltac:(discriminate) IHa IHb E)
      as (o & e1 & e2 & e & Ec & -> & K1 & K2 & V1 & V2 & S1 & S2 & Da & Db & RD & _).
    cbn [cop result_domain] in *. rewrite D1 in Da. rewrite D2 in Db. inversion Da. inversion Db. subst d1 d2.
    destruct (concat_ok o e1 e2 e K1 K2 Ec AB L1 L2 RD) as [K D]. apply pinv_expr; auto; [congruence|].
    intros t. rewrite D. apply piecewise_ext; auto.
  - destruct (py_deriv_ok dbg k a F IHa) as (r' & f & g & E' & Cf & Df & (Wg & Sg & Cg & Ng) & PI).
    rewrite E' in E. inversion E; subst r'. rewrite Cf in Hc. inversion Hc. subst c.
    assert (EQ : forall t, den g t = G t).
    { intros t. apply (nth_ext _ _ 0 0).
      - rewrite HL. rewrite den_length; auto.
      - intros j _. revert t.
        apply (nth_derivative_unique k (fun t => nth j (F t) 0) (fun t => nth j (den g t) 0) (fun t => nth j (G t) 0)).
        + eapply nth_derivative_ext; [| |apply (Ng j)]; intros; cbn beta; rewrite ?Df; reflexivity.
        + apply HN. }
    destruct PI as (c & h & -> & P1 & P2 & P3 & P4 & P5 & P6 & P7 & P8).
    exists c, h. repeat (split; auto). intros t. rewrite P8. apply EQ.
Qed.

Theorem pymeans_value dbg s a F pts : pymeans dbg s a F -> py_call dbg a pts = Ok (map F pts).
Proof.
  intros M. destruct (pymeans_inv dbg s a F M) as (k & f & -> & Ff & _ & _ & _ & Kf & Wf & Sf & Df).
  cbn [py_call]. unfold call. rewrite (eval_den dbg _ Wf). f_equal. apply map_ext. auto.
Qed.
Theorem pymeans_fits dbg s a F : pymeans dbg s a F -> exists k f, a = PF k f /\ fits k f.
Proof. intros M. destruct (pymeans_inv dbg s a F M) as (k & f & -> & Ff & _). eauto. Qed.

Theorem pymeans_deriv dbg k a F : pymeans dbg true a F -> exists r G,
  py_deriv dbg a k = Some (Ok r) /\ (forall pts, py_call dbg r pts = Ok (map G pts)) /\
  py_codom r = py_codom a /\
  (forall t, Some (length (G t)) = py_codom a) /\
  forall j, nth_derivative k (fun t => nth j (F t) 0) (fun t => nth j (G t) 0).
Proof.
  intros M. apply pymeans_inv in M.
  destruct (py_deriv_ok dbg k a F M) as (r & f & g & E & Cf & Df & (Wg & Sg & Cg & Ng) & PI).
  exists r, (den g). split; auto. destruct PI as (c & h & -> & P1 & P2 & P3 & P4 & P5 & P6 & P7 & P8).
  split; [|split; [|split]].
  - intros pts. cbn [py_call]. unfold call. rewrite (eval_den dbg _ P6). f_equal. apply map_ext. auto.
  - rewrite Cf. cbn [py_codom]. f_equal. rewrite <- Cg.
    transitivity (length (den g 0)); [|apply den_length; auto]. rewrite <- P8. symmetry. apply den_length; auto.
  - intros t. rewrite Cf, <- Cg. f_equal. apply den_length; auto.
  - intros j. eapply nth_derivative_ext; [| |apply (Ng j)]; intros; cbn beta; rewrite ?Df; reflexivity.
Qed.
