(** C90: the integral of the squared norm of a path along a reparametrisation. *)
From Coquelicot Require Import Coquelicot.
From Coq Require Import List Arith Bool Reals Lia Lra.
From Verif Require Import Num Outcome LinAlg RSum RDeriv RPoly LegendreSpec SplineSpec BasisFn GSplineModel GSplineProofs GSplineProofs2 GSplineProofs6 GSplineProps FunModel FunSpec FunProofs FunProofs2 FunDeriv FunDeriv2 FunConcat FunProofs3 FunProps
  GSplineModel GLModel GLSpec GLProofs GLProps GLLModel GLLProofs QuadSpec QuadMath LobattoRoots IntegralModel IntegralProofs IntegralProps GLConvProps2 PathIntModel.
Import ListNotations.
Local Open Scope R_scope.

(** what is integrated: |path(diffeo(t))|^2 *)
Definition speed2 (d p : prog) (t : R) : R := inner (psem p (first_comp (psem d t))) (psem p (first_comp (psem d t))).

Lemma path_expr d p ed ep : prog_ok d -> build d = Ok ed -> prog_ok p -> build p = Ok ep -> pcod d = 1%nat ->
  exists e, compose FunModel.RR (to_expression (dot FunModel.LL (fe ep) (fe ep))) (to_expression (fe ed)) = Ok e /\ wf (fe e) /\ edom e = edom ed /\ ecod e = 1%nat /\
  forall t, den (fe e) t = [speed2 d p t].
Proof.
  intros Hd Bd Hp Bp C. destruct (build_ok d Hd ed Bd) as (Wd & Cd & _ & Dd). destruct (build_ok p Hp ep Bp) as (Wp & Cp & _ & Dp).
  set (this := to_expression (dot FunModel.LL (fe ep) (fe ep))). set (that := to_expression (fe ed)).
  assert (W1 : wf (fe this)). { apply to_expression_ok. cbn [dot wf]. destruct (to_expression_ok (fe ep) Wp) as (A & _). split; [exact A|]. split; [exact A|]. reflexivity. }
  assert (W2 : wf (fe that)) by (apply to_expression_ok; exact Wd). assert (Ct : ecod that = 1%nat) by (cbn; congruence).
  assert (E : exists e, compose FunModel.RR this that = Ok e /\ edom e = edom ed). { unfold compose, comp_throw. rewrite Ct. cbn. eexists. split; reflexivity. }
  destruct E as (e & E & De). exists e. split; [exact E|]. destruct (compose_ok FunModel.RR this that e W1 W2 ltac:(lia) E) as (W & Ce & _ & Dn). split; [exact W|]. split; [exact De|]. split; [rewrite Ce; reflexivity|].
  intros t. rewrite Dn. destruct (to_expression_ok (dot FunModel.LL (fe ep) (fe ep)) (proj2 (proj2 (conj I (conj I (proj1 (proj1 W1))))))) as (_ & Q). unfold this. rewrite Q. cbn [dot den]. rewrite row_dot_inner.
  destruct (to_expression_ok (fe ep) Wp) as (_ & Q1). rewrite !Q1, !Dp. destruct (to_expression_ok (fe ed) Wd) as (_ & Q2). unfold that. rewrite Q2, Dd. unfold speed2, first_comp, vhd. destruct (psem d t); reflexivity.
Qed.
(** It is the ten-point quadrature of |path(diffeo(t))|^2 over the domain of the reparametrisation; the derivative of the
    reparametrisation is not a factor. *)
Theorem C90_value dbg d p ed ep pts w x wf : prog_ok d -> build d = Ok ed -> prog_ok p -> build p = Ok ep -> pcod d = 1%nat ->
  gl_points_weights 10 = Ok (pts, w) -> vec_is pts 10 x -> vec_is w 10 wf ->
  path_integral dbg (fe ed) (fe ep) = Ok (quad 10 1 x wf (fst (edom ed)) (snd (edom ed)) (speed2 d p)).
Proof.
  intros Hd Bd Hp Bp C E X W. destruct (path_expr d p ed ep Hd Bd Hp Bp C) as (e & Ee & We & De & Ce & Dn). unfold path_integral. rewrite Ee. cbn [bind].
  rewrite (integral_ok dbg (fo_of_fn dbg (fe e)) (fun cc t => nth cc (den (fe e) t) 0) 10 1 pts x w wf); auto.
  - cbn [fo_of_fn fo_dom fdom fe]. rewrite De. f_equal. apply quad_ext. intros t. change (FExpr (ety e) (edom e) (ecod e) (eargs e)) with (fe e). rewrite Dn. reflexivity.
  - apply computes_pointwise. apply computes_den. exact We.
Qed.
(** For a Lipschitz integrand the result is within the stated distance of the integral. *)
Theorem C90_error dbg d p ed ep K B v : prog_ok d -> build d = Ok ed -> prog_ok p -> build p = Ok ep -> pcod d = 1%nat ->
  let a := fst (edom ed) in let b := snd (edom ed) in let e := 1 / 20000000 in a <= b ->
  (forall s t, a <= s <= b -> a <= t <= b -> Rabs (speed2 d p s - speed2 d p t) <= K * Rabs (s - t)) -> (forall s, a <= s <= b -> Rabs (speed2 d p s) <= B) ->
  is_RInt (speed2 d p) a b v ->
  exists q, path_integral dbg (fe ed) (fe ep) = Ok q /\ Rabs (q - v) <= K * (b - a) ^ 2 + (b - a) * (B * e ^ 6 + K * ((b - a) / 2) * e ^ 3).
Proof.
  intros Hd Bd Hp Bp C a b e Hab Lip Bnd HI. destruct (path_expr d p ed ep Hd Bd Hp Bp C) as (ex & Ee & We & De & Ce & Dn). unfold path_integral. rewrite Ee. cbn [bind].
  assert (P : pointwise (fo_of_fn dbg (fe ex)) (fun cc t => nth cc (den (fe ex) t) 0)) by (apply computes_pointwise; apply computes_den; exact We).
  pose proof (C46_error_all dbg (fo_of_fn dbg (fe ex)) _ 10 1 K B v Ce P ltac:(lia) ltac:(lia)) as Q. cbv zeta in Q. cbn [fo_of_fn fo_dom fdom fe] in Q. rewrite De in Q. fold a b in Q.
  replace (INR 10) with 10 in Q by (simpl; lra). replace (INR 1) with 1 in Q by reflexivity. replace (10 ^ 2 / 2000000000) with e in Q by (unfold e; field). change (FExpr (ety ex) (edom ex) (ecod ex) (eargs ex)) with (fe ex) in Q.
  destruct Q as (q & Eq & Bq).
  - exact Hab.
  - unfold e; lra.
  - intros s t Hs Hu. rewrite !Dn. apply Lip; auto.
  - intros s Hs. rewrite Dn. apply Bnd; auto.
  - apply (is_RInt_ext (speed2 d p)); [intros t _; rewrite Dn; reflexivity|exact HI].
  - exists q. split; [exact Eq|]. replace (K * (b - a) ^ 2 / 1) with (K * (b - a) ^ 2) in Bq by field. replace ((b - a) / 1 / 2) with ((b - a) / 2) in Bq by field. exact Bq.
Qed.
(** a reparametrisation with more than one component is refused *)
Theorem C90_refusal : forall T (HN : Num T) dbg (diffeo path : fn T), (1 < fcod diffeo)%nat -> path_integral dbg diffeo path = Throw InvalidArgument.
Proof. intros T HN dbg diffeo path C. unfold path_integral, compose, comp_throw. cbn [ecod to_expression]. destruct (Nat.ltb_spec 1 (fcod diffeo)); [reflexivity|lia]. Qed.

(** ** Cases *)
Definition one_path : prog := PLeaf (0, 2) (LConst [1]).
Lemma leaf_built dm l : leaf_ok l -> prog_ok (PLeaf dm l) /\ build (PLeaf dm l) = Ok (to_expression (leaf_fn dm l)).
Proof. intros H. split; [exact H|reflexivity]. Qed.
Lemma one_speed d t : speed2 d one_path t = 1.
Proof. unfold speed2, one_path. cbn. unfold inner. cbn. ring. Qed.
Lemma one_value dbg b k : 0 < b -> exists q, path_integral dbg (fe (to_expression (leaf_fn (0, b) (LDil k)))) (fe (to_expression (leaf_fn (0, 2) (LConst [1])))) = Ok q /\ Rabs (q - b) <= b * (1 / 20000000) ^ 6.
Proof.
  intros Hb. destruct (leaf_built (0, b) (LDil k) Logic.I) as (D1 & D2). destruct (leaf_built (0, 2) (LConst [1]) ltac:(discriminate)) as (P1 & P2).
  destruct (C90_error dbg (PLeaf (0, b) (LDil k)) one_path _ _ 0 1 b D1 D2 P1 P2 eq_refl) as (q & E & Q).
  - cbn. lra.
  - intros s t _ _. rewrite !one_speed. replace (1 - 1) with 0 by ring. rewrite Rabs_R0. lra.
  - intros s _. rewrite one_speed, Rabs_R1. lra.
  - cbn [to_expression edom leaf_fn fdom fst snd]. apply (is_RInt_ext (fun _ => 1)); [intros t _; symmetry; apply one_speed|]. pose proof (is_RInt_const (V := R_NormedModule) 0 b 1) as Q. match type of Q with is_RInt _ _ _ ?z => assert (E : z = b) by (unfold Hierarchy.scal; cbn; unfold mult; cbn; ring); rewrite E in Q end. exact Q.
  - exists q. split; [exact E|]. cbn [to_expression edom leaf_fn fdom fst snd] in Q. replace (b - 0) with b in Q by ring. lra.
Qed.
(** REFUTED (the value depends only on the curve): the constant path 1 along t -> t on [0, 2] and along t -> 2 t on [0, 1], which
    both run through [0, 2], gives about 2 and about 1. *)
Theorem C90_reparametrisation_refuted dbg : exists d1 d2 ep q1 q2, build (PLeaf (0, 2) (LDil 1)) = Ok d1 /\ build (PLeaf (0, 1) (LDil 2)) = Ok d2 /\ build one_path = Ok ep /\
  path_integral dbg (fe d1) (fe ep) = Ok q1 /\ path_integral dbg (fe d2) (fe ep) = Ok q2 /\ 3 / 2 < q1 /\ q2 < 3 / 2.
Proof.
  destruct (one_value dbg 2 1 ltac:(lra)) as (q1 & E1 & B1). destruct (one_value dbg 1 2 ltac:(lra)) as (q2 & E2 & B2).
  do 3 eexists. exists q1, q2. split; [reflexivity|]. split; [reflexivity|]. split; [reflexivity|]. split; [exact E1|]. split; [exact E2|].
  assert (S : (1 / 20000000) ^ 6 <= 1 / 10). { replace ((1 / 20000000) ^ 6) with ((1 / 20000000) * (1 / 20000000) ^ 5) by ring. assert (0 <= (1 / 20000000) ^ 5 <= 1). { split; [apply pow_le; lra|]. rewrite <- (pow1 5). apply pow_incr. lra. } assert (1 / 20000000 * (1 / 20000000) ^ 5 <= 1 / 20000000 * 1) by (apply Rmult_le_compat_l; lra). lra. }
  apply Rabs_le_between in B1. apply Rabs_le_between in B2. split; lra.
Qed.
