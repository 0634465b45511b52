(** Overloads, compatibility checks, negation, gaps. *)
From Coquelicot Require Import Coquelicot.
From Coq Require Import List Reals Lra Lia Bool Arith.
From Verif Require Import Num Outcome FunModel FunSpec FunProofs FunProofs2 FunDeriv FunDeriv2 FunConcat.
Import ListNotations.
Local Open Scope R_scope.

Lemma same_domain_refl d : same_domain d d = true.
Proof.
  apply same_domain_close. unfold close. rewrite !Rminus_eq_0, Rabs_R0. split; lra.
Qed.

(** ** any arithmetic *)
Section Generic.
Context {T : Type} `{Num T}.

Lemma add_overload o (e1 e2 : expr T) : add o e1 e2 = add LL e1 e2.
Proof. destruct o; reflexivity. Qed.
Lemma sub_overload o (e1 e2 : expr T) : sub o e1 e2 = sub LL e1 e2.
Proof. destruct o; reflexivity. Qed.
Lemma mul_overload o (e1 e2 r r' : expr T) : mul o e1 e2 = Ok r -> mul LL e1 e2 = Ok r' ->
  ety r = ety r' /\ ecod r = ecod r' /\ eargs r = eargs r' /\
  (edom r = edom e1 \/ edom r = edom e2) /\ (edom r' = edom e1 \/ edom r' = edom e2).
Proof.
  unfold mul. destruct (compatibility_mul e1 e2); simpl; try discriminate.
  unfold first_or_max, second_or_min.
  destruct (Nat.leb (ecod e2) (ecod e1)); destruct o; intros E E'; inversion E; inversion E'; subst;
    simpl; auto 8.
Qed.
Lemma mul_overload_throw o (e1 e2 : expr T) x : mul o e1 e2 = Throw x <-> mul LL e1 e2 = Throw x.
Proof. unfold mul. destruct (compatibility_mul e1 e2); simpl; destruct o; split; congruence. Qed.

Lemma compose_overload o (e1 e2 : expr T) : o <> RL -> compose o e1 e2 = compose LL e1 e2.
Proof.
  unfold compose. destruct (comp_throw e1 e2); simpl; auto. unfold comp_args.
  destruct o; intros Ho; try congruence; auto.
  destruct (ftype_eqb (ety e1) COMPOSITION); reflexivity.
Qed.
Lemma compose_overload_RL (e1 e2 : expr T) : ety e1 <> COMPOSITION ->
  compose RL e1 e2 = compose LL e1 e2.
Proof.
  intros Ht. unfold compose. destruct (comp_throw e1 e2); simpl; auto.
  destruct (ety e1); simpl; congruence.
Qed.
Lemma concat_overload o (e1 e2 : expr T) : ety e1 <> CONCATENATION ->
  concat_ o e1 e2 = concat_ LL e1 e2.
Proof.
  intros Ht. unfold concat_. destruct (concat_throw e1 e2); simpl; auto.
  destruct o; auto; destruct (ety e1); simpl; congruence.
Qed.
Lemma concat_overload_LR (e1 e2 : expr T) : concat_ LR e1 e2 = concat_ LL e1 e2.
Proof. reflexivity. Qed.

(** unary minus of a stored list of operands only looks at the first one *)
Lemma neg_first_operand (e : expr T) g rest pts cols : eargs e = g :: rest ->
  eval false (fe (neg e)) pts cols = (r <- eval false g pts cols ;; Ok (rows_neg r)).
Proof. intros E. unfold fe, neg. simpl. rewrite E. reflexivity. Qed.
Lemma neg_abort (e : expr T) g h rest pts cols : eargs e = g :: h :: rest ->
  eval true (fe (neg e)) pts cols = Throw AssertFail.
Proof. intros E. unfold fe, neg. simpl. rewrite E. reflexivity. Qed.
End Generic.

(** ** compatibility (reals) *)
Lemma add_accepts o (e1 e2 : expr R) :
  (exists r, add o e1 e2 = Ok r) <-> close (edom e1) (edom e2) /\ ecod e1 = ecod e2.
Proof.
  rewrite <- same_domain_close. unfold add, sum_throw.
  destruct (same_domain (edom e1) (edom e2)); destruct (Nat.eqb_spec (ecod e1) (ecod e2)); simpl; split;
    intros X; try (destruct X; discriminate); try (destruct X; congruence); eauto.
Qed.
Lemma add_rejects o (e1 e2 : expr R) :
  add o e1 e2 = Throw InvalidArgument <-> ~ (close (edom e1) (edom e2) /\ ecod e1 = ecod e2).
Proof.
  rewrite <- same_domain_close. unfold add, sum_throw.
  destruct (same_domain (edom e1) (edom e2)); destruct (Nat.eqb_spec (ecod e1) (ecod e2)); simpl; split;
    intros X; try discriminate; try tauto; try (intros [? ?]; congruence); auto.
Qed.
Lemma sub_accepts o (e1 e2 : expr R) :
  (exists r, sub o e1 e2 = Ok r) <-> close (edom e1) (edom e2) /\ ecod e1 = ecod e2.
Proof.
  rewrite <- same_domain_close. unfold sub, add, sum_throw. simpl edom. simpl ecod.
  destruct (same_domain (edom e1) (edom e2)); destruct (Nat.eqb_spec (ecod e1) (ecod e2)); destruct o; simpl; split;
    intros X; try (destruct X; discriminate); try (destruct X; congruence); eauto.
Qed.
Lemma sub_rejects o (e1 e2 : expr R) :
  sub o e1 e2 = Throw InvalidArgument <-> ~ (close (edom e1) (edom e2) /\ ecod e1 = ecod e2).
Proof.
  rewrite <- same_domain_close. unfold sub, add, sum_throw. simpl edom. simpl ecod.
  destruct (same_domain (edom e1) (edom e2)); destruct (Nat.eqb_spec (ecod e1) (ecod e2)); destruct o; simpl; split;
    intros X; try discriminate; try tauto; try (intros [? ?]; congruence); auto.
Qed.
Lemma mul_accepts o (e1 e2 : expr R) :
  (exists r, mul o e1 e2 = Ok r) <-> close (edom e1) (edom e2) /\ (ecod e1 <= 1 \/ ecod e2 <= 1)%nat.
Proof.
  rewrite <- same_domain_close. unfold mul, compatibility_mul.
  destruct (same_domain (edom e1) (edom e2)); destruct (Nat.ltb_spec 1 (ecod e1));
  destruct (Nat.ltb_spec 1 (ecod e2)); cbn [negb andb bind]; split; intros X;
  try (destruct X; discriminate); try (destruct X as [_ X]; lia);
  try (destruct X; congruence); try (split; [auto|lia]); destruct o; eauto.
Qed.
Lemma mul_rejects o (e1 e2 : expr R) :
  mul o e1 e2 = Throw InvalidArgument <->
  ~ (close (edom e1) (edom e2) /\ (ecod e1 <= 1 \/ ecod e2 <= 1)%nat).
Proof.
  rewrite <- same_domain_close. unfold mul, compatibility_mul.
  destruct (same_domain (edom e1) (edom e2)); destruct (Nat.ltb_spec 1 (ecod e1));
  destruct (Nat.ltb_spec 1 (ecod e2)); cbn [negb andb bind]; split; intros X;
  try reflexivity; try (intros [? ?]; congruence); try (intros [_ ?]; lia);
  try (exfalso; apply X; split; [auto|lia]); destruct o; discriminate.
Qed.
Lemma compose_accepts o (e1 e2 : expr R) :
  (exists r, compose o e1 e2 = Ok r) <-> (ecod e2 <= 1)%nat.
Proof.
  unfold compose, comp_throw. destruct (Nat.ltb_spec 1 (ecod e2)); cbn [bind]; split; intros X;
    try (destruct X; discriminate); try lia.
  destruct o; eauto; destruct (ftype_eqb (ety e1) COMPOSITION); eauto.
Qed.
Lemma compose_rejects o (e1 e2 : expr R) :
  compose o e1 e2 = Throw InvalidArgument <-> (1 < ecod e2)%nat.
Proof.
  unfold compose, comp_throw. destruct (Nat.ltb_spec 1 (ecod e2)); cbn [bind]; split; intros X; auto; try lia.
  destruct o; try discriminate; destruct (ftype_eqb (ety e1) COMPOSITION); discriminate.
Qed.
Lemma concat_accepts o (e1 e2 : expr R) :
  (exists r, concat_ o e1 e2 = Ok r) <->
  ecod e1 = ecod e2 /\ Rabs (snd (edom e1) - fst (edom e2)) <= 1 / 1000000000.
Proof.
  unfold concat_, concat_throw, dom_tol. simpl nltb. simpl nabs. simpl nsub. simpl ndiv. simpl n1. simpl nofZ.
  destruct (Nat.eqb_spec (ecod e1) (ecod e2)); cbn [negb bind].
  - destruct (Rltb_spec (1 / 1000000000) (Rabs (snd (edom e1) - fst (edom e2)))); cbn [bind]; split; intros X;
      try (destruct X; discriminate); try (destruct X as [_ X]; lra).
    + split; auto. lra.
    + destruct o; eauto; destruct (ftype_eqb (ety e1) CONCATENATION); eauto.
  - split; intros X; [destruct X; discriminate|tauto].
Qed.
Lemma concat_rejects o (e1 e2 : expr R) :
  concat_ o e1 e2 = Throw InvalidArgument <->
  ~ (ecod e1 = ecod e2 /\ Rabs (snd (edom e1) - fst (edom e2)) <= 1 / 1000000000).
Proof.
  unfold concat_, concat_throw, dom_tol. simpl nltb. simpl nabs. simpl nsub. simpl ndiv. simpl n1. simpl nofZ.
  destruct (Nat.eqb_spec (ecod e1) (ecod e2)); cbn [negb bind].
  - destruct (Rltb_spec (1 / 1000000000) (Rabs (snd (edom e1) - fst (edom e2)))); cbn [bind]; split; intros X; auto.
    + intros [_ Y]. lra.
    + destruct o; try discriminate; destruct (ftype_eqb (ety e1) CONCATENATION); discriminate.
    + exfalso. apply X. split; auto. lra.
  - split; intros X; auto. tauto.
Qed.

(** ** subtraction of a plain function *)
Lemma sub_plain_value dbg o e1 F d l r pts : means e1 F -> leaf_ok l ->
  sub o e1 (to_expression (leaf_fn d l)) = Ok r ->
  call dbg (fe r) pts = Ok (map (fun t => zip_with Rminus (F t) (lsem l t)) pts).
Proof.
  intros M HL E. destruct (means_ok _ _ M) as [(W1 & P1 & _) D1].
  unfold sub in E. apply bind_ok in E. destruct E as ([] & _ & E).
  assert (X : exists o', add o' e1 (neg (to_expression (leaf_fn d l))) = Ok r).
  { destruct o; eauto. }
  destruct X as [o' X]. clear E.
  destruct (neg_ok d (lcod l) (leaf_fn d l)) as [W D]. { apply leaf_wf; auto. } { apply leaf_cod. }
  unfold to_expression in X. rewrite leaf_cod in X.
  replace (fdom (leaf_fn d l)) with d in X by (destruct l; reflexivity).
  apply add_ok in X; auto. destruct X as (Wr & C & C' & Dr).
  unfold call. rewrite (eval_den dbg _ Wr). f_equal. apply map_ext.
  intros t. rewrite Dr, D1, D. rewrite leaf_den. apply vadd_neg.
Qed.

(** ** gaps *)
Lemma concat_gap dbg e1 e2 F G r t : means e1 F -> means e2 G ->
  ety e1 <> CONCATENATION -> ety e2 <> CONCATENATION ->
  concat_ LL e1 e2 = Ok r ->
  fst (edom e1) < t -> snd (edom e1) < t -> t < fst (edom e2) -> t < snd (edom e2) ->
  call dbg (fe r) [t] = Throw InvalidArgument.
Proof.
  intros M1 M2 T1 T2 E H1 H2 H3 H4. unfold concat_ in E. apply bind_ok in E. destruct E as ([] & _ & E).
  assert (A1 : concat_args e1 = [fe e1]) by (unfold concat_args; destruct (ety e1); simpl; congruence).
  assert (A2 : concat_args e2 = [fe e2]) by (unfold concat_args; destruct (ety e2); simpl; congruence).
  inversion E; subst; clear E. rewrite A1, A2. unfold call.
  change (fe {| ety := CONCATENATION; edom := (fst (edom e1), snd (edom e2)); ecod := ecod e1;
     eargs := [fe e1] ++ [fe e2] |}) with
   (FExpr CONCATENATION (fst (edom e1), snd (edom e2)) (ecod e1) [fe e1; fe e2]).
  rewrite eval_concat_eq. cbn [mapM find_loop last].
  assert (X1 : is_point_in_domain (fe e1) t = false).
  { destruct (is_point_in_domain (fe e1) t) eqn:X; auto. apply in_dom in X. simpl in X. lra. }
  assert (X2 : is_point_in_domain (fe e2) t = false).
  { destruct (is_point_in_domain (fe e2) t) eqn:X; auto. apply in_dom in X. simpl in X. lra. }
  rewrite X1, X2.
  change (fst (fdom (fe e1))) with (fst (edom e1)). change (snd (fdom (fe e2))) with (snd (edom e2)).
  destruct (Rleb_spec t (fst (edom e1))); [lra|].
  destruct (Rleb_spec (snd (edom e2)) t); [lra|]. reflexivity.
Qed.

Lemma deriv1_unique dbg (f : fn R) :
  deriv1 dbg (fe (to_expression f)) = (d0 <- deriv1 dbg f ;; Ok (FExpr UNIQUE (fdom f) (fcod f) [d0])).
Proof. simpl. now rewrite andb_false_r. Qed.

(** derivative of a dot product whose operands live on different domains *)
Lemma dot_deriv_throws dbg e1 e2 F G k : means e1 F -> means e2 G ->
  (exists d1, deriv1 dbg (fe e1) = Ok d1) -> (exists d2, deriv1 dbg (fe e2) = Ok d2) ->
  ~ close (edom e1) (edom e2) ->
  deriv dbg (dot LL (fe e1) (fe e2)) (S k) = Throw InvalidArgument.
Proof.
  intros M1 M2 [d1 E1] [d2 E2] NC.
  assert (X : same_domain (edom e2) (edom e1) = false).
  { destruct (same_domain (edom e2) (edom e1)) eqn:X; auto. rewrite same_domain_sym in X.
    apply same_domain_close in X. tauto. }
  change (deriv dbg (dot LL (fe e1) (fe e2)) (S k)) with
    (g <- (d1 <- deriv1 dbg (fe (to_expression (fe e1))) ;;
           d2 <- deriv1 dbg (fe (to_expression (fe e2))) ;;
           dot_first_deriv (fe (to_expression (fe e1))) (fe (to_expression (fe e2))) d1 d2) ;;
     iter_deriv1 dbg k g).
  rewrite !deriv1_unique, E1, E2. cbn [bind].
  unfold dot_first_deriv, add, sum_throw. cbn [dot to_expression edom fdom].
  change (fdom (fe (to_expression (fe e2)))) with (edom e2).
  change (fdom (fe (to_expression (fe e1)))) with (edom e1).
  rewrite X. reflexivity.
Qed.
