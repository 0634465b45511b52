(** Concrete cases for C06, C23 and C57. *)
From Coquelicot Require Import Coquelicot.
From Coq Require Import List Arith Lia Bool ZArith Reals Lra String.
From Verif Require Import Num Outcome LinAlg RSum LegendreSpec LegendreModel LegendreProofs LagrangeModel LagrangeSpec LagrangeProofs BasisModel SplineSpec BasisFn BasisProofs BasisProofs2 BasisProofs3 BasisProps
  GSplineModel GLSpec GLModel GLProofs GLProofs2 GLProps IntegralProps GLLModel GLFModel GLOModel GLOProofs GLOProps FunModel FunSpec FunProofs FunProofs2 FunConcat FunProofs3 FunProps.
Import ListNotations.
Local Opaque gl_iters.
Local Open Scope list_scope.
Local Open Scope R_scope.

(** C06: sin and cos on [0,1] and on [0,2], a constant vector of two components on [0,1] *)
Definition ex_sin (b : R) : expr R := to_expression (FSin (0, b)).
Definition ex_pair : expr R := to_expression (FConst (0, 1) [4; 5]).
Lemma not_close : ~ close (0, 1) (0, 2).
Proof. intros [_ C]. simpl in C. rewrite Rabs_left in C; lra. Qed.
Lemma self_close d : close d d.
Proof. destruct d. split; simpl; rewrite Rminus_diag_eq, Rabs_R0; auto; lra. Qed.
Example C06_case o :
  (exists r, add o (ex_sin 1) (cst 3) = Ok r) /\ add o (ex_sin 1) (ex_sin 2) = Throw InvalidArgument /\ add o (ex_sin 1) ex_pair = Throw InvalidArgument /\
  (exists r, sub o (ex_sin 1) (cst 3) = Ok r) /\ sub o (ex_sin 1) ex_pair = Throw InvalidArgument /\
  (exists r, mul o (ex_sin 1) ex_pair = Ok r) /\ mul o ex_pair ex_pair = Throw InvalidArgument /\ mul o (ex_sin 2) ex_pair = Throw InvalidArgument /\
  (exists r, compose o ex_pair (ex_sin 2) = Ok r) /\ compose o (ex_sin 2) ex_pair = Throw InvalidArgument /\
  (exists r, concat_ o (piece 0 1) (piece 1 2) = Ok r) /\ concat_ o (piece 0 1) (piece 2 3) = Throw InvalidArgument.
Proof.
  assert (S1 : close (0, 1) (0, 1)) by apply self_close.
  split; [apply C06_sum_checks; split; [exact S1|reflexivity]|]. split; [apply C06_sum_checks; intros [C _]; exact (not_close C)|]. split; [apply C06_sum_checks; intros [_ C]; discriminate|].
  split; [apply C06_difference_checks; split; [exact S1|reflexivity]|]. split; [apply C06_difference_checks; intros [_ C]; discriminate|].
  split; [apply C06_product_checks; split; [exact S1|left; simpl; lia]|]. split; [apply C06_product_checks; intros [_ [C|C]]; simpl in C; lia|].
  split; [apply C06_product_checks; intros [C _]; apply not_close; destruct C as [C1 C2]; simpl in *; split; simpl; [exact C1|rewrite Rabs_minus_sym; exact C2]|].
  split; [apply C06_compose_checks; simpl; lia|]. split; [apply C06_compose_checks; simpl; lia|].
  split; [apply C06_concat_checks; split; [reflexivity|simpl; rewrite Rminus_diag_eq, Rabs_R0; auto; lra]|].
  apply C06_concat_checks. intros [_ C]. simpl in C. rewrite Rabs_left in C; lra.
Qed.

(** C23: after another request for the same sizes with other lengths the matrices for lengths 1, 2 are those of a new object *)
Example C23_case : exists g s m u m' u', let b := BLegendre 3 g in let t := vec_of_list [1; 2] in
  serve_all b [RDer 2 1 1 (vec_of_list [5; 6]); RCont 2 1 1 (vec_of_list [5; 6])] (bs_init b) = Ok s /\
  gspline_derivative_matrix b 2 1 1 t s = Ok (m, u) /\ gspline_derivative_matrix b 2 1 1 t (bs_init b) = Ok (m', u') /\
  (srows m = srows m' /\ scols m = scols m' /\ forall i j, sget m i j = sget m' i j) /\ held_der u 2 1 1 = Some m.
Proof.
  destruct (leg_ctor_R 3) as (g & Eg & _). exists g.
  assert (B : is_basis (BLegendre 3 g) (DLeg 3)) by (repeat split; auto).
  assert (V : forall x y, vec_is (vec_of_list [x; y]) 2 (fun i => nth i [x; y] 0)).
  { intros x y. split; [reflexivity|]. intros [|[|i]] Hi; try reflexivity; lia. }
  destruct (C22_requests_succeed (BLegendre 3 g) (DLeg 3) [RDer 2 1 1 (vec_of_list [5; 6]); RCont 2 1 1 (vec_of_list [5; 6])] B) as (s & E).
  { repeat apply Forall_cons; try apply Forall_nil; cbn [request_ok exact_pt]; eauto 8. }
  destruct (C22_requests_succeed (BLegendre 3 g) (DLeg 3) [RDer 2 1 1 (vec_of_list [5; 6]); RCont 2 1 1 (vec_of_list [5; 6]); RDer 2 1 1 (vec_of_list [1; 2])] B) as (s2 & E2).
  { repeat apply Forall_cons; try apply Forall_nil; cbn [request_ok exact_pt]; eauto 8. }
  change (serve_all (BLegendre 3 g) ([RDer 2 1 1 (vec_of_list [5; 6]); RCont 2 1 1 (vec_of_list [5; 6])] ++ [RDer 2 1 1 (vec_of_list [1; 2])]) (bs_init (BLegendre 3 g)) = Ok s2) in E2.
  assert (E3 : serve_all (BLegendre 3 g) [RDer 2 1 1 (vec_of_list [1; 2])] s = Ok s2).
  { revert E E2. cbn [app serve_all]. intros E E2. destruct (serve (BLegendre 3 g) (RDer 2 1 1 (vec_of_list [5; 6])) _) as [s0| |]; try discriminate. cbn [bind] in *.
    destruct (serve (BLegendre 3 g) (RCont 2 1 1 (vec_of_list [5; 6])) s0) as [s3| |]; try discriminate. cbn [bind] in *. injection E as <-. exact E2. }
  cbn [serve_all serve] in E3. apply bind_ok in E3. destruct E3 as (u0 & E3 & _). apply bind_ok in E3. destruct E3 as ([m u] & E3 & _).
  pose proof (C23_derivative_history (BLegendre 3 g) _ s 2 1 1 (vec_of_list [1; 2]) E) as X. rewrite E3 in X.
  destruct (gspline_derivative_matrix (BLegendre 3 g) 2 1 1 (vec_of_list [1; 2]) (bs_init (BLegendre 3 g))) as [[m' u']| |] eqn:E4; try contradiction.
  exists s, m, u, m', u'. split; [exact E|]. split; [exact E3|]. split; [exact E4|]. split; [exact X|]. apply (proj1 (C23_reference_fresh _ _ _ _ _ s m u) E3).
Qed.

(** C57: three nodes, three intervals of length 1, updated to lengths 2, 3, 4, one component, continuity of the first derivative *)
Example C57_update_case fresh : exists x p ce ce', let t := vec_of_list [1; 1; 1] in let t' := vec_of_list [2; 3; 4] in
  gl_points 3 = Ok p /\ vec_is p 3 x /\ ce_ctor fresh 3 t 1 1 = Ok ce /\ ce_update ce t' = Ok ce' /\ fl_codom (fl_of_ce ce') = 4%nat.
Proof.
  destruct (nodes_ok 3 ltac:(lia)) as (p & w & x & wf & Epw & Px & Pw). assert (Ep : gl_points 3 = Ok p) by (unfold gl_points; rewrite Epw; reflexivity).
  assert (V : forall a b c, vec_is (vec_of_list [a; b; c]) 3 (fun i => nth i [a; b; c] 0)).
  { intros a b c. split; [reflexivity|]. intros [|[|[|i]]] Hi; try reflexivity; lia. }
  assert (N : forall a b c, a <> 0 -> b <> 0 -> c <> 0 -> forall i, (i < 3)%nat -> nth i [a; b; c] 0 <> 0).
  { intros a b c A0 B0 C0 [|[|[|i]]] Hi; auto; lia. }
  destruct (C57_update fresh 3 x 2 1 1 (vec_of_list [1; 1; 1]) (vec_of_list [2; 3; 4]) _ _ 0 p Ep Px ltac:(simpl; lra) (V 1 1 1) (V 2 3 4)) as (ce & ce' & E & E' & Ec & _);
    [apply N; lra|apply N; lra|]. exists x, p, ce, ce'. auto.
Qed.
