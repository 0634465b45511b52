(** C04, C43, C57: intervals of derivatives; shapes of matrices and constraints. *)
From Coquelicot Require Import Coquelicot.
From Coq Require Import List Reals Lra Lia Bool Arith String.
From Verif Require Import Num Outcome LinAlg RSum GLModel ToolsModel LegendreProofs GSplineModel GSplineProofs2 GLLModel GLFModel GLFProofs GLFProofs2 OptModel GLOModel FunModel FunSpec FunProofs FunProofs2 FunDom FunProps.
Import ListNotations.
Local Open Scope list_scope.
Local Open Scope R_scope.

(** ** C04: a derivative is defined on the interval of the function *)
(** a program of functions given on D is defined on D, and so is every derivative *)
Theorem C04_domain : forall dbg p D e k f', given_on D p -> build p = Ok e -> deriv dbg (fe e) k = Ok f' -> edom e = D /\ fdom f' = D.
Proof.
  intros dbg p D e k f' G E Ed. destruct (build_on p D e G E) as [F W]. split; [exact F|].
  destruct (deriv_dom dbg (fe e) W k f' Ed) as [F' _]. rewrite F'. exact F.
Qed.
Example C04_domain_case : given_on D01 ex_dot /\ given_on D01 ex_inplace /\ forall e, build ex_dot = Ok e -> forall dbg k, k = 1%nat \/ py_inside ex_dot -> exists f', deriv dbg (fe e) k = Ok f' /\ fdom f' = D01.
Proof.
  assert (G : given_on D01 ex_dot).
  { repeat (split; try reflexivity). exists D01. repeat (split; try reflexivity). exists D01. repeat (split; try reflexivity). }
  split; [exact G|]. split; [repeat (split; try reflexivity)|].
  intros e E dbg k Hk. destruct (C04_derivative dbg ex_dot e k) as (f' & Ef & _); auto; try apply ex_dot_ok.
  exists f'. split; [exact Ef|]. apply (C04_domain dbg ex_dot D01 e k f' G E Ef).
Qed.
(** any function object whose parts report consistent intervals, with concatenations anywhere *)
Theorem C04_domain_object : forall dbg f, domains_agree f -> forall k f', deriv dbg f k = Ok f' -> fdom f' = fdom f /\ domains_agree f'.
Proof. exact deriv_dom. Qed.
(** pieces put end to end: the derivative, of any order, reaches from the start of the first to the end of the second *)
Lemma last_indep {A} (l : list A) x y : l <> [] -> last l x = last l y.
Proof. induction l as [|a l IH]; [contradiction|]. intros _. destruct l; [reflexivity|]. apply IH. discriminate. Qed.
Lemma last_app {A} (a b : list A) x : b <> [] -> last (a ++ b) x = last b x.
Proof.
  intros Hb. induction a as [|u a IH]; [reflexivity|]. cbn [app]. destruct (a ++ b) eqn:E; [|exact IH].
  apply app_eq_nil in E. destruct E; contradiction.
Qed.
Lemma concat_args_agree e : domains_agree (fe e) -> Forall domains_agree (concat_args e) /\
  exists g l, concat_args e = g :: l /\ fst (fdom g) = fst (edom e) /\ snd (fdom (last (g :: l) g)) = snd (edom e).
Proof.
  intros W. unfold concat_args. destruct (ftype_eqb _ _) eqn:E.
  - apply ftype_eqb_eq in E. apply agree_expr in W. destruct W as [A I]. split; [exact A|]. destruct (eargs e) as [|g l]; [discriminate|]. exists g, l. split; [reflexivity|].
    rewrite E in I. cbn [operand_interval] in I. injection I as I. rewrite <- I. split; reflexivity.
  - split; [auto|]. exists (fe e), []. repeat split.
Qed.
Lemma concat_agree o e1 e2 r : domains_agree (fe e1) -> domains_agree (fe e2) -> concat_ o e1 e2 = Ok r -> o = LL \/ o = LR \/ ety e1 <> CONCATENATION ->
  edom r = (fst (edom e1), snd (edom e2)) /\ domains_agree (fe r).
Proof.
  intros W1 W2 E Ho. unfold concat_ in E. apply bind_ok in E. destruct E as ([] & _ & E).
  assert (K : r = mkexpr CONCATENATION (fst (edom e1), snd (edom e2)) (ecod e1) (concat_args e1 ++ concat_args e2)).
  { destruct o; try (injection E as <-; reflexivity); (destruct (ftype_eqb (ety e1) CONCATENATION) eqn:Q;
      [apply ftype_eqb_eq in Q; destruct Ho as [Ho|[Ho|Ho]]; try discriminate; contradiction|injection E as <-; reflexivity]). }
  subst r. split; [reflexivity|]. destruct (concat_args_agree e1 W1) as (A1 & g1 & l1 & Q1 & F1 & _). destruct (concat_args_agree e2 W2) as (A2 & g2 & l2 & Q2 & _ & L2).
  apply agree_expr. cbn [eargs edom ety]. split; [apply Forall_app; auto|]. rewrite Q1, Q2. cbn [operand_interval app]. rewrite F1. do 2 f_equal.
  change (g1 :: l1 ++ g2 :: l2) with ((g1 :: l1) ++ (g2 :: l2)). rewrite last_app by discriminate. rewrite (last_indep _ g1 g2) by discriminate. exact L2.
Qed.
Theorem C04_domain_concat : forall dbg o e1 e2 r k f', domains_agree (fe e1) -> domains_agree (fe e2) -> concat_ o e1 e2 = Ok r ->
  o = LL \/ o = LR \/ ety e1 <> CONCATENATION -> deriv dbg (fe r) k = Ok f' -> fdom f' = (fst (edom e1), snd (edom e2)).
Proof.
  intros dbg o e1 e2 r k f' W1 W2 E Ho Ed. destruct (concat_agree o e1 e2 r W1 W2 E Ho) as [F W]. rewrite <- F.
  exact (proj1 (deriv_dom dbg (fe r) W k f' Ed)).
Qed.
Example C04_domain_concat_case : domains_agree (fe (piece 0 1)) /\ domains_agree (fe (piece 1 2)) /\
  exists r, concat_ LL (piece 0 1) (piece 1 2) = Ok r /\ forall dbg k, exists f', deriv dbg (fe r) k = Ok f' /\ fdom f' = (0, 2).
Proof.
  assert (W : forall a b, domains_agree (fe (piece a b))) by (intros; repeat split). split; [apply W|]. split; [apply W|].
  destruct C07_nonvacuous as (r & E & _ & _). exists r. split; [exact E|]. intros dbg k.
  assert (X : exists f', deriv dbg (fe r) k = Ok f').
  { unfold concat_ in E. apply bind_ok in E. destruct E as ([] & _ & E). injection E as <-. cbn [fe ety edom ecod eargs concat_args piece to_expression ftype_eqb app deriv mapM bind].
    rewrite andb_false_r. cbn [bind]. eexists. reflexivity. }
  destruct X as (f' & Ef). exists f'. split; [exact Ef|]. apply (C04_domain_concat dbg LL _ _ r k f' (W 0 1) (W 1 2) E (or_introl eq_refl) Ef).
Qed.
(** REFUTED for an expression moved into a composition: it keeps the interval of the outer function, its derivative has that of the inner one *)
Definition ex_moved : prog := PComp RL (PComp LL (PLeaf (0, 1) LSin) (PLeaf (0, 1) LExp)) (PLeaf (0, 2) (LDil 3)).
Theorem C04_domain_moved_refuted : exists p e f', build p = Ok e /\ (forall dbg, deriv dbg (fe e) 1 = Ok f') /\ edom e = (0, 1) /\ fdom f' = (0, 2).
Proof.
  exists ex_moved. eexists. eexists. split; [reflexivity|]. split; [intros dbg; cbn; rewrite ?andb_false_r; reflexivity|]. split; reflexivity.
Qed.

(** ** C43: a matrix of another shape for one of the nodes is refused, wherever it stands *)
Theorem C43_update_shape (a : mlm R) pre p post P f0 : mcells (ml_mat a) (ml_n a) (ml_rows a) (ml_cols a) (ml_nglp a) f0 ->
  (forall k q, nth_error pre k = Some q -> mat_is q (ml_rows a) (ml_cols a) (P k)) -> mrows p <> ml_rows a \/ mcols p <> ml_cols a ->
  mlm_update a (pre ++ p :: post) = Throw RuntimeError.
Proof.
  intros M Hp Ne. destruct (Nat.eq_dec (List.length (pre ++ p :: post)) (ml_nglp a * ml_n a)) as [L|L].
  2:{ unfold mlm_update. destruct (Nat.eqb_spec (List.length (pre ++ p :: post)) (ml_nglp a * ml_n a)); [contradiction|reflexivity]. }
  set (z := mkmat (ml_rows a) (ml_cols a) (fun _ _ => Some 0)).
  set (good := pre ++ repeat z (S (List.length post))).
  assert (Lg : List.length good = (ml_nglp a * ml_n a)%nat) by (unfold good; rewrite <- L, !app_length, repeat_length; reflexivity).
  assert (Hg : forall k q, nth_error good k = Some q -> mat_is q (ml_rows a) (ml_cols a) (if Nat.ltb k (List.length pre) then P k else fun _ _ => 0)).
  { intros k q E. unfold good in E. destruct (Nat.ltb_spec k (List.length pre)) as [Hk|Hk].
    - rewrite nth_error_app1 in E by auto. apply (Hp k q E).
    - rewrite nth_error_app2 in E by auto. apply nth_error_In, repeat_spec in E. subst q. repeat split. }
  destruct (mlm_update_ok a good _ f0 M Lg Hg) as (m & E & _).
  unfold mlm_update in *. rewrite L, Nat.eqb_refl in *. rewrite Lg, Nat.eqb_refl in E. cbn [negb] in *.
  apply bind_ok in E. destruct E as (m1 & E & _).
  assert (Hl : (List.length pre < ml_nglp a * ml_n a)%nat) by (rewrite <- L, app_length; simpl; lia).
  rewrite (for_split 0 (List.length pre)) in E by lia. apply bind_ok in E. destruct E as (m2 & E & _).
  rewrite (for_split 0 (List.length pre)) by lia.
  match goal with |- bind (bind ?X _) _ = _ => assert (EX : X = Ok m2) end.
  { rewrite <- E. apply for_ext. intros i s Hi. unfold good. rewrite !nth_error_app1 by lia. reflexivity. }
  rewrite EX. cbn [bind]. rewrite (for_split _ (S (List.length pre))) by lia. unfold for_ at 1. replace (S (List.length pre) - List.length pre)%nat with 1%nat by lia. cbn [for_n].
  rewrite nth_error_app2 by lia. rewrite Nat.sub_diag. cbn [nth_error of_option bind].
  assert (Q : negb (Nat.eqb (mcols p) (ml_cols a)) || negb (Nat.eqb (mrows p) (ml_rows a)) = true).
  { destruct (Nat.eqb_spec (mcols p) (ml_cols a)), (Nat.eqb_spec (mrows p) (ml_rows a)); try reflexivity. destruct Ne; contradiction. }
  rewrite Q. reflexivity.
Qed.
(** two nodes, 2 x 1 matrices: the second has a column too many; and one row too few *)
Example C43_update_shape_case : let a := mlm_new (T := R) 1 2 1 2 in let q := mkmat 2 1 (fun _ _ => Some 1) in
  mlm_update a [q; mkmat 2 2 (fun _ _ => Some 1)] = Throw RuntimeError /\ mlm_update a [q; mkmat 1 1 (fun _ _ => Some 1)] = Throw RuntimeError.
Proof.
  intros a q. assert (Hq : forall k q', nth_error [q] k = Some q' -> mat_is q' (ml_rows a) (ml_cols a) (fun _ _ => 1)).
  { intros [|[|k]] q' E; inversion E. repeat split. }
  split; eapply (C43_update_shape a [q] _ [] (fun _ _ _ => 1)); try apply (mlm_new_cells 1 2 1 2); auto; cbn; lia.
Qed.

(** ** C57: what a constraint announces is what it delivers *)
(** for a distance (one number) and for an operator given by any matrix: GetRows(), the number of bounds, the number of
    values and the number of rows of the Jacobian are the same; every bound is the interval asked for *)
Theorem C57_constraint_shape fresh cls lo hi f k vs c k' : nw_ctor cls lo hi f k = (c, k') ->
  (exists F Fd nglp n s, sd_ctor fresh F Fd nglp n = Ok s /\ f = FDistance s) \/ (exists m : mat R, f = fl_of_mat m) ->
  (forall v, nw_values fresh c vs = Ok v -> vlen v = nw_rows c) /\ (forall m name, nw_jacobian fresh c vs name = Ok m -> mrows m = nw_rows c) /\
  vec_is (nw_bounds c) (nw_rows c) (fun _ => (lo, hi)).
Proof.
  intros E Hf. injection E as <- <-. unfold nw_values, nw_jacobian. cbn [nw_fun nw_rows nw_bounds].
  assert (B : vec_is (vconst (fl_codom f) (lo, hi)) (fl_codom f) (fun _ => (lo, hi))). { split; [reflexivity|]. intros i Hi. cbn. destruct (Nat.ltb_spec i (fl_codom f)); [reflexivity|lia]. }
  assert (MV : forall (m : mat R) x v, mvmul m x = Ok v -> vlen v = mrows m). { intros m x v Ev. unfold mvmul in Ev. destruct (Nat.eqb _ _); inversion Ev. reflexivity. }
  destruct Hf as [(F & Fd & nglp & n & s & Es & ->)|(m & ->)].
  - assert (R1 : mrows (sd_int s) = 1%nat).
    { unfold sd_ctor in Es. apply bind_ok in Es. destruct Es as (a & _ & Es). apply bind_ok in Es. destruct Es as (ad & _ & Es). apply bind_ok in Es. destruct Es as (i & Ei & Es).
      apply bind_ok in Es. destruct Es as (d & _ & Es). injection Es as <-. cbn [sd_int]. unfold int_of, int_ctor in Ei. apply bind_ok in Ei. destruct Ei as (w & _ & Ei). injection Ei as <-. reflexivity. }
    cbn [fl_codom fl_call fl_jac] in *. split; [|split; [|exact B]].
    + intros v Ev. apply bind_ok in Ev. destruct Ev as (g & _ & Ev). unfold sd_value in Ev. apply bind_ok in Ev. destruct Ev as ([[[e t1] ed] t2] & _ & Ev).
      apply bind_ok in Ev. destruct Ev as (p & _ & Ev). apply bind_ok in Ev. destruct Ev as (q & _ & Ev). apply bind_ok in Ev. destruct Ev as (r & _ & Ev).
      rewrite <- R1. exact (MV _ _ _ Ev).
    + intros m name Ev. apply bind_ok in Ev. destruct Ev as (g & _ & Ev). destruct (String.eqb name "GLL"); [|discriminate]. unfold sd_diff_matrix in Ev. apply bind_ok in Ev. destruct Ev as ([[[e t1] ed] t2] & _ & Ev).
      apply bind_ok in Ev. destruct Ev as (p & _ & Ev). apply bind_ok in Ev. destruct Ev as (q & _ & Ev). unfold lf_mul, mmul in Ev. destruct (Nat.eqb _ _); inversion Ev. exact R1.
  - cbn [fl_of_mat fl_codom fl_call fl_jac] in *. split; [|split; [|exact B]].
    + intros v Ev. apply bind_ok in Ev. destruct Ev as (g & _ & Ev). exact (MV _ _ _ Ev).
    + intros m' name Ev. apply bind_ok in Ev. destruct Ev as (g & _ & Ev). destruct (String.eqb name "GLL"); [|discriminate]. now injection Ev as <-.
Qed.
(** a 2 x 3 matrix as a constraint on any spline with three coefficients: two values between 0 and 1 *)
Example C57_constraint_shape_case fresh (g : gspline R) a b x : vec_is (gs_coef g) 3 x ->
  let c := fst (nw_ctor 0 0 1 (fl_of_mat (mkmat 2 3 (fun i j => Some (INR (i + j))))) cnt_init) in
  nw_rows c = 2%nat /\ vlen (nw_bounds c) = 2%nat /\ exists v, nw_values fresh c [("GLL"%string, CSpline (mkgvar g a b))] = Ok v /\ vec_is v 2 (fun i => INR (i + 0) * x 0%nat + INR (i + 1) * x 1%nat + INR (i + 2) * x 2%nat).
Proof.
  intros V c. split; [reflexivity|]. split; [reflexivity|].
  destruct (mvmul_is (mkmat 2 3 (fun i j => Some (INR (i + j)))) (gs_coef g) 2 3 (fun i j => INR (i + j)) x) as (v & Ev & Vv); [repeat split|exact V|].
  exists v. split; [exact Ev|]. eapply vec_is_ext; [exact Vv|]. intros i Hi. cbv beta. rewrite nsum_R. cbn [Rsum]. rnum. ring.
Qed.

(** ** C29: requests for a time scaling that are refused *)
Theorem C29_limit_refusals {T} `{Num T} (g : gspline T) vb ab dt nseg :
  (vb = None -> ab = None -> gs_limit_scaling g vb ab dt nseg = Throw InvalidArgument) /\
  (nltb dt (ten_m 8) = true -> gs_limit_scaling g vb ab dt nseg = Throw InvalidArgument) /\
  (forall v, nltb dt (ten_m 8) = false -> vb = Some v -> vlen v <> gs_codom g -> gs_limit_scaling g vb ab dt nseg = Throw InvalidArgument) /\
  (forall v a, nltb dt (ten_m 8) = false -> vb = Some v -> ab = Some a -> vlen v = gs_codom g -> vlen a <> gs_codom g -> gs_limit_scaling g vb ab dt nseg = Throw InvalidArgument).
Proof.
  unfold gs_limit_scaling. repeat split.
  - intros -> ->. reflexivity.
  - intros E. rewrite E. destruct vb, ab; reflexivity.
  - intros v E -> Ne. rewrite E. destruct (Nat.eqb_spec (vlen v) (gs_codom g)); [contradiction|]. destruct ab; reflexivity.
  - intros v a E -> -> L Ne. rewrite E, L, Nat.eqb_refl. destruct (Nat.eqb_spec (vlen a) (gs_codom g)); [contradiction|]. reflexivity.
Qed.
(** three bounds for a spline with another number of components *)
Example C29_limit_refusals_case (g : gspline R) nseg : gs_codom g <> 3%nat -> gs_limit_scaling g (Some (vconst 3 1)) None (1 / 100) nseg = Throw InvalidArgument.
Proof.
  intros Ne. destruct (C29_limit_refusals g (Some (vconst 3 1)) None (1 / 100) nseg) as (_ & _ & K & _). apply (K (vconst 3 1)); [|reflexivity|cbn; congruence].
  unfold ten_m. cbn. apply Rltb_false. lra.
Qed.
