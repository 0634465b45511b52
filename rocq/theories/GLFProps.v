(** C43, C44: collocation functionals. *)
From Coquelicot Require Import Coquelicot.
From Coq Require Import List Arith Lia Bool ZArith Reals Lra.
From Verif Require Import Num Outcome LinAlg RSum RPoly RDeriv LegendreSpec LegendreModel LagrangeSpec LagrangeModel LagrangeMath LagrangeProofs
  Basis0101Model BasisModel SplineSpec BasisFn BasisProofs BasisProofs2 BasisProofs3
  ToolsModel FunModel GSplineModel GSplineProofs GSplineProofs2 GSplineProofs4 GLSpec GLModel GLProofs GLProofs2 GLProps GLLModel GLLProofs GLLProofs2 GLLProofs3 GLLProps
  GLFModel GLFProofs GLFProofs2 GLFProofs3.
Import ListNotations.
Local Opaque gl_iters.
Local Open Scope R_scope.

(** ** C43: operators *)
(** [colloc g dom n codom nglp tf V]: g has n intervals of lengths tf, nglp
    nodes each and the node values V interval component node *)
(** the operator of a spline [a] maps [b] to the pointwise inner product *)
Theorem C43_inner_product fresh (a b : gspline R) doma domb n codom nglp ta tb Va Vb : colloc a doma n codom nglp ta Va -> colloc b domb n codom nglp tb Vb ->
  (2 <= nglp)%nat -> (1 <= n)%nat ->
  exists t r w, tlm_of a = Ok t /\ lf_spline fresh (tl_mat t) b = Ok r /\
    colloc r domb n 1 nglp tb (fun iv _ i => Rsum codom (fun cc => Va iv cc i * Vb iv cc i)) /\
    lf_call (tl_mat t) b = Ok w /\ vlen w = (n * nglp)%nat /\
    forall iv i, (iv < n)%nat -> (i < nglp)%nat -> vget w (iv * nglp + i) = Some (Rsum codom (fun cc => Va iv cc i * Vb iv cc i)).
Proof.
  intros Ca Cb Hn H1. destruct (tlm_of_ok a _ _ _ _ _ _ Ca Hn) as (t & E & _ & _ & _ & M).
  destruct (tmat_inner fresh _ b _ _ _ _ _ _ _ M Cb Hn H1) as (r & w & X). exists t, r, w. split; [exact E|exact X].
Qed.
(** an operator that was built from [a0] and assigned [a] is the one of [a];
    another codomain is refused *)
Theorem C43_reassigned fresh (a0 a b : gspline R) doma0 doma domb n codom nglp ta0 ta tb V0 Va Vb t0 : colloc a0 doma0 n codom nglp ta0 V0 -> colloc a doma n codom nglp ta Va ->
  colloc b domb n codom nglp tb Vb -> (2 <= nglp)%nat -> (1 <= n)%nat -> tlm_of a0 = Ok t0 ->
  exists t r, tlm_assign t0 a = Ok t /\ lf_spline fresh (tl_mat t) b = Ok r /\
    colloc r domb n 1 nglp tb (fun iv _ i => Rsum codom (fun cc => Va iv cc i * Vb iv cc i)).
Proof.
  intros C0 Ca Cb Hn H1 E0. destruct (tlm_assign_ok a0 a _ _ _ _ _ _ _ _ _ t0 C0 Ca Hn E0) as (t & E & M).
  destruct (tmat_inner fresh _ b _ _ _ _ _ _ _ M Cb Hn H1) as (r & w & Er & Cr & _). exists t, r. auto.
Qed.
Theorem C43_reassigned_refusals fresh (t0 : tlm R) (a : gspline R) (f : fobj R) :
  (gs_codom a <> tl_codom t0 -> tlm_assign t0 a = Throw InvalidArgument) /\ (fo_codom f <> tl_codom t0 -> tlm_assign_fun fresh t0 f = Throw InvalidArgument).
Proof.
  split; intros Ne; unfold tlm_assign, tlm_assign_fun; (destruct (Nat.eqb_spec (gs_codom a) (tl_codom t0)) || idtac); (destruct (Nat.eqb_spec (fo_codom f) (tl_codom t0)) || idtac); try contradiction; reflexivity.
Qed.
(** products compose, sums, differences, negation and factors act on the results *)
Theorem C43_compose (a b : mat R) r k c f h (g : gspline R) v : mat_is a r k f -> mat_is b k c h -> vec_is (gs_coef g) c v ->
  exists p w w' x F, lf_mul a b = Ok p /\ lf_call p g = Ok w /\ lf_call b g = Ok w' /\ mvmul a w' = Ok x /\ vec_is w r F /\ vec_is x r F.
Proof. apply lf_compose. Qed.
Theorem C43_linear (a b : mat R) r c f h (g : gspline R) v y : mat_is a r c f -> mat_is b r c h -> vec_is (gs_coef g) c v ->
  exists wa wb A B, lf_call a g = Ok wa /\ vec_is wa r A /\ lf_call b g = Ok wb /\ vec_is wb r B /\
  (exists s w, lf_add a b = Ok s /\ lf_call s g = Ok w /\ vec_is w r (fun i => A i + B i)) /\
  (exists s w, lf_sub a b = Ok s /\ lf_call s g = Ok w /\ vec_is w r (fun i => A i - B i)) /\
  (exists w, lf_call (lf_neg a) g = Ok w /\ vec_is w r (fun i => - A i)) /\
  (exists w, lf_call (lf_scale y a) g = Ok w /\ vec_is w r (fun i => y * A i)).
Proof.
  intros Ma Mb V. destruct (mvmul_is _ _ _ _ _ _ Ma V) as (wa & Ea & Wa). destruct (mvmul_is _ _ _ _ _ _ Mb V) as (wb & Eb & Wb).
  exists wa, wb. do 2 eexists. split; [exact Ea|]. split; [exact Wa|]. split; [exact Eb|]. split; [exact Wb|]. repeat split.
  - destruct (mzip_is nadd _ _ _ _ _ _ Ma Mb) as (s & Es & Ms). destruct (mvmul_is _ _ _ _ _ _ Ms V) as (w & Ew & W). exists s, w. split; [exact Es|]. split; [exact Ew|].
    eapply vec_is_ext; [exact W|]. intros i Hi. cbn beta. rewrite !nsum_R. rewrite <- Rsum_plus. apply Rsum_ext. intros. rnum. ring.
  - destruct (mzip_is nsub _ _ _ _ _ _ Ma Mb) as (s & Es & Ms). destruct (mvmul_is _ _ _ _ _ _ Ms V) as (w & Ew & W). exists s, w. split; [exact Es|]. split; [exact Ew|].
    eapply vec_is_ext; [exact W|]. intros i Hi. cbn beta. rewrite !nsum_R. unfold Rminus. rewrite <- Rsum_opp, <- Rsum_plus. apply Rsum_ext. intros. rnum. ring.
  - destruct (mvmul_is _ _ _ _ _ _ (mscale_is a r c f (- n1)%num Ma) V) as (w & Ew & W). exists w. split; [exact Ew|].
    eapply vec_is_ext; [exact W|]. intros i Hi. cbn beta. rewrite !nsum_R. rewrite <- Rsum_opp. apply Rsum_ext. intros. rnum. ring.
  - destruct (mvmul_is _ _ _ _ _ _ (mscale_is a r c f y Ma) V) as (w & Ew & W). exists w. split; [exact Ew|].
    eapply vec_is_ext; [exact W|]. intros i Hi. cbn beta. rewrite !nsum_R. rewrite <- Rsum_scal. apply Rsum_ext. intros. rnum. ring.
Qed.
(** one matrix per node: the result is the matrix-vector product at each node *)
Theorem C43_matrix_nodes fresh rows cols nglp n ms P (g : gspline R) dom tf V : length ms = (nglp * n)%nat ->
  (forall k p, nth_error ms k = Some p -> mat_is p rows cols (P k)) -> colloc g dom n cols nglp tf V -> (2 <= nglp)%nat -> (1 <= n)%nat ->
  exists a r, mlm_update (mlm_new cols nglp n rows) ms = Ok a /\ lf_spline fresh (ml_mat a) g = Ok r /\
    colloc r dom n rows nglp tf (fun iv b i => Rsum cols (fun b' => P (iv * nglp + i)%nat b b' * V iv b' i)).
Proof.
  intros L HP C Hn H1. destruct (mlm_update_ok (mlm_new cols nglp n rows) ms P _ (mlm_new_cells cols nglp n rows) L HP) as (m & E & M). cbn [mlm_new ml_n ml_rows ml_cols ml_nglp] in *.
  destruct (mcells_spline fresh m rows cols nglp n _ g dom tf V (fun iv i => P (iv * nglp + i)%nat) M C Hn H1) as (r & Er & Cr). { reflexivity. }
  eexists. exists r. split; [exact E|]. split; [exact Er|exact Cr].
Qed.
Theorem C43_matrix_refusals (a : mlm R) ms p : (length ms <> (ml_nglp a * ml_n a)%nat -> mlm_update a ms = Throw RuntimeError) /\
  (mrows p <> ml_rows a \/ mcols p <> ml_cols a -> mlm_update_const a p = Throw RuntimeError).
Proof.
  split.
  - intros Ne. unfold mlm_update. destruct (Nat.eqb_spec (length ms) (ml_nglp a * ml_n a)); [contradiction|]. reflexivity.
  - intros [Ne|Ne]; unfold mlm_update_const; destruct (Nat.eqb_spec (mrows p) (ml_rows a)); destruct (Nat.eqb_spec (mcols p) (ml_cols a)); try contradiction; reflexivity.
Qed.
(** one matrix for all nodes.  REFUTED: the transpose is applied if the matrix
    is square; with more rows than columns the last rows of the result are 0;
    with more columns than rows it reads outside the matrix *)
Theorem C43_matrix_constant fresh rows cols nglp n p P (g : gspline R) dom tf V : mat_is p rows cols P -> colloc g dom n cols nglp tf V -> (2 <= nglp)%nat -> (1 <= n)%nat ->
  ((cols <= rows)%nat -> exists a r, mlm_update_const (mlm_new cols nglp n rows) p = Ok a /\ lf_spline fresh (ml_mat a) g = Ok r /\
    colloc r dom n rows nglp tf (fun iv b i => if Nat.ltb b cols then Rsum cols (fun b' => P b' b * V iv b' i) else 0)) /\
  ((rows < cols)%nat -> mlm_update_const (mlm_new cols nglp n rows) p = UB).
Proof.
  intros Mp C Hn H1. split.
  - intros Hle. destruct (mlm_const_ok (mlm_new cols nglp n rows) p P _ (mlm_new_cells cols nglp n rows) Hle Mp) as (m & E & M). cbn [mlm_new ml_n ml_rows ml_cols ml_nglp] in *.
    destruct (mcells_spline fresh m rows cols nglp n _ g dom tf V (fun iv i b b' => if Nat.ltb b cols then P b' b else 0) M C Hn H1) as (r & Er & Cr).
    { intros iv b i iv' b' i' _ _ _ _ _ _. destruct (Nat.eqb iv iv' && Nat.eqb i i'); cbn [andb]; reflexivity. }
    eexists. exists r. split; [exact E|]. split; [exact Er|]. eapply colloc_ext; [exact Cr|]. intros iv b i _ _ _. cbn beta.
    destruct (Nat.ltb b cols); [reflexivity|]. apply Rsum_zero. intros; ring.
  - intros Hlt. apply mlm_const_ub; cbn; auto; try lia; apply Mp.
Qed.
(** with a symmetric matrix the product is the right one *)
Theorem C43_matrix_symmetric fresh d nglp n p P (g : gspline R) dom tf V : mat_is p d d P -> (forall i j, (i < d)%nat -> (j < d)%nat -> P i j = P j i) ->
  colloc g dom n d nglp tf V -> (2 <= nglp)%nat -> (1 <= n)%nat ->
  exists a r, mlm_update_const (mlm_new d nglp n d) p = Ok a /\ lf_spline fresh (ml_mat a) g = Ok r /\
    colloc r dom n d nglp tf (fun iv b i => Rsum d (fun b' => P b b' * V iv b' i)).
Proof.
  intros Mp Sy C Hn H1. destruct (C43_matrix_constant fresh d d nglp n p P g dom tf V Mp C Hn H1) as (X & _). destruct (X (le_n d)) as (a & r & Ea & Er & Cr).
  exists a, r. split; [exact Ea|]. split; [exact Er|]. eapply colloc_ext; [exact Cr|]. intros iv b i _ Hb _. cbn beta. destruct (Nat.ltb_spec b d); [|lia].
  apply Rsum_ext. intros b' Hb'. now rewrite Sy.
Qed.
(** the matrix (0 1; 0 0) applied to the spline with components 5 and 7 gives (0, 5), not (7, 0) *)
Theorem C43_matrix_constant_refuted fresh : exists (g r : gspline R) p a, mat_is p 2 2 (fun i j => if Nat.eqb i 0 && Nat.eqb j 1 then 1 else 0) /\
  colloc g (0, 1) 1 2 2 (fun _ => 1) (fun _ cc _ => if Nat.eqb cc 0 then 5 else 7) /\
  mlm_update_const (mlm_new 2 2 1 2) p = Ok a /\ lf_spline fresh (ml_mat a) g = Ok r /\
  colloc r (0, 1) 1 2 2 (fun _ => 1) (fun _ cc _ => if Nat.eqb cc 0 then 0 else 5).
Proof.
  assert (K : pointwise (fo_of_fn true (FConst (0, 1) [5; 7])) (fun cc _ => nth cc [5; 7] 0)).
  { apply fn_pointwise. intros l. cbn. rnum. now rewrite !Rmult_1_l. }
  destruct (approx_ok fresh _ _ 2 1 ltac:(lia) K) as (g & _ & _ & C). cbn [fo_of_fn fo_dom fo_codom fdom fcod length fst snd] in C.
  assert (C' : colloc g (0, 1) 1 2 2 (fun _ => 1) (fun _ cc _ => if Nat.eqb cc 0 then 5 else 7)).
  { replace (fun _ : nat => 1) with (fun _ : nat => nmul n1 (ndiv (nsub 1 0) (nofnat 1))).
    - eapply colloc_ext; [exact C|]. intros iv [|[|cc]] i _ B _; try lia; reflexivity.
    - apply FunctionalExtensionality.functional_extensionality. intros _. rewrite nofnat_INR. rnum. simpl INR. field. }
  set (p := mkmat 2 2 (fun i j => Some (if Nat.eqb i 0 && Nat.eqb j 1 then 1 else 0))).
  assert (Mp : mat_is p 2 2 (fun i j => if Nat.eqb i 0 && Nat.eqb j 1 then 1 else 0)) by (split; [|split]; auto).
  destruct (C43_matrix_constant fresh 2 2 2 1 p _ g _ _ _ Mp C' ltac:(lia) ltac:(lia)) as (X & _). destruct (X (le_n 2)) as (a & r & Ea & Er & Cr).
  exists g, r, p, a. split; [exact Mp|]. split; [exact C'|]. split; [exact Ea|]. split; [exact Er|]. eapply colloc_ext; [exact Cr|].
  intros iv [|[|cc]] i _ B _; try lia; cbn; ring.
Qed.
(** the integral functional: quadrature on equal intervals *)
Theorem C43_integral (g : gspline R) lb rb n nglp tf V w wf : colloc g (lb, rb) n 1 nglp tf V -> (2 <= nglp)%nat -> (1 <= n)%nat -> gl_weights nglp = Ok w -> vec_is w nglp wf ->
  exists m v, int_of g = Ok m /\ lf_call m g = Ok v /\ vec_is v 1 (fun _ => Rsum n (fun iv => Rsum nglp (fun i => wf i * ((rb - lb) / INR n / 2) * V iv 0%nat i))).
Proof.
  intros C Hn H1 Ew Vw. unfold int_of, int_ctor. destruct (colloc_shape _ _ _ _ _ _ _ C Hn) as (-> & -> & _). replace (gs_dom g) with (lb, rb) by (symmetry; apply C). cbn [fst snd].
  destruct (C40_weights lb rb nglp n w wf Hn H1 Ew Vw) as (r & rf & -> & Vr & Hr & _). cbn [bind].
  assert (Mi : mat_is (row_of r) 1 (n * nglp * 1) (fun _ k => rf k)).
  { rewrite Nat.mul_1_r. split; [reflexivity|]. split; [cbn; apply Vr|]. intros i j _ Hj. cbn. destruct Vr as [_ Vr]. auto. }
  destruct (mvmul_is _ _ _ _ _ _ Mi (colloc_vec _ _ _ _ _ _ _ C)) as (v & Ev & Vv). exists (row_of r), v. split; [reflexivity|]. split; [exact Ev|].
  eapply vec_is_ext; [exact Vv|]. intros k _. rewrite nsum_R, Nat.mul_1_r, Rsum_mul. apply Rsum_ext. intros iv Hiv. apply Rsum_ext. intros i Hi. rnum. rewrite Hr by auto. f_equal.
  rewrite <- (nidx_at 1 nglp V iv 0 i) by lia. f_equal. lia.
Qed.
(** FINDING: its length update compares with the number of rows, which is 1,
    and therefore throws for every spline and every vector of lengths *)
Theorem C43_integral_update_refuted (g : gspline R) dom n codom nglp tf V m taus : colloc g dom n codom nglp tf V -> (2 <= nglp)%nat -> int_of g = Ok m ->
  int_update nglp m taus = Throw InvalidArgument.
Proof.
  intros C Hn E. unfold int_of, int_ctor in E. destruct (gl_grid_weights _ _ _ _); try discriminate. injection E as <-. unfold int_update. cbn [row_of mrows].
  destruct (Nat.eqb_spec (vlen taus * nglp) 1); [|reflexivity]. destruct (vlen taus); nia.
Qed.
(** two functions on [0, 2], one interval, two nodes: (5, 7) . (5, 7) = 74 at each node, integral 2 * 74 = 148 *)
Example C43_case fresh : exists (g : gspline R) t r w m v, colloc g (0, 2) 1 2 2 (fun _ => 2) (fun _ cc _ => if Nat.eqb cc 0 then 5 else 7) /\
  tlm_of g = Ok t /\ lf_spline fresh (tl_mat t) g = Ok r /\ lf_call (tl_mat t) g = Ok w /\ vget w 1 = Some 74 /\
  int_of r = Ok m /\ lf_call m r = Ok v /\ vget v 0 = Some 148 /\ int_update 2 m (vconst 1 2) = Throw InvalidArgument.
Proof.
  assert (K : pointwise (fo_of_fn true (FConst (0, 2) [5; 7])) (fun cc _ => nth cc [5; 7] 0)).
  { apply fn_pointwise. intros l. cbn. rnum. now rewrite !Rmult_1_l. }
  destruct (approx_ok fresh _ _ 2 1 ltac:(lia) K) as (g & _ & _ & C). cbn [fo_of_fn fo_dom fo_codom fdom fcod length fst snd] in C.
  assert (C' : colloc g (0, 2) 1 2 2 (fun _ => 2) (fun _ cc _ => if Nat.eqb cc 0 then 5 else 7)).
  { replace (fun _ : nat => 2) with (fun _ : nat => nmul n1 (ndiv (nsub 2 0) (nofnat 1))).
    - eapply colloc_ext; [exact C|]. intros iv [|[|cc]] i _ B _; try lia; reflexivity.
    - apply FunctionalExtensionality.functional_extensionality. intros _. rewrite nofnat_INR. rnum. simpl INR. field. }
  destruct (C43_inner_product fresh g g _ _ _ _ _ _ _ _ _ C' C' ltac:(lia) ltac:(lia)) as (t & r & w & Et & Er & Cr & Ew & _ & Gw).
  destruct (gl_ok (T := R) 2 ltac:(lia)) as (p0 & w0 & E0 & P0 & W0).
  assert (Ew0 : gl_weights 2 = Ok w0) by (unfold gl_weights; rewrite E0; reflexivity).
  destruct (C43_integral r _ _ _ _ _ _ w0 _ Cr ltac:(lia) ltac:(lia) Ew0 W0) as (m & v & Em & Ev & Vv).
  exists g, t, r, w, m, v. split; [exact C'|]. split; [exact Et|]. split; [exact Er|]. split; [exact Ew|]. split.
  { change 1%nat with (0 * 2 + 1)%nat. rewrite Gw by lia. f_equal. cbn. ring. }
  split; [exact Em|]. split; [exact Ev|]. split; [|eapply C43_integral_update_refuted; eauto].
  destruct Vv as [_ Vv]. rewrite Vv by lia. f_equal.
  pose proof (C39_weights 2 p0 w0 _ _ 0 E0 P0 W0 ltac:(lia)) as X0. pose proof (C39_weights 2 p0 w0 _ _ 1 E0 P0 W0 ltac:(lia)) as X1.
  cbn [Rsum Nat.eqb]. rewrite X0, X1. unfold lob_weight, gpoint. cbn. rnum. field. 
Qed.

(** ** C44: distance to a function and its differential *)
(** sum over nodes of weight * ((f - g)^2 + (f' - g')^2), components summed *)
Definition sobolev_distance (nglp : nat) (x w : nat -> R) (n codom : nat) (lb len : R) (F F' : nat -> R -> R) (c : nat -> R) : R :=
  let g iv cc := piece (DLag nglp x) codom lb (fun _ => len) c iv cc in
  Rsum n (fun iv => Rsum nglp (fun i => let t := on_interval (lb + INR iv * len) len (x i) in
    w i * (len / 2) * Rsum codom (fun cc => (F cc t - g iv cc t) ^ 2 + (F' cc t - Derive (g iv cc) t) ^ 2))).
(** [G] is the gradient at [c] *)
Definition is_gradient (N : nat) (J : (nat -> R) -> R) (c G : nat -> R) : Prop :=
  forall u, is_derive (fun h => J (fun j => c j + h * u j)) 0 (Rsum N (fun j => G j * u j)).

(** [f] has the values F, its derivative object the values F'; [g] is any
    spline on the same nodes and intervals with coefficients c *)
Theorem C44_distance fresh (f fd : fobj R) F F' lb rb nglp n p x w wf : pointwise f F -> pointwise fd F' -> fo_dom f = (lb, rb) -> fo_dom fd = (lb, rb) -> fo_codom fd = fo_codom f ->
  lb < rb -> (2 <= nglp)%nat -> (1 <= n)%nat -> gl_points nglp = Ok p -> vec_is p nglp x -> distinct nglp x -> gl_weights nglp = Ok w -> vec_is w nglp wf ->
  let len := (rb - lb) / INR n in let codom := fo_codom f in let J := sobolev_distance nglp x wf n codom lb len F F' in
  exists s, sd_ctor fresh f fd nglp n = Ok s /\ forall g c, rep g (DLag nglp x) n codom lb rb (fun _ => len) c ->
    (exists v, sd_value fresh s g = Ok v /\ vec_is v 1 (fun _ => J c)) /\
    ((forall i, (i < nglp)%nat -> 0 <= wf i) -> 0 <= J c) /\
    exists m G, sd_diff_matrix fresh s g = Ok m /\ mat_is m 1 (n * nglp * codom) (fun _ j => G j) /\ is_gradient (n * nglp * codom) J c G.
Proof.
  intros HF HF' Ed Ed' Ec Hlt Hn H1 Ep P Dx Ew W len codom J.
  destruct (sdist_ok fresh nglp Hn x ltac:(intros q Eq; rewrite Ep in Eq; injection Eq as <-; exact P) Dx f fd F F' lb rb n w wf HF HF' Ed Ed' Ec Hlt H1 Ew W) as (s & Es & X).
  exists s. split; [exact Es|exact X].
Qed.
(** the identity against the zero spline on [0, 1]: (1/2)(0 + 1) + (1/2)(1 + 1) = 3/2 *)
Example C44_case fresh : exists x wf s g v, good_nodes 2 x /\ (forall i, (i < 2)%nat -> 0 <= wf i) /\
  sd_ctor fresh (fo_of_fn true (identity_function (0, 1))) (fo_of_fn true (FConst (0, 1) [1])) 2 1 = Ok s /\
  rep g (DLag 2 x) 1 1 0 1 (fun _ => 1) (fun _ => 0) /\ sd_value fresh s g = Ok v /\ vget v 0 = Some (3 / 2).
Proof.
  assert (K : forall y, pointwise (fo_of_fn true (FConst (0, 1) [y])) (fun _ _ => y)).
  { intros y. apply fn_pointwise. intros l. cbn. rnum. now rewrite !Rmult_1_l. }
  destruct (gl_ok (T := R) 2 ltac:(lia)) as (p0 & w0 & E0 & P0 & W0).
  assert (Ew0 : gl_weights 2 = Ok w0) by (unfold gl_weights; rewrite E0; reflexivity).
  assert (Ep0 : gl_points 2 = Ok p0) by (unfold gl_points; rewrite E0; reflexivity).
  assert (Dx : distinct 2 (gpoint (2 - 1))) by (apply separated_distinct, good_2).
  exists (gpoint (2 - 1)). eexists.
  destruct (C44_distance fresh _ _ _ _ 0 1 2 1 p0 _ w0 _ (identity_pointwise true (0, 1)) (K 1) eq_refl eq_refl eq_refl ltac:(lra) ltac:(lia) ltac:(lia) Ep0 P0 Dx Ew0 W0) as (s & Es & X).
  destruct (approx_rep fresh 2 ltac:(lia) (gpoint (2 - 1)) ltac:(intros q Eq; rewrite Ep0 in Eq; injection Eq as <-; exact P0) Dx _ _ 0 1 1 (K 0) eq_refl ltac:(lia)) as (g & Eg & Rg).
  cbn [fo_of_fn fo_codom fcod length identity_function] in *. replace ((1 - 0) / INR 1) with 1 in * by (simpl; field).
  assert (Rg' : rep g (DLag 2 (gpoint (2 - 1))) 1 1 0 1 (fun _ => 1) (fun _ => 0)).
  { eapply rep_ext; [exact Rg|]. intros k Hk. destruct (nidx_split 1 1 2 k Hk) as (iv & cc & i & A & B & I & ->). rewrite nidx_at by auto. reflexivity. }
  destruct (X g _ Rg') as ((v & Ev & Vv) & _).
  pose proof (C39_weights 2 p0 w0 _ _ 0 E0 P0 W0 ltac:(lia)) as X0. pose proof (C39_weights 2 p0 w0 _ _ 1 E0 P0 W0 ltac:(lia)) as X1.
  exists s, g, v. split; [exact good_2|]. split.
  { intros [|[|i]] Hi; try lia; [rewrite X0|rewrite X1]; unfold lob_weight, gpoint; cbn; rnum; apply Rlt_le, Rdiv_lt_0_compat; lra. }
  split; [exact Es|]. split; [exact Rg'|]. split; [exact Ev|]. destruct Vv as [_ Vv]. rewrite Vv by lia. f_equal.
  assert (Z : forall iv cc t, piece (DLag 2 (gpoint (2 - 1))) 1 0 (fun _ => 1) (fun _ => 0) iv cc t = 0).
  { intros. unfold piece. apply Rsum_zero. intros. ring. }
  unfold sobolev_distance. cbn zeta. cbn [Rsum]. rewrite X0, X1. rewrite !Z.
  rewrite !(Derive_ext (piece (DLag 2 (gpoint (2 - 1))) 1 0 (fun _ => 1) (fun _ => 0) 0 0) (fun _ => 0)) by (intros; apply Z). rewrite !Derive_const.
  unfold lob_weight, gpoint, on_interval. cbn. rnum. field.
Qed.
