(** C57: the collocation problem handed to an optimiser. *)
From Coquelicot Require Import Coquelicot.
From Coq Require Import List Arith Lia Bool ZArith Reals Lra Psatz String Decimal DecimalString DecimalNat.
From Verif Require Import Num Outcome LinAlg RSum RPoly RDeriv LegendreSpec LegendreModel LagrangeModel LagrangeMath LagrangeProofs
  Basis0101Model BasisModel SplineSpec BasisFn BasisProofs BasisProofs2 BasisProofs3
  ToolsModel FunModel GSplineModel GSplineProofs GSplineProofs2 GSplineProofs4 GLSpec GLModel GLProofs GLProofs2 GLProps QuadSpec IntegralModel IntegralProofs IntegralProps GLLModel GLLProofs GLLProofs2 GLLProofs3 GLLProps
  GLFModel GLFProofs GLFProofs2 GLFProofs3 GLFProps GLConvSpec GLConvProps GLConvProps2 OptModel OptProofs GLOModel GLOProofs LagrangeSpec.
Import ListNotations.
Local Opaque gl_iters.
Local Open Scope string_scope.
Local Open Scope list_scope.
Local Open Scope R_scope.

(** ** Specification: what an optimiser should be told.  [c] is the current point; [J] the cost; [jumps c der iv cc] the jump of
    derivative [der] of component [cc] at interior breakpoint [iv + 1]; the i-th constraint asks for continuity up to [degs i] *)
Section Spec.
Variables (N nm1 codom : nat) (J : (nat -> R) -> R) (jumps : (nat -> R) -> nat -> nat -> nat -> R) (degs : list nat).
Inductive answered : (nat -> R) -> list (gquery R) -> list (ganswer R) -> Prop :=
| a_nil c : answered c [] []
| a_set c x c' l r : vec_is x N c' -> answered c' l r -> answered c (QSet x :: l) (GDone :: r)
| a_cost c l r : answered c l r -> answered c (QCost :: l) (GNumber (J c) :: r)
| a_grad c m G l r : mat_is m 1 N (fun _ j => G j) -> is_gradient N J c G -> answered c l r -> answered c (QGradient "GLL" :: l) (GMatrix m :: r)
| a_values c i deg v w l r : nth_error degs i = Some deg -> vec_is v (nm1 * codom * (deg + 1)) w ->
    (forall der iv cc, (der <= deg)%nat -> (iv < nm1)%nat -> (cc < codom)%nat -> w (codom * nm1 * der + iv * codom + cc)%nat = jumps c der iv cc) ->
    answered c l r -> answered c (QValues i :: l) (GVector v :: r)
| a_jac c i deg m M l r : nth_error degs i = Some deg -> mat_is m (nm1 * codom * (deg + 1)) N M ->
    (forall u der iv cc, (der <= deg)%nat -> (iv < nm1)%nat -> (cc < codom)%nat ->
      Rsum N (fun j => M (codom * nm1 * der + iv * codom + cc)%nat j * u j) = jumps u der iv cc) ->
    answered c l r -> answered c (QJacobian i "GLL" :: l) (GMatrix m :: r).
Lemma inv_set c x l a r : answered c (QSet x :: l) (a :: r) -> exists c', vec_is x N c' /\ answered c' l r.
Proof. inversion 1; subst; eauto. Qed.
Lemma inv_cost c l v r : answered c (QCost :: l) (GNumber v :: r) -> v = J c /\ answered c l r.
Proof. inversion 1; subst; auto. Qed.
Lemma inv_grad c l m r : answered c (QGradient "GLL" :: l) (GMatrix m :: r) -> exists G, mat_is m 1 N (fun _ j => G j) /\ is_gradient N J c G /\ answered c l r.
Proof. inversion 1; subst; eauto. Qed.
Lemma inv_values c i l v r : answered c (QValues i :: l) (GVector v :: r) -> exists deg w, nth_error degs i = Some deg /\ vec_is v (nm1 * codom * (deg + 1)) w /\
    (forall der iv cc, (der <= deg)%nat -> (iv < nm1)%nat -> (cc < codom)%nat -> w (codom * nm1 * der + iv * codom + cc)%nat = jumps c der iv cc) /\ answered c l r.
Proof. inversion 1; subst; eauto 10. Qed.
Lemma inv_jac c i l m r : answered c (QJacobian i "GLL" :: l) (GMatrix m :: r) -> exists deg M, nth_error degs i = Some deg /\ mat_is m (nm1 * codom * (deg + 1)) N M /\
    (forall u der iv cc, (der <= deg)%nat -> (iv < nm1)%nat -> (cc < codom)%nat ->
      Rsum N (fun j => M (codom * nm1 * der + iv * codom + cc)%nat j * u j) = jumps u der iv cc) /\ answered c l r.
Proof. inversion 1; subst; eauto 10. Qed.
(** questions an optimiser may put *)
Definition proper (q : gquery R) : Prop :=
  match q with
  | QSet x => exists c, vec_is x N c
  | QCost => True
  | QGradient s => s = "GLL"
  | QValues i => (i < List.length degs)%nat
  | QJacobian i s => (i < List.length degs)%nat /\ s = "GLL"
  end.
End Spec.

(** ** Auxiliary *)
Lemma weights_nonneg nglp p w x wf : gl_points_weights nglp = Ok (p, w) -> vec_is p nglp x -> vec_is w nglp wf -> INR nglp ^ 2 <= 200000000 ->
  forall i, (i < nglp)%nat -> 0 <= wf i.
Proof.
  intros E X W Hb i Hi. destruct (points_are nglp p w x E X) as (Hn & _). destruct (rule_nodes_exist (nglp - 1) ltac:(lia)) as (z & Hz).
  destruct (rule_quad p w x wf nglp z E X W Hz ltac:(lra)) as (Q & _). destruct (Q i Hi) as (_ & _ & _ & V & _).
  destruct (C56_sharp nglp p w x wf z i E X W Hz Hi ltac:(lra)) as (_ & K). lra.
Qed.
Definition no_gll (vs : vars R) : Prop := forall q, In q vs -> fst q <> "GLL".
Lemma scope_find (p : gprob R) : no_gll (gp_others p) -> the_spline (gp_scope p) = Ok (gv_spline (gp_var p)).
Proof.
  intros H. unfold the_spline, find_set, gp_scope. replace (find _ _) with (Some ("GLL", CSpline (gp_var p))); [reflexivity|].
  induction (gp_others p) as [|q l IH]; [reflexivity|]. rewrite <- app_comm_cons. cbn [find]. destruct (String.eqb_spec (fst q) "GLL") as [e|e].
  - exfalso. apply (H q); [left; reflexivity|exact e].
  - apply IH. intros q' Hq. apply H. right. exact Hq.
Qed.

(** ** The variable set *)
Theorem C57_variable (g : gspline R) d n codom t0 t1 tf c : rep g d n codom t0 t1 tf c -> exists v, gv_ctor g = Ok v /\
  gv_values v = gs_coef g /\
  forall xs, Forall (fun x => exists y, vec_is x (n * d_dim d * codom) y) xs -> let v' := fold_left gv_set xs v in
    gv_rows v' = (n * d_dim d * codom)%nat /\ gv_bounds v' = vconst (n * d_dim d * codom) (- 10 ^ 20, 10 ^ 20) /\
    gv_values v' = last xs (gs_coef g) /\
    exists y, vec_is (last xs (gs_coef g)) (n * d_dim d * codom) y /\ rep (gv_spline v') d n codom t0 t1 tf y.
Proof.
  intros Rg. unfold gv_ctor. destruct (rep_copy _ _ _ _ _ _ _ _ Rg) as (r & -> & Rr & Ec & _). cbn [bind]. pose proof Rg as (_ & _ & _ & _ & K & _).
  replace (vlen (gs_coef g)) with (n * d_dim d * codom)%nat by (symmetry; apply K). eexists. split; [reflexivity|]. split; [exact Ec|].
  intros xs HF. cbv zeta.
  assert (X : forall xs v y, Forall (fun x => exists y, vec_is x (n * d_dim d * codom) y) xs -> vec_is (gv_values v) (n * d_dim d * codom) y -> rep (gv_spline v) d n codom t0 t1 tf y ->
    gv_rows (fold_left gv_set xs v) = gv_rows v /\ gv_bounds (fold_left gv_set xs v) = gv_bounds v /\ gv_values (fold_left gv_set xs v) = last xs (gv_values v) /\
    exists y', vec_is (last xs (gv_values v)) (n * d_dim d * codom) y' /\ rep (gv_spline (fold_left gv_set xs v)) d n codom t0 t1 tf y').
  { clear. induction xs as [|x xs IH]; intros v y HF V Rv; cbn [fold_left].
    - cbn [last]. split; [reflexivity|]. split; [reflexivity|]. split; [reflexivity|]. exists y. split; assumption.
    - inversion HF as [|? ? (y' & V') HF']; subst. destruct (IH (gv_set v x) y' HF' V' (rep_with_coef _ _ _ _ _ _ _ _ _ _ Rv V')) as (A & B & C & E).
      split; [exact A|]. split; [exact B|]. assert (L : last (x :: xs) (gv_values v) = last xs (gv_values (gv_set v x))).
      { cbn. destruct xs as [|a xs']; [reflexivity|]. clear. revert a. induction xs' as [|b xs' IH]; intros a; [reflexivity|]. apply IH. }
      rewrite L. split; [exact C|exact E]. }
  destruct (X xs (mkgvar r (n * d_dim d * codom) (vconst (n * d_dim d * codom) (nopp ifopt_inf, ifopt_inf))) c HF ltac:(unfold gv_values; cbn; rewrite Ec; exact K) Rr) as (A & B & C & E).
  unfold gv_values at 2 in C. unfold gv_values in E. cbn [gv_spline gv_rows gv_bounds] in *. rewrite Ec in C, E.
  split; [exact A|]. split; [|split; [exact C|exact E]]. rewrite B, inf_R. reflexivity.
Qed.

(** ** The problem *)
(** [cw] wraps a ContinuityError of degree [deg] made for the spline [g], in one of the two ways the code offers *)
Definition wraps (fresh : nat -> nat -> option R) (g : gspline R) (cw : conw R) (deg : nat) (lo hi : R) : Prop :=
  exists ce cls k, (ce_of fresh g deg = Ok ce \/ ce_ctor fresh (gs_dim g) (gs_tau g) (gs_codom g) deg = Ok ce) /\ cw = fst (nw_ctor cls lo hi (fl_of_ce ce) k).

Section Session.
Variables (fresh : nat -> nat -> option R) (f fd : fobj R) (F F' : nat -> R -> R) (lb rb : R) (nglp nm1 : nat) (p w : vec R) (x wf : nat -> R).
Hypothesis HF : pointwise f F.
Hypothesis HF' : pointwise fd F'.
Hypothesis Ed : fo_dom f = (lb, rb).
Hypothesis Ed' : fo_dom fd = (lb, rb).
Hypothesis Ec : fo_codom fd = fo_codom f.
Hypothesis Hlt : lb < rb.
Hypothesis Hb : INR nglp ^ 2 <= 200000000.
Hypothesis Epw : gl_points_weights nglp = Ok (p, w).
Hypothesis Px : vec_is p nglp x.
Hypothesis Pw : vec_is w nglp wf.
Let n := S nm1.
Let codom := fo_codom f.
Let len := (rb - lb) / INR n.
Let N := (n * nglp * codom)%nat.
Let D := DLag nglp x.
Let J := sobolev_distance nglp x wf n codom lb len F F'.
Let jumps := jump D codom lb (fun _ => len).

Lemma Hn' : (2 <= nglp)%nat.
Proof. apply (points_are nglp p w x Epw Px). Qed.
Lemma Ep' : gl_points nglp = Ok p.
Proof. unfold gl_points. rewrite Epw. reflexivity. Qed.
Lemma Gx' q : gl_points nglp = Ok q -> vec_is q nglp x.
Proof. rewrite Ep'. intros [= <-]. exact Px. Qed.
Lemma Sx' : separated nglp x.
Proof. apply (C56_usable nglp p); auto; [apply Ep'|lra]. Qed.
Lemma len_pos : 0 < len.
Proof. apply Rdiv_lt_0_compat; [lra|apply lt_0_INR; unfold n; lia]. Qed.
Lemma wraps_ok g c cw deg lo hi : rep g D n codom lb rb (fun _ => len) c -> wraps fresh g cw deg lo hi ->
  nw_rows cw = (nm1 * codom * (deg + 1))%nat /\ nw_bounds cw = vconst (nm1 * codom * (deg + 1)) (lo, hi) /\
  exists m, nw_fun cw = FLinear (nm1 * codom * (deg + 1)) m /\ ce_jumps nglp x m nm1 codom deg lb (fun _ => len).
Proof.
  intros Rg (ce & cls & k & Ece & ->). pose proof len_pos as Hl.
  assert (X : ce_rows ce = (nm1 * codom * (deg + 1))%nat /\ ce_jumps nglp x (ce_mat ce) nm1 codom deg lb (fun _ => len)).
  { destruct Ece as [E|E].
    - destruct (ce_of_ok fresh nglp Hn' x Gx' Sx' g nm1 codom deg lb rb (fun _ => len) c Rg ltac:(intros; lra)) as (ce' & E' & _ & A & B). rewrite E in E'. injection E' as <-. auto.
    - destruct (rep_shape nglp x _ _ _ _ _ _ _ Rg) as (_ & S2 & S3 & _). rewrite S2, S3 in E.
      destruct (ce_ctor_ok fresh nglp Hn' x Gx' Sx' nm1 codom deg (gs_tau g) (fun _ => len) lb ltac:(apply Rg) ltac:(intros; lra)) as (ce' & E' & _ & A & B). rewrite E in E'. injection E' as <-. auto. }
  destruct X as (A & B). cbn. rewrite A. split; [reflexivity|]. split; [reflexivity|]. exists (ce_mat ce). split; [unfold fl_of_ce; rewrite A; reflexivity|exact B].
Qed.
Lemma rep_set g c v y : rep g D n codom lb rb (fun _ => len) c -> vec_is v N y -> rep (with_coef g v) D n codom lb rb (fun _ => len) y.
Proof. intros Rg V. apply (rep_with_coef _ _ _ _ _ _ _ _ _ _ Rg). exact V. Qed.

Lemma session_ok (pr : gprob R) s g0 cg0 degs bnds : sd_ctor fresh f fd nglp n = Ok s -> cw_fun (gp_cost pr) = FDistance s ->
  rep g0 D n codom lb rb (fun _ => len) cg0 -> Forall2 (fun cw '(deg, (lo, hi)) => wraps fresh g0 cw deg lo hi) (gp_cons pr) (combine degs bnds) -> List.length bnds = List.length degs ->
  no_gll (gp_others pr) ->
  forall l c, Forall (proper N degs) l -> rep (gv_spline (gp_var pr)) D n codom lb rb (fun _ => len) c ->
  exists ans pr', gp_run fresh pr l = Ok (ans, pr') /\ answered N nm1 codom J jumps degs c l ans.
Proof.
  intros Es Ef Rg0 FW Lb No l. revert pr Ef FW No.
  destruct (C44_distance fresh f fd F F' lb rb nglp n p x w wf HF HF' Ed Ed' Ec Hlt Hn' ltac:(unfold n; lia) Ep' Px (points_distinct nglp p x Ep' Px) ltac:(unfold gl_weights; rewrite Epw; reflexivity) Pw) as (s' & Es' & K).
  assert (s' = s) by congruence. subst s'. clear Es'.
  induction l as [|q l IH]; intros pr Ef FW No c HP Rg; [exists [], pr; split; [reflexivity|constructor]|].
  inversion HP as [|? ? Pq Pl]; subst.
  assert (Con : forall i, (i < List.length degs)%nat -> exists cw deg m, nth_error (gp_cons pr) i = Some cw /\ nth_error degs i = Some deg /\
     nw_fun cw = FLinear (nm1 * codom * (deg + 1)) m /\ ce_jumps nglp x m nm1 codom deg lb (fun _ => len)).
  { intros i Hi. destruct (nth_error degs i) as [deg|] eqn:Edeg; [|apply nth_error_None in Edeg; lia].
    destruct (nth_error bnds i) as [[lo hi]|] eqn:Eb; [|apply nth_error_None in Eb; lia].
    assert (Ecb : nth_error (combine degs bnds) i = Some (deg, (lo, hi))).
    { clear -Edeg Eb. revert degs bnds Edeg Eb. induction i as [|i IH]; intros [|a degs] [|b bnds]; cbn; try discriminate; [intros [= ->] [= ->]; reflexivity|apply IH]. }
    assert (X : exists cw, nth_error (gp_cons pr) i = Some cw /\ wraps fresh g0 cw deg lo hi).
    { clear -FW Ecb. revert i Ecb. induction FW as [|a b la lb' Hab FW IH]; intros [|i]; cbn; try discriminate; [intros [= ->]; eauto|apply IH]. }
    destruct X as (cw & Ei & Wr). destruct (wraps_ok g0 cg0 cw deg lo hi Rg0 Wr) as (_ & _ & m & Em & Hm). exists cw, deg, m. auto. }
  destruct q as [v| |nm|i|i nm]; cbn [gp_run gp_ask proper] in *.
  - destruct Pq as (y & V). destruct (IH (gp_set pr v) Ef FW No y Pl (rep_set _ _ _ _ Rg V)) as (ans & pr' & E & A). cbn [bind]. rewrite E. cbn [bind].
    eexists _, pr'. split; [reflexivity|]. econstructor; eauto.
  - destruct (IH pr Ef FW No c Pl Rg) as (ans & pr' & E & A). destruct (K _ c Rg) as ((v & Ev & V1 & V2) & _ & _).
    unfold cw_cost. rewrite scope_find by exact No. cbn [bind]. rewrite Ef. cbn [fl_call]. rewrite Ev. cbn [bind]. unfold vread. rewrite V1. cbn [Nat.ltb Nat.leb]. rewrite V2 by lia. cbn [bind of_option].
    rewrite E. cbn [bind]. eexists _, pr'. split; [reflexivity|]. constructor. exact A.
  - subst nm. destruct (IH pr Ef FW No c Pl Rg) as (ans & pr' & E & A). destruct (K _ c Rg) as (_ & _ & m & G & Em & Mm & HG).
    unfold cw_jacobian. rewrite scope_find by exact No. cbn [bind]. rewrite String.eqb_refl, Ef. cbn [fl_jac]. rewrite Em. cbn [bind]. rewrite E. cbn [bind].
    eexists _, pr'. split; [reflexivity|]. econstructor; eauto.
  - destruct (IH pr Ef FW No c Pl Rg) as (ans & pr' & E & A). destruct (Con i Pq) as (cw & deg & m & Ei & Edeg & Em & M & Mm & HM). rewrite Ei. cbn [of_option bind].
    unfold nw_values. rewrite scope_find by exact No. cbn [bind]. rewrite Em. cbn [fl_call]. unfold lf_call.
    destruct (rep_shape nglp x _ _ _ _ _ _ _ Rg) as (_ & _ & _ & Vc). destruct (mvmul_is m _ _ _ _ _ Mm Vc) as (v & Ev & Vv). rewrite Ev. cbn [bind]. rewrite E. cbn [bind].
    eexists _, pr'. split; [reflexivity|]. eapply a_values; [exact Edeg|exact Vv| |exact A]. intros der iv cc H1 H2 H3. cbv beta. rewrite nsum_R. apply (HM c); auto.
  - destruct Pq as (Pi & ->). destruct (IH pr Ef FW No c Pl Rg) as (ans & pr' & E & A). destruct (Con i Pi) as (cw & deg & m & Ei & Edeg & Em & M & Mm & HM). rewrite Ei. cbn [of_option bind].
    unfold nw_jacobian. rewrite scope_find by exact No. cbn [bind]. rewrite String.eqb_refl, Em. cbn [fl_jac bind]. rewrite E. cbn [bind].
    eexists _, pr'. split; [reflexivity|]. eapply a_jac; [exact Edeg|exact Mm|exact HM|exact A].
Qed.
End Session.

(** The objects of a problem: a SobolevDistance to [f] (derivative [fd]) as cost, ContinuityErrors of degrees [degs] with bounds [bnds]
    as constraints, the spline [g0] as variable, and any other variable sets *)
Definition the_problem fresh (f fd : fobj R) F F' lb rb nglp nm1 x wf g0 degs bnds (pr : gprob R) : Prop :=
  pointwise f F /\ pointwise fd F' /\ fo_dom f = (lb, rb) /\ fo_dom fd = (lb, rb) /\ fo_codom fd = fo_codom f /\ lb < rb /\ INR nglp ^ 2 <= 200000000 /\
  (exists p w, gl_points_weights nglp = Ok (p, w) /\ vec_is p nglp x /\ vec_is w nglp wf) /\
  (exists s cls k, sd_ctor fresh f fd nglp (S nm1) = Ok s /\ gp_cost pr = fst (cw_ctor cls (FDistance s) k)) /\
  gv_ctor g0 = Ok (gp_var pr) /\ no_gll (gp_others pr) /\ List.length bnds = List.length degs /\
  Forall2 (fun cw '(deg, (lo, hi)) => wraps fresh g0 cw deg lo hi) (gp_cons pr) (combine degs bnds).

(** Every run of proper questions is answered, with the cost, its gradient, the jumps and their matrix at the last point set *)
Theorem C57_session fresh (f fd : fobj R) F F' lb rb nglp nm1 x wf g0 c0 degs bnds pr : the_problem fresh f fd F F' lb rb nglp nm1 x wf g0 degs bnds pr ->
  let n := S nm1 in let codom := fo_codom f in let len := (rb - lb) / INR n in let N := (n * nglp * codom)%nat in
  rep g0 (DLag nglp x) n codom lb rb (fun _ => len) c0 ->
  forall l, Forall (proper N degs) l -> exists ans pr', gp_run fresh pr l = Ok (ans, pr') /\
    answered N nm1 codom (sobolev_distance nglp x wf n codom lb len F F') (jump (DLag nglp x) codom lb (fun _ => len)) degs c0 l ans.
Proof.
  intros (HF & HF' & Ed & Ed' & Ec & Hlt & Hb & (p & w & Epw & Px & Pw) & (s & cls & k & Es & Eco) & Ev & No & Lb & FW) n codom len N Rg l Hl.
  assert (Rv : rep (gv_spline (gp_var pr)) (DLag nglp x) n codom lb rb (fun _ => len) c0).
  { unfold gv_ctor in Ev. destruct (rep_copy _ _ _ _ _ _ _ _ Rg) as (r & Er & Rr & _). rewrite Er in Ev. cbn [bind] in Ev. injection Ev as <-. exact Rr. }
  apply (session_ok fresh f fd F F' lb rb nglp nm1 p w x wf HF HF' Ed Ed' Ec Hlt Hb Epw Px Pw pr s g0 c0 degs bnds Es ltac:(rewrite Eco; reflexivity) Rg FW Lb No l c0 Hl Rv).
Qed.
(** sizes and bounds announced: one per coefficient, one per jump *)
Theorem C57_bounds fresh (f fd : fobj R) F F' lb rb nglp nm1 x wf g0 c0 degs bnds pr : the_problem fresh f fd F F' lb rb nglp nm1 x wf g0 degs bnds pr ->
  let n := S nm1 in let codom := fo_codom f in let len := (rb - lb) / INR n in let N := (n * nglp * codom)%nat in
  rep g0 (DLag nglp x) n codom lb rb (fun _ => len) c0 ->
  gv_rows (gp_var pr) = N /\ gv_bounds (gp_var pr) = vconst N (- 10 ^ 20, 10 ^ 20) /\
  forall i cw, nth_error (gp_cons pr) i = Some cw -> exists deg lo hi, nth_error degs i = Some deg /\ nth_error bnds i = Some (lo, hi) /\
    nw_rows cw = (nm1 * codom * (deg + 1))%nat /\ nw_bounds cw = vconst (nm1 * codom * (deg + 1)) (lo, hi).
Proof.
  intros (HF & HF' & Ed & Ed' & Ec & Hlt & Hb & (p & w & Epw & Px & Pw) & _ & Ev & No & Lb & FW) n codom len N Rg.
  destruct (C57_variable g0 _ _ _ _ _ _ _ Rg) as (v & Ev' & _ & K). rewrite Ev in Ev'. injection Ev' as <-.
  destruct (K [] (Forall_nil _)) as (A & B & _). split; [exact A|]. split; [exact B|]. clear K A B.
  intros i cw Ei. assert (X : exists deg lo hi, nth_error degs i = Some deg /\ nth_error bnds i = Some (lo, hi) /\ wraps fresh g0 cw deg lo hi).
  { clear -FW Ei Lb. revert degs bnds FW Lb Ei. generalize (gp_cons pr). intros l. revert i. induction l as [|a l IH]; intros [|i] [|d degs] [|[lo hi] bnds] FW Lb; cbn; try discriminate; inversion FW; subst.
    - intros [= ->]. eauto 10.
    - intros Ei. apply (IH i degs bnds); auto. }
  destruct X as (deg & lo & hi & E1 & E2 & Wr). exists deg, lo, hi. split; [exact E1|]. split; [exact E2|].
  destruct (wraps_ok fresh f fd lb rb nglp nm1 p w x Ec Hlt Hb Epw Px g0 c0 cw deg lo hi Rg Wr) as (A & B & _). auto.
Qed.

(** ** What a solution means.  At [c] all jumps asked for vanish and the gradient is a combination of the rows of the constraint
    Jacobian (the first-order conditions an optimiser stops at): then no spline with those continuous derivatives has a lower cost *)
Theorem C57_minimum fresh (f fd : fobj R) F F' lb rb nglp nm1 x wf g0 c0 deg bnds pr xv v Gm rv Am pr1 yv v' rv' pr2 lam :
  the_problem fresh f fd F F' lb rb nglp nm1 x wf g0 [deg] bnds pr ->
  let n := S nm1 in let codom := fo_codom f in let len := (rb - lb) / INR n in let N := (n * nglp * codom)%nat in let M := (nm1 * codom * (deg + 1))%nat in
  rep g0 (DLag nglp x) n codom lb rb (fun _ => len) c0 -> (exists c, vec_is xv N c) -> (exists c, vec_is yv N c) ->
  gp_run fresh pr [QSet xv; QCost; QGradient "GLL"; QValues 0; QJacobian 0 "GLL"] = Ok ([GDone; GNumber v; GMatrix Gm; GVector rv; GMatrix Am], pr1) ->
  (forall r, (r < M)%nat -> vget rv r = Some 0) ->
  (forall j, (j < N)%nat -> exists gj, mget Gm 0 j = Some gj /\ exists a, (forall r, (r < M)%nat -> mget Am r j = Some (a r)) /\ gj = Rsum M (fun r => lam r * a r)) ->
  gp_run fresh pr [QSet yv; QCost; QValues 0] = Ok ([GDone; GNumber v'; GVector rv'], pr2) -> (forall r, (r < M)%nat -> vget rv' r = Some 0) ->
  v <= v'.
Proof.
  intros Pb n codom len N M Rg (cx & Vx) (cy & Vy) R1 Z1 KKT R2 Z2.
  destruct (C57_session _ _ _ _ _ _ _ _ _ _ _ _ c0 _ _ _ Pb Rg [QSet xv; QCost; QGradient "GLL"; QValues 0; QJacobian 0 "GLL"]) as (ans & q & E & A).
  { repeat constructor; cbn; eauto; lia. }
  rewrite R1 in E. injection E as <- <-.
  destruct (C57_session _ _ _ _ _ _ _ _ _ _ _ _ c0 _ _ _ Pb Rg [QSet yv; QCost; QValues 0]) as (ans & q & E & A').
  { repeat constructor; cbn; eauto; lia. }
  rewrite R2 in E. injection E as <- <-.
  destruct (inv_set _ _ _ _ _ _ _ _ _ _ _ A) as (cx' & Vx' & A1). destruct (inv_cost _ _ _ _ _ _ _ _ _ _ A1) as (-> & A2). destruct (inv_grad _ _ _ _ _ _ _ _ _ _ A2) as (G & MG & HG & A3).
  destruct (inv_values _ _ _ _ _ _ _ _ _ _ _ A3) as (dg & wv & Edg & Vw & Hw & A4). destruct (inv_jac _ _ _ _ _ _ _ _ _ _ _ A4) as (dg' & MM & Edg' & MMm & HMM & _).
  destruct (inv_set _ _ _ _ _ _ _ _ _ _ _ A') as (cy' & Vy' & A1'). destruct (inv_cost _ _ _ _ _ _ _ _ _ _ A1') as (-> & A2'). destruct (inv_values _ _ _ _ _ _ _ _ _ _ _ A2') as (dh & wy & Edh & Vwy & Hwy & _).
  cbn in Edg, Edg', Edh. injection Edg as <-. injection Edg' as <-. injection Edh as <-.
  destruct Pb as (_ & _ & _ & _ & _ & Hlt & Hb & (p & w & Epw & Px & Pw) & _).
  assert (Hl : 0 < len) by (apply Rdiv_lt_0_compat; [lra|apply lt_0_INR; unfold n; lia]).
  pose proof (weights_nonneg nglp p w x wf Epw Px Pw Hb) as Hw0.
  pose proof (dist_convex nglp x wf n codom lb len F F' cx' G cy' Hl Hw0 HG) as Cv. cbv beta zeta in Cv. change (n * nglp * codom)%nat with N in Cv.
  assert (Z : Rsum N (fun j => G j * (cy' j - cx' j)) = 0).
  2:{ rewrite Z in Cv. rewrite Rplus_0_r in Cv. exact Cv. }
  assert (Jx : forall der iv cc, (der <= deg)%nat -> (iv < nm1)%nat -> (cc < codom)%nat -> jump (DLag nglp x) codom lb (fun _ => len) cx' der iv cc = 0).
  { intros der iv cc H1 H2 H3. rewrite <- Hw by auto. pose proof (crow_lt nm1 codom deg der iv cc H1 H2 H3) as Lr. destruct Vw as (_ & Vw). pose proof (Vw _ Lr) as Q1. rewrite (Z1 _ Lr) in Q1. now injection Q1. }
  assert (Jy : forall der iv cc, (der <= deg)%nat -> (iv < nm1)%nat -> (cc < codom)%nat -> jump (DLag nglp x) codom lb (fun _ => len) cy' der iv cc = 0).
  { intros der iv cc H1 H2 H3. rewrite <- Hwy by auto. pose proof (crow_lt nm1 codom deg der iv cc H1 H2 H3) as Lr. destruct Vwy as (_ & Vw'). pose proof (Vw' _ Lr) as Q1. rewrite (Z2 _ Lr) in Q1. now injection Q1. }
  assert (GE : forall j, (j < N)%nat -> G j = Rsum M (fun r => lam r * MM r j)).
  { intros j Hj. destruct (KKT j Hj) as (gj & Eg & a & Ha & ->). destruct MG as (_ & _ & MG). rewrite MG in Eg by (auto; lia). injection Eg as ->.
    apply Rsum_ext. intros r Hr. f_equal. destruct MMm as (_ & _ & MMm). pose proof (Ha r Hr) as Q1. rewrite MMm in Q1 by auto. now injection Q1. }
  rewrite (Rsum_ext N _ (fun j => Rsum M (fun r => lam r * (MM r j * (cy' j - cx' j))))) by (intros j Hj; rewrite GE by auto; rewrite Rmult_comm, <- Rsum_scal; apply Rsum_ext; intros; ring).
  rewrite Rsum_swap. apply Rsum_zero. intros r Hr. rewrite Rsum_scal. destruct (crow_split nm1 codom deg r Hr) as (der & iv & cc & H1 & H2 & H3 & ->).
  rewrite (Rsum_ext N _ (fun j => MM (crow nm1 codom der iv cc) j * cy' j + - 1 * (MM (crow nm1 codom der iv cc) j * cx' j))) by (intros; ring).
  rewrite Rsum_plus, Rsum_scal. unfold crow. rewrite !HMM, Jx, Jy by auto. ring.
Qed.

(** A polynomial of degree below the number of nodes is attained: its nodal values have cost 0, zero gradient and no jump of any order *)
Theorem C57_attained nglp x wf n codom lb len (F : nat -> R -> R) c : distinct nglp x -> 0 < len -> (forall i, (i < nglp)%nat -> 0 <= wf i) ->
  (forall cc, (cc < codom)%nat -> isPoly nglp (F cc)) ->
  (forall iv cc i, (iv < n)%nat -> (cc < codom)%nat -> (i < nglp)%nat -> c ((iv * codom + cc) * nglp + i)%nat = F cc (on_interval (lb + INR iv * len) len (x i))) ->
  let J := sobolev_distance nglp x wf n codom lb len F (fun cc => Derive (F cc)) in
  J c = 0 /\ is_gradient (n * nglp * codom) J c (fun _ => 0) /\
  forall der iv cc, (S iv < n)%nat -> (cc < codom)%nat -> jump (DLag nglp x) codom lb (fun _ => len) c der iv cc = 0.
Proof.
  intros Dx Hl Hw HP Hc J.
  assert (Pc : forall iv cc t, (iv < n)%nat -> (cc < codom)%nat -> piece (DLag nglp x) codom lb (fun _ => len) c iv cc t = F cc t).
  { intros iv cc t Hiv Hcc. unfold piece, tphi. cbn [d_dim phi]. rewrite bp_const.
    rewrite (Rsum_ext nglp _ (fun j => (fun s => F cc (on_interval (lb + INR iv * len) len s)) (x j) * lagr nglp x j (window (lb + INR iv * len) len t))).
    2:{ intros j Hj. rewrite Hc by auto. reflexivity. }
    rewrite (lagr_reproduce nglp x (fun s => F cc (on_interval (lb + INR iv * len) len s))); [|exact Dx|].
    - f_equal. unfold window, on_interval. field. lra.
    - apply (isPoly_ext _ (fun s => F cc (len / 2 * s + (lb + INR iv * len + len / 2)))); [intros s; f_equal; unfold on_interval; field|]. apply isPoly_affine, HP; auto. }
  assert (J0 : J c = 0).
  { unfold J, sobolev_distance. cbn zeta. apply Rsum_zero. intros iv Hiv. apply Rsum_zero. intros i Hi. rewrite Rsum_zero; [ring|]. intros cc Hcc.
    rewrite Pc by auto. rewrite (Derive_ext (piece (DLag nglp x) codom lb (fun _ => len) c iv cc) (F cc)) by (intros; apply Pc; auto). ring. }
  split; [exact J0|]. split.
  - intros u. destruct (dist_line nglp x wf n codom lb len F (fun cc => Derive (F cc)) c u Hl Hw) as (b & q & Hq & E). fold J in E.
    assert (Pos : forall h, 0 <= J (fun j => c j + h * u j)).
    { intros h. unfold J, sobolev_distance. cbn zeta. apply Rsum_nonneg. intros iv _. apply Rsum_nonneg. intros i Hi. apply Rmult_le_pos; [apply Rmult_le_pos; [auto|lra]|].
      apply Rsum_nonneg. intros cc _. apply Rplus_le_le_0_compat; apply pow2_ge_0. }
    assert (B0 : b = 0).
    { assert (K : forall h, 0 <= h * b + h * h * q) by (intros h; specialize (Pos h); rewrite E, J0 in Pos; lra).
      destruct (Req_dec b 0) as [e|Nb]; [exact e|exfalso]. specialize (K (- b / (2 * q + 1))).
      replace (- b / (2 * q + 1) * b + - b / (2 * q + 1) * (- b / (2 * q + 1)) * q) with (- (b * b) * ((q + 1) / ((2 * q + 1) * (2 * q + 1)))) in K by (field; lra).
      assert (0 < b * b) by nra. assert (0 < (q + 1) / ((2 * q + 1) * (2 * q + 1))) by (apply Rdiv_lt_0_compat; nra). nra. }
    rewrite Rsum_zero by (intros; ring). eapply is_derive_ext; [intros h; symmetry; apply E|]. rewrite B0. auto_derive; [auto|]. ring.
  - intros der iv cc Hiv Hcc. unfold jump. rewrite (Derive_n_ext _ (F cc)) by (intros; apply Pc; auto; lia). rewrite (Derive_n_ext (piece _ _ _ _ _ (S iv) _) (F cc)) by (intros; apply Pc; auto). ring.
Qed.

(** ** Misuse *)
(** a set name other than "GLL", a missing set, or one that is not a spline: std::logic_error, whatever the rest (any numbers) *)
Theorem C57_wrong_set {T} `{Num T} fresh (co : costw T) (cn : conw T) (vs : vars T) name :
  (name <> "GLL" -> (exists e, cw_jacobian fresh co vs name = Throw e) /\ (exists e, nw_jacobian fresh cn vs name = Throw e)) /\
  ((forall v, find_set vs "GLL" <> Some (CSpline v)) ->
    cw_cost fresh co vs = Throw LogicError /\ nw_values fresh cn vs = Throw LogicError /\
    cw_jacobian fresh co vs name = Throw LogicError /\ nw_jacobian fresh cn vs name = Throw LogicError).
Proof.
  split.
  - intros Ne. unfold cw_jacobian, nw_jacobian, the_spline. destruct (String.eqb_spec name "GLL") as [e|_]; [contradiction|].
    destruct (find_set vs "GLL") as [[v|]|]; cbn [bind]; split; eauto.
  - intros Hf. unfold cw_cost, nw_values, cw_jacobian, nw_jacobian, the_spline. destruct (find_set vs "GLL") as [[v|]|]; [exfalso; apply (Hf v); reflexivity| |]; auto.
Qed.
(** REFUTED: a second variable set makes the problem unusable.  An optimiser asks every cost and constraint for its block
    with respect to every set; the wrappers throw for all but one instead of leaving the block empty *)
Theorem C57_two_sets_refuted {T} `{Num T} fresh (pr : gprob T) name other : In (name, other) (gp_others pr) -> name <> "GLL" ->
  exists e, gp_run fresh pr [QGradient name] = Throw e.
Proof.
  intros _ Ne. destruct (C57_wrong_set fresh (gp_cost pr) (mknw "" 0 (vnew 0) (FLinear 0 (mkmat 0 0 (fun _ _ => None)))) (gp_scope pr) name) as (A & _).
  destruct (A Ne) as ((e & E) & _). exists e. cbn [gp_run gp_ask]. rewrite E. reflexivity.
Qed.
(** REFUTED: SetVariables takes a vector of any size; the next cost is then undefined behaviour *)
Theorem C57_size_refuted fresh (f fd : fobj R) F F' lb rb nglp nm1 x wf g0 c0 degs bnds pr xv : the_problem fresh f fd F F' lb rb nglp nm1 x wf g0 degs bnds pr ->
  let n := S nm1 in let codom := fo_codom f in let len := (rb - lb) / INR n in let N := (n * nglp * codom)%nat in
  rep g0 (DLag nglp x) n codom lb rb (fun _ => len) c0 -> vlen xv <> N ->
  gp_run fresh pr [QSet xv] = Ok ([GDone], gp_set pr xv) /\ gp_run fresh pr [QSet xv; QCost] = UB.
Proof.
  intros (HF & HF' & Ed & Ed' & Ec & Hlt & Hb & (p & w & Epw & Px & Pw) & (s & cls & k & Es & Eco) & Ev & No & Lb & FW) n codom len N Rg Hx. split; [reflexivity|].
  destruct (points_are nglp p w x Epw Px) as (Hn & _). assert (Ep : gl_points nglp = Ok p) by (unfold gl_points; rewrite Epw; reflexivity).
  pose proof (points_distinct nglp p x Ep Px) as Dx.
  assert (Gx : forall q, gl_points nglp = Ok q -> vec_is q nglp x) by (intros q Eq; rewrite Ep in Eq; injection Eq as <-; exact Px).
  destruct (approx_rep fresh nglp Hn x Gx Dx f F lb rb n HF Ed ltac:(unfold n; lia)) as (a & Ea & Ra). fold len codom in Ra.
  assert (Esa : sd_approx s = a).
  { unfold sd_ctor in Es. fold n in Es. rewrite Ea in Es. cbn [bind] in Es. apply bind_ok in Es. destruct Es as (ad & _ & Es). apply bind_ok in Es. destruct Es as (i & _ & Es). apply bind_ok in Es. destruct Es as (d & _ & Es). injection Es as <-. reflexivity. }
  cbn [gp_run gp_ask bind]. unfold cw_cost. rewrite scope_find by exact No. cbn [bind gp_cost gp_set gp_var]. rewrite Eco. cbn [cw_ctor fst cw_fun fl_call].
  unfold sd_value, sd_parts, gs_minus. rewrite Esa. cbn [gv_set gv_spline].
  assert (Rv : rep (gv_spline (gp_var pr)) (DLag nglp x) n codom lb rb (fun _ => len) c0).
  { unfold gv_ctor in Ev. destruct (rep_copy _ _ _ _ _ _ _ _ Rg) as (r & Er & Rr & _). rewrite Er in Ev. cbn [bind] in Ev. injection Ev as <-. exact Rr. }
  pose proof (space_same _ _ _ _ _ _ _ _ _ _ _ _ Ra Rv) as SS. unfold check_space.
  replace (same_vector_space a (with_coef (gv_spline (gp_var pr)) xv)) with (same_vector_space a (gv_spline (gp_var pr))) by reflexivity. rewrite SS. cbn [bind].
  destruct (rep_copy _ _ _ _ _ _ _ _ Ra) as (r & -> & _ & Er & _). cbn [bind]. unfold vmap2. rewrite Er. cbn [with_coef gs_coef].
  replace (vlen (gs_coef a)) with N by (symmetry; apply Ra). destruct (Nat.eqb_spec N (vlen xv)); [congruence|reflexivity].
Qed.

(** ** ContinuityError::update *)
(** after update with as many lengths, the constraint gives the jumps for the new lengths *)
Theorem C57_update fresh nglp x nm1 codom deg (taus taus' : vec R) tf tf' t0 p : gl_points nglp = Ok p -> vec_is p nglp x -> INR nglp ^ 2 <= 1000000000 ->
  vec_is taus (S nm1) tf -> vec_is taus' (S nm1) tf' -> (forall i, (i < S nm1)%nat -> tf i <> 0) -> (forall i, (i < S nm1)%nat -> tf' i <> 0) ->
  exists ce ce', ce_ctor fresh nglp taus codom deg = Ok ce /\ ce_update ce taus' = Ok ce' /\ fl_codom (fl_of_ce ce') = (nm1 * codom * (deg + 1))%nat /\
  forall g c, vec_is (gs_coef g) (S nm1 * nglp * codom) c ->
    exists v w, fl_call fresh (fl_of_ce ce') g = Ok v /\ vec_is v (nm1 * codom * (deg + 1)) w /\
    forall der iv cc, (der <= deg)%nat -> (iv < nm1)%nat -> (cc < codom)%nat ->
      w (codom * nm1 * der + iv * codom + cc)%nat = jump (DLag nglp x) codom t0 tf' c der iv cc.
Proof.
  intros Ep Px Hb V V' Ht Ht'. destruct (points_of nglp p x Ep Px) as (w & Epw). destruct (points_are nglp p w x Epw Px) as (Hn & _).
  assert (Gx : forall q, gl_points nglp = Ok q -> vec_is q nglp x) by (intros q Eq; rewrite Ep in Eq; injection Eq as <-; exact Px).
  assert (Sx : separated nglp x) by (apply (C56_usable nglp p); auto).
  destruct (ce_ctor_ok fresh nglp Hn x Gx Sx nm1 codom deg taus tf t0 V Ht) as (ce & E & Gd & Er & _).
  destruct (ce_update_ok nglp Hn x Gx Sx ce nm1 codom deg taus' tf' t0 Gd V' Ht') as (ce' & E' & _ & Er' & _ & M & Mm & HM).
  exists ce, ce'. split; [exact E|]. split; [exact E'|]. split; [cbn; congruence|]. intros g c Vc. cbn [fl_of_ce fl_call]. unfold lf_call.
  destruct (mvmul_is (ce_mat ce') _ _ _ _ _ Mm Vc) as (v & Ev & Vv). exists v. eexists. split; [exact Ev|]. split; [exact Vv|]. intros der iv cc H1 H2 H3. cbv beta. rewrite nsum_R. apply (HM c); auto.
Qed.
(** REFUTED for another number of intervals: update is accepted, but the object still announces the old number of values *)
Theorem C57_update_refuted fresh nglp x nm1 nm1' codom deg (taus taus' : vec R) tf tf' p : gl_points nglp = Ok p -> vec_is p nglp x -> INR nglp ^ 2 <= 1000000000 ->
  vec_is taus (S nm1) tf -> vec_is taus' (S nm1') tf' -> (forall i, (i < S nm1)%nat -> tf i <> 0) -> (forall i, (i < S nm1')%nat -> tf' i <> 0) -> nm1 <> nm1' -> (1 <= codom)%nat ->
  exists ce ce', ce_ctor fresh nglp taus codom deg = Ok ce /\ ce_update ce taus' = Ok ce' /\
    fl_codom (fl_of_ce ce') = (nm1 * codom * (deg + 1))%nat /\ mrows (ce_mat ce') = (nm1' * codom * (deg + 1))%nat /\ fl_codom (fl_of_ce ce') <> mrows (ce_mat ce').
Proof.
  intros Ep Px Hb V V' Ht Ht' Ne Hc. destruct (points_of nglp p x Ep Px) as (w & Epw). destruct (points_are nglp p w x Epw Px) as (Hn & _).
  assert (Gx : forall q, gl_points nglp = Ok q -> vec_is q nglp x) by (intros q Eq; rewrite Ep in Eq; injection Eq as <-; exact Px).
  assert (Sx : separated nglp x) by (apply (C56_usable nglp p); auto).
  destruct (ce_ctor_ok fresh nglp Hn x Gx Sx nm1 codom deg taus tf 0 V Ht) as (ce & E & Gd & Er & _).
  destruct (ce_update_ok nglp Hn x Gx Sx ce nm1' codom deg taus' tf' 0 Gd V' Ht') as (ce' & E' & _ & Er' & Em & _).
  exists ce, ce'. split; [exact E|]. split; [exact E'|]. cbn [fl_of_ce fl_codom]. split; [congruence|]. split; [exact Em|]. rewrite Er', Er, Em.
  intros X. apply Ne. rewrite <- !Nat.mul_assoc in X. apply Nat.mul_cancel_r in X; [exact X|nia].
Qed.

(** ** Names *)
Lemma to_string_inj a b : to_string a = to_string b -> a = b.
Proof.
  unfold to_string. intros E. assert (X : NilEmpty.uint_of_string (NilEmpty.string_of_uint (Nat.to_uint a)) = NilEmpty.uint_of_string (NilEmpty.string_of_uint (Nat.to_uint b))) by (rewrite E; reflexivity).
  rewrite !NilEmpty.usu in X. injection X as X. rewrite <- (Unsigned.of_to a), <- (Unsigned.of_to b), X. reflexivity.
Qed.
Definition con_many {T} `{Num T} (l : list (nat * (T * T) * functional T)) (k : counters) : list (conw T) * counters :=
  fold_left (fun '(r, k) '(cls, (lo, hi), f) => let '(c, k) := nw_ctor cls lo hi f k in (r ++ [c], k)) l ([], k).
(** constraints wrapping the same class have different names *)
Theorem C57_names {T} `{Num T} cls (a b : T) (f1 : functional T) lo hi (f2 : functional T) (l : list (nat * (T * T) * functional T)) k :
  let '(c1, k1) := nw_ctor cls a b f1 k in let '(_, k2) := con_many l k1 in let '(c2, _) := nw_ctor cls lo hi f2 k2 in nw_name c1 <> nw_name c2.
Proof.
  cbn. set (k1 := mkcnt _ _).
  assert (M : forall l (r : list (conw T)) k, (n_con k cls <= n_con (snd (fold_left (fun '(r, k) '(cls, (lo, hi), f) => let '(c, k) := nw_ctor cls lo hi f k in (r ++ [c], k)) l (r, k))) cls)%nat).
  { clear. induction l as [|[[c (lo, hi)] f] l IH]; intros r k; [apply le_n|]. cbn [fold_left]. cbn [nw_ctor]. eapply Nat.le_trans; [|apply IH]. cbn. destruct (Nat.eqb cls c); lia. }
  specialize (M l [] k1). unfold con_many. destruct (fold_left _ l ([], k1)) as [r k2] eqn:Ef. cbn [snd] in M. cbn [nw_name]. intros E.
  injection E as E. apply to_string_inj in E. unfold k1 in M. cbn in M. rewrite Nat.eqb_refl in M. lia.
Qed.
(** REFUTED: all costs have the same name, and constraints wrapping different classes share names *)
Theorem C57_names_refuted {T} `{Num T} (lo hi : T) (f1 f2 : functional T) cls1 cls2 : cls1 <> cls2 ->
  cw_name (fst (cw_ctor cls1 f1 cnt_init)) = "cost_0" /\
  cw_name (fst (cw_ctor cls1 f2 (snd (cw_ctor cls1 f1 cnt_init)))) = "cost_0" /\
  nw_name (fst (nw_ctor cls2 lo hi f2 (snd (nw_ctor cls1 lo hi f1 cnt_init)))) = nw_name (fst (nw_ctor cls1 lo hi f1 cnt_init)).
Proof. intros Ne. split; [reflexivity|]. split; [reflexivity|]. cbn. destruct (Nat.eqb_spec cls2 cls1); [congruence|reflexivity]. Qed.

(** whatever constraints were made before, every cost is called cost_0 *)
Theorem C57_cost_name {T} `{Num T} cls (f : functional T) (l : list (nat * (T * T) * functional T)) :
  cw_name (fst (cw_ctor cls f (snd (con_many l cnt_init)))) = "cost_0".
Proof.
  assert (M : forall l (r : list (conw T)) k, n_cost (snd (fold_left (fun '(r, k) '(cls, (lo, hi), f) => let '(c, k) := nw_ctor cls lo hi f k in (r ++ [c], k)) l (r, k))) = n_cost k).
  { clear. induction l as [|[[c (lo, hi)] f] l IH]; intros r k; [reflexivity|]. cbn [fold_left]. cbn [nw_ctor]. rewrite IH. reflexivity. }
  unfold con_many. cbn [cw_ctor fst cw_name]. rewrite M. reflexivity.
Qed.
(** three constraints, two of the same class, then a cost *)
Example C57_cost_name_case {T} `{Num T} (f : functional T) :
  map (fun c => nw_name c) (fst (con_many [(4%nat, (n0, n0), f); (4%nat, (n0, n1), f); (7%nat, (n0, n0), f)] cnt_init)) = ["Wrapper_0"; "Wrapper_1"; "Wrapper_0"] /\
  cw_name (fst (cw_ctor 4 f (snd (con_many [(4%nat, (n0, n0), f); (4%nat, (n0, n1), f); (7%nat, (n0, n0), f)] cnt_init)))) = "cost_0".
Proof. split; reflexivity. Qed.

(** ** A problem: the constant 3 on [0, 2], three nodes, two intervals, continuous first derivative.
    Setting its nodal values answers 0 for the cost and a zero gradient, so the theorem on minima applies with multipliers 0 *)
Example C57_case fresh : exists x wf g0 c0 pr v Gm rv Am pr1, let xv := vconst 6 3 in
  the_problem fresh (fo_of_fn true (FConst (0, 2) [3])) (fo_of_fn true (FConst (0, 2) [0])) (fun _ _ => 3) (fun _ _ => 0) 0 2 3 1 x wf g0 [1%nat] [(0, 0)] pr /\
  rep g0 (DLag 3 x) 2 1 0 2 (fun _ => (2 - 0) / INR 2) c0 /\
  gp_run fresh pr [QSet xv; QCost; QGradient "GLL"; QValues 0; QJacobian 0 "GLL"] = Ok ([GDone; GNumber v; GMatrix Gm; GVector rv; GMatrix Am], pr1) /\
  v = 0 /\ (forall r, (r < 2)%nat -> vget rv r = Some 0) /\
  (forall j, (j < 6)%nat -> exists gj, mget Gm 0 j = Some gj /\ exists a, (forall r, (r < 2)%nat -> mget Am r j = Some (a r)) /\ gj = Rsum 2 (fun r => 0 * a r)).
Proof.
  assert (K : forall y, pointwise (fo_of_fn true (FConst (0, 2) [y])) (fun _ _ => y)).
  { intros y. apply fn_pointwise. intros l. cbn. rnum. now rewrite !Rmult_1_l. }
  assert (E3 : INR 3 = 3) by (simpl; lra).
  destruct (nodes_ok 3 ltac:(lia)) as (p & w & x & wf & Epw & Px & Pw). assert (Ep : gl_points 3 = Ok p) by (unfold gl_points; rewrite Epw; reflexivity).
  pose proof (points_distinct 3 p x Ep Px) as Dx. assert (Gx : forall q, gl_points 3 = Ok q -> vec_is q 3 x) by (intros q Eq; rewrite Ep in Eq; injection Eq as <-; exact Px).
  destruct (approx_rep fresh 3 ltac:(lia) x Gx Dx _ _ 0 2 2 (K 0) eq_refl ltac:(lia)) as (g0 & _ & R0). cbn [fo_of_fn fo_codom fcod List.length] in R0.
  destruct (C44_distance fresh _ _ _ _ 0 2 3 2 p x w wf (K 3) (K 0) eq_refl eq_refl eq_refl ltac:(lra) ltac:(lia) ltac:(lia) Ep Px Dx ltac:(unfold gl_weights; rewrite Epw; reflexivity) Pw) as (s & Es & _).
  assert (Sx : separated 3 x) by (apply (C56_usable 3 p); auto; rewrite E3; lra).
  assert (L0 : (2 - 0) / INR 2 <> 0) by (simpl; lra).
  destruct (ce_of_ok fresh 3 ltac:(lia) x Gx Sx g0 1 1 1 0 2 (fun _ => (2 - 0) / INR 2) _ R0 ltac:(auto)) as (ce & Ece & _).
  destruct (C57_variable g0 _ _ _ _ _ _ _ R0) as (var & Ev & _).
  set (pr := mkgp var [("other", COther)] (fst (cw_ctor 0 (FDistance s) cnt_init)) [fst (nw_ctor 0 0 0 (fl_of_ce ce) cnt_init)]).
  assert (Pb : the_problem fresh (fo_of_fn true (FConst (0, 2) [3])) (fo_of_fn true (FConst (0, 2) [0])) (fun _ _ => 3) (fun _ _ => 0) 0 2 3 1 x wf g0 [1%nat] [(0, 0)] pr).
  { unfold the_problem. split; [apply K|]. split; [apply K|]. split; [reflexivity|]. split; [reflexivity|]. split; [reflexivity|]. split; [lra|]. split; [rewrite E3; lra|].
    split; [exists p, w; auto|]. split; [exists s, 0%nat, cnt_init; split; [exact Es|reflexivity]|]. split; [exact Ev|].
    split; [intros q [<-|[]]; cbn; discriminate|]. split; [reflexivity|]. constructor; [|constructor]. exists ce, 0%nat, cnt_init. split; [left; exact Ece|reflexivity]. }
  destruct (C57_session _ _ _ _ _ _ _ _ _ _ _ _ _ _ _ _ Pb R0 [QSet (vconst 6 3); QCost; QGradient "GLL"; QValues 0; QJacobian 0 "GLL"]) as (ans & pr1 & Er & A).
  { repeat constructor; cbn; try lia. exists (fun _ => 3). apply vconst_is. }
  inversion A as [|? ? cx ? ? Vx A1| | | |]; subst. inversion A1 as [| |? ? ? A2| | |]; subst. inversion A2 as [| | |? Gm G ? ? MG HG A3| |]; subst.
  inversion A3 as [| | | |? ? dg rv wv ? ? Edg Vw Hw A4|]; subst. inversion A4 as [| | | | |? ? dg' Am MM ? ? Edg' MMm HMM A5]; subst. inversion A5; subst. clear A A1 A2 A3 A4 A5.
  cbn in Edg, Edg'. injection Edg as <-. injection Edg' as <-.
  assert (Cx : forall k, (k < 6)%nat -> cx k = 3). { intros k Hk. destruct Vx as (_ & Vx). cbn in Vx. specialize (Vx k Hk). now injection Vx. }
  destruct (C57_attained 3 x wf 2 1 0 ((2 - 0) / INR 2) (fun _ _ => 3) cx Dx ltac:(simpl; lra) (weights_nonneg 3 p w x wf Epw Px Pw ltac:(rewrite E3; lra))) as (J0 & HG0 & Jmp).
  { intros. apply isPoly_const. lia. } { intros iv cc i Hiv Hcc Hi. apply Cx. lia. }
  assert (EJ : forall c, sobolev_distance 3 x wf 2 1 0 ((2 - 0) / INR 2) (fun _ _ => 3) (fun _ => Derive (fun _ => 3)) c = sobolev_distance 3 x wf 2 1 0 ((2 - 0) / INR 2) (fun _ _ => 3) (fun _ _ => 0) c).
  { intros c. unfold sobolev_distance. cbn zeta. apply Rsum_ext. intros iv _. apply Rsum_ext. intros i _. f_equal. apply Rsum_ext. intros cc _. rewrite Derive_const. reflexivity. }
  exists x, wf, g0. eexists. exists pr. eexists. exists Gm, rv, Am, pr1. cbv zeta. split; [exact Pb|]. split; [exact R0|]. split; [exact Er|].
  split; [rewrite <- EJ; exact J0|]. split.
  - intros r Hr. destruct Vw as (_ & Vw). cbn in Vw. rewrite Vw by lia. f_equal. destruct (crow_split 1 1 1 r ltac:(lia)) as (der & iv & cc & H1 & H2 & H3 & ->). etransitivity; [apply (Hw der iv cc H1 H2 H3)|]. apply Jmp; lia.
  - intros j Hj. destruct MG as (_ & _ & MG). exists (G j). split; [apply MG; [lia|exact Hj]|]. exists (fun r => MM r j). destruct MMm as (_ & _ & MMm). split; [intros r Hr; apply MMm; cbn; lia|].
    transitivity 0; [|symmetry; apply Rsum_zero; intros; ring].
    specialize (HG (fun i => if Nat.eqb i j then 1 else 0)). specialize (HG0 (fun i => if Nat.eqb i j then 1 else 0)). apply is_derive_unique in HG, HG0.
    rewrite (Derive_ext _ _ 0 (fun h => EJ _)) in HG0. change (2 * 3 * 1)%nat with 6%nat in HG0. cbn [fo_of_fn fo_codom fcod List.length] in HG.
    pose proof (eq_trans (eq_sym HG) HG0) as HG1. clear HG HG0. rename HG1 into HG0. rewrite (Rsum_delta _ j) in HG0; [|cbn; lia|intros i Hi Ne; destruct (Nat.eqb_spec i j); [contradiction|ring]].
    rewrite Nat.eqb_refl in HG0. rewrite (Rsum_zero 6) in HG0 by (intros; ring). lra.
Qed.
