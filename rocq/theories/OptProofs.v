(** The optimisation problem: every answer it gives, whatever the solver asks. *)
From Coquelicot Require Import Coquelicot.
From Coq Require Import List Arith Lia Bool ZArith Reals Lra.
From Verif Require Import Num Outcome LinAlg RSum RGauss LegendreSpec LegendreModel LagrangeSpec Basis0101Spec Basis0101Math BasisModel SplineSpec BasisFn BasisProofs3
  ToolsModel GSplineModel GSplineProofs GSplineProofs2 GSplineProofs3 GSplineProofs4 GSplineProofs5 GSplineProofs6
  InterpModel InterpSpec SolverSpec InterpProofs3 InterpMath InterpMath2 InterpProofs7 InterpProofs8 InterpProps
  SobolevModel SobolevSpec SobolevProofs SobolevProofs2 SobolevProofs3 SobolevProps OptModel OptSpec.
Import ListNotations.
Local Open Scope R_scope.

Lemma inf_R : ifopt_inf = 10 ^ 20.
Proof. unfold ifopt_inf. rewrite npown_pow. reflexivity. Qed.
Lemma vconst_is {A} n (x : A) : vec_is (vconst n x) n (fun _ => x).
Proof. split; reflexivity. Qed.
Lemma nofnat_INR n : (nofnat n : R) = INR n.
Proof. unfold nofnat. rnum. apply eq_sym, INR_IZR_INZ. Qed.
Lemma tv_values_R n (T : R) : vec_is (tv_values (tv_ctor n T)) n (fun _ => T / INR n).
Proof.
  unfold tv_ctor. cbn [tv_values]. eapply vec_is_ext; [apply vscale_is, vconst_is|]. intros i _. cbv beta. rnum. rewrite nofnat_INR. ring.
Qed.
Lemma ec_values_R tv n xf : vec_is (tv_values tv) n xf -> exists v, ec_values tv = Ok v /\ vec_is v 1 (fun _ => Rsum n xf).
Proof.
  intros (L & G). unfold ec_values. rewrite L, (osum_some n _ xf G). cbn [of_option bind]. eexists. split; [reflexivity|]. split; [reflexivity|].
  intros [|i] Hi; [|lia]. cbn. now rewrite nsum_R.
Qed.
(** a row filled with coefficients *)
Lemma row_fill n (f : nat -> R) (body : nat -> smat R -> outcome (smat R)) : (forall i m, (i < n)%nat -> body i m = sset m 0 i (f i)) ->
  exists m, for_ 0 n body (snew 1 n) = Ok m /\ srows m = 1%nat /\ scols m = n /\ forall i, (i < n)%nat -> sget m 0 i = Some (f i).
Proof.
  intros Hb. destruct (for_ok (fun k (m : smat R) => srows m = 1%nat /\ scols m = n /\ forall i, (i < k)%nat -> sget m 0 i = Some (f i)) body 0 n (snew 1 n)) as (m & E & K); [lia| | |].
  - split; [reflexivity|]. split; [reflexivity|]. intros; lia.
  - intros i m Hi (A & B & C). rewrite Hb by lia. unfold sset. rewrite A, B. destruct (Nat.ltb_spec 0 1); [|lia]. destruct (Nat.ltb_spec i n); [|lia]. cbn [andb].
    eexists. split; [reflexivity|]. cbn [srows scols sget]. split; auto. split; auto. intros j Hj. cbn [Nat.eqb andb]. destruct (Nat.eqb_spec j i) as [->|]; auto. apply C. lia.
  - exists m. split; auto.
Qed.
Lemma ec_jacobian_R n : exists m, ec_jacobian n (snew 1 n) = Ok m /\ srows m = 1%nat /\ scols m = n /\ forall i, (i < n)%nat -> sget m 0 i = Some 1.
Proof. unfold ec_jacobian. apply (row_fill n (fun _ => 1)). reflexivity. Qed.
Lemma sum_set_derive n xf i : (i < n)%nat -> is_derive (fun y => Rsum n (set_len xf i y)) (xf i) 1.
Proof.
  intros Hi. assert (E : 1 = Rsum n (fun k => if Nat.eqb k i then 1 else 0)).
  { rewrite (Rsum_delta n i); auto; [now rewrite Nat.eqb_refl|]. intros k _ Hk. destruct (Nat.eqb_spec k i); [contradiction|reflexivity]. }
  rewrite E. apply is_derive_Rsum. intros k Hk. unfold set_len. destruct (Nat.eqb k i); [apply @is_derive_id|apply @is_derive_const].
Qed.

(** ** the problem object *)
Definition problem_ok (b : basis R) (d : bdesc) (c n : nat) (ws : list (nat * R)) (W : nat -> nat -> R) (T : R) (xf : nat -> R) (p : nlp R) : Prop :=
  nl_rows p = n /\ vec_is (tv_values (nl_var p)) n xf /\ tv_bounds (nl_var p) = vconst n (0, 10 ^ 20) /\ nl_con p = vconst 1 (T, T) /\
  sn_ok b d c n ws W (co_norm (nl_cost p)) /\ vlen (co_buff (nl_cost p)) = n.
Lemma build_ok b d c n hist s ws wp W T : is_basis b d -> Nat.Even (d_dim d) -> (1 <= n)%nat -> exact_pt d (-1) -> exact_pt d 1 ->
  serve_all b hist (bs_init b) = Ok s -> mat_is wp (S n) c W -> exists p, nlp_build wp b s ws T = Ok p /\ problem_ok b d c n ws W T (fun _ => T / INR n) p.
Proof.
  intros B Ev Hn XL XR Hs M. destruct (C45_constructor b d c n hist s ws wp W B Ev Hn XL XR Hs M) as (sn & E & Hsn). pose proof M as (Mr & _).
  unfold nlp_build, co_ctor. rewrite Mr. cbn [usub1 of_option bind]. rewrite E. cbn [bind]. eexists. split; [reflexivity|].
  split; [reflexivity|]. split; [apply tv_values_R|]. split; [unfold tv_ctor; cbn [nl_var tv_bounds]; rewrite inf_R; reflexivity|]. split; [reflexivity|]. split; [exact Hsn|reflexivity].
Qed.

(** the point a question sets *)
Definition point (q : question R) : option (nat -> R) :=
  match q with SetVars x | AskCost x | AskCostJac x | AskCon x | AskConJac x => Some x | _ => None end.
Definition moved (q : question R) (xf : nat -> R) : nat -> R := match point q with Some x => x | None => xf end.
Lemma set_ok b d c n ws W T xf p x : problem_ok b d c n ws W T xf p -> problem_ok b d c n ws W T x (nl_set p x).
Proof. intros (A & B & C & D & E & F). unfold nl_set. rewrite A. repeat (split; [reflexivity|]). split; [split; reflexivity|]. auto. Qed.

(** v is the value of the Sobolev functional of the same data at lengths x (C45) *)
Definition norm_at lu b d c n ws W (x : nat -> R) (v : R) : Prop :=
  forall sn tau, sn_ok b d c n ws W sn -> vec_is tau n x -> exists sn', sn_value lu sn tau = Ok (v, sn').
Definition long n (x : nat -> R) : Prop := forall i, (i < n)%nat -> / 10 ^ 6 <= x i.
Lemma long_dec n x : long n x \/ exists i, (i < n)%nat /\ x i < / 10 ^ 6.
Proof.
  induction n as [|n [IH|(i & Hi & K)]]; [left; intros i Hi; lia| |right; exists i; split; [lia|auto]].
  destruct (Rlt_dec (x n) (/ 10 ^ 6)); [right; exists n; split; [lia|auto]|left]. intros i Hi. destruct (Nat.eq_dec i n) as [->|]; [lra|apply IH; lia].
Qed.
(** what each answer has to be; [xf] is the current point *)
Definition right_answer lu b d c n ws W T (xf : nat -> R) (q : question R) (a : answer R) : Prop :=
  match q with
  | AskStart => exists v, a = Vector v /\ vec_is v n xf
  | AskVarBounds => exists v, a = Bounds v /\ vec_is v n (fun _ => (0, 10 ^ 20))
  | AskConBounds => exists v, a = Bounds v /\ vec_is v 1 (fun _ => (T, T))
  | SetVars _ => a = Done
  | AskCost x => (long n x -> exists v, a = Number v /\ norm_at lu b d c n ws W x v) /\ (~ long n x -> a = Failed InvalidArgument)
  | AskCostJac x => (long n x -> exists m, a = Jacobian m /\ srows m = 1%nat /\ scols m = n /\ forall i, (i < n)%nat -> exists g, sget m 0 i = Some g /\
        (/ 10 ^ 6 < x i -> exists N, locally (x i) (fun y => norm_at lu b d c n ws W (set_len x i y) (N y)) /\ is_derive N (x i) g)) /\
      (~ long n x -> a = Failed InvalidArgument)
  | AskCon x => exists v, a = Vector v /\ vec_is v 1 (fun _ => Rsum n x)
  | AskConJac x => exists m, a = Jacobian m /\ srows m = 1%nat /\ scols m = n /\ forall i, (i < n)%nat -> exists g, sget m 0 i = Some g /\ is_derive (fun y => Rsum n (set_len x i y)) (x i) g
  end.
Lemma long_not n x : (exists i, (i < n)%nat /\ x i < / 10 ^ 6) -> ~ long n x.
Proof. intros (i & Hi & K) L. specialize (L i Hi). lra. Qed.
Lemma order_tau_order d k : order_tau_ok d k -> order_ok d k.
Proof. destruct d; cbn; auto. intros [-> | ->]; lia. Qed.

Theorem ask_ok b d c n ws W T xf p lu q : problem_ok b d c n ws W T xf p -> (forall k w, In (k, w) ws -> order_tau_ok d k) -> exact_solver lu ->
  exists a p', ask lu p q = Ok (a, p') /\ right_answer lu b d c n ws W T xf q a /\ problem_ok b d c n ws W T (moved q xf) p'.
Proof.
  intros Hp O Ex. pose proof (fun k w I => order_tau_order d k (O k w I)) as O'.
  destruct q as [| | |x|x|x|x|x]; cbn [ask right_answer moved point].
  - pose proof Hp as (_ & V & _). eexists _, p. split; [reflexivity|]. split; eauto.
  - pose proof Hp as (_ & _ & -> & _). eexists _, p. split; [reflexivity|]. split; auto. eexists. split; [reflexivity|]. apply vconst_is.
  - pose proof Hp as (_ & _ & _ & -> & _). eexists _, p. split; [reflexivity|]. split; auto. eexists. split; [reflexivity|]. apply vconst_is.
  - eexists _, _. split; [reflexivity|]. split; auto. eapply set_ok; eauto.
  - pose proof (set_ok _ _ _ _ _ _ _ _ _ x Hp) as Hx. set (p1 := nl_set p x) in *. pose proof Hx as (A & V & B & C & S & L). unfold co_value. destruct (long_dec n x) as [P|Sh].
    + destruct (value_ok b d c n ws W _ _ _ lu S O' Ex V P) as (cf & sn' & E & Sol & S'). rewrite E. cbn [bind reply fst snd]. eexists _, _. split; [reflexivity|]. split.
      * split; [|contradiction]. intros _. eexists. split; [reflexivity|]. intros sn1 tau1 S1 V1. destruct (value_ok b d c n ws W sn1 tau1 x lu S1 O' Ex V1 P) as (cf1 & sn1' & E1 & Sol1 & _).
        exists sn1'. rewrite E1. do 2 f_equal. pose proof S as (_ & _ & _ & _ & _ & (Bb & Ev & Hn & _)). pose proof pos6.
        apply bform_coef; apply (C52_unique b d c n 0 x W); auto; intros i Hi; specialize (P i Hi); lra.
      * split; [exact A|]. split; [exact V|]. split; [exact B|]. split; [exact C|]. split; [exact S'|exact L].
    + destruct (C45_short_interval lu lu (co_norm (nl_cost p1)) (tv_values (nl_var p1)) n x (co_buff (nl_cost p1)) V Sh) as (-> & _). cbn [bind reply]. eexists _, _. split; [reflexivity|].
      split; [split; [intros P; now apply long_not in Sh|reflexivity]|exact Hx].
  - pose proof (set_ok _ _ _ _ _ _ _ _ _ x Hp) as Hx. set (p1 := nl_set p x) in *. pose proof Hx as (A & V & B & C & S & L). unfold co_jacobian. destruct (long_dec n x) as [P|Sh].
    + destruct (grad_ok b d c n ws W _ _ _ lu (co_buff (nl_cost p1)) S O Ex V P L) as (v & gf & sn' & E & Vg & S' & D). rewrite E. cbn [bind]. rewrite A.
      destruct (row_fill n gf (fun i m => g <- vread v i ;; sset m 0 i g)) as (m & Em & Rm & Cm & Gm); [intros i m Hi; now rewrite (vread_ok v n gf i Vg Hi)|].
      rewrite Em. cbn [bind reply fst snd]. eexists _, _. split; [reflexivity|]. split.
      * split; [|contradiction]. intros _. exists m. split; auto. split; auto. split; auto. intros i Hi. exists (gf i). split; auto. intros Pi. destruct (D i Hi Pi) as (N & LN & DN). exists N. split; auto.
        assert (Lp : locally (x i) (fun y => / 10 ^ 6 < y)) by (apply (open_gt (/ 10 ^ 6) (x i)); auto).
        pose proof (filter_and _ _ Lp LN) as LL. revert LL. apply filter_imp. intros y (Py & Ny) sn1 tau1 S1 V1.
        assert (Py' : long n (set_len x i y)) by (intros k Hk; unfold set_len; destruct (Nat.eqb k i); [lra|apply P; auto]).
        destruct (value_ok b d c n ws W sn1 tau1 _ lu S1 O' Ex V1 Py') as (cf1 & sn1' & E1 & Sol1 & _).
        destruct (Ny tau1 V1) as (sn2 & E2). destruct (value_ok b d c n ws W _ tau1 _ lu S O' Ex V1 Py') as (cf2 & sn2' & E3 & Sol2 & _). rewrite E3 in E2. injection E2 as E2 _.
        exists sn1'. rewrite E1, <- E2. do 2 f_equal. pose proof S as (_ & _ & _ & _ & _ & (Bb & Ev & Hn & _)). pose proof pos6.
        apply bform_coef; apply (C52_unique b d c n 0 (set_len x i y) W); auto; intros k Hk; specialize (Py' k Hk); lra.
      * split; [exact A|]. split; [exact V|]. split; [exact B|]. split; [exact C|]. split; [exact S'|]. cbn. apply Vg.
    + destruct (C45_short_interval lu lu (co_norm (nl_cost p1)) (tv_values (nl_var p1)) n x (co_buff (nl_cost p1)) V Sh) as (_ & ->). cbn [bind reply]. eexists _, _. split; [reflexivity|].
      split; [split; [intros P; now apply long_not in Sh|reflexivity]|exact Hx].
  - pose proof (set_ok _ _ _ _ _ _ _ _ _ x Hp) as Hx. set (p1 := nl_set p x) in *. pose proof Hx as (A & V & _). destruct (ec_values_R _ _ _ V) as (v & -> & Vv). cbn [reply].
    eexists _, _. split; [reflexivity|]. split; eauto.
  - pose proof (set_ok _ _ _ _ _ _ _ _ _ x Hp) as Hx. set (p1 := nl_set p x) in *. pose proof Hx as (A & V & _). rewrite A. destruct (ec_jacobian_R n) as (m & -> & Rm & Cm & Gm). cbn [reply].
    eexists _, _. split; [reflexivity|]. split; auto. exists m. split; auto. split; auto. split; auto. intros i Hi. exists 1. split; auto. now apply sum_set_derive.
Qed.

(** ** whole sessions *)
(** questions and answers of a session, and how it ends *)
Inductive transcript (lu : smat R -> option (vec R -> vec R)) : session R -> nlp R -> list (question R * answer R) -> outcome Z -> Prop :=
| T_return z p : transcript lu (Return z) p [] (Ok z)
| T_raise e p : transcript lu (Raise e) p [] (Throw e)
| T_ask q next p a p1 l r : ask lu p q = Ok (a, p1) -> transcript lu (next a) p1 l r -> transcript lu (Ask q next) p ((q, a) :: l) r.
(** all answers are right, each one with respect to the last point set before *)
Fixpoint all_right lu b d c n ws W T (xf : nat -> R) (l : list (question R * answer R)) : Prop :=
  match l with [] => True | (q, a) :: r => right_answer lu b d c n ws W T xf q a /\ all_right lu b d c n ws W T (moved q xf) r end.
Fixpoint last_point (xf : nat -> R) (l : list (question R * answer R)) : nat -> R :=
  match l with [] => xf | (q, _) :: r => last_point (moved q xf) r end.
Theorem session_ok b d c n ws W T lu se : (forall k w, In (k, w) ws -> order_tau_ok d k) -> exact_solver lu -> forall p xf, problem_ok b d c n ws W T xf p ->
  exists l, all_right lu b d c n ws W T xf l /\
    ((exists z p', transcript lu se p l (Ok z) /\ solve lu se p = Ok (z, p') /\ problem_ok b d c n ws W T (last_point xf l) p') \/
     (exists e, transcript lu se p l (Throw e) /\ solve lu se p = Throw e)).
Proof.
  intros O Ex. induction se as [z|e|q next IH]; intros p xf Hp.
  - exists []. split; [exact I|]. left. exists z, p. split; [constructor|]. split; auto.
  - exists []. split; [exact I|]. right. exists e. split; [constructor|]. reflexivity.
  - destruct (ask_ok b d c n ws W T xf p lu q Hp O Ex) as (a & p1 & E & Ra & Hp1). destruct (IH a p1 _ Hp1) as (l & Al & [(z & p' & Tr & Es & Hp')|(e & Tr & Es)]); exists ((q, a) :: l); split; try (split; auto; fail).
    + left. exists z, p'. split; [econstructor; eauto|]. split; auto. cbn [solve]. rewrite E. cbn [bind]. exact Es.
    + right. exists e. split; [econstructor; eauto|]. cbn [solve]. rewrite E. cbn [bind]. exact Es.
Qed.

(** ** the spline afterwards *)
Lemma piece_scaled d c tf cf iv cc f t : 0 < f -> tf iv <> 0 -> piece (d_scaled d f) c 0 (fun i => tf i * f) cf iv cc (f * t) = piece d c 0 tf cf iv cc t.
Proof.
  intros Hf Ht. unfold piece. rewrite d_scaled_dim. apply Rsum_ext. intros i Hi. f_equal. unfold tphi. rewrite phi_scaled by auto. f_equal.
  unfold window. rewrite bp_scaled. field. split; auto. lra.
Qed.
Lemma piece_ex d c n t0 tf cf iv cc k t : (forall i, (i < n)%nat -> 0 < tf i) -> (iv < n)%nat -> ex_derive_n (piece d c t0 tf cf iv cc) k t.
Proof. intros P Hi. destruct k; [exact I|]. eexists. apply (piece_is_derive d c n t0 tf cf P cc iv k t Hi). Qed.
Lemma Derive_n_scaled d c n tf cf iv cc f k t : (forall i, (i < n)%nat -> 0 < tf i) -> (iv < n)%nat -> 0 < f ->
  f ^ k * Derive_n (piece (d_scaled d f) c 0 (fun i => tf i * f) cf iv cc) k (f * t) = Derive_n (piece d c 0 tf cf iv cc) k t.
Proof.
  intros P Hi Hf. assert (P' : forall i, (i < n)%nat -> 0 < tf i * f) by (intros; apply Rmult_lt_0_compat; auto).
  rewrite <- Derive_n_comp_scal.
  - apply Derive_n_ext. intros y. apply piece_scaled; auto. specialize (P iv Hi). lra.
  - apply filter_forall. intros y j _. apply (piece_ex _ _ n); auto.
Qed.
Lemma interpolates_scaled d c n tf W cf f : (1 <= n)%nat -> (forall i, (i < n)%nat -> 0 < tf i) -> 0 < f -> interpolates d c n 0 tf W cf ->
  interpolates (d_scaled d f) c n 0 (fun i => tf i * f) W cf.
Proof.
  intros Hn P Hf H q Hq. rewrite d_scaled_dim in Hq. specialize (H q Hq).
  assert (Z : forall k x, f ^ k * x = 0 -> x = 0). { intros k x E. apply Rmult_integral in E. destruct E as [E|E]; auto. exfalso. apply (pow_nonzero f k) in E; [auto|lra]. }
  assert (Nz : forall iv, (iv < n)%nat -> tf iv <> 0) by (intros iv Hi; specialize (P iv Hi); lra).
  destruct q as [iv cc|iv cc|iv cc e|cc e|cc e]; cbn [residual cond_ok] in *; rewrite ?bp_scaled.
  - rewrite piece_scaled; auto. apply Nz; tauto.
  - rewrite piece_scaled; auto. apply Nz; tauto.
  - apply (Z (S e)). rewrite Rmult_minus_distr_l, !(Derive_n_scaled _ _ n) by (auto; lia). exact H.
  - apply (Z (S e)). rewrite (Derive_n_scaled _ _ n) by (auto; lia). exact H.
  - apply (Z (S e)). rewrite (Derive_n_scaled _ _ n) by (auto; lia). exact H.
Qed.
