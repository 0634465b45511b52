(** Property C75: the derivative operator on collocation splines, however it was constructed and updated; the zero spline. *)
From Coquelicot Require Import Coquelicot.
From Coq Require Import List Arith Lia Bool ZArith Reals Lra.
From Verif Require Import Num Outcome LinAlg RSum RPoly RDeriv LegendreSpec LegendreModel LagrangeSpec LagrangeModel LagrangeMath LagrangeProofs
  Basis0101Model BasisModel SplineSpec BasisFn BasisProofs BasisProofs2 BasisProofs3
  ToolsModel FunModel GSplineModel GSplineProofs GSplineProofs2 GSplineProofs4 GSplineProofs5 GLSpec GLModel GLProofs GLProofs2 GLProps GLLModel GLLProofs GLLProofs2 GLLProofs3 GLFModel GLFProofs GLFProofs2 GLFProofs3.
Import ListNotations.
Local Opaque gl_iters.
Local Open Scope R_scope.

(** ** Statement *)
(** a construction: from lengths, from a domain cut into equal parts, from a spline; an update *)
Inductive dnew := NLengths (codom nglp : nat) (taus : vec R) (deg : nat) | NUniform (a b : R) (codom nglp n deg : nat) | NSpline (g : gspline R).
Inductive dupd := ULengths (taus : vec R) | ULength (tau : R).
Definition dnew_run fresh (c : dnew) : outcome (deriv_op R) :=
  match c with
  | NLengths codom nglp taus deg => dop_ctor fresh codom nglp taus deg
  | NUniform a b codom nglp n deg => dop_ctor_uniform fresh (a, b) codom nglp n deg
  | NSpline g => dop_of fresh g
  end.
Fixpoint dupd_run (us : list dupd) (d : deriv_op R) : outcome (deriv_op R) :=
  match us with
  | [] => Ok d
  | ULengths t :: us => d <- dop_update d t ;; dupd_run us d
  | ULength t :: us => d <- dop_update_const d t ;; dupd_run us d
  end.
(** what a construction is about: components, nodes, order; number and lengths of the intervals *)
Definition dnew_is (nglp : nat) (x : nat -> R) (c : dnew) (codom deg n : nat) (tf : nat -> R) : Prop :=
  match c with
  | NLengths cd g taus dg => cd = codom /\ g = nglp /\ dg = deg /\ vec_is taus n tf
  | NUniform a b cd g m dg => cd = codom /\ g = nglp /\ dg = deg /\ m = n /\ (1 <= n)%nat /\ tf = fun _ => (b - a) / INR n
  | NSpline g => deg = 1%nat /\ exists t0 t1 cf, rep g (DLag nglp x) n codom t0 t1 tf cf
  end.
(** number and lengths of the intervals after some updates, [n0] intervals having been given to the constructor *)
Fixpoint dupd_is (n0 : nat) (us : list dupd) (n : nat) (tf : nat -> R) (n' : nat) (tf' : nat -> R) : Prop :=
  match us with
  | [] => n' = n /\ tf' = tf
  | ULengths t :: us => exists m g, vec_is t m g /\ (forall i, (i < m)%nat -> g i <> 0) /\ dupd_is n0 us m g n' tf'
  | ULength t :: us => t <> 0 /\ dupd_is n0 us n0 (fun _ => t) n' tf'
  end.

(** ** Proofs *)
Section S.
Variable fresh : nat -> nat -> option R.
Variable nglp : nat.
Hypothesis Hn : (2 <= nglp)%nat.
Variable x : nat -> R.
Hypothesis Gx : forall p, gl_points nglp = Ok p -> vec_is p nglp x.
Hypothesis Dx : distinct nglp x.
Let D := DLag nglp x.

(** invariant of the object, and what its matrix does *)
Definition dinv (d : deriv_op R) (n0 codom deg : nat) : Prop :=
  is_basis (do_basis d) D /\ (exists hist, serve_all (do_basis d) hist (bs_init (do_basis d)) = Ok (do_bst d)) /\ do_n d = n0 /\ do_codom d = codom /\ do_deg d = deg.
Definition dmat (d : deriv_op R) (n codom deg : nat) (tf : nat -> R) : Prop :=
  exists Dm, mat_is (do_mat d) (n * nglp * codom) (n * nglp * codom) Dm /\
  forall t0 c iv cc t, (iv < n)%nat -> (cc < codom)%nat ->
    Derive_n (piece D codom t0 tf c iv cc) deg t = piece D codom t0 tf (fun k => Rsum (n * nglp * codom) (fun j => Dm k j * c j)) iv cc t.

Lemma serve_all_snoc (b : basis R) l q s s1 s2 : serve_all b l s = Ok s1 -> serve b q s1 = Ok s2 -> serve_all b (l ++ [q]) s = Ok s2.
Proof. revert s. induction l as [|a l IH]; intros s E1 E2; cbn [serve_all app] in *; [injection E1 as ->; rewrite E2; reflexivity|]. apply bind_ok in E1 as (s' & -> & E1). cbn [bind]. apply IH; auto. Qed.
Lemma dop_set_ok b hist s n n' codom deg taus tf : is_basis b D -> serve_all b hist (bs_init b) = Ok s -> vec_is taus n' tf -> (forall i, (i < n')%nat -> tf i <> 0) ->
  exists d, dop_set b s n n' codom deg taus = Ok d /\ dinv d n codom deg /\ dmat d n' codom deg tf.
Proof.
  intros B Hs Vt Ht. unfold dop_set.
  assert (X : forall t0 c, exists m s', gspline_derivative_matrix b n' codom deg taus s = Ok (m, s') /\
    srows m = (n' * codom * d_dim D)%nat /\ scols m = (n' * codom * d_dim D)%nat /\
    (forall iv cc t, (iv < n')%nat -> (cc < codom)%nat -> Derive_n (piece D codom t0 tf c iv cc) deg t = piece D codom t0 tf (smul m c) iv cc t)).
  { intros t0 c. apply (der_matrix_after b D n' codom deg taus tf t0 c hist s); auto. intros a E; discriminate E. }
  destruct (X 0 (fun _ => 0)) as (m & s' & Em & Rm & Cm & _). rewrite Em. cbn [bind]. eexists. split; [reflexivity|]. split.
  - split; [exact B|]. split; [|auto]. exists (hist ++ [RDer n' codom deg taus]). eapply serve_all_snoc; [exact Hs|]. cbn [serve do_basis do_bst]. rewrite Em. reflexivity.
  - exists (fun k j => match sget m k j with Some v => v | None => 0 end). cbn [do_mat d_dim D] in *. split.
    + split; [cbn; rewrite Rm; cbn; lia|]. split; [cbn; rewrite Cm; cbn; lia|]. intros i j _ _. cbn. destruct (sget m i j); reflexivity.
    + intros t0 c iv cc t Hiv Hc. destruct (X t0 c) as (m' & s2 & Em' & _ & _ & P). rewrite Em in Em'. injection Em' as <- <-.
      rewrite P by auto. unfold piece. apply Rsum_ext. intros i Hi. f_equal. unfold smul. rewrite Cm. cbn. replace (n' * codom * nglp)%nat with (n' * nglp * codom)%nat by lia.
      apply Rsum_ext. intros j _. destruct (sget m _ j); ring.
Qed.
Lemma dop_ctor_good codom n taus deg tf : vec_is taus n tf -> (forall i, (i < n)%nat -> tf i <> 0) ->
  exists d, dop_ctor fresh codom nglp taus deg = Ok d /\ dinv d n codom deg /\ dmat d n codom deg tf.
Proof.
  intros V Ht. unfold dop_ctor. destruct (gll_is_basis fresh nglp Hn x Gx Dx) as (b & -> & B). cbn [bind]. replace (vlen taus) with n by (symmetry; apply V).
  apply (dop_set_ok b [] (bs_init b)); auto.
Qed.
Lemma dupd_ok us : forall d n0 codom deg n tf n' tf', dinv d n0 codom deg -> dmat d n codom deg tf -> dupd_is n0 us n tf n' tf' ->
  exists d', dupd_run us d = Ok d' /\ dinv d' n0 codom deg /\ dmat d' n' codom deg tf'.
Proof.
  induction us as [|[t|t] us IH]; intros d n0 codom deg n tf n' tf' I M U; cbn [dupd_is dupd_run] in *.
  - destruct U as (-> & ->). eauto.
  - destruct U as (m & g & V & N & U). destruct I as (B & (hist & Hs) & En & Ec & Eg). unfold dop_update. rewrite En, Ec, Eg. replace (vlen t) with m by (symmetry; apply V).
    destruct (dop_set_ok _ hist _ n0 m codom deg t g B Hs V N) as (d1 & -> & I1 & M1). cbn [bind]. eapply IH; eauto.
  - destruct U as (N & U). destruct I as (B & (hist & Hs) & En & Ec & Eg). unfold dop_update_const. rewrite En, Ec, Eg.
    destruct (dop_set_ok _ hist _ n0 n0 codom deg (vconst n0 t) (fun _ => t) B Hs) as (d1 & -> & I1 & M1); [split; auto|auto|]. cbn [bind]. eapply IH; eauto.
Qed.
Lemma dnew_ok c codom deg n tf : dnew_is nglp x c codom deg n tf -> (forall i, (i < n)%nat -> tf i <> 0) ->
  exists d, dnew_run fresh c = Ok d /\ dinv d n codom deg /\ dmat d n codom deg tf.
Proof.
  destruct c as [cd g taus dg|a b cd g m dg|g]; cbn [dnew_is dnew_run]; intros H Ht.
  - destruct H as (-> & -> & -> & V). apply dop_ctor_good; auto.
  - destruct H as (-> & -> & -> & -> & H1 & ->). unfold dop_ctor_uniform. apply dop_ctor_good; auto. split; [reflexivity|]. intros i Hi. unfold vmap1, ones_times. cbn [vget vscale vconst]. cbn. f_equal. rewrite nofnat_INR. rnum. f_equal. ring.
  - destruct H as (-> & t0 & t1 & cf & Rg). destruct (rep_shape nglp x _ _ _ _ _ _ _ Rg) as (S1 & S2 & S3 & _). unfold dop_of. rewrite S2, S3. apply dop_ctor_good; auto. apply Rg.
Qed.
End S.

(** ** C75 *)
(** applied to a spline with as many components and the intervals of the last update, the operator yields a spline whose
    pieces are the derivatives of the pieces *)
Theorem C75_derivative fresh nglp p x c codom deg n0 tf0 us n tf (g : gspline R) t0 t1 cf : (2 <= nglp)%nat -> gl_points nglp = Ok p -> vec_is p nglp x -> distinct nglp x ->
  dnew_is nglp x c codom deg n0 tf0 -> (forall i, (i < n0)%nat -> tf0 i <> 0) -> dupd_is n0 us n0 tf0 n tf -> (1 <= n)%nat ->
  rep g (DLag nglp x) n codom t0 t1 tf cf ->
  exists d0 d r cf', dnew_run fresh c = Ok d0 /\ dupd_run us d0 = Ok d /\ lf_spline fresh (do_mat d) g = Ok r /\ rep r (DLag nglp x) n codom t0 t1 tf cf' /\
    forall iv cc t, (iv < n)%nat -> (cc < codom)%nat -> piece (DLag nglp x) codom t0 tf cf' iv cc t = Derive_n (piece (DLag nglp x) codom t0 tf cf iv cc) deg t.
Proof.
  intros Hn Ep P Dx Hc N0 Hu H1 Rg. assert (Gx : forall q, gl_points nglp = Ok q -> vec_is q nglp x) by (intros q Eq; rewrite Ep in Eq; injection Eq as <-; exact P).
  destruct (dnew_ok fresh nglp Hn x Gx Dx c codom deg n0 tf0 Hc N0) as (d0 & E0 & I0 & M0). destruct (dupd_ok nglp Hn x us d0 n0 codom deg n0 tf0 n tf I0 M0 Hu) as (d & E & _ & Dm & Md & Der).
  destruct (lf_spline_rep fresh nglp Hn x Gx Dx (do_mat d) Dm g n codom codom t0 t1 tf cf Md Rg H1) as (r & Er & Rr).
  exists d0, d, r. eexists. split; [exact E0|]. split; [exact E|]. split; [exact Er|]. split; [exact Rr|]. intros iv cc t Hi Hcc. symmetry. apply Der; auto.
Qed.
(** the spline of zeros *)
Theorem C75_zero fresh nglp p x a b codom n : (2 <= nglp)%nat -> gl_points nglp = Ok p -> vec_is p nglp x -> distinct nglp x -> (1 <= n)%nat ->
  let len := (b - a) / INR n in
  exists g, gll_zero fresh (a, b) codom n nglp = Ok g /\ rep g (DLag nglp x) n codom a b (fun _ => len) (fun _ => 0) /\
    forall iv cc t, piece (DLag nglp x) codom a (fun _ => len) (fun _ => 0) iv cc t = 0.
Proof.
  intros Hn Ep P Dx H1 len. assert (Gx : forall q, gl_points nglp = Ok q -> vec_is q nglp x) by (intros q Eq; rewrite Ep in Eq; injection Eq as <-; exact P).
  unfold gll_zero, gll_make. destruct (gll_is_basis fresh nglp Hn x Gx Dx) as (bb & -> & B). cbn [bind fst snd].
  destruct (ctor_rep bb (DLag nglp x) [] (bs_init bb) (a, b) codom n (vconst (n * nglp * codom) n0) (vmap1 (fun y => ndiv y (nofnat n)) (ones_times n (nsub b a))) (fun _ => 0) (fun _ => len) B eq_refl) as (r & Er & Rr).
  - split; [reflexivity|]. intros i Hi. cbn. f_equal. unfold len. rewrite nofnat_INR. rnum. f_equal. ring.
  - split; [reflexivity|]. intros i Hi. reflexivity.
  - exists r. split; [exact Er|]. split; [exact Rr|]. intros iv cc t. unfold piece. apply Rsum_zero. intros. ring.
Qed.
(** two nodes per interval; built for one interval of length 1, then told the lengths 2 and 3: values 5, 7 on [0, 2] and 7, 1 on [2, 5] have the slopes 1 and -2 *)
Example C75_case fresh : exists g d0 d r, 
  dop_ctor_uniform fresh (0, 1) 1 2 1 1 = Ok d0 /\ dop_update d0 (vec_of_list [2; 3]) = Ok d /\
  gll_make fresh (0, 5) 1 2 2 (vec_of_list [5; 7; 7; 1]) (vec_of_list [2; 3]) = Ok g /\ lf_spline fresh (do_mat d) g = Ok r /\
  exists x cf', rep r (DLag 2 x) 2 1 0 5 (fun i => nth i [2; 3] 0) cf' /\
  forall t, piece (DLag 2 x) 1 0 (fun i => nth i [2; 3] 0) cf' 0 0 t = 1 /\ piece (DLag 2 x) 1 0 (fun i => nth i [2; 3] 0) cf' 1 0 t = -2.
Proof.
  destruct (gl_points_ok (T := R) 2 ltac:(lia)) as (p & Ep & P). assert (Dx : distinct 2 (gpoint (2 - 1))) by (apply separated_distinct, good_2).
  assert (Gx : forall q, gl_points 2 = Ok q -> vec_is q 2 (gpoint (2 - 1))) by (intros q Eq; rewrite Ep in Eq; injection Eq as <-; exact P).
  set (x := gpoint (2 - 1)) in *. set (tf := fun i => nth i [2; 3] 0). set (cf := fun i => nth i [5; 7; 7; 1] 0).
  assert (X0 : x 0%nat = -1) by (apply gpoint_first; lia). assert (X1 : x 1%nat = 1) by (apply (gpoint_last 2); lia). clearbody x.
  assert (Vt : vec_is (vec_of_list [2; 3]) 2 tf) by (apply (vec_of_list_is [2; 3] 0)).
  assert (N2 : forall i, (i < 2)%nat -> tf i <> 0) by (intros [|[|i]] Hi; try lia; unfold tf; cbn [nth]; lra).
  destruct (gll_is_basis fresh 2 ltac:(lia) x Gx Dx) as (bb & Eb & B).
  destruct (ctor_rep bb (DLag 2 x) [] (bs_init bb) (0, 5) 1 2 (vec_of_list [5; 7; 7; 1]) (vec_of_list [2; 3]) cf tf B eq_refl Vt) as (g & Eg & Rg); [apply (vec_of_list_is [5; 7; 7; 1] 0)|].
  destruct (C75_derivative fresh 2 p x (NUniform 0 1 1 2 1 1) 1 1 1 (fun _ => (1 - 0) / INR 1) [ULengths (vec_of_list [2; 3])] 2 tf g 0 5 cf ltac:(lia) Ep P Dx) as (d0 & d & r & cf' & E0 & E & Er & Rr & Hd); auto.
  { repeat (split; [auto|]). reflexivity. }
  { intros i Hi. cbn [INR]. lra. }
  { exists 2%nat, tf. split; [exact Vt|]. split; [exact N2|]. split; reflexivity. }
  exists g, d0, d, r. split; [exact E0|]. split. { cbn [dupd_run] in E. apply bind_ok in E as (d1 & E & E'). injection E' as ->. exact E. }
  split; [unfold gll_make; rewrite Eb; exact Eg|]. split; [exact Er|]. exists x, cf'. split; [exact Rr|]. intros t. rewrite !Hd by lia. cbn [Derive_n]. split.
  - rewrite (Derive_ext _ (fun t => 5 + t)). { apply is_derive_unique. auto_derive; [auto|ring]. }
    intros u. unfold piece, tphi, cf, tf. cbn [d_dim phi Rsum Nat.mul Nat.add nth]. unfold lagr, Rprod, window, bp. cbn. rewrite X0, X1. field.
  - rewrite (Derive_ext _ (fun t => 7 - 2 * (t - 2))). { apply is_derive_unique. auto_derive; [auto|ring]. }
    intros u. unfold piece, tphi, cf, tf. cbn [d_dim phi Rsum Nat.mul Nat.add nth]. unfold lagr, Rprod, window, bp. cbn. rewrite X0, X1. field.
Qed.
