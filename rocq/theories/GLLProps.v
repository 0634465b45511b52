(** C41, C42, C53: collocation splines. *)
From Coquelicot Require Import Coquelicot.
From Coq Require Import List Arith Lia Bool ZArith Reals Lra.
From Verif Require Import Num Outcome LinAlg RSum RPoly LegendreSpec LegendreModel LagrangeSpec LagrangeModel LagrangeMath LagrangeProofs
  Basis0101Model BasisModel SplineSpec BasisFn BasisProofs BasisProofs2 BasisProofs3 ToolsModel FunModel GSplineModel GSplineProofs GSplineProofs2
  GLSpec GLModel GLProofs GLProofs2 GLProps GLLModel GLLProofs GLLProofs2 GLLProofs3.
From Verif Require ToolsSpec ToolsProofs.
Import ListNotations.
Local Open Scope R_scope.
Local Opaque gl_iters.

(** ** C41: construction from a function *)
(** [pointwise f F]: evaluating [f] at a vector of instants fills the result
    with the values of the functions F 0, F 1, ... there *)
Theorem C41_interpolates fresh (f : fobj R) F lb rb nglp n p pf : pointwise f F -> fo_dom f = (lb, rb) -> lb < rb ->
  (2 <= nglp)%nat -> (1 <= n)%nat -> gl_points nglp = Ok p -> vec_is p nglp pf -> good_nodes nglp pf ->
  let len := (rb - lb) / INR n in
  exists g, gll_approximate fresh f nglp n = Ok g /\ gs_dom g = (lb, rb) /\ gs_codom g = fo_codom f /\ gs_dim g = nglp /\ gs_n g = n /\
  (forall k, (k < n)%nat -> vget (gs_tau g) k = Some len) /\
  exists grid t m, gll_discretization g = Ok grid /\ vec_is grid (nglp * n) t /\
    (forall iv i, (iv < n)%nat -> (i < nglp)%nat -> t (iv * nglp + i)%nat = on_interval (lb + INR iv * len) len (pf i)) /\
    gs_value g grid = Ok m /\ mat_is m (nglp * n) (fo_codom f) (fun k cc => F cc (t k)).
Proof.
  intros HF Ed Hlt Hn H1 Ep P Gd len. pose proof (gl_points_is nglp p pf Hn Ep P) as EP.
  assert (Gd' : good_nodes nglp (gpoint (nglp - 1))) by (eapply good_nodes_ext; eauto).
  destruct (approx_ok fresh f F nglp n Hn HF) as (g & E & _ & C). rewrite Ed in C. cbn [fst snd] in C.
  assert (Hn0 : 0 < INR n) by (apply lt_0_INR; lia).
  assert (Hlen : 0 < len) by (apply Rdiv_lt_0_compat; lra).
  assert (C' : colloc g (lb, rb) n (fo_codom f) nglp (fun _ => len)
     (fun iv cc i => F cc (on_interval (lb + INR iv * len) len (gpoint (nglp - 1) i)))).
  { replace (fun _ : nat => len) with (fun _ : nat => n1 * ((rb - lb) / nofnat n)).
    - eapply colloc_ext; [exact C|]. intros iv cc i _ _ _. cbn beta. f_equal. unfold on_interval, len, c2. rewrite !nofnat_INR. rnum. field. lra.
    - apply FunctionalExtensionality.functional_extensionality. intros _. unfold len. rewrite nofnat_INR. rnum. field. lra. }
  clear C. destruct (colloc_shape _ _ _ _ _ _ _ C' Hn) as (Sn & Sd & Sc).
  exists g. split; [exact E|]. split; [apply C'|]. split; [exact Sc|]. split; [exact Sd|]. split; [exact Sn|].
  split; [apply C'|].
  destruct (C40_points lb rb nglp n p pf Hn H1 Ep P) as (grid & Eg & Lg & Gg & _).
  set (t := fun k => on_interval (lb + INR (k / nglp) * len) len (pf (k mod nglp)%nat)).
  assert (Vg : vec_is grid (nglp * n) t).
  { split; [exact Lg|]. intros k Hk. assert (Hm : (k mod nglp < nglp)%nat) by (apply Nat.mod_upper_bound; lia).
    assert (Hq : (k / nglp < n)%nat) by (apply Nat.div_lt_upper_bound; lia).
    pose proof (Gg (k / nglp)%nat (k mod nglp)%nat Hq Hm) as X. rewrite Nat.mul_comm, <- Nat.div_mod in X by lia. exact X. }
  destruct (colloc_nodes g _ n _ nglp _ _ grid (nglp * n) t (fun k => k / nglp)%nat (fun k => k mod nglp)%nat C' Hn H1) as (m & Em & Mm); auto.
  { intros k Hk. assert (Hm : (k mod nglp < nglp)%nat) by (apply Nat.mod_upper_bound; lia).
    split; [apply Nat.div_lt_upper_bound; lia|]. split; [exact Hm|]. unfold t. rewrite bp_const, EP by auto. reflexivity. }
  { intros k cc Hk Hc. cbn beta. rewrite gpoint_first, gpoint_last by auto. f_equal. rewrite S_INR. unfold on_interval. field. }
  exists grid, t, m. split; [|split; [exact Vg|]].
  { unfold gll_discretization. replace (gs_dom g) with (lb, rb) by (symmetry; apply C'). cbn [fst snd]. rewrite Sd, Sn. exact Eg. }
  split. { intros iv i Hiv Hi. unfold t. rewrite (Nat.add_comm (iv * nglp) i), Nat.div_add, Nat.mod_add by lia. rewrite Nat.div_small, Nat.mod_small by auto. reflexivity. }
  split; [exact Em|]. eapply mat_is_ext; [exact Mm|]. intros k cc Hk Hc. cbn beta. unfold t. rewrite EP by (apply Nat.mod_upper_bound; lia). reflexivity.
Qed.
(** the cosine on [0, 2], three points on each of two intervals *)
Example C41_interpolates_case fresh : exists p pf, pointwise (fo_of_fn true (FCos (0, 2))) (fun _ t => cos t) /\ 0 < 2 /\
  gl_points 3 = Ok p /\ vec_is p 3 pf /\ good_nodes 3 pf /\
  exists g, gll_approximate fresh (fo_of_fn true (FCos (0, 2))) 3 2 = Ok g /\
  exists m, (grid <- gll_discretization g ;; gs_value g grid) = Ok m /\ mget m 4 0 = Some (cos (3 / 2)).
Proof.
  destruct (gl_points_ok (T := R) 3 ltac:(lia)) as (p & E & P). exists p, (gpoint 2). split; [apply cos_pointwise|]. split; [lra|].
  split; [exact E|]. split; [exact P|]. split; [exact good_3|].
  destruct (C41_interpolates fresh (fo_of_fn true (FCos (0, 2))) _ 0 2 3 2 p _ (cos_pointwise _ _) eq_refl ltac:(lra) ltac:(lia) ltac:(lia) E P good_3)
    as (g & Eg & _ & _ & _ & _ & _ & grid & t & m & Ed & _ & Ht & Em & Mm).
  exists g. split; [exact Eg|]. exists m. rewrite Ed. cbn [bind]. split; [exact Em|]. destruct Mm as (_ & _ & G).
  etransitivity; [exact (G 4%nat 0%nat ltac:(lia) ltac:(cbn; lia))|]. do 2 f_equal. pose proof (Ht 1%nat 1%nat ltac:(lia) ltac:(lia)) as X. cbn in X. rewrite X.
  change (gpoint 2 1) with (@n0 R Rnum). rnum. unfold on_interval. simpl. field.
Qed.
(** polynomials of degree below the number of points are reproduced everywhere *)
Theorem C41_polynomials fresh (f : fobj R) F lb rb nglp n p pf pts np t : pointwise f F -> fo_dom f = (lb, rb) -> lb < rb ->
  (2 <= nglp)%nat -> (1 <= n)%nat -> gl_points nglp = Ok p -> vec_is p nglp pf -> good_nodes nglp pf ->
  (forall cc, (cc < fo_codom f)%nat -> isPoly nglp (F cc)) ->
  vec_is pts np t -> (forall k, (k < np)%nat -> exact_at nglp pf (wpos lb (fun _ => (rb - lb) / INR n) n (t k))) ->
  exists g m, gll_approximate fresh f nglp n = Ok g /\ gs_value g pts = Ok m /\ mat_is m np (fo_codom f) (fun k cc => F cc (t k)).
Proof.
  intros HF Ed Hlt Hn H1 Ep P Gd HP Vt X. pose proof (gl_points_is nglp p pf Hn Ep P) as EP.
  assert (Gd' : good_nodes nglp (gpoint (nglp - 1))) by (eapply good_nodes_ext; eauto).
  destruct (approx_ok fresh f F nglp n Hn HF) as (g & E & _ & C). rewrite Ed in C. cbn [fst snd] in C.
  set (len := (rb - lb) / INR n) in *.
  assert (Hn0 : 0 < INR n) by (apply lt_0_INR; lia).
  assert (Hlen : 0 < len) by (apply Rdiv_lt_0_compat; lra).
  assert (El : forall k : nat, n1 * ((rb - lb) / nofnat n) = len) by (intros _; unfold len; rewrite nofnat_INR; rnum; field; lra).
  assert (C' : colloc g (lb, rb) n (fo_codom f) nglp (fun _ => len)
     (fun iv cc i => F cc (on_interval (lb + INR iv * len) len (gpoint (nglp - 1) i)))).
  { replace (fun _ : nat => len) with (fun _ : nat => n1 * ((rb - lb) / nofnat n)).
    - eapply colloc_ext; [exact C|]. intros iv cc i _ _ _. cbn beta. f_equal. unfold on_interval, len, c2. rewrite !nofnat_INR. rnum. field. lra.
    - apply FunctionalExtensionality.functional_extensionality. intros k. apply (El k). }
  clear C. destruct (colloc_rep_value g _ n _ nglp _ _ pts np t C' Hn H1) as (m & Em & Mm); auto.
  { intros k Hk. cbn [fst]. destruct (X k Hk) as [Y|(j & Hj & Ej & Sj)].
    - left. intros j Hj. rewrite <- EP by auto. apply Y; auto.
    - right. exists j. split; auto. rewrite <- EP by auto. split; auto. apply Gd'. }
  exists g, m. split; [exact E|]. split; [exact Em|]. eapply mat_is_ext; [exact Mm|]. intros k cc Hk Hc. cbn beta. cbn [fst]. unfold sfun, piece. cbn [d_dim].
  destruct (locate_in lb (fun _ => len) n (t k) H1 ltac:(intros; exact Hlen)) as (L & _). set (iv := locate lb (fun _ => len) n (t k)) in *.
  rewrite (Rsum_ext nglp _ (fun i => (fun s => F cc (on_interval (lb + INR iv * len) len s)) (gpoint (nglp - 1) i) * lagr nglp (gpoint (nglp - 1)) i (window (bp lb (fun _ => len) iv) len (t k)))).
  2:{ intros i Hi. rewrite nidx_at by auto. reflexivity. }
  rewrite (lagr_reproduce nglp (gpoint (nglp - 1)) (fun s => F cc (on_interval (lb + INR iv * len) len s))).
  - f_equal. rewrite bp_const. unfold on_interval, window. field. lra.
  - apply separated_distinct, Gd'.
  - apply (isPoly_ext _ (fun s => F cc (len / 2 * s + (lb + INR iv * len + len / 2)))). { intros s. f_equal. unfold on_interval. field. }
    apply isPoly_affine. auto.
Qed.
(** the identity with two points on three intervals, away from the nodes *)
Example C41_polynomials_case fresh : isPoly 2 (fun t => 1 * t) /\ exact_at 2 (gpoint 1) (wpos 0 (fun _ => (3 - 0) / INR 3) 3 (1 / 4)) /\
  exists g m, gll_identity fresh true (0, 3) 2 3 = Ok g /\ gs_value g (vconst 1 (1 / 4)) = Ok m /\ mget m 0 0 = Some (1 / 4).
Proof.
  assert (PI : isPoly 2 (fun t => 1 * t)).
  { exists (fun k => if Nat.eqb k 1 then 1 else 0). intros x. unfold peval. simpl. ring. }
  assert (W : wpos 0 (fun _ => (3 - 0) / INR 3) 3 (1 / 4) = - (1 / 2)).
  { unfold wpos. replace (locate 0 (fun _ => (3 - 0) / INR 3) 3 (1 / 4)) with 0%nat.
    - unfold bp, window. simpl. field.
    - symmetry. unfold locate. simpl. destruct (Rlt_dec _ _) as [A|A]; [exfalso; unfold bp in A; simpl in A; lra|]. destruct (Rlt_dec _ _) as [B|B]; [exfalso; unfold bp in B; simpl in B; lra|]. reflexivity. }
  assert (X : exact_at 2 (gpoint 1) (wpos 0 (fun _ => (3 - 0) / INR 3) 3 (1 / 4))).
  { rewrite W. left. intros [|[|j]] Hj; try lia; unfold gpoint; cbn; unfold near; cbv zeta; intros [[_ B]|[_ [A _]]]; try revert A; try revert B; unfold Rabs; repeat destruct (Rcase_abs _); lra. }
  split; [exact PI|]. split; [exact X|]. destruct (gl_points_ok (T := R) 2 ltac:(lia)) as (p & E & P).
  destruct (C41_polynomials fresh (fo_of_fn true (identity_function (0, 3))) _ 0 3 2 3 p _ (vconst 1 (1 / 4)) 1 (fun _ => 1 / 4)
    (identity_pointwise _ _) eq_refl ltac:(lra) ltac:(lia) ltac:(lia) E P good_2) as (g & m & Eg & Em & Mm).
  { intros cc _. exact PI. } { apply vconst_is. } { intros k _. exact X. }
  exists g, m. split; [exact Eg|]. split; [exact Em|]. destruct Mm as (_ & _ & G). rewrite G by (cbn; lia). f_equal. ring.
Qed.
(** REFUTED for the constructor: called with (f, intervals, points) it builds
    a spline of [n_intervals] points on [n_glp] intervals; one interval is undefined behaviour *)
Theorem C41_constructor_refuted fresh (f : fobj R) F n_intervals n_glp : pointwise f F ->
  ((2 <= n_intervals)%nat -> exists g, gll_of_fun fresh f n_intervals n_glp = Ok g /\ gs_n g = n_glp /\ gs_dim g = n_intervals) /\
  ((n_intervals < 2)%nat -> gll_of_fun fresh f n_intervals n_glp = UB).
Proof.
  intros HF. split; intros Hn; unfold gll_of_fun.
  - destruct (approx_ok fresh f F n_intervals n_glp Hn HF) as (g & E & _ & C). rewrite E. cbn [bind]. eexists. split; [reflexivity|].
    apply colloc_move in C. destruct (colloc_shape _ _ _ _ _ _ _ C Hn) as (A & B & _). auto.
  - rewrite approx_ub by auto. reflexivity.
Qed.
(** asked for 5 intervals of 3 points it has 3 intervals of 5 *)
Example C41_constructor_case fresh : exists g, gll_of_fun fresh (fo_of_fn true (FCos (0, 2))) 5 3 = Ok g /\ gs_n g = 3%nat /\ gs_dim g = 5%nat.
Proof. destruct (C41_constructor_refuted fresh (fo_of_fn true (FCos (0, 2))) _ 5 3 (cos_pointwise _ _)) as (X & _). apply X. lia. Qed.

(** ** C42: assignment *)
(** with equal lengths the target evaluates like the source, in any arithmetic *)
Theorem C42_equal_lengths : forall T (HN : Num T) move (a b : gspline T) doma domb n codom nglp tf Va Vb,
  colloc a doma n codom nglp tf Va -> colloc b domb n codom nglp tf Vb -> (2 <= nglp)%nat -> (1 <= n)%nat ->
  exists r, gll_assign move false a b = Ok r /\ gs_dom r = gs_dom b /\
  forall pts np pf, vec_is pts np pf -> exists mr mb f, gs_value r pts = Ok mr /\ gs_value b pts = Ok mb /\ mat_is mr np codom f /\ mat_is mb np codom f.
Proof.
  intros T HN move a b doma domb n codom nglp tf Va Vb Ca Cb Hn H1.
  destruct (assign_ok move a b doma domb n codom nglp tf tf Va Vb Ca Cb Hn) as (r & E & Cr).
  exists r. split; [exact E|]. split; [transitivity domb; [apply Cr|symmetry; apply Cb]|]. intros pts np pf P. eapply value_same; eauto.
Qed.
(** in general it keeps its own lengths: its last breakpoint is the end of its
    new domain only if the old lengths happen to sum to the new domain length *)
Theorem C42_lengths_kept move (a b : gspline R) doma domb n codom nglp ta tb Va Vb :
  colloc a doma n codom nglp ta Va -> colloc b domb n codom nglp tb Vb -> (2 <= nglp)%nat ->
  exists r, gll_assign move false a b = Ok r /\ colloc r domb n codom nglp ta Vb /\
  (bp (fst (gs_dom r)) ta n = snd (gs_dom r) <-> Rsum n ta = snd domb - fst domb).
Proof.
  intros Ca Cb Hn. destruct (assign_ok move a b doma domb n codom nglp ta tb Va Vb Ca Cb Hn) as (r & E & Cr).
  exists r. split; [exact E|]. split; [exact Cr|]. replace (gs_dom r) with domb by (symmetry; apply Cr). unfold bp. split; lra.
Qed.
(** the exact conditions of refusal *)
Theorem C42_refusals : forall T (HN : Num T) move self (a b : gspline T),
  gll_assign move self a b = Throw InvalidArgument <->
  ((move = true /\ self = true) \/ gs_dim a <> gs_dim b \/ gs_n a <> gs_n b \/ gs_codom a <> gs_codom b).
Proof.
  intros T HN move self a b. split; [|apply assign_throw]. unfold gll_assign, same_discretization.
  destruct move, self; cbn [andb negb require bind]; auto; intros E; right;
  (destruct (Nat.eqb_spec (gs_dim a) (gs_dim b)); [right|left; assumption]; destruct (Nat.eqb_spec (gs_n a) (gs_n b)); [right|left; assumption];
   destruct (Nat.eqb_spec (gs_codom a) (gs_codom b)); [cbn in E; discriminate|assumption]).
Qed.
(** the splines of the examples: identity, two points on one interval *)
Lemma ex_identity fresh lb rb : exists g, gll_identity fresh true (lb, rb) 2 1 = Ok g /\ colloc g (lb, rb) 1 1 2 (fun _ => rb - lb) (fun _ _ i => if Nat.eqb i 0 then lb else rb).
Proof.
  destruct (approx_ok fresh _ _ 2 1 ltac:(lia) (identity_pointwise true (lb, rb))) as (g & E & _ & C). exists g. split; [exact E|].
  cbn [fo_of_fn fo_dom fo_codom identity_function fdom fcod fst snd] in C. replace (fun _ : nat => rb - lb) with (fun _ : nat => n1 * ((rb - lb) / nofnat 1)).
  - eapply colloc_ext; [exact C|]. intros [|iv] cc [|[|i]] A B D; try lia; cbn; unfold c2; rewrite !nofnat_INR; rnum; simpl INR; field.
  - apply FunctionalExtensionality.functional_extensionality. intros _. rewrite nofnat_INR. rnum. simpl INR. field.
Qed.
Example C42_case fresh : exists a b, colloc a (0, 1) 1 1 2 (fun _ => 1 - 0) (fun _ _ i => if Nat.eqb i 0 then 0 else 1) /\
  colloc b (5, 6) 1 1 2 (fun _ => 6 - 5) (fun _ _ i => if Nat.eqb i 0 then 5 else 6) /\ gll_identity fresh true (0, 1) 2 1 = Ok a /\ 6 - 5 = 1 - 0.
Proof. destruct (ex_identity fresh 0 1) as (a & Ea & Ca). destruct (ex_identity fresh 5 6) as (b & Eb & Cb). exists a, b. repeat (split; [assumption|]). lra. Qed.
(** REFUTED: a over [0,1], b over [0,2]; after a = b the two differ at t = 1 *)
Theorem C42_assign_refuted fresh : exists a b r ma mb, gll_identity fresh true (0, 1) 2 1 = Ok a /\ gll_identity fresh true (0, 2) 2 1 = Ok b /\
  gll_assign false false a b = Ok r /\ gs_dom r = gs_dom b /\ gs_value r (vconst 1 1) = Ok ma /\ gs_value b (vconst 1 1) = Ok mb /\
  mget ma 0 0 = Some 2 /\ mget mb 0 0 = Some 1.
Proof.
  destruct (ex_identity fresh 0 1) as (a & Ea & Ca). destruct (ex_identity fresh 0 2) as (b & Eb & Cb).
  destruct (assign_ok false a b _ _ _ _ _ _ _ _ _ Ca Cb ltac:(lia)) as (r & Er & Cr).
  destruct (colloc_nodes r _ 1 1 2 _ _ (vconst 1 1) 1 (fun _ => 1) (fun _ => 0%nat) (fun _ => 1%nat) Cr ltac:(lia) ltac:(lia)) as (mr & Emr & Mr).
  { intros; lra. } { exact good_2. } { apply vconst_is. }
  { intros k Hk. split; [lia|]. split; [lia|]. unfold on_interval, bp. cbn. rnum. field. } { intros; lia. }
  destruct (colloc_rep_value b _ 1 1 2 _ _ (vconst 1 1) 1 (fun _ => 1) Cb ltac:(lia) ltac:(lia)) as (mb & Emb & Mb).
  { intros; lra. } { exact good_2. } { apply vconst_is. }
  { intros k Hk. left. intros [|[|j]] Hj; try lia; unfold wpos, window, bp, gpoint; cbn; unfold near; cbv zeta; intros [[_ B]|[_ [A _]]]; try revert A; try revert B; unfold Rabs; repeat destruct (Rcase_abs _); lra. }
  exists a, b, r, mr, mb. repeat (split; [assumption|]). split; [transitivity (0, 2); [apply Cr|symmetry; apply Cb]|]. split; [exact Emr|]. split; [exact Emb|].
  destruct Mr as (_ & _ & Gr). destruct Mb as (_ & _ & Gb). rewrite Gr, Gb by lia. split; [reflexivity|]. f_equal.
  unfold sfun, piece, tphi, lagr, window, bp, nidx, gpoint. cbn. unfold LagrangeSpec.lagr. cbn. rnum. field.
Qed.
(** assignment from a function: the lengths are stretched onto the new domain
    and the function is matched at every node, whatever the ratio of the lengths *)
Theorem C42_from_function (f : fobj R) F g dom n codom nglp tf V p pf lb rb : colloc g dom n codom nglp tf V -> pointwise f F ->
  fo_dom f = (lb, rb) -> lb < rb -> fo_codom f = codom -> (2 <= nglp)%nat -> (1 <= n)%nat -> (forall k, (k < n)%nat -> 0 < tf k) ->
  gl_points nglp = Ok p -> vec_is p nglp pf -> good_nodes nglp pf ->
  let tf' := fun i => tf i * ((rb - lb) / Rsum n tf) in
  exists r, gll_assign_fun false g f = Ok r /\ gs_dom r = (lb, rb) /\ (forall k, (k < n)%nat -> vget (gs_tau r) k = Some (tf' k)) /\ bp lb tf' n = rb /\
  forall pts np t (iv i : nat -> nat), vec_is pts np t ->
    (forall k, (k < np)%nat -> (iv k < n)%nat /\ (i k < nglp)%nat /\ t k = on_interval (bp lb tf' (iv k)) (tf' (iv k)) (pf (i k))) ->
    exists m, gs_value r pts = Ok m /\ mat_is m np codom (fun k cc => F cc (t k)).
Proof.
  intros C HF Ed Hlt Ec Hn H1 Ht Ep P Gd tf'. pose proof (gl_points_is nglp p pf Hn Ep P) as EP.
  assert (Gd' : good_nodes nglp (gpoint (nglp - 1))) by (eapply good_nodes_ext; eauto).
  destruct (assign_fun_ok f F g dom n codom nglp tf V C Hn Ec HF) as (r & E & Cr). rewrite Ed in Cr. cbn [fst snd] in Cr. rewrite nsum_R in Cr.
  assert (Sp : 0 < Rsum n tf).
  { destruct n; [lia|]. rewrite Rsum_first. assert (0 < tf 0%nat) by (apply Ht; lia). assert (0 <= Rsum n (fun i => tf (S i))) by (apply Rsum_nonneg; intros; left; apply Ht; lia). lra. }
  assert (Tp : forall k, (k < n)%nat -> 0 < tf' k) by (intros k Hk; unfold tf'; apply Rmult_lt_0_compat; [apply Ht; auto|apply Rdiv_lt_0_compat; lra]).
  assert (Cr' : colloc r (lb, rb) n codom nglp tf' (fun iv cc i => F cc (on_interval (bp lb tf' iv) (tf' iv) (gpoint (nglp - 1) i)))).
  { eapply colloc_ext; [exact Cr|]. intros iv cc i _ _ _. cbn beta. f_equal. rewrite lacc_bp. unfold on_interval, c2, tf'. rnum. unfold bp. rnum. field. lra. }
  exists r. split; [exact E|]. split; [apply Cr'|]. split; [apply Cr'|]. split.
  { unfold bp, tf'. rewrite Rsum_scal_r. field. lra. }
  intros pts np t iv i Vp X.
  destruct (colloc_nodes r _ n codom nglp tf' _ pts np t iv i Cr' Hn H1 Tp Gd' Vp) as (m & Em & Mm).
  { intros k Hk. destruct (X k Hk) as (A & B & D). split; auto. split; auto. cbn [fst]. rewrite D, EP by auto. reflexivity. }
  { intros k cc Hk Hc. cbn beta. rewrite gpoint_first, gpoint_last by auto. f_equal. rewrite bp_S. unfold on_interval. field. }
  exists m. split; [exact Em|]. eapply mat_is_ext; [exact Mm|]. intros k cc Hk Hc. cbn beta. destruct (X k Hk) as (A & B & ->). now rewrite EP.
Qed.
(** a spline over [0,1] takes the cosine over [0,2] *)
Example C42_from_function_case fresh : exists g r, colloc g (0, 1) 1 1 2 (fun _ => 1 - 0) (fun _ _ i => if Nat.eqb i 0 then 0 else 1) /\
  gll_identity fresh true (0, 1) 2 1 = Ok g /\ gll_assign_fun false g (fo_of_fn true (FCos (0, 2))) = Ok r /\
  exists m, gs_value r (vconst 1 2) = Ok m /\ mget m 0 0 = Some (cos 2).
Proof.
  destruct (ex_identity fresh 0 1) as (g & Eg & Cg). destruct (gl_points_ok (T := R) 2 ltac:(lia)) as (p & E & P).
  destruct (C42_from_function (fo_of_fn true (FCos (0, 2))) _ g _ _ _ _ _ _ p _ 0 2 Cg (cos_pointwise _ _) eq_refl ltac:(lra) eq_refl ltac:(lia) ltac:(lia) ltac:(intros; lra) E P good_2)
    as (r & Er & _ & _ & _ & X).
  exists g, r. split; [exact Cg|]. split; [exact Eg|]. split; [exact Er|].
  destruct (X (vconst 1 2) 1%nat (fun _ => 2) (fun _ => 0%nat) (fun _ => 1%nat)) as (m & Em & Mm); [apply vconst_is| |].
  { intros k Hk. split; [lia|]. split; [lia|]. unfold on_interval, bp. cbn. rnum. field. }
  exists m. split; [exact Em|]. destruct Mm as (_ & _ & G). now rewrite G by lia.
Qed.

(** ** C53: pointwise operations *)
(** at its nodes a collocation spline takes the stored values, when the values
    stored twice for an inner breakpoint agree *)
Theorem C53_storage (g : gspline R) dom n codom nglp tf V p pf pts np t (iv i : nat -> nat) : colloc g dom n codom nglp tf V -> (2 <= nglp)%nat -> (1 <= n)%nat ->
  (forall k, (k < n)%nat -> 0 < tf k) -> gl_points nglp = Ok p -> vec_is p nglp pf -> good_nodes nglp pf ->
  (forall k cc, (S k < n)%nat -> (cc < codom)%nat -> V k cc (nglp - 1)%nat = V (S k) cc 0%nat) -> vec_is pts np t ->
  (forall k, (k < np)%nat -> (iv k < n)%nat /\ (i k < nglp)%nat /\ t k = on_interval (bp (fst dom) tf (iv k)) (tf (iv k)) (pf (i k))) ->
  exists m, gs_value g pts = Ok m /\ mat_is m np codom (fun k cc => V (iv k) cc (i k)).
Proof.
  intros C Hn H1 Ht Ep P Gd Co Vp X. pose proof (gl_points_is nglp p pf Hn Ep P) as EP.
  assert (Gd' : good_nodes nglp (gpoint (nglp - 1))) by (eapply good_nodes_ext; eauto).
  apply (colloc_nodes g dom n codom nglp tf V pts np t iv i C Hn H1 Ht Gd' Vp); auto.
  intros k Hk. destruct (X k Hk) as (A & B & D). rewrite <- EP by auto. auto.
Qed.
Section Any.
Context {T : Type} `{HN : Num T}.
Local Open Scope nat_scope.
Local Open Scope num_scope.
Implicit Types (g a b : gspline T).
(** product with a scalar spline, for every combination of value categories *)
Theorem C53_product o a b doma domb n ca cb nglp ta tb Va Vb : colloc a doma n ca nglp ta Va -> colloc b domb n cb nglp tb Vb -> (2 <= nglp)%nat ->
  (gll_mul o a b = Throw InvalidArgument <-> (same_ends doma domb = false \/ (ca <> 1%nat /\ cb <> 1%nat))) /\
  (same_ends doma domb = true -> cb = 1%nat -> exists r, gll_mul o a b = Ok r /\ colloc r doma n ca nglp ta (fun iv cc i => Va iv cc i * Vb iv 0%nat i)) /\
  (same_ends doma domb = true -> cb <> 1%nat -> ca = 1%nat -> exists r, gll_mul o a b = Ok r /\ colloc r domb n cb nglp tb (fun iv cc i => Vb iv cc i * Va iv 0%nat i)).
Proof.
  intros Ca Cb Hn. pose proof (mul_ok o a b doma domb n ca cb nglp ta tb Va Vb Ca Cb Hn) as X.
  assert (Ea : gs_dom a = doma) by apply Ca. assert (Eb : gs_dom b = domb) by apply Cb. assert (Ka : gs_codom a = ca) by apply Ca. assert (Kb : gs_codom b = cb) by apply Cb.
  split; [|split].
  - split.
    + intros E. destruct (same_ends doma domb) eqn:Ed; [right|auto]. split; intros ->; destruct X as (r & Er & _); auto; congruence.
    + intros [Y|Y]; apply mul_throw; rewrite ?Ea, ?Eb, ?Ka, ?Kb; auto.
  - intros Hd ->. destruct X as (r & Er & Cr); auto. cbn in Cr. eauto.
  - intros Hd Nb ->. destruct X as (r & Er & Cr); auto. destruct (Nat.eqb_spec cb 1); [contradiction|]. eauto.
Qed.
Theorem C53_product_shapes o a b : gs_dim a <> gs_dim b \/ gs_n a <> gs_n b -> gll_mul o a b = Throw InvalidArgument.
Proof. intros X. apply mul_throw. tauto. Qed.
(** scaling, negation, norm, shift by a vector *)
Theorem C53_linear rv x v vf g dom n codom nglp tf V : colloc g dom n codom nglp tf V -> (2 <= nglp)%nat -> vec_is v codom vf ->
  (exists r, gll_scale rv x g = Ok r /\ colloc r dom n codom nglp tf (fun iv cc i => V iv cc i * x)) /\
  (exists r, gll_neg rv g = Ok r /\ colloc r dom n codom nglp tf (fun iv cc i => V iv cc i * - n1)) /\
  (exists r, gll_vec_plus rv v g = Ok r /\ colloc r dom n codom nglp tf (fun iv cc i => V iv cc i + vf cc)) /\
  (exists r, gll_minus_vec rv v g = Ok r /\ colloc r dom n codom nglp tf (fun iv cc i => V iv cc i - vf cc)) /\
  (exists r, gll_vec_minus rv v g = Ok r /\ colloc r dom n codom nglp tf (fun iv cc i => - V iv cc i + vf cc)).
Proof.
  intros C Hn Vv. split; [apply scale_ok; auto|]. split; [apply scale_ok; auto|].
  split; [|split]; [exact (rowwise_ok (fun v x => x + v) rv v vf g dom n codom nglp tf V C Hn Vv)|exact (rowwise_ok (fun v x => x - v) rv v vf g dom n codom nglp tf V C Hn Vv)|
    exact (rowwise_ok (fun v x => - x + v) rv v vf g dom n codom nglp tf V C Hn Vv)].
Qed.
Theorem C53_norm fresh g dom n codom nglp tf V : colloc g dom n codom nglp tf V -> (2 <= nglp)%nat ->
  exists r, gll_norm fresh g = Ok r /\ colloc r dom n 1 nglp tf (fun iv _ i => nsqrt (nsum codom (fun cc => V iv cc i * V iv cc i))).
Proof. exact (norm_ok fresh g dom n codom nglp tf V). Qed.
(** powers and quotients of scalar splines *)
Theorem C53_scalar rv x g dom n nglp tf V : colloc g dom n 1 nglp tf V -> (2 <= nglp)%nat ->
  (exists r, gll_pow rv g x = Ok r /\ colloc r dom n 1 nglp tf (fun iv cc i => npow (V iv cc i) x)) /\
  (exists r, gll_div rv x g = Ok r /\ colloc r dom n 1 nglp tf (fun iv cc i => x / V iv cc i)).
Proof. intros C Hn. split; [apply pow_ok; auto|apply div_ok; auto]. Qed.
Theorem C53_refusals rv x v f g : (gs_codom g <> 1%nat -> gll_pow rv g x = Throw InvalidArgument /\ gll_div rv x g = Throw InvalidArgument) /\
  (vlen v <> gs_codom g -> gll_rowwise f rv v g = Throw InvalidArgument).
Proof. split; [apply codom_throw|apply rowwise_throw]. Qed.
(** reading and writing single values; k counts the nodes of all intervals *)
Theorem C53_access g dom n codom nglp tf V k : colloc g dom n codom nglp tf V -> (2 <= nglp)%nat ->
  (forall iv i, (iv < n)%nat -> (i < nglp)%nat -> k = (iv * nglp + i)%nat -> exists v, value_at g k = Ok v /\ vec_is v codom (fun cc => V iv cc i)) /\
  ((nglp * n <= k)%nat -> value_at g k = Throw InvalidArgument).
Proof.
  intros C Hn. split; [|eapply at_throw; eauto]. intros iv i Hiv Hi ->. destruct (at_ok g dom n codom nglp tf V (iv * nglp + i) C Hn) as (v & E & Vv); [nia|].
  exists v. split; [exact E|]. eapply vec_is_ext; [exact Vv|]. intros cc Hc. cbn beta.
  rewrite (Nat.add_comm (iv * nglp) i), Nat.div_add, Nat.mod_add by lia. rewrite Nat.div_small, Nat.mod_small by auto. reflexivity.
Qed.
Theorem C53_set_from_array g dom n codom nglp tf V dom' (vals : list (vec T)) (F : nat -> nat -> T) : colloc g dom n codom nglp tf V -> (2 <= nglp)%nat ->
  (length vals = (nglp * n)%nat -> (forall k v, nth_error vals k = Some v -> vec_is v codom (F k)) ->
   exists r, gll_set_from_array g dom' vals = Ok r /\
     colloc r dom' n codom nglp (fun i => tf i * ((snd dom' - fst dom') / nsum n tf)) (fun iv cc i => F (iv * nglp + i)%nat cc)) /\
  (length vals <> (nglp * n)%nat -> gll_set_from_array g dom' vals = Throw RuntimeError).
Proof.
  intros C Hn. split; [apply (set_ok g dom n codom nglp tf V); auto|]. intros Ne. apply set_throw.
  destruct (colloc_shape _ _ _ _ _ _ _ C Hn) as (-> & -> & _). exact Ne.
Qed.
End Any.
(** the domains of two factors may differ by a billionth of the size of their ends *)
Lemma ends_R (d1 d2 : R * R) : same_ends d1 d2 = true <->
  ToolsSpec.close (Rabs (snd d1 - snd d2)) (Rabs (snd d1)) (Rabs (snd d2)) (1 / 1000000000) /\ ToolsSpec.close (Rabs (fst d1 - fst d2)) (Rabs (fst d1)) (Rabs (fst d2)) (1 / 1000000000).
Proof. unfold same_ends. rewrite andb_true_iff, !ToolsProofs.approx_eq_R. reflexivity. Qed.
Theorem C53_domains o (a b : gspline R) doma domb n ca cb nglp ta tb Va Vb : colloc a doma n ca nglp ta Va -> colloc b domb n cb nglp tb Vb -> (2 <= nglp)%nat ->
  (exists r, gll_mul o a b = Ok r) <->
  ToolsSpec.close (Rabs (snd doma - snd domb)) (Rabs (snd doma)) (Rabs (snd domb)) (1 / 1000000000) /\ ToolsSpec.close (Rabs (fst doma - fst domb)) (Rabs (fst doma)) (Rabs (fst domb)) (1 / 1000000000) /\ (ca = 1%nat \/ cb = 1%nat).
Proof.
  intros Ca Cb Hn. destruct (C53_product o a b _ _ _ _ _ _ _ _ _ _ Ca Cb Hn) as (X & Y & Z). pose proof (ends_R doma domb) as E. split.
  - intros (r & Er). destruct (same_ends doma domb) eqn:Ed; [|exfalso; destruct X as (_ & X); rewrite X in Er by auto; discriminate]. destruct (proj1 E eq_refl) as (P & Q). split; [exact P|]. split; [exact Q|].
    destruct (Nat.eq_dec ca 1); [auto|]. destruct (Nat.eq_dec cb 1); [auto|]. exfalso. destruct X as (_ & X). rewrite X in Er by auto. discriminate.
  - intros (P & Q & K). assert (Ed : same_ends doma domb = true) by (apply E; auto). destruct (Nat.eq_dec cb 1) as [->|Nb]; [destruct (Y Ed eq_refl) as (r & Er & _); eauto|]. destruct K as [->|K]; [|contradiction]. destruct (Z Ed Nb eq_refl) as (r & Er & _). eauto.
Qed.
(** [0, 10^9] and [0, 10^9 + 1/2] count as the same domain, [0, 1] and [0, 1 + 10^-8] do not; expressions over the first two are refused *)
Example C53_domains_case : same_ends (0, 1000000000) (0, 1000000000 + 1 / 2) = true /\ same_ends (0, 1) (0, 1 + 1 / 100000000) = false /\ FunModel.same_domain (0, 1000000000) (0, 1000000000 + 1 / 2) = false.
Proof.
  split; [|split].
  - apply ends_R. cbn [fst snd]. replace (0 - 0) with 0 by ring. replace (1000000000 - (1000000000 + 1 / 2)) with (- (1 / 2)) by lra. rewrite Rabs_Ropp, Rabs_R0. rewrite !Rabs_pos_eq by lra. unfold ToolsSpec.close. lra.
  - apply not_true_iff_false. rewrite ends_R. cbn [fst snd]. replace (1 - (1 + 1 / 100000000)) with (- (1 / 100000000)) by lra. rewrite Rabs_Ropp. rewrite !(Rabs_pos_eq (1 / 100000000)), !(Rabs_pos_eq 1), !(Rabs_pos_eq (1 + 1 / 100000000)) by lra. unfold ToolsSpec.close. lra.
  - unfold FunModel.same_domain, dom_tol. cbn. rnum. apply andb_false_iff. right. apply Rltb_false. replace (1000000000 - (1000000000 + 1 / 2)) with (- (1 / 2)) by lra. rewrite Rabs_Ropp, Rabs_pos_eq by lra. lra.
Qed.
(** identity times itself: t^2 at the nodes; its norm |t| *)
Example C53_case fresh : exists g r, colloc g (-1, 2) 1 1 2 (fun _ => 2 - -1) (fun _ _ i => if Nat.eqb i 0 then -1 else 2) /\
  gll_mul GSplineModel.LL g g = Ok r /\ colloc r (-1, 2) 1 1 2 (fun _ => 2 - -1) (fun _ _ i => if Nat.eqb i 0 then 1 else 4) /\
  exists q, gll_norm fresh g = Ok q /\ colloc q (-1, 2) 1 1 2 (fun _ => 2 - -1) (fun _ _ i => if Nat.eqb i 0 then 1 else 2).
Proof.
  destruct (ex_identity fresh (-1) 2) as (g & _ & C). destruct (C53_product GSplineModel.LL g g _ _ _ _ _ _ _ _ _ _ C C ltac:(lia)) as (_ & X & _).
  destruct X as (r & E & Cr); [|reflexivity|].
  { apply ends_R. cbn [fst snd]. split; unfold ToolsSpec.close; replace (2 - 2) with 0 by ring; replace (-1 - -1) with 0 by ring; rewrite Rabs_R0; right; cbn; rewrite ?Rabs_Ropp, ?Rabs_R1; rewrite ?(Rabs_pos_eq 2) by lra; try (replace (Rabs (-1)) with 1 by (rewrite Rabs_left; lra)); lra. }
  exists g, r. split; [exact C|]. split; [exact E|]. split; [eapply colloc_ext; [exact Cr|]; intros [|iv] [|cc] [|[|i]] A B D; try lia; cbn; rnum; ring|].
  destruct (C53_norm fresh g _ _ _ _ _ _ C ltac:(lia)) as (q & Eq & Cq). exists q. split; [exact Eq|]. eapply colloc_ext; [exact Cq|].
  intros [|iv] [|cc] [|[|i]] A B D; try lia; cbn; rnum.
  - replace (0 + -1 * -1) with (Rsqr 1) by (unfold Rsqr; ring). apply sqrt_Rsqr. lra.
  - replace (0 + 2 * 2) with (Rsqr 2) by (unfold Rsqr; ring). apply sqrt_Rsqr. lra.
Qed.
