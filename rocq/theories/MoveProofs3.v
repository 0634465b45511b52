(** What can be done with a spline from which everything has been moved. *)
From Coquelicot Require Import Coquelicot.
From Coq Require Import List Arith Lia Bool ZArith Reals Lra.
From Verif Require Import Num Outcome LinAlg RSum LegendreModel LagrangeModel LegendreSpec Basis0101Spec BasisModel BasisProofs SplineSpec BasisFn
  ToolsModel GSplineModel GSplineProofs GSplineProofs2 GSplineProofs3 GSplineProofs4 GSplineProofs5 GSplineProofs6 MoveModel MoveSpec MoveProofs MoveProofs2.
Import ListNotations.
Local Open Scope R_scope.

Lemma emptied_copy o : emptied o -> exists z, so_copy o = Ok z /\ emptied z /\ gs_dom (so_g z) = gs_dom (so_g o) /\ gs_codom (so_g z) = gs_codom (so_g o).
Proof.
  intros (N & C & P). unfold so_copy, gs_copy. rewrite N, C. cbn. eexists. split; [reflexivity|]. repeat split; auto.
Qed.
Lemma emptied_with o c : emptied o -> vlen c = 0%nat -> emptied (so_with o c).
Proof. intros (N & C & P) L. repeat split; auto. Qed.
Lemma vscale_len (v : vec R) a : vlen (vscale v a) = vlen v.
Proof. reflexivity. Qed.
Lemma emptied_value o pts : emptied o -> (1 <= vlen pts)%nat -> forall pf, vec_is pts (vlen pts) pf -> so_value o pts = UB.
Proof.
  intros (N & C & P) L pf V. unfold so_value. destruct (Nat.eqb_spec (vlen pts) 0) as [Q|_]; [lia|].
  assert (X : forall b, gs_value (with_basis (so_g o) b) pts = UB) by (intros b; unfold gs_value; rewrite (value_none _ pts pf (vlen pts)); auto).
  unfold so_basis. destruct (gs_basis (so_g o)); cbn [bind]; auto. unfold vread. rewrite P. cbn. reflexivity.
Qed.
Lemma emptied_value_none o : emptied o -> exists m, so_value o (vnew 0) = Ok m /\ mrows m = 0%nat.
Proof. intros E. eexists. split; reflexivity. Qed.
Lemma nth_get st i o : nth_error st i = Some o -> sget_var (T := R) st i = Ok o.
Proof. intros E. unfold sget_var. now rewrite E. Qed.
Lemma sput_same l : forall i (o : sobj R), nth_error l i = Some o -> sput l i o = l.
Proof. induction l as [|x l IH]; intros [|i] o E; cbn in *; try discriminate; f_equal; auto. congruence. Qed.

Lemma emptied_deriv k st i o : nth_error st i = Some o -> emptied o ->
  exists z, exec st (SDeriv k i) = Ok (st ++ [z]) /\ emptied z.
Proof.
  intros E M. pose proof M as (N & C & P). cbn [exec]. unfold so_deriv. rewrite (nth_get _ _ _ E). cbn [bind]. rewrite N. cbn [Nat.eqb bind].
  rewrite with_basis_same. unfold gs_deriv_impl. rewrite N, for_empty by lia.
  replace (if Nat.ltb 0 k then Ok (gs_coef (so_g o), gs_bst (so_g o)) else Ok (gs_coef (so_g o), gs_bst (so_g o))) with (Ok (gs_coef (so_g o), gs_bst (so_g o))) by (destruct (Nat.ltb 0 k); reflexivity).
  cbn [bind]. unfold gs_ctor. rewrite C. cbn [Nat.mul Nat.eqb bind]. unfold gs_copy, gs_n, gs_dim. cbn [gs_coef gs_tau gs_basis gs_codom gs_dom gs_bst]. unfold gs_n in N. rewrite N, C. cbn [Nat.mul Nat.eqb bind].
  eexists. split.
  - replace (mkso _ _) with o; [rewrite sput_same by auto; reflexivity|]. destruct o as [[] ?]; reflexivity.
  - repeat split; auto.
Qed.
(** copying, moving, scaling, negating and differentiating an emptied variable *)
Lemma emptied_safe st i o : nth_error st i = Some o -> emptied o ->
  (exists z, exec st (SCopy i) = Ok (st ++ [z]) /\ emptied z /\ gs_dom (so_g z) = gs_dom (so_g o) /\ gs_codom (so_g z) = gs_codom (so_g o)) /\
  (exists y z, exec st (SMove i) = Ok (sput st i y ++ [z]) /\ emptied y /\ emptied z) /\
  (forall a, exists y z, exec st (SScale a true i) = Ok (sput st i y ++ [z]) /\ emptied y /\ emptied z) /\
  (forall a, exists z, exec st (SScale a false i) = Ok (st ++ [z]) /\ emptied z) /\
  (exists y z, exec st (SNeg true i) = Ok (sput st i y ++ [z]) /\ emptied y /\ emptied z) /\
  (exists z, exec st (SNeg false i) = Ok (st ++ [z]) /\ emptied z) /\
  (forall k, exists z, exec st (SDeriv k i) = Ok (st ++ [z]) /\ emptied z).
Proof.
  intros E M. pose proof (nth_get _ _ _ E) as G. pose proof M as (N & C & P).
  assert (S1 : forall a, exists y z, so_scale a st true i = Ok (sput st i y ++ [z]) /\ emptied y /\ emptied z).
  { intros a. unfold so_scale. rewrite G. cbn [bind]. eexists. eexists. split; [reflexivity|]. split; [apply move_left|]. repeat split; auto. }
  assert (S2 : forall a, exists z, so_scale a st false i = Ok (st ++ [z]) /\ emptied z).
  { intros a. unfold so_scale. rewrite G. cbn [bind]. destruct (emptied_copy _ M) as (z & Ez & Mz & _). rewrite Ez. cbn [bind]. eexists. split; [reflexivity|]. apply emptied_with; auto. apply Mz. }
  split; [|split; [|split; [|split; [|split; [|split]]]]].
  - cbn [exec]. rewrite G. cbn [bind]. destruct (emptied_copy _ M) as (z & Ez & Mz). rewrite Ez. cbn [bind]. exists z. auto.
  - cbn [exec]. rewrite G. cbn [bind]. eexists. eexists. split; [reflexivity|]. split; [apply move_left|]. repeat split; auto.
  - exact S1.
  - exact S2.
  - apply S1.
  - apply S2.
  - intros k. eapply emptied_deriv; eauto.
Qed.
(** an emptied operand never has the intervals of a live one *)
Lemma approx_len (a b : vec R) tol : vlen a <> vlen b -> approx_eq_vec a b tol = Ok false.
Proof. intros N. unfold approx_eq_vec, approx_eq_mat, vmat. cbn. destruct (Nat.eqb_spec (vlen a) (vlen b)); [contradiction|reflexivity]. Qed.
Lemma space_mixed (a b : sobj R) (Ta : vlen (so_par a) = 0%nat \/ vlen (so_par b) = 0%nat) :
  gs_n (so_g a) <> gs_n (so_g b) -> so_space a b = Ok false.
Proof.
  intros N. unfold so_space. rewrite (approx_len (gs_tau (so_g a)) (gs_tau (so_g b))) by exact N.
  assert (X : exists x, so_basis_eqb a b = Ok x).
  { unfold so_basis_eqb. destruct (negb (bname_eqb _ _)); [eauto|]. destruct (negb (Nat.eqb (b_dim _) _)); [eauto|].
    destruct (Nat.eqb_spec (vlen (so_par a)) (vlen (so_par b))) as [Q|Q]; cbn [negb]; [|eauto].
    unfold approx_eq_vec, approx_eq_mat, vmat. cbn. rewrite Q, Nat.eqb_refl. cbn. assert (Z : vlen (so_par b) = 0%nat) by lia. rewrite Z. cbn. eauto. }
  destruct X as (x & ->). unfold oand. cbn [bind]. destruct x; [|reflexivity]. destruct (Nat.eqb _ _); reflexivity.
Qed.
Lemma mixed_throws st i j a b v : nth_error st i = Some a -> nth_error st j = Some b -> (emptied a /\ denotes b v \/ denotes a v /\ emptied b) ->
  forall ri rj, exec st (SPlus ri i rj j) = Throw InvalidArgument /\ exec st (SMinus ri i rj j) = Throw InvalidArgument /\
    exec st (SPlusEq i j) = Throw InvalidArgument /\ exec st (SMinusEq i j) = Throw InvalidArgument.
Proof.
  intros Ea Eb X ri rj. cbn [exec]. unfold so_plus, so_minus, so_assign. rewrite (nth_get _ _ _ Ea), (nth_get _ _ _ Eb). cbn [bind].
  assert (S : so_space a b = Ok false).
  { destruct X as [((N & _ & P) & D)|(D & (N & _ & P))]; apply space_mixed; auto; rewrite N; destruct D as (cf & Rp & _ & Hn & _); destruct Rp as (_ & _ & _ & V & _); unfold gs_n; destruct V as (L & _); lia. }
  unfold so_check. rewrite S. cbn [bind]. auto.
Qed.
(** time scaling *)
Lemma emptied_time l st i o : nth_error st i = Some o -> emptied o -> / 10 ^ 8 <= l ->
  (is_0101 (gs_basis (so_g o)) = false -> exists z, exec st (STime l i) = Ok (st ++ [z]) /\ emptied z) /\
  (is_0101 (gs_basis (so_g o)) = true -> exec st (STime l i) = UB).
Proof.
  intros E M Hl. pose proof M as (N & C & P).
  assert (G : (l <? ten_m 8)%num = false).
  { assert (E8 : ten_m 8 = / 10 ^ 8) by (unfold ten_m; rewrite npown_pow; rnum; unfold Rdiv; ring). rewrite E8. rnum. destruct (Rltb_spec l (/ 10 ^ 8)); [lra|reflexivity]. }
  cbn [exec]. unfold so_time. rewrite (nth_get _ _ _ E). cbn [bind]. rewrite G. unfold so_basis. split; intros B.
  - destruct (gs_basis (so_g o)) as [d gr|p w gr|a] eqn:Eb; try discriminate; cbn [bind]; unfold gs_linear_scaling; rewrite G; unfold gs_rescale; cbn [with_basis gs_basis gs_codom gs_coef gs_bst];
      unfold gs_ctor, gs_n; cbn [with_basis gs_tau]; unfold gs_n in N; rewrite N, C; cbn [Nat.mul Nat.eqb bind is_0101]; (eexists; split; [reflexivity|]); repeat split; auto.
  - destruct (gs_basis (so_g o)); try discriminate. unfold vread. rewrite P. reflexivity.
Qed.

(** ** the basis that stays behind *)
Section Left.
Context {T : Type} `{Num T}.
Lemma left_impl (b : basis T) k : b_impl (basis_left b) k = b_impl b k.
Proof. destruct b; reflexivity. Qed.
Lemma left_push (b : basis T) n : forall l, push_blocks (basis_left b) n l = push_blocks b n l.
Proof. induction n as [|n IH]; intros l; cbn [push_blocks]; [reflexivity|]. rewrite left_impl. destruct (b_impl b (length l)); cbn [bind]; auto. Qed.
Lemma left_block (b : basis T) h s k : serve_all b h (bs_init b) = Ok s ->
  match get_block b k s with
  | Ok (m, _) => exists s', get_block (basis_left b) k (bs_left s) = Ok (m, s')
  | Throw e => get_block (basis_left b) k (bs_left s) = Throw e
  | UB => get_block (basis_left b) k (bs_left s) = UB
  end.
Proof.
  intros Hs. assert (I0 : blocks_ok b (bs_blocks s)) by (eapply serve_all_binv; [apply binv_init|exact Hs]).
  assert (L0 : blocks_ok b (bs_blocks (bs_left s))) by (intros [|i] m E; discriminate).
  pose proof (get_block_spec b k s I0) as A. pose proof (get_block_spec b k (bs_left s) L0) as B.
  assert (X : get_block (basis_left b) k (bs_left s) = get_block b k (bs_left s)) by (unfold get_block; now rewrite left_push).
  rewrite X. destruct (block_of b k) as [m|e|].
  - destruct A as (s1 & -> & _). destruct B as (s2 & -> & _). eauto.
  - rewrite A, B. auto.
  - rewrite A, B. auto.
Qed.
Lemma left_gram (b : basis T) tau deg m : is_0101 b = false -> (deg <= b_dim b)%nat ->
  b_add_gram (basis_left b) tau deg m = UB /\ b_add_gram_tau (basis_left b) tau deg m = UB.
Proof.
  intros B L. destruct b as [d g|p w g|a]; try discriminate; cbn in *; unfold leg_add_gram, leg_add_gram_tau, lag_add_gram, lag_add_gram_tau;
    match goal with |- context [Nat.ltb deg ?x] => replace (Nat.ltb deg x) with true by (symmetry; apply Nat.ltb_lt; lia) end; destruct deg; split; reflexivity.
Qed.
End Left.
