(** Collocation splines over the reals. *)
From Coquelicot Require Import Coquelicot.
From Coq Require Import List Arith Lia Bool ZArith Reals Lra.
From Verif Require Import Num Outcome LinAlg RSum RPoly LegendreSpec LegendreModel LagrangeSpec LagrangeModel LagrangeMath LagrangeProofs
  Basis0101Model BasisModel SplineSpec BasisFn BasisProofs3
  ToolsModel FunModel GSplineModel GSplineProofs GSplineProofs2 GLSpec GLModel GLProofs GLProofs2 GLLModel GLLProofs GLLProofs2.
Import ListNotations.
Local Open Scope R_scope.
Local Opaque gl_iters.

(** the nodes a collocation spline is built on are usable: different beyond
    the tolerance of the evaluation, inside the window *)
Definition good_nodes (n : nat) (x : nat -> R) : Prop :=
  separated n x /\ forall i, (i < n)%nat -> -1 <= x i <= 1.

Lemma gpoint_first n : (2 <= n)%nat -> gpoint (n - 1) 0 = -1.
Proof. intros Hn. unfold gpoint. cbn. rnum. reflexivity. Qed.
Lemma gpoint_last n : (2 <= n)%nat -> gpoint (n - 1) (n - 1) = 1.
Proof.
  intros Hn. destruct (gl_points_ok (T := R) n Hn) as (p & E & P). unfold gpoint.
  destruct (Nat.eqb_spec (n - 1) 0); [lia|]. rewrite Nat.eqb_refl. reflexivity.
Qed.

Lemma piece_node n x codom t0 tau c iv cc i : distinct n x -> (i < n)%nat -> tau iv <> 0 ->
  piece (DLag n x) codom t0 tau c iv cc (on_interval (bp t0 tau iv) (tau iv) (x i)) = c ((iv * codom + cc) * n + i)%nat.
Proof.
  intros D Hi Ht. unfold piece, tphi. cbn [d_dim phi].
  replace (window (bp t0 tau iv) (tau iv) (on_interval (bp t0 tau iv) (tau iv) (x i))) with (x i) by (unfold window, on_interval; field; auto).
  rewrite (Rsum_delta n i) by (auto; intros j Hj Ne; rewrite lagr_other by auto; ring). rewrite lagr_self by auto. ring.
Qed.
(** where a node is evaluated *)
Lemma node_locate n x t0 tf m iv i : (2 <= n)%nat -> good_nodes n x -> x 0%nat = -1 -> x (n - 1)%nat = 1 ->
  (forall k, (k < m)%nat -> 0 < tf k) -> (iv < m)%nat -> (i < n)%nat ->
  let t := on_interval (bp t0 tf iv) (tf iv) (x i) in
  (locate t0 tf m t = iv /\ (i <> 0%nat \/ iv = 0%nat)) \/
  (i = 0%nat /\ exists iv', iv = S iv' /\ locate t0 tf m t = iv' /\ t = on_interval (bp t0 tf iv') (tf iv') (x (n - 1)%nat)).
Proof.
  intros Hn [S G] X0 X1 P Hiv Hi t. pose proof (G i Hi) as Gi. pose proof (P iv Hiv) as Ti.
  assert (Tl : t <= bp t0 tf (Datatypes.S iv)) by (rewrite bp_S; unfold t, on_interval; nra).
  destruct (Nat.eq_dec i 0) as [->|Ni].
  - destruct iv as [|iv'].
    + left. split; [|auto]. apply (in_iv_unique t0 tf m t); auto; [apply locate_in; auto; lia|]. split; auto.
    + right. split; auto. exists iv'. split; auto. assert (Et : t = bp t0 tf (Datatypes.S iv')) by (unfold t, on_interval; rewrite X0; field).
      split; [|rewrite Et, X1, bp_S; unfold on_interval; field].
      apply (in_iv_unique t0 tf m t); auto; [apply locate_in; auto; lia|]. split; [lia|]. rewrite Et. split; [|right; lra].
      destruct iv'; [auto|]. right. apply (bp_smono t0 tf m); auto; lia.
  - left. split; [|auto]. apply (in_iv_unique t0 tf m t); auto; [apply locate_in; auto; lia|]. split; auto. split; [|auto]. right.
    assert (x i <> -1). { intros E. apply Ni. destruct (Nat.eq_dec i 0) as [->|Ne]; auto. exfalso. apply (separated_distinct n x S i 0%nat); auto; try lia; congruence. }
    unfold t, on_interval. nra.
Qed.
Lemma node_value n x t0 tf m codom c cc iv i : (2 <= n)%nat -> good_nodes n x -> x 0%nat = -1 -> x (n - 1)%nat = 1 ->
  (forall k, (k < m)%nat -> 0 < tf k) -> (iv < m)%nat -> (i < n)%nat ->
  (forall iv', iv = S iv' -> i = 0%nat -> c ((iv' * codom + cc) * n + (n - 1))%nat = c ((iv * codom + cc) * n + i)%nat) ->
  sfun (DLag n x) codom m t0 tf c cc (on_interval (bp t0 tf iv) (tf iv) (x i)) = c ((iv * codom + cc) * n + i)%nat.
Proof.
  intros Hn G X0 X1 P Hiv Hi Hc. assert (D : distinct n x) by (apply separated_distinct, G). unfold sfun.
  destruct (node_locate n x t0 tf m iv i Hn G X0 X1 P Hiv Hi) as [(-> & _)|(-> & iv' & -> & -> & E)].
  - apply piece_node; auto. apply Rgt_not_eq, P; auto.
  - rewrite E, piece_node by (auto; try lia; apply Rgt_not_eq, P; lia). rewrite (Hc iv') by auto. f_equal.
Qed.
Lemma node_exact n x t0 tf m iv i : (2 <= n)%nat -> good_nodes n x -> x 0%nat = -1 -> x (n - 1)%nat = 1 ->
  (forall k, (k < m)%nat -> 0 < tf k) -> (iv < m)%nat -> (i < n)%nat ->
  exact_at n x (wpos t0 tf m (on_interval (bp t0 tf iv) (tf iv) (x i))).
Proof.
  intros Hn G X0 X1 P Hiv Hi. unfold wpos.
  destruct (node_locate n x t0 tf m iv i Hn G X0 X1 P Hiv Hi) as [(-> & _)|(-> & iv' & -> & -> & E)].
  - replace (window _ _ _) with (x i). { apply end_exact; auto. apply G. } unfold window, on_interval. field. apply Rgt_not_eq, P; auto.
  - rewrite E. replace (window _ _ _) with (x (n - 1)%nat). { apply end_exact; [apply G|lia]. } unfold window, on_interval. field. apply Rgt_not_eq, P; lia.
Qed.

(** a collocation spline over the reals: evaluation *)
Lemma colloc_rep_value g dom n codom nglp tf V pts np pf : colloc g dom n codom nglp tf V -> (2 <= nglp)%nat -> (1 <= n)%nat ->
  (forall k, (k < n)%nat -> 0 < tf k) -> good_nodes nglp (gpoint (nglp - 1)) -> vec_is pts np pf ->
  (forall k, (k < np)%nat -> exact_at nglp (gpoint (nglp - 1)) (wpos (fst dom) tf n (pf k))) ->
  exists m, gs_value g pts = Ok m /\
    mat_is m np codom (fun k cc => sfun (DLag nglp (gpoint (nglp - 1))) codom n (fst dom) tf (nidx codom nglp V) cc (pf k)).
Proof.
  intros C Hn H1 P G Vp X. destruct (colloc_gwf _ _ _ _ _ _ _ C Hn) as (D & W).
  destruct (value_gen g _ _ _ _ pts pf np W H1 Vp) as (m & E & M). exists m. split; auto. eapply mat_is_ext; [exact M|]. intros k cc Hk Hc. cbn beta.
  destruct C as (-> & _ & _ & _ & _ & _ & p & w & gr & Eb & Ep & Ew). apply gpt_R; auto; [|apply X; auto].
  rewrite Eb. destruct (gl_points_ok (T := R) nglp Hn) as (p' & Ep' & Pp). rewrite Ep in Ep'. injection Ep' as <-. cbn.
  split; [exact Pp|]. split; [lia|]. split; [apply separated_distinct, G|exact Ew].
Qed.
(** at the nodes it takes the stored values, if neighbours agree *)
Lemma colloc_nodes g dom n codom nglp tf V pts np pf (iv i : nat -> nat) : colloc g dom n codom nglp tf V -> (2 <= nglp)%nat -> (1 <= n)%nat ->
  (forall k, (k < n)%nat -> 0 < tf k) -> good_nodes nglp (gpoint (nglp - 1)) -> vec_is pts np pf ->
  (forall k, (k < np)%nat -> (iv k < n)%nat /\ (i k < nglp)%nat /\ pf k = on_interval (bp (fst dom) tf (iv k)) (tf (iv k)) (gpoint (nglp - 1) (i k))) ->
  (forall k cc, (S k < n)%nat -> (cc < codom)%nat -> V k cc (nglp - 1)%nat = V (S k) cc 0%nat) ->
  exists m, gs_value g pts = Ok m /\ mat_is m np codom (fun k cc => V (iv k) cc (i k)).
Proof.
  intros C Hn H1 P G Vp X Co.
  destruct (colloc_rep_value g dom n codom nglp tf V pts np pf C Hn H1 P G Vp) as (m & E & M).
  { intros k Hk. destruct (X k Hk) as (A & B & ->). apply node_exact; auto using gpoint_first, gpoint_last. }
  exists m. split; auto. eapply mat_is_ext; [exact M|]. intros k cc Hk Hc. cbn beta. destruct (X k Hk) as (A & B & ->).
  rewrite node_value by (auto using gpoint_first, gpoint_last; intros iv' Ei Zi; rewrite Ei in *; rewrite Zi; rewrite !nidx_at by lia; apply Co; auto).
  now rewrite nidx_at.
Qed.
Lemma lacc_bp t0 tf k : lacc t0 tf k = bp t0 tf k.
Proof. induction k; cbn [lacc]; [unfold bp; simpl; ring|]. rewrite bp_S, IHk. reflexivity. Qed.
Lemma bp_const t0 len k : bp t0 (fun _ => len) k = t0 + INR k * len.
Proof. unfold bp. now rewrite Rsum_const. Qed.

Lemma good_nodes_ext n x y : (forall i, (i < n)%nat -> x i = y i) -> good_nodes n x -> good_nodes n y.
Proof.
  intros E [S G]. split.
  - intros i j Hi Hj Ne. rewrite <- !E by auto. apply S; auto.
  - intros i Hi. rewrite <- E by auto. auto.
Qed.
Lemma gl_points_is n p pf : (2 <= n)%nat -> gl_points n = Ok p -> vec_is p n pf -> forall i, (i < n)%nat -> pf i = gpoint (n - 1) i.
Proof.
  intros Hn E [_ P] i Hi. destruct (gl_points_ok (T := R) n Hn) as (p' & E' & _ & P'). rewrite E in E'. injection E' as <-.
  pose proof (P i Hi) as A. rewrite (P' i Hi) in A. now injection A.
Qed.
Lemma good_2 : good_nodes 2 (gpoint (2 - 1)).
Proof.
  apply (good_nodes_ext 2 (fun i => nth i [-1; 1] 0)).
  { intros [|[|i]] Hi; try lia; cbn; reflexivity || ring. }
  split.
  - intros [|[|i]] [|[|j]] Hi Hj Ne; try lia; cbn; unfold near; cbv zeta; intros [[[A|A] B]|[_ [A _]]]; revert A; try revert B; unfold Rabs; repeat destruct (Rcase_abs _); lra.
  - intros [|[|i]] Hi; try lia; cbn; lra.
Qed.
Lemma good_3 : good_nodes 3 (gpoint (3 - 1)).
Proof.
  apply (good_nodes_ext 3 (fun i => nth i [-1; 0; 1] 0)).
  { destruct gpoint_3 as (A & B & C). intros [|[|[|i]]] Hi; try lia; cbn [nth]; cbn [Nat.sub]; symmetry; assumption. }
  split.
  - intros [|[|[|i]]] [|[|[|j]]] Hi Hj Ne; try lia; cbn; unfold near; cbv zeta; intros [[_ B]|[_ [A _]]]; try revert A; try revert B; unfold Rabs; repeat destruct (Rcase_abs _); lra.
  - intros [|[|[|i]]] Hi; try lia; cbn; lra.
Qed.
Lemma isPoly_affine n f a b : isPoly n f -> isPoly n (fun x => f (a * x + b)).
Proof.
  intros (c & E). apply (isPoly_ext n (fun x => Rsum n (fun k => c k * (a * x + b) ^ k))). { intros x. rewrite E. reflexivity. }
  apply isPoly_Rsum. intros k Hk. apply isPoly_scal. apply (isPoly_mono (S k)); [lia|].
  clear. induction k as [|k IH]; [apply (isPoly_const 1 1); lia|]. apply (isPoly_ext _ (fun x => (a * x + b) * (a * x + b) ^ k)); [reflexivity|]. apply isPoly_mul_lin, IH.
Qed.

(** the identity and other elementary functions can be sampled *)
Lemma identity_pointwise dbg dom : pointwise (fo_of_fn dbg (identity_function dom)) (fun _ t => 1 * t).
Proof. apply fn_pointwise. intros l. cbn. f_equal. now rewrite map_map. Qed.
Lemma cos_pointwise dbg dom : pointwise (fo_of_fn dbg (FCos dom)) (fun _ t => cos t).
Proof. apply fn_pointwise. intros l. cbn. f_equal. now rewrite map_map. Qed.
