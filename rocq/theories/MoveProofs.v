From Coquelicot Require Import Coquelicot.
From Coq Require Import List Arith Lia Bool ZArith Reals Lra.
From Verif Require Import Num Outcome LinAlg RSum LegendreSpec Basis0101Spec BasisModel BasisProofs SplineSpec BasisFn
  ToolsModel GSplineModel GSplineProofs GSplineProofs2 GSplineProofs3 GSplineProofs4 GSplineProofs5 GSplineProofs6 MoveModel MoveSpec.
Import ListNotations.
Local Open Scope R_scope.

(** what a live object stands for *)
Definition denotes (o : sobj R) (v : val) : Prop :=
  exists cf, rep (so_g o) (v_d v) (v_n v) (v_codom v) (v_t0 v) (v_t1 v) (v_tau v) cf /\
    so_par o = b_params (gs_basis (so_g o)) /\ (1 <= v_n v)%nat /\ (forall i, (i < v_n v)%nat -> 0 < v_tau v i) /\ v_t0 v < v_t1 v /\
    forall iv cc t, (iv < v_n v)%nat -> (cc < v_codom v)%nat -> v_piece v iv cc t = piece (v_d v) (v_codom v) (v_t0 v) (v_tau v) cf iv cc t.
Definition agree (o : sobj R) (m : option val) : Prop := match m with Some v => denotes o v | None => emptied o end.

(** ** lists *)
Lemma F2_nth {A B} (P : A -> B -> Prop) l l' i b : Forall2 P l l' -> nth_error l' i = Some b -> exists a, nth_error l i = Some a /\ P a b.
Proof.
  intros F. revert i. induction F as [|a b' l l' Hab F IH]; intros [|i] E; try discriminate; cbn in *.
  - injection E as <-. eauto.
  - auto.
Qed.
Lemma F2_put l e i o m : Forall2 agree l e -> agree o m -> Forall2 agree (sput l i o) (vput e i m).
Proof. intros F A. revert i. induction F; intros [|i]; cbn; constructor; auto. Qed.
Lemma F2_snoc l e o m : Forall2 agree l e -> agree o m -> Forall2 agree (l ++ [o]) (e ++ [m]).
Proof. intros F A. apply Forall2_app; auto. Qed.
Lemma F2_put_same l e i o v : Forall2 agree l e -> nth_error e i = Some (Some v) -> denotes o v -> Forall2 agree (sput l i o) e.
Proof. intros F E A. revert i E. induction F; intros [|i] E; cbn in *; try discriminate; constructor; auto. injection E as ->. exact A. Qed.

(** ** pieces *)
Lemma piece_tau d codom t0 tf tf' cf iv cc t : (forall i, (i <= iv)%nat -> tf i = tf' i) -> piece d codom t0 tf cf iv cc t = piece d codom t0 tf' cf iv cc t.
Proof.
  intros E. unfold piece, bp. rewrite (E iv) by lia. rewrite (Rsum_ext iv tf tf'); [reflexivity|]. intros; apply E; lia.
Qed.
Lemma piece_plus d codom t0 tf c c' iv cc t : piece d codom t0 tf (fun i => c i + c' i) iv cc t = piece d codom t0 tf c iv cc t + piece d codom t0 tf c' iv cc t.
Proof. unfold piece. rewrite <- Rsum_plus. apply Rsum_ext. intros; ring. Qed.
Lemma piece_minus d codom t0 tf c c' iv cc t : piece d codom t0 tf (fun i => c i - c' i) iv cc t = piece d codom t0 tf c iv cc t - piece d codom t0 tf c' iv cc t.
Proof. unfold piece. rewrite <- Rsum_minus. apply Rsum_ext. intros; ring. Qed.
Lemma piece_scal d codom t0 tf c a iv cc t : piece d codom t0 tf (fun i => c i * a) iv cc t = a * piece d codom t0 tf c iv cc t.
Proof. unfold piece. rewrite <- Rsum_scal. apply Rsum_ext. intros; ring. Qed.
Lemma piece_time d codom t0 tf cf f iv cc t : 0 < f -> tf iv <> 0 ->
  piece (d_scaled d f) codom t0 (fun i => tf i * f) cf iv cc t = piece d codom t0 tf cf iv cc (t0 + (t - t0) / f).
Proof.
  intros Hf Ht. unfold piece, tphi. replace (d_dim (d_scaled d f)) with (d_dim d) by (destruct d; reflexivity).
  apply Rsum_ext. intros bb Hb. f_equal. rewrite bp_scaled.
  replace (window (t0 + f * (bp t0 tf iv - t0)) (tf iv * f) t) with (window (bp t0 tf iv) (tf iv) (t0 + (t - t0) / f)).
  2: { unfold window. field. lra. }
  destruct d; cbn [d_scaled phi]; auto. rewrite alpha_scaled_K by auto. f_equal. field. lra.
Qed.

(** ** one object *)
Lemma with_basis_same (g : gspline R) : with_basis g (gs_basis g) = g.
Proof. destruct g; reflexivity. Qed.
Lemma live_basis o v : denotes o v -> so_basis o = Ok (gs_basis (so_g o)).
Proof.
  intros (cf & _ & P & _). unfold so_basis. destruct (gs_basis (so_g o)) eqn:E; auto. rewrite P. reflexivity.
Qed.
Lemma live_value o v pts : denotes o v -> so_value o pts = gs_value (so_g o) pts.
Proof. intros D. unfold so_value. rewrite (live_basis o v D). cbn [bind]. rewrite with_basis_same. destruct (Nat.eqb _ _); reflexivity. Qed.
Lemma live_space a b v w : denotes a v -> denotes b w -> so_space a b = same_vector_space (so_g a) (so_g b).
Proof. intros (cf & _ & P & _) (cf' & _ & P' & _). unfold so_space, so_basis_eqb, same_vector_space, basis_eqb. rewrite P, P'. reflexivity. Qed.
Lemma rep_tau g d n codom t0 t1 tf tf' cf : rep g d n codom t0 t1 tf cf -> (forall i, (i < n)%nat -> tf i = tf' i) -> rep g d n codom t0 t1 tf' cf.
Proof. intros (B & D & C & V & K) E. split; auto. split; auto. split; auto. split; auto. eapply vec_is_ext; eauto. Qed.
Lemma copy_live o v : denotes o v -> exists z, so_copy o = Ok z /\ denotes z v /\ so_coef z = so_coef o.
Proof.
  intros (cf & Rp & P & Hn & Ht & HT & Pc). destruct (rep_copy _ _ _ _ _ _ _ _ Rp) as (r & E & Rr & Ec & _ & Eb & _).
  unfold so_copy. rewrite E. cbn [bind]. exists (mkso r (so_par o)). split; auto. split; [|exact Ec]. exists cf. cbn. rewrite Eb. auto 10.
Qed.
Lemma move_live o v : denotes o v -> denotes (fst (so_move o)) v.
Proof. intros (cf & Rp & P & X). exists cf. split; [apply rep_move; exact Rp|]. split; [exact P|exact X]. Qed.
Lemma move_left (o : sobj R) : emptied (snd (so_move o)).
Proof. repeat split. Qed.
Lemma with_live o v c cf f : denotes o v -> vec_is c (v_n v * d_dim (v_d v) * v_codom v) cf ->
  (forall iv cc t, (iv < v_n v)%nat -> (cc < v_codom v)%nat -> f iv cc t = piece (v_d v) (v_codom v) (v_t0 v) (v_tau v) cf iv cc t) ->
  denotes (so_with o c) (vmap f v).
Proof. intros (cf0 & Rp & P & Hn & Ht & HT & _) V F. exists cf. cbn. split; [eapply rep_with_coef; eauto|]. auto 10. Qed.
Lemma denotes_coef o v : denotes o v -> exists cf, vec_is (so_coef o) (v_n v * d_dim (v_d v) * v_codom v) cf /\
  forall iv cc t, (iv < v_n v)%nat -> (cc < v_codom v)%nat -> v_piece v iv cc t = piece (v_d v) (v_codom v) (v_t0 v) (v_tau v) cf iv cc t.
Proof. intros (cf & (_ & _ & _ & _ & K & _) & _ & _ & _ & _ & F). eauto. Qed.

(** the right operand seen from the left one *)
Lemma alike_denotes b v w : denotes b w -> alike v w -> denotes b (mkval (v_d v) (v_n v) (v_codom v) (v_t0 v) (v_t1 v) (v_tau v) (v_piece w)).
Proof.
  destruct v as [d n codom t0 t1 tf pv], w as [d' n' codom' t0' t1' tf' pw]. intros (cf & Rp & P & Hn & Ht & HT & F) (E1 & E2 & E3 & E4 & E5 & E6).
  cbn in *. subst. exists cf. cbn. split; [eapply rep_tau; [exact Rp|]; intros; symmetry; auto|]. split; auto. split; auto.
  split; [intros i Hi; rewrite E6 by auto; auto|]. split; auto. intros iv cc t Hi Hc. rewrite F by auto. apply piece_tau. intros i Li. symmetry. apply E6. lia.
Qed.
Lemma space_live a b v w : denotes a v -> denotes b w -> alike v w -> so_check a b = Ok tt.
Proof.
  intros D E A. unfold so_check. rewrite (live_space _ _ _ _ D E). pose proof (alike_denotes _ _ _ E A) as E'.
  destruct D as (cf & Rp & _), E' as (cf' & Rp' & _). cbn in Rp'. rewrite (space_same _ _ _ _ _ _ _ _ _ _ _ _ Rp Rp'). reflexivity.
Qed.
