(** The derivative of the assembled matrix with respect to an interval length. *)
From Coquelicot Require Import Coquelicot.
From Coq Require Import List Arith Lia Bool ZArith Reals Lra.
From Verif Require Import Num Outcome LinAlg RSum RMat RDeriv RPoly
  LegendreSpec LagrangeSpec Basis0101Spec BasisModel SplineSpec BasisFn
  BasisProofs BasisProofs2 BasisProofs3 ToolsModel GSplineModel InterpModel InterpSpec InterpProofs InterpProofs2 InterpProofs3 InterpProofs4.
Import ListNotations.
Local Open Scope R_scope.

Section Form.
Variables (d : bdesc) (c n : nat) (t0 : R) (cf : nat -> R).
(** derivative k of component cc of piece iv at window coordinate s *)
Definition side (tf : nat -> R) (iv cc k : nat) (s : R) : R :=
  Rsum (d_dim d) (fun bb => wD d (tf iv) k bb s * cf ((iv * c + cc) * d_dim d + bb)%nat).
Definition form (tf : nat -> R) (q : cond) : R :=
  match q with
  | CStart iv cc => side tf iv cc 0 (-1)
  | CEnd iv cc => side tf iv cc 0 1
  | CCont iv cc k => side tf iv cc (S k) 1 - side tf (S iv) cc (S k) (-1)
  | CFirst cc k => side tf 0 cc (S k) (-1)
  | CLast cc k => side tf (n - 1) cc (S k) 1
  end.
Lemma residual_form tf W q : (1 <= n)%nat -> (forall i, (i < n)%nat -> tf i <> 0) -> cond_ok (d_dim d) c n q ->
  residual d c n t0 tf W cf q = form tf q - rhs_of W q.
Proof.
  intros Hn Ht Ok. unfold residual, form, side. destruct q as [iv cc|iv cc|iv cc k|cc k|cc k]; cbn [rhs_of cond_ok] in *.
  - change (piece d c t0 tf cf iv cc (bp t0 tf iv)) with (Derive_n (piece d c t0 tf cf iv cc) 0 (bp t0 tf iv)).
    rewrite piece_left by (apply Ht; lia). reflexivity.
  - change (piece d c t0 tf cf iv cc (bp t0 tf (S iv))) with (Derive_n (piece d c t0 tf cf iv cc) 0 (bp t0 tf (S iv))).
    rewrite piece_right by (apply Ht; lia). reflexivity.
  - rewrite piece_left, piece_right by (apply Ht; lia). change (@n0 R Rnum) with 0. ring.
  - rewrite piece_left by (apply Ht; lia). change (@n0 R Rnum) with 0. ring.
  - replace (bp t0 tf n) with (bp t0 tf (S (n - 1))) by (f_equal; lia).
    rewrite piece_right by (apply Ht; lia). change (@n0 R Rnum) with 0. ring.
Qed.

Variables (tf : nat -> R) (idx : nat).
Definition dside (iv cc k : nat) (s : R) : R :=
  if Nat.eqb iv idx then Rsum (d_dim d) (fun bb => wDt d (tf idx) k bb s * cf ((iv * c + cc) * d_dim d + bb)%nat) else 0.
Definition dform (q : cond) : R :=
  match q with
  | CStart iv cc => dside iv cc 0 (-1)
  | CEnd iv cc => dside iv cc 0 1
  | CCont iv cc k => dside iv cc (S k) 1 - dside (S iv) cc (S k) (-1)
  | CFirst cc k => dside 0 cc (S k) (-1)
  | CLast cc k => dside (n - 1) cc (S k) 1
  end.
Lemma side_derive iv cc k s : tf idx <> 0 -> is_derive (fun x => side (set_len tf idx x) iv cc k s) (tf idx) (dside iv cc k s).
Proof.
  intros Ht. unfold side, dside, set_len. destruct (Nat.eqb_spec iv idx) as [->|Ne].
  - apply (is_derive_Rsum (d_dim d) (fun bb x => wD d x k bb s * cf ((idx * c + cc) * d_dim d + bb)%nat)).
    intros bb _. apply d_scalr. apply wDt_derive. exact Ht.
  - apply d_const.
Qed.
Lemma form_derive q : tf idx <> 0 -> is_derive (fun x => form (set_len tf idx x) q) (tf idx) (dform q).
Proof.
  intros Ht. destruct q; simpl; try (apply side_derive; auto).
  apply (d_minus (fun x => side (set_len tf idx x) iv cc (S d0) 1) (fun x => side (set_len tf idx x) (S iv) cc (S d0) (-1))); apply side_derive; auto.
Qed.
Lemma residual_derive W q : (1 <= n)%nat -> (idx < n)%nat -> (forall i, (i < n)%nat -> 0 < tf i) -> cond_ok (d_dim d) c n q ->
  is_derive (fun x => residual d c n t0 (set_len tf idx x) W cf q) (tf idx) (dform q).
Proof.
  intros Hn Hi Ht Ok. apply (is_derive_ext_loc (fun x => form (set_len tf idx x) q - rhs_of W q)).
  - exists (mkposreal _ (Ht idx Hi)). intros y By. change (Rabs (y - tf idx) < tf idx) in By. apply Rabs_def2 in By.
    symmetry. apply residual_form; auto. intros i Hi'. unfold set_len. destruct (Nat.eqb_spec i idx) as [->|].
    + change (y <> 0 :> R). lra.
    + specialize (Ht i Hi'). lra.
  - eapply is_derive_eq; [apply d_minus; [apply form_derive; specialize (Ht idx Hi); lra|apply d_const]|]. ring.
Qed.
End Form.

(** ** rows of the derivative of the matrix *)
Section RowsT.
Variables (d : bdesc) (h c n : nat).
Hypothesis Hh : (1 <= h)%nat.
Hypothesis Hn : (1 <= n)%nat.
Hypothesis Hd : d_dim d = (2 * h)%nat.
Let dim := (2 * h)%nat.
Variables (tf : nat -> R) (idx : nat).
Definition Lvt (iv k bb : nat) : R := wDt d (tf iv) k bb (-1).
Definition Rvt (iv k bb : nat) : R := wDt d (tf iv) k bb 1.
Variables (m m' : smat R).
Hypothesis Cm : scols m' = (dim * c * n)%nat.
Hypothesis Cl : clean h c n (fun iv => iv = idx) m.
Hypothesis Wr : wrote m m' (fun i j x => exists iv, iv = idx /\ EI h c n Lvt Rvt iv i j x).

Notation blk := (blk h c n m').
Lemma blkt_some cf q cc f : cond_ok dim c n q -> ent n Lvt Rvt q idx cc f ->
  blk cf q idx cc = Rsum dim (fun bb => f bb * cf ((idx * c + cc) * dim + bb)%nat).
Proof.
  intros Ok En. destruct (ent_cc h c n Hh Hn _ _ _ _ _ _ Ok En) as [Hc Hiv]. unfold InterpProofs4.blk. apply Rsum_ext. intros bb Hb.
  destruct (content h c n Hh Hn _ Lvt Rvt m m' Cl Wr q idx cc bb Ok Hc Hb) as [G _]. fold dim in G |- *. rewrite (G f eq_refl En). reflexivity.
Qed.
Lemma blkt_none cf q iv cc : cond_ok dim c n q -> (cc < c)%nat -> iv <> idx \/ (forall f, ~ ent n Lvt Rvt q iv cc f) -> blk cf q iv cc = 0.
Proof.
  intros Ok Hc En. unfold InterpProofs4.blk. apply Rsum_zero. intros bb Hb.
  destruct (content h c n Hh Hn _ Lvt Rvt m m' Cl Wr q iv cc bb Ok Hc Hb) as [_ G]. fold dim in G |- *. rewrite (G En). reflexivity.
Qed.
Lemma blkt cf q iv cc f : cond_ok dim c n q -> ent n Lvt Rvt q iv cc f ->
  blk cf q iv cc = if Nat.eqb iv idx then Rsum dim (fun bb => f bb * cf ((iv * c + cc) * dim + bb)%nat) else 0.
Proof.
  intros Ok En. destruct (Nat.eqb_spec iv idx) as [->|Ne]; [apply blkt_some; auto|].
  apply blkt_none; auto. eapply (ent_cc h c n Hh Hn); eauto.
Qed.
Lemma rowt_one cf q iv cc f : cond_ok dim c n q -> ent n Lvt Rvt q iv cc f ->
  (forall iv' cc' f', ent n Lvt Rvt q iv' cc' f' -> iv' = iv /\ cc' = cc) ->
  smul m' cf (rowof dim c n q) = if Nat.eqb iv idx then Rsum dim (fun bb => f bb * cf ((iv * c + cc) * dim + bb)%nat) else 0.
Proof.
  intros Ok En U. destruct (ent_cc h c n Hh Hn _ _ _ _ _ _ Ok En) as [Hc Hiv]. unfold dim. rewrite (smul_blk h c n m' Cm).
  rewrite (Rsum_delta n iv); auto; [rewrite (Rsum_delta c cc); auto|].
  - apply blkt; auto.
  - intros cc' Hc' Ne. apply blkt_none; auto. right. intros f' En'. destruct (U _ _ _ En'). auto.
  - intros iv' Hiv' Ne. apply Rsum_zero. intros cc' Hc'. apply blkt_none; auto. right. intros f' En'. destruct (U _ _ _ En'). auto.
Qed.
Theorem row_dform cf q : cond_ok dim c n q -> smul m' cf (rowof dim c n q) = dform d c n cf tf idx q.
Proof.
  intros Ok. unfold dform, dside. rewrite Hd. fold dim. destruct q as [iv cc|iv cc|iv cc k|cc k|cc k].
  - rewrite (rowt_one cf (CStart iv cc) iv cc _ Ok (ent_start _ _ _ _ _)).
    2: { intros iv' cc' f' E. inversion E; auto. } destruct (Nat.eqb_spec iv idx) as [->|]; reflexivity.
  - rewrite (rowt_one cf (CEnd iv cc) iv cc _ Ok (ent_end _ _ _ _ _)).
    2: { intros iv' cc' f' E. inversion E; auto. } destruct (Nat.eqb_spec iv idx) as [->|]; reflexivity.
  - unfold dim at 1. rewrite (smul_blk h c n m' Cm).
    assert (Z : forall iv' cc', (cc' < c)%nat -> cc' <> cc \/ (iv' <> iv /\ iv' <> S iv) -> blk cf (CCont iv cc k) iv' cc' = 0).
    { intros iv' cc' Hc' D. apply blkt_none; auto. right. intros f' E. inversion E; subst; lia. }
    simpl in Ok. rewrite (Rsum_delta2 n iv); [|lia|].
    + rewrite !(Rsum_delta c cc) by (auto; try lia; intros; apply Z; auto).
      rewrite (blkt cf (CCont iv cc k) _ _ _ Ok (ent_left _ _ _ iv cc k)), (blkt cf (CCont iv cc k) _ _ _ Ok (ent_right _ _ _ iv cc k)).
      rnum. unfold Lvt, Rvt, Rminus. destruct (Nat.eqb_spec (S iv) idx) as [E|Ne2].
      * destruct (Nat.eqb_spec iv idx) as [?|_]; [lia|]. rewrite <- Rsum_opp. f_equal. apply Rsum_ext; intros; rewrite E; ring.
      * rewrite Ropp_0. f_equal. destruct (Nat.eqb_spec iv idx) as [->|_]; [|reflexivity]. apply Rsum_ext; intros; ring.
    + intros iv' Hiv' N1 N2. apply Rsum_zero. intros cc' Hc'. apply Z; auto.
  - rewrite (rowt_one cf (CFirst cc k) 0 cc _ Ok (ent_first _ _ _ _ _)).
    2: { intros iv' cc' f' E. inversion E; auto. } destruct (Nat.eqb_spec 0 idx) as [<-|]; reflexivity.
  - rewrite (rowt_one cf (CLast cc k) (n - 1) cc _ Ok (ent_last _ _ _ _ _)).
    2: { intros iv' cc' f' E. inversion E; auto. } destruct (Nat.eqb_spec (n - 1) idx) as [<-|]; reflexivity.
Qed.
End RowsT.
