(** The interpolation system of the Legendre basis in binary64. *)
From Coquelicot Require Import Coquelicot.
From Coq Require Import ZArith Reals Lra Lia List Arith Bool.
From Flocq Require Import Core BinarySingleNaN.
From Verif Require Import Num Outcome LinAlg RSum RMat RDeriv RPoly LegendreModel LegendreSpec LegendreMath LegendreProofs StabMath
  BasisModel SplineSpec BasisFn BasisProofs BasisProofs2 BasisProofs3 ToolsModel GSplineModel InterpModel InterpSpec InterpProofs InterpProofs2 InterpProofs3 InterpProofs4
  InterpMath2 InterpGen IEEEModel IEEESpec IEEEProofs IEEEHorner IEEELegendre IEEESpline IEEELagrange IEEEDerivSpec IEEEDeriv IEEEDeriv2 IEEEDeriv3 IEEEInterpSpec.
Import ListNotations.
Local Open Scope R_scope.

(** ** rows of a matrix of reals with arbitrary values at the ends *)
Section RowForm.
Variables (h c n : nat).
Hypothesis Hh : (1 <= h)%nat.
Hypothesis Hn : (1 <= n)%nat.
Let dim := (2 * h)%nat.
Variables L Rr : nat -> nat -> nat -> R.
Variable e : nat -> nat -> R.
Hypothesis E1 : forall q iv cc bb f, cond_ok dim c n q -> (iv < n)%nat -> (cc < c)%nat -> (bb < dim)%nat ->
  ent n L Rr q iv cc f -> e (rowof dim c n q) ((iv * c + cc) * dim + bb)%nat = f bb.
Hypothesis E0 : forall q iv cc bb, cond_ok dim c n q -> (iv < n)%nat -> (cc < c)%nat -> (bb < dim)%nat ->
  (forall f, ~ ent n L Rr q iv cc f) -> e (rowof dim c n q) ((iv * c + cc) * dim + bb)%nat = 0.

Definition side (F : nat -> nat -> nat -> R) (cf : nat -> R) (iv cc k : nat) : R := Rsum dim (fun bb => F iv k bb * cf ((iv * c + cc) * dim + bb)%nat).
Definition rform (cf : nat -> R) (q : cond) : R :=
  match q with
  | CStart iv cc => side L cf iv cc 0
  | CEnd iv cc => side Rr cf iv cc 0
  | CCont iv cc k => side Rr cf iv cc (S k) - side L cf (S iv) cc (S k)
  | CFirst cc k => side L cf 0 cc (S k)
  | CLast cc k => side Rr cf (n - 1) cc (S k)
  end.
Definition fblk (cf : nat -> R) (q : cond) (iv cc : nat) : R :=
  Rsum dim (fun bb => e (rowof dim c n q) ((iv * c + cc) * dim + bb)%nat * cf ((iv * c + cc) * dim + bb)%nat).
Lemma fblk_some cf q iv cc f : cond_ok dim c n q -> ent n L Rr q iv cc f -> fblk cf q iv cc = Rsum dim (fun bb => f bb * cf ((iv * c + cc) * dim + bb)%nat).
Proof.
  intros Ok En. destruct (ent_cc h c n Hh Hn _ _ _ _ _ _ Ok En) as [Hc Hiv]. unfold fblk. apply Rsum_ext. intros bb Hb.
  rewrite (E1 q iv cc bb f Ok Hiv Hc Hb En). reflexivity.
Qed.
Lemma fblk_none cf q iv cc : cond_ok dim c n q -> (iv < n)%nat -> (cc < c)%nat -> (forall f, ~ ent n L Rr q iv cc f) -> fblk cf q iv cc = 0.
Proof. intros Ok Hiv Hc En. unfold fblk. apply Rsum_zero. intros bb Hb. rewrite (E0 q iv cc bb Ok Hiv Hc Hb En). ring. Qed.
Lemma sum_blk cf q : Rsum (dim * c * n) (fun j => e (rowof dim c n q) j * cf j) = Rsum n (fun iv => Rsum c (fun cc => fblk cf q iv cc)).
Proof. replace (dim * c * n)%nat with (n * c * dim)%nat by ring. rewrite Rsum_mul, Rsum_mul. reflexivity. Qed.
Lemma sum_one cf q iv cc f : cond_ok dim c n q -> ent n L Rr q iv cc f ->
  (forall iv' cc' f', ent n L Rr q iv' cc' f' -> iv' = iv /\ cc' = cc) ->
  Rsum (dim * c * n) (fun j => e (rowof dim c n q) j * cf j) = Rsum dim (fun bb => f bb * cf ((iv * c + cc) * dim + bb)%nat).
Proof.
  intros Ok En U. destruct (ent_cc h c n Hh Hn _ _ _ _ _ _ Ok En) as [Hc Hiv]. rewrite sum_blk.
  rewrite (Rsum_delta n iv); auto; [rewrite (Rsum_delta c cc); auto|].
  - apply fblk_some; auto.
  - intros cc' Hc' Ne. apply fblk_none; auto. intros f' En'. destruct (U _ _ _ En'). auto.
  - intros iv' Hiv' Ne. apply Rsum_zero. intros cc' Hc'. apply fblk_none; auto. intros f' En'. destruct (U _ _ _ En'). auto.
Qed.
Lemma row_form cf q : cond_ok dim c n q -> Rsum (dim * c * n) (fun j => e (rowof dim c n q) j * cf j) = rform cf q.
Proof.
  intros Ok. destruct q as [iv cc|iv cc|iv cc k|cc k|cc k]; cbn [rform].
  - rewrite (sum_one cf (CStart iv cc) iv cc _ Ok (ent_start _ _ _ _ _)); [reflexivity|]. intros iv' cc' f' E. inversion E; auto.
  - rewrite (sum_one cf (CEnd iv cc) iv cc _ Ok (ent_end _ _ _ _ _)); [reflexivity|]. intros iv' cc' f' E. inversion E; auto.
  - pose proof Ok as Ok'. cbn [cond_ok] in Ok'. rewrite sum_blk.
    assert (Z : forall iv' cc', (iv' < n)%nat -> (cc' < c)%nat -> cc' <> cc \/ (iv' <> iv /\ iv' <> S iv) -> fblk cf (CCont iv cc k) iv' cc' = 0).
    { intros iv' cc' Hi' Hc' D. apply fblk_none; auto. intros f' E. inversion E; subst; lia. }
    rewrite (Rsum_delta2 n iv); [|lia|].
    + rewrite !(Rsum_delta c cc) by (auto; try lia; intros; apply Z; auto; lia).
      rewrite (fblk_some cf (CCont iv cc k) _ _ _ Ok (ent_left _ _ _ iv cc k)), (fblk_some cf (CCont iv cc k) _ _ _ Ok (ent_right _ _ _ iv cc k)).
      unfold side. rnum. unfold Rminus. rewrite <- Rsum_opp. f_equal; apply Rsum_ext; intros; ring.
    + intros iv' Hiv' N1 N2. apply Rsum_zero. intros cc' Hc'. apply Z; auto.
  - rewrite (sum_one cf (CFirst cc k) 0 cc _ Ok (ent_first _ _ _ _ _)); [reflexivity|]. intros iv' cc' f' E. inversion E; auto.
  - rewrite (sum_one cf (CLast cc k) (n - 1) cc _ Ok (ent_last _ _ _ _ _)); [reflexivity|]. intros iv' cc' f' E. inversion E; auto.
Qed.
End RowForm.

Lemma side_near h c F G cf iv cc k eps : (forall bb, (bb < 2 * h)%nat -> Rabs (F iv k bb - G iv k bb) <= eps) ->
  Rabs (side h c F cf iv cc k - side h c G cf iv cc k) <= eps * piece_size (2 * h) c cf iv cc.
Proof.
  intros H. unfold side, piece_size. rewrite <- Rsum_minus, <- Rsum_scal. eapply Rle_trans; [apply InterpMath2.Rsum_abs|]. apply Rsum_le. intros bb Hb.
  rewrite <- Rmult_minus_distr_r, Rabs_mult. apply Rmult_le_compat_r; [apply Rabs_pos|auto].
Qed.

(** the residuals as such sums *)
Lemma residual_form h c n t0 tf W cf q : (1 <= h)%nat -> (1 <= n)%nat -> (forall i, (i < n)%nat -> 0 < tf i) -> cond_ok (2 * h) c n q ->
  residual (DLeg (2 * h)) c n t0 tf W cf q =
  rform h c n (fun iv k bb => LD k bb (-1) * (2 / tf iv) ^ k) (fun iv k bb => LD k bb 1 * (2 / tf iv) ^ k) cf q - match q with CStart iv cc => W iv cc | CEnd iv cc => W (S iv) cc | _ => 0 end.
Proof.
  intros Hh Hn Ht Ok. assert (Hz : forall i, (i < n)%nat -> tf i <> 0) by (intros i Hi; specialize (Ht i Hi); lra).
  assert (PL : forall iv cc k, (iv < n)%nat -> Derive_n (piece (DLeg (2 * h)) c t0 tf cf iv cc) k (bp t0 tf iv) = side h c (fun iv k bb => LD k bb (-1) * (2 / tf iv) ^ k) cf iv cc k).
  { intros iv cc k Hi. rewrite piece_left by auto. unfold side. cbn [d_dim wD]. apply Rsum_ext. intros; ring. }
  assert (PR : forall iv cc k, (iv < n)%nat -> Derive_n (piece (DLeg (2 * h)) c t0 tf cf iv cc) k (bp t0 tf (S iv)) = side h c (fun iv k bb => LD k bb 1 * (2 / tf iv) ^ k) cf iv cc k).
  { intros iv cc k Hi. rewrite piece_right by auto. unfold side. cbn [d_dim wD]. apply Rsum_ext. intros; ring. }
  unfold residual. destruct q as [iv cc|iv cc|iv cc k|cc k|cc k]; cbn [cond_ok rform] in *; rewrite ?Rminus_0_r.
  - rewrite <- PL by lia. reflexivity.
  - rewrite <- PR by lia. reflexivity.
  - rewrite PL, PR by lia. reflexivity.
  - rewrite PL by lia. reflexivity.
  - replace (bp t0 tf n) with (bp t0 tf (S (n - 1))) by (f_equal; lia). rewrite PR by lia. reflexivity.
Qed.

(** ** binary64 *)
Section Sys.
Variable m : libm.
Local Instance BN : Num b64 := B64num m.

Lemma one64' : fin (n1 : b64) /\ val (n1 : b64) = 1.
Proof. exact (IEEELegendre.one64 m). Qed.
Lemma opp64' (a : b64) : fin a -> fin (nopp a) /\ val (nopp a) = - val a.
Proof. exact (IEEEDeriv3.opp64 m a). Qed.
(** multiplication by 1 and by -1 is exact *)
Lemma mul_one (x : b64) : fin x -> fin (nmul n1 x) /\ val (nmul n1 x) = val x.
Proof.
  intros F. destruct one64' as (F1 & V1). assert (RV : rnd (val (n1 : b64) * val x) = val x) by (rewrite V1, Rmult_1_l; apply rnd_fmt, val_fmt).
  destruct (mul_ok n1 x F1 F) as (A & B); [rewrite RV; apply abs_B2R_lt_emax|]. rewrite RV in B. split; [exact A|exact B].
Qed.
Lemma mul_mone (x : b64) : fin x -> fin (nmul (nopp n1) x) /\ val (nmul (nopp n1) x) = - val x.
Proof.
  intros F. destruct one64' as (F1 & V1). destruct (opp64' n1 F1) as (F2 & V2). rewrite V1 in V2.
  assert (RV : rnd (val (nopp n1 : b64) * val x) = - val x) by (rewrite V2; replace (- (1) * val x) with (- val x) by ring; rewrite rnd_opp; f_equal; apply rnd_fmt, val_fmt).
  destruct (mul_ok (nopp n1) x F2 F) as (A & B); [rewrite RV, Rabs_Ropp; apply abs_B2R_lt_emax|]. rewrite RV in B. split; [exact A|exact B].
Qed.
Lemma zero64' : fin (n0 : b64) /\ val (n0 : b64) = 0.
Proof. split; reflexivity. Qed.

Variables (h c n : nat) (g : list (mat b64)).
Hypothesis Hh : (1 <= h)%nat.
Hypothesis Hn : (1 <= n)%nat.
Variable tf : nat -> b64.
Hypothesis Ft : forall i, (i < n)%nat -> fin (tf i) /\ 0 < val (tf i).
Hypothesis Rg : forall i, (i < n)%nat -> deriv_range (2 * h) (2 * h - 2) (val (tf i)).
Let dim := (2 * h)%nat.
Let N := (dim * c * n)%nat.
Let tau i := val (tf i).

Lemma range_at i k : (i < n)%nat -> (k <= dim - 2)%nat -> deriv_error (dim - 1) k <= INR (dim - 1) ^ (2 * k) / 16 /\ (2 * spread (tau i) * INR (dim - 1) ^ 2) ^ k <= 2 ^ 900.
Proof.
  intros Hi Hk. destruct (Rg i Hi) as (A & B). fold dim in A, B. split.
  - apply (derr_all (dim - 1) (dim - 2)); auto. unfold dim. lia.
  - eapply Rle_trans; [|exact B]. apply Rle_pow; [|lia]. destruct (Ft i Hi) as (_ & P). destruct (spread_facts _ P) as (S1 & _). fold (tau i) in S1.
    assert (1 <= INR (dim - 1)) by (apply (le_INR 1); unfold dim; lia). assert (1 <= INR (dim - 1) ^ 2) by (apply pow_R1_Rle; lra). fold (tau i). nra.
Qed.
Lemma endL i k bb : (i < n)%nat -> (k <= dim - 2)%nat -> (bb < dim)%nat ->
  fin (legL (tf i) k bb) /\ Rabs (val (legL (tf i) k bb) - LD k bb (-1) * (2 / tau i) ^ k) <= end_error dim (tau i) k.
Proof.
  intros Hi Hk Hb. destruct (range_at i k Hi Hk) as (A & B). destruct (Ft i Hi) as (F & P). destruct one64' as (F1 & V1). destruct (opp64' n1 F1) as (F2 & V2). rewrite V1 in V2.
  exact (entry64 m (nopp n1) (-1) (dim - 1) F2 V2 ltac:(lra) ltac:(unfold dim; lia) (tf i) k bb ltac:(lia) ltac:(lia) A F P B).
Qed.
Lemma endR i k bb : (i < n)%nat -> (k <= dim - 2)%nat -> (bb < dim)%nat ->
  fin (legR (tf i) k bb) /\ Rabs (val (legR (tf i) k bb) - LD k bb 1 * (2 / tau i) ^ k) <= end_error dim (tau i) k.
Proof.
  intros Hi Hk Hb. destruct (range_at i k Hi Hk) as (A & B). destruct (Ft i Hi) as (F & P). destruct one64' as (F1 & V1).
  exact (entry64 m n1 1 (dim - 1) F1 V1 ltac:(lra) ltac:(unfold dim; lia) (tf i) k bb ltac:(lia) ltac:(lia) A F P B).
Qed.
(** an entry of the matrix is finite; its value *)
Let L64 iv := legL (tf iv).
Let R64 iv := legR (tf iv).
Let Lr iv k bb := val (legL (tf iv) k bb).
Let Rr iv k bb := val (legR (tf iv) k bb).
Lemma ent_fin q iv cc f bb : cond_ok dim c n q -> (bb < dim)%nat -> ent n L64 R64 q iv cc f -> fin (f bb).
Proof.
  intros Ok Hb E. assert (H2 : (h - 1 <= dim - 2)%nat) by (unfold dim; lia). assert (D2 : (dim / 2 = h)%nat) by (apply dim_half; auto). destruct E; cbn [cond_ok] in Ok; rewrite ?D2 in Ok.
  - apply endL; lia || auto.
  - apply endR; lia || auto.
  - apply mul_one. apply endR; lia || auto.
  - apply mul_mone. apply endL; lia || auto.
  - apply endL; lia || auto.
  - apply endR; lia || auto.
Qed.
Lemma ent_val q iv cc f bb : cond_ok dim c n q -> (bb < dim)%nat -> ent n Lr Rr q iv cc f -> exists f', ent n L64 R64 q iv cc f' /\ val (f' bb) = f bb.
Proof.
  intros Ok Hb E. assert (H2 : (h - 1 <= dim - 2)%nat) by (unfold dim; lia). destruct E; cbn [cond_ok] in Ok.
  - eexists. split; [constructor|reflexivity].
  - eexists. split; [constructor|reflexivity].
  - eexists. split; [constructor|]. cbv beta. rnum. rewrite Rmult_1_l. apply mul_one. apply endR; lia || auto.
  - eexists. split; [constructor|]. cbv beta. rnum. replace (- (1) * Lr (S iv) (S d) bb) with (- Lr (S iv) (S d) bb) by ring. apply mul_mone. apply endL; lia || auto.
  - eexists. split; [constructor|reflexivity].
  - eexists. split; [constructor|reflexivity].
Qed.

Variable A : smat b64.
Hypothesis MA : gmat_inv h c n (fun iv => (iv < n)%nat) A.
Hypothesis CA : gcontent h c n legL legR tf A.

Lemma A_finite : finite_matrix A.
Proof.
  intros i j x Hi Hj G. destruct MA as (R1 & C1 & Cl). destruct (Cl i j x G) as (iv & L' & R' & y & Hiv & X).
  destruct (EI_pat h c n L' R' L64 R64 _ _ _ _ X) as (y' & q & cc & f & bb & Ok & En & -> & Hb & -> & ->).
  destruct (ent_cc h c n Hh Hn _ _ _ _ _ _ Ok En) as (Hc & _). destruct (CA q iv cc bb Ok Hiv Hc Hb) as (G1 & _).
  pose proof (G1 f En) as G2. assert (E : Some x = Some (f bb)) by (rewrite <- G; exact G2). injection E as ->. exact (ent_fin q iv cc f bb Ok Hb En).
Qed.
Lemma A_rows t0 W cf q : cond_ok dim c n q ->
  Rabs (Rsum N (fun j => entry_val A (rowof dim c n q) j * cf j) - match q with CStart iv cc => W iv cc | CEnd iv cc => W (S iv) cc | _ => 0 end
        - residual (DLeg dim) c n t0 tau W cf q) <= cond_error dim c n tau cf q.
Proof.
  intros Ok. unfold N. rewrite (row_form h c n Hh Hn Lr Rr (entry_val A)); auto.
  2: { intros q' iv cc bb f Ok' Hi Hc Hb E. destruct (ent_val q' iv cc f bb Ok' Hb E) as (f' & E' & V). destruct (CA q' iv cc bb Ok' Hi Hc Hb) as (G1 & _).
       unfold entry_val. rewrite (G1 f' E'). exact V. }
  2: { intros q' iv cc bb Ok' Hi Hc Hb E. destruct (CA q' iv cc bb Ok' Hi Hc Hb) as (_ & G2). unfold entry_val. rewrite G2; [reflexivity|].
       intros f F. destruct F; eapply E; constructor. }
  unfold dim at 1. rewrite (residual_form h c n t0 tau W cf q Hh Hn ltac:(intros; apply Ft; auto) Ok).
  set (w := match q with CStart iv cc => W iv cc | CEnd iv cc => W (S iv) cc | _ => 0 end).
  set (Le := fun iv k bb => LD k bb (-1) * (2 / tau iv) ^ k). set (Re := fun iv k bb => LD k bb 1 * (2 / tau iv) ^ k).
  replace (rform h c n Lr Rr cf q - w - (rform h c n Le Re cf q - w)) with (rform h c n Lr Rr cf q - rform h c n Le Re cf q) by ring. clear w.
  assert (H2 : (h - 1 <= dim - 2)%nat) by (unfold dim; lia). assert (D2 : (dim / 2 = h)%nat) by (apply dim_half; auto).
  assert (SL : forall iv cc k, (iv < n)%nat -> (k <= dim - 2)%nat -> Rabs (side h c Lr cf iv cc k - side h c Le cf iv cc k) <= end_error dim (tau iv) k * piece_size dim c cf iv cc).
  { intros iv cc k Hi Hk. apply side_near. intros bb Hb. apply endL; auto. }
  assert (SR : forall iv cc k, (iv < n)%nat -> (k <= dim - 2)%nat -> Rabs (side h c Rr cf iv cc k - side h c Re cf iv cc k) <= end_error dim (tau iv) k * piece_size dim c cf iv cc).
  { intros iv cc k Hi Hk. apply side_near. intros bb Hb. apply endR; auto. }
  destruct q as [iv cc|iv cc|iv cc k|cc k|cc k]; cbn [cond_ok rform cond_error] in *; rewrite ?D2 in Ok.
  - apply SL; lia.
  - apply SR; lia.
  - match goal with |- Rabs (?a - ?b - (?c' - ?d')) <= _ => replace (a - b - (c' - d')) with ((a - c') + - (b - d')) by ring end.
    eapply Rle_trans; [apply Rabs_triang|]. rewrite Rabs_Ropp. apply Rplus_le_compat; [apply SR; lia|apply SL; lia].
  - apply SL; lia.
  - apply SR; lia.
Qed.
Lemma A_system (b : nat -> R) t0 W : (forall q, cond_ok dim c n q -> b (rowof dim c n q) = match q with CStart iv cc => W iv cc | CEnd iv cc => W (S iv) cc | _ => 0 end) ->
  near_system dim c n t0 tau W A b.
Proof.
  intros Hb. destruct MA as (R1 & C1 & _). split; [exact R1|]. split; [exact C1|]. exists (rowof dim c n).
  split; [intros; apply (row_lt h c n Hh Hn); auto|]. split; [intros; apply (row_inj h c n Hh Hn); auto|].
  split; [intros i Hi; apply (row_surj h c n Hh Hn); auto|]. intros q cf Ok. rewrite (Hb q Ok). apply A_rows. exact Ok.
Qed.
End Sys.
