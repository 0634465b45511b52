(** The assembled system over the reals is the system of interpolation conditions. *)
From Coquelicot Require Import Coquelicot.
From Coq Require Import List Arith Lia Bool ZArith Reals Lra.
From Verif Require Import Num Outcome LinAlg RSum RMat RDeriv RPoly
  LegendreSpec LegendreModel LegendreMath LegendreProofs
  LagrangeSpec LagrangeModel LagrangeMath LagrangeProofs
  Basis0101Spec Basis0101Math Basis0101Model Basis0101Proofs BasisModel SplineSpec BasisFn
  BasisProofs BasisProofs2 BasisProofs3 ToolsModel GSplineModel InterpModel InterpSpec InterpProofs InterpProofs2 InterpProofs3.
Import ListNotations.
Local Open Scope R_scope.

(** ** derivatives of the basis functions as functions of the interval length *)
Definition wD (d : bdesc) (tau : R) (k i : nat) (s : R) : R :=
  match d with
  | DLeg _ => (2 / tau) ^ k * LD k i s
  | DLag n x => (2 / tau) ^ k * Derive_n (lagr n x i) k s
  | D01 a => (2 * b01K a) ^ k * fD k i (tau * b01K a * s)
  end.
Definition wDt (d : bdesc) (tau : R) (k i : nat) (s : R) : R :=
  match d with
  | DLeg _ => (2 / tau) ^ k * LD k i s * (- (1 / 2) * INR k * (2 / tau))
  | DLag n x => (2 / tau) ^ k * Derive_n (lagr n x i) k s * (- (1 / 2) * INR k * (2 / tau))
  | D01 a => (2 * b01K a) ^ k * (fD (S k) i (tau * b01K a * s) * (s * b01K a))
  end.
Lemma wD_tphi d t0 tau i k t : tau <> 0 -> (i < d_dim d)%nat -> Derive_n (tphi d t0 tau i) k t = wD d tau k i (window t0 tau t).
Proof.
  intros Ht Hi. destruct d as [dim|n x|a]; simpl wD; apply is_derive_n_unique.
  - apply legP_time_derive.
  - apply lagr_time_derive; auto.
  - apply (b01_time_derive_n (b01K a) t0 tau k i t Ht).
Qed.
Lemma wDt_derive d tau i k s : tau <> 0 -> is_derive (fun th => wD d th k i s) tau (wDt d tau k i s).
Proof.
  intros Ht. destruct d as [dim|n x|a]; simpl.
  - apply leg_tau_derive; auto.
  - apply pow_tau_derive; auto.
  - apply b01_tau_derive.
Qed.
Lemma eval_wD b d s tau k buff : is_basis b d -> ord_ok d k -> exact_pt d s -> vlen buff = d_dim d ->
  exists v, b_eval_deriv b s tau k buff = Ok v /\ vec_is v (d_dim d) (fun i => wD d tau k i s).
Proof.
  destruct b as [dim g|pts bw g|a], d as [dim'|n x|a']; simpl; intros X O P L; try contradiction.
  - destruct X as (-> & Hd & _). exact (leg_eval_deriv_R dim' s tau k buff Hd O L).
  - destruct X as (V & _ & D & W). destruct (lag_eval_deriv_R pts buff n x s tau k V D L P) as (bw' & v & E & E' & V').
    rewrite W in E. injection E as <-. eauto.
  - destruct X as (-> & Ha). exact (b01_eval_deriv_R a' s tau k buff Ha L).
Qed.
Lemma eval_wDt b d s tau k buff : is_basis b d -> ord_ok d k -> exact_pt d s -> vlen buff = d_dim d ->
  exists v, b_eval_deriv_tau b s tau k buff = Ok v /\ vec_is v (d_dim d) (fun i => wDt d tau k i s).
Proof.
  destruct b as [dim g|pts bw g|a], d as [dim'|n x|a']; simpl; intros X O P L; try contradiction.
  - destruct X as (-> & Hd & _). exact (leg_eval_deriv_tau_R dim' s tau k buff Hd O L).
  - destruct X as (V & _ & D & W). destruct (lag_eval_deriv_tau_R pts buff n x s tau k V D L P) as (bw' & v & E & E' & V').
    rewrite W in E. injection E as <-. eauto.
  - destruct X as (-> & Ha). exact (b01_eval_deriv_tau_R a' s tau k buff Ha L).
Qed.

Lemma piece_left d c t0 tf cf iv cc k : tf iv <> 0 ->
  Derive_n (piece d c t0 tf cf iv cc) k (bp t0 tf iv) =
  Rsum (d_dim d) (fun bb => wD d (tf iv) k bb (-1) * cf ((iv * c + cc) * d_dim d + bb)%nat).
Proof.
  intros Ht. rewrite (is_derive_n_unique _ _ _ _ (piece_derive_n d c t0 tf cf iv cc k (bp t0 tf iv) Ht)).
  apply Rsum_ext. intros i Hi. rewrite wD_tphi by auto. rewrite window_left by auto. ring.
Qed.
Lemma piece_right d c t0 tf cf iv cc k : tf iv <> 0 ->
  Derive_n (piece d c t0 tf cf iv cc) k (bp t0 tf (S iv)) =
  Rsum (d_dim d) (fun bb => wD d (tf iv) k bb 1 * cf ((iv * c + cc) * d_dim d + bb)%nat).
Proof.
  intros Ht. rewrite (is_derive_n_unique _ _ _ _ (piece_derive_n d c t0 tf cf iv cc k (bp t0 tf (S iv)) Ht)).
  apply Rsum_ext. intros i Hi. rewrite wD_tphi by auto. rewrite bp_S, window_right by auto. ring.
Qed.

(** ** rows of the matrix *)
Section Rows.
Variables (d : bdesc) (h c n : nat).
Hypothesis Hh : (1 <= h)%nat.
Hypothesis Hn : (1 <= n)%nat.
Hypothesis Hd : d_dim d = (2 * h)%nat.
Let dim := (2 * h)%nat.
Variable tf : nat -> R.
Hypothesis Htf : forall i, (i < n)%nat -> tf i <> 0.
Variable t0 : R.
Definition Lv (iv k bb : nat) : R := wD d (tf iv) k bb (-1).
Definition Rv (iv k bb : nat) : R := wD d (tf iv) k bb 1.
Variables (m m' : smat R).
Hypothesis Cm : scols m' = (dim * c * n)%nat.
Hypothesis Cl : clean h c n (fun iv => (iv < n)%nat) m.
Hypothesis Wr : wrote m m' (fun i j x => exists iv, (iv < n)%nat /\ EI h c n Lv Rv iv i j x).

(** contribution of block (iv, cc) to row q *)
Definition blk (cf : nat -> R) (q : cond) (iv cc : nat) : R :=
  Rsum dim (fun bb => match sget m' (rowof dim c n q) ((iv * c + cc) * dim + bb) with
                      Some x => x * cf ((iv * c + cc) * dim + bb)%nat | None => 0 end).
Lemma blk_some cf q iv cc f : cond_ok dim c n q -> ent n Lv Rv q iv cc f ->
  blk cf q iv cc = Rsum dim (fun bb => f bb * cf ((iv * c + cc) * dim + bb)%nat).
Proof.
  intros Ok En. destruct (ent_cc h c n Hh Hn _ _ _ _ _ _ Ok En) as [Hc Hiv]. unfold blk. apply Rsum_ext. intros bb Hb.
  destruct (content h c n Hh Hn _ Lv Rv m m' Cl Wr q iv cc bb Ok Hc Hb) as [G _]. fold dim in G. rewrite (G f Hiv En). reflexivity.
Qed.
Lemma blk_none cf q iv cc : cond_ok dim c n q -> (cc < c)%nat -> (forall f, ~ ent n Lv Rv q iv cc f) -> blk cf q iv cc = 0.
Proof.
  intros Ok Hc En. unfold blk. apply Rsum_zero. intros bb Hb.
  destruct (content h c n Hh Hn _ Lv Rv m m' Cl Wr q iv cc bb Ok Hc Hb) as [_ G]. fold dim in G. rewrite (G (or_intror En)). reflexivity.
Qed.
Lemma smul_blk cf q : smul m' cf (rowof dim c n q) = Rsum n (fun iv => Rsum c (fun cc => blk cf q iv cc)).
Proof. rewrite (smul_blocks m' cf _ n c dim); [reflexivity|]. rewrite Cm. ring. Qed.
Lemma row_one cf q iv cc f : cond_ok dim c n q -> ent n Lv Rv q iv cc f ->
  (forall iv' cc' f', ent n Lv Rv q iv' cc' f' -> iv' = iv /\ cc' = cc) ->
  smul m' cf (rowof dim c n q) = Rsum dim (fun bb => f bb * cf ((iv * c + cc) * dim + bb)%nat).
Proof.
  intros Ok En U. destruct (ent_cc h c n Hh Hn _ _ _ _ _ _ Ok En) as [Hc Hiv]. rewrite smul_blk.
  rewrite (Rsum_delta n iv); auto; [rewrite (Rsum_delta c cc); auto|].
  - apply blk_some; auto.
  - intros cc' Hc' Ne. apply blk_none; auto. intros f' En'. destruct (U _ _ _ En'). auto.
  - intros iv' Hiv' Ne. apply Rsum_zero. intros cc' Hc'. apply blk_none; auto. intros f' En'. destruct (U _ _ _ En'). auto.
Qed.

Theorem row_residual W cf q : cond_ok dim c n q ->
  smul m' cf (rowof dim c n q) - rhs_of W q = residual d c n t0 tf W cf q.
Proof.
  intros Ok. unfold residual. destruct q as [iv cc|iv cc|iv cc k|cc k|cc k]; cbn [rhs_of cond_ok] in *.
  - rewrite (row_one cf (CStart iv cc) iv cc _ Ok (ent_start _ _ _ _ _)).
    2: { intros iv' cc' f' E. inversion E; auto. }
    change (piece d c t0 tf cf iv cc (bp t0 tf iv)) with (Derive_n (piece d c t0 tf cf iv cc) 0 (bp t0 tf iv)).
    rewrite piece_left by (apply Htf; lia). rewrite Hd. reflexivity.
  - rewrite (row_one cf (CEnd iv cc) iv cc _ Ok (ent_end _ _ _ _ _)).
    2: { intros iv' cc' f' E. inversion E; auto. }
    change (piece d c t0 tf cf iv cc (bp t0 tf (S iv))) with (Derive_n (piece d c t0 tf cf iv cc) 0 (bp t0 tf (S iv))).
    rewrite piece_right by (apply Htf; lia). rewrite Hd. reflexivity.
  - rewrite piece_left, piece_right by (apply Htf; lia). rewrite Hd. fold dim. rewrite smul_blk.
    assert (Z : forall iv' cc', (cc' < c)%nat -> cc' <> cc \/ (iv' <> iv /\ iv' <> S iv) -> blk cf (CCont iv cc k) iv' cc' = 0).
    { intros iv' cc' Hc' D. apply blk_none; auto. intros f' E. inversion E; subst; lia. }
    rewrite (Rsum_delta2 n iv); [|lia|].
    + rewrite !(Rsum_delta c cc) by (auto; try lia; intros; apply Z; auto).
      rewrite (blk_some cf (CCont iv cc k) _ _ _ Ok (ent_left _ _ _ iv cc k)), (blk_some cf (CCont iv cc k) _ _ _ Ok (ent_right _ _ _ iv cc k)).
      rnum. unfold Lv, Rv, Rminus. rewrite <- Rsum_opp. rewrite Ropp_0, Rplus_0_r. f_equal; apply Rsum_ext; intros; ring.
    + intros iv' Hiv' N1 N2. apply Rsum_zero. intros cc' Hc'. apply Z; auto.
  - rewrite (row_one cf (CFirst cc k) 0 cc _ Ok (ent_first _ _ _ _ _)).
    2: { intros iv' cc' f' E. inversion E; auto. }
    rewrite piece_left by (apply Htf; lia). rewrite Hd. change (@n0 R Rnum) with 0. rewrite Rminus_0_r. reflexivity.
  - rewrite (row_one cf (CLast cc k) (n - 1) cc _ Ok (ent_last _ _ _ _ _)).
    2: { intros iv' cc' f' E. inversion E; auto. }
    replace (bp t0 tf n) with (bp t0 tf (S (n - 1))) by (f_equal; lia).
    rewrite piece_right by (apply Htf; lia). rewrite Hd. change (@n0 R Rnum) with 0. rewrite Rminus_0_r. reflexivity.
Qed.
End Rows.
