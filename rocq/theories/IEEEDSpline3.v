(** Powers of the derivative matrix and coefficients of derivatives in binary64. *)
From Coquelicot Require Import Coquelicot.
From Coq Require Import ZArith Reals Lra Lia List Arith Bool Permutation.
From Flocq Require Import Core BinarySingleNaN.
From Verif Require Import Num Outcome LinAlg RSum RMat LegendreSpec LegendreMath LegendreModel LegendreProofs StabMath InterpMath2
  IEEEModel IEEESpec IEEEProofs IEEEHorner IEEELegendre IEEESpline IEEELagrange IEEEDerivSpec IEEEDeriv IEEEDeriv3 IEEEDSplineSpec DSplineGen IEEEDSpline IEEEDSpline2.
Import ListNotations.
Local Open Scope R_scope.

(** ** the exact powers *)
Lemma legT_ge i j : 0 <= legT i j.
Proof. unfold legT, mT, Dent. destruct lodd; [|lra]. pose proof (pos_INR i). lra. Qed.
Lemma mpow_ge n k i j : 0 <= mpow n legT k i j.
Proof. revert i j. induction k; intros i j; cbn [mpow]; [unfold mI; destruct Nat.eqb; lra|]. unfold mprod. apply Rsum_nonneg. intros l _. apply Rmult_le_pos; auto. apply legT_ge. Qed.
Definition unit_like (x : R) : Prop := x = 0 \/ 1 <= x.
Lemma unit_like_mul x y : unit_like x -> unit_like y -> unit_like (x * y).
Proof. intros [->|H] [->|H']; [left; ring|left; ring|left; ring|right]. rewrite <- (Rmult_1_l 1). apply Rmult_le_compat; lra. Qed.
Lemma unit_like_sum n f : (forall i, (i < n)%nat -> unit_like (f i)) -> unit_like (Rsum n f).
Proof. induction n as [|n IH]; intros H; [left; reflexivity|]. cbn [Rsum]. destruct (IH ltac:(intros; apply H; lia)) as [->|A]; destruct (H n ltac:(lia)) as [->|B]; unfold unit_like; lra. Qed.
Lemma legT_unit i j : unit_like (legT i j).
Proof. unfold legT, mT, Dent. destruct lodd; [right|left; reflexivity]. pose proof (pos_INR i). lra. Qed.
Lemma mpow_unit n k i j : unit_like (mpow n legT k i j).
Proof. revert i j. induction k; intros i j; cbn [mpow]; [unfold mI; destruct Nat.eqb; [right; lra|left; reflexivity]|]. unfold mprod. apply unit_like_sum. intros l _. apply unit_like_mul; auto. apply legT_unit. Qed.
Lemma LD_mpow dim d j x : (j < dim)%nat -> LD d j x = Rsum dim (fun i => mpow dim legT d i j * legP i x).
Proof.
  intros Hj. set (c := fun l => if Nat.eqb l j then 1 else 0). pose proof (leg_series_derive_n dim c d x) as D.
  assert (E : forall y, leg_series dim c y = legP j y).
  { intros y. unfold leg_series. rewrite (Rsum_delta dim j); [unfold c; rewrite Nat.eqb_refl; ring|auto|]. intros i Hi Ne. unfold c. destruct (Nat.eqb_spec i j); [contradiction|ring]. }
  apply (is_derive_n_ext _ (legP j)) in D; [|exact E].
  rewrite <- (is_derive_n_unique _ _ _ _ (LD_derive_n d j x)), (is_derive_n_unique _ _ _ _ D). unfold leg_series. apply Rsum_ext. intros i Hi. f_equal.
  unfold mvec. rewrite (Rsum_delta dim j); [unfold c; rewrite Nat.eqb_refl; ring|auto|]. intros l Hl Ne. unfold c. destruct (Nat.eqb_spec l j); [contradiction|ring].
Qed.
Lemma LD_1_sum dim d j : (j < dim)%nat -> LD d j 1 = Rsum dim (fun i => mpow dim legT d i j).
Proof. intros Hj. rewrite (LD_mpow dim) by auto. apply Rsum_ext. intros i _. rewrite legP_at_1. ring. Qed.
Lemma LD_1_le dim d j : (j < dim)%nat -> 0 <= LD d j 1 <= INR dim ^ (2 * d).
Proof.
  intros Hj. split; [rewrite (LD_1_sum dim) by auto; apply Rsum_nonneg; intros; apply mpow_ge|].
  eapply Rle_trans; [apply Rle_abs|]. apply LD_boundK; [lra|lia].
Qed.
Lemma mpow_le dim d i j : (i < dim)%nat -> (j < dim)%nat -> mpow dim legT d i j <= INR dim ^ (2 * d).
Proof.
  intros Hi Hj. eapply Rle_trans; [|apply (LD_1_le dim d j Hj)]. rewrite (LD_1_sum dim) by auto. apply (term_le dim (fun i => mpow dim legT d i j)); auto. intros; apply mpow_ge.
Qed.

Section P.
Variable m : libm.
Local Instance BN : Num b64 := B64num m.
Variable dim : nat.
Hypothesis Hdim : (2 <= dim)%nat.
Let E := dmat_error (dim - 1).
Hypothesis HE : E <= / 16.

Lemma entryT i j : (i < dim)%nat -> (j < dim)%nat -> fin (gT i j) /\ exists q, nr (1 + E) q /\ val (gT i j) = legT i j * q.
Proof.
  intros Hi Hj. destruct (entry64 m (dim - 1) HE j i ltac:(lia)) as (F & q & N & V). split; [exact F|]. exists q. split; [|exact V].
  eapply nr_le; [|exact N]. pose proof (de_le j (dim - 1) ltac:(lia)). unfold E. lra.
Qed.
Definition powf (k : nat) : R := (1 + E) ^ S k * bt ^ (k * dim).
Lemma E0 : 0 <= E. Proof. unfold E. apply de_pos. Qed.
Lemma powf_ge1 k : 1 <= powf k.
Proof. unfold powf. pose proof E0. assert (1 <= (1 + E) ^ S k) by (apply pow_R1_Rle; lra). pose proof (btk_ge1 (k * dim)). apply Rle_trans with (1 * 1); [lra|]. apply Rmult_le_compat; lra. Qed.
Lemma powf_S k : powf (S k) = powf k * (1 + E) * bt ^ dim.
Proof. unfold powf. replace (S k * dim)%nat with (k * dim + dim)%nat by lia. rewrite pow_add. cbn [pow]. ring. Qed.
Lemma prod_ge1 a b : 1 <= a -> 1 <= b -> a <= a * b /\ b <= a * b.
Proof. intros Ha Hb. split; [rewrite <- (Rmult_1_r a) at 1; apply Rmult_le_compat_l; lra|rewrite <- (Rmult_1_l b) at 1; apply Rmult_le_compat_r; lra]. Qed.

Lemma gpow64 k : powf k <= 3 / 2 -> INR dim ^ (2 * S k) <= 2 ^ 300 -> forall i j, (i < dim)%nat -> (j < dim)%nat ->
  fin (gpow dim k i j) /\ exists q, nr (powf k) q /\ val (gpow dim k i j) = mpow dim legT (S k) i j * q.
Proof.
  pose proof E0 as PE. assert (D1 : 1 <= INR dim) by (apply (le_INR 1); lia).
  induction k as [|k IH]; intros Hp Hd i j Hi Hj.
  { cbn [gpow]. destruct (entryT i j Hi Hj) as (F & q & N & V). split; [exact F|]. exists q. split; [|rewrite mpow_1 by auto; exact V]. unfold powf. cbn [Nat.mul pow]. rewrite !Rmult_1_r. exact N. }
  pose proof (powf_ge1 k) as PK. pose proof (btk_ge1 dim) as BD. rewrite powf_S in Hp |- *.
  destruct (prod_ge1 (powf k) (1 + E) PK ltac:(lra)) as (Q1 & Q2). destruct (prod_ge1 (powf k * (1 + E)) (bt ^ dim) ltac:(lra) BD) as (Q3 & Q4).
  assert (Hd' : INR dim ^ (2 * S k) <= 2 ^ 300) by (eapply Rle_trans; [|exact Hd]; apply Rle_pow; [lra|lia]).
  specialize (IH ltac:(lra) Hd'). cbn [gpow].
  pose proof (nsum_dot m (fun l => gpow dim k i l) (fun l => gT l j) dim) as Dot. set (l := pairs _ _ dim) in Dot. set (x := nsum dim _) in *.
  assert (T : forall a, (a < dim)%nat -> exists q, nr (powf k * (1 + E)) q /\ val (gpow dim k i a) * val (gT a j) = mpow dim legT (S k) i a * legT a j * q).
  { intros a Ha. destruct (IH i a Hi Ha) as (_ & q & N & V). destruct (entryT a j Ha Hj) as (_ & q' & N' & V'). exists (q * q'). split; [apply nr_mul; auto|]. rewrite V, V'. ring. }
  assert (TQ : exists Q, (forall a, (a < dim)%nat -> nr (powf k * (1 + E)) (Q a)) /\ forall a, (a < dim)%nat -> val (gpow dim k i a) * val (gT a j) = mpow dim legT (S k) i a * legT a j * Q a).
  { clear - T. assert (G : forall n, (n <= dim)%nat -> exists Q, (forall a, (a < n)%nat -> nr (powf k * (1 + E)) (Q a)) /\ forall a, (a < n)%nat -> val (gpow dim k i a) * val (gT a j) = mpow dim legT (S k) i a * legT a j * Q a).
    { induction n as [|n IHn]; intros Hn; [exists (fun _ => 1); split; intros; lia|]. destruct IHn as (Q & A & B); [lia|]. destruct (T n) as (q & N & V); [lia|].
      exists (fun a => if Nat.eqb a n then q else Q a). split; intros a Ha; destruct (Nat.eqb_spec a n) as [->|Hne]; auto; [apply A; lia|apply B; lia]. }
    apply G. lia. }
  destruct TQ as (Q & NQ & VQ).
  destruct (nr_sum dim (fun a => mpow dim legT (S k) i a * legT a j) Q (powf k * (1 + E))) as (p & Np & Ep); [intros; apply Rmult_le_pos; [apply mpow_ge|apply legT_ge]|exact NQ|lra|].
  assert (LS : lsum dprod l = mpow dim legT (S (S k)) i j * p).
  { unfold l. rewrite lsum_pairs. unfold dprod. cbn [fst snd]. rewrite (Rsum_ext dim _ (fun a => mpow dim legT (S k) i a * legT a j * Q a)) by (intros; apply VQ; auto). rewrite Ep. reflexivity. }
  destruct (dot_pos l x Dot) as (Fx & q & Rq & Vx).
  - apply Forall_forall. intros pr Hpr. apply in_map_iff in Hpr as (a & <- & Ha). apply in_seq in Ha. unfold plain. cbn [fst snd]. destruct (IH i a Hi ltac:(lia)) as (F1 & _). destruct (entryT a j ltac:(lia) Hj) as (F2 & _).
    split; [exact F1|]. split; [exact F2|]. unfold dprod. cbn [fst snd]. rewrite VQ by lia. pose proof (nr_between _ _ (NQ a ltac:(lia))) as BQ.
    destruct (unit_like_mul _ _ (mpow_unit dim (S k) i a) (legT_unit a j)) as [->|G]; [left; ring|right]. apply Rle_trans with (/ 2); [apply Rinv_le_contravar; [lra|]; apply Rle_trans with (2 ^ 1); [lra|apply pow_lit; lia]|].
    apply Rle_trans with (1 * / 2); [lra|apply Rmult_le_compat; lra].
  - rewrite LS. unfold l. rewrite pairs_length. pose proof (nr_between _ _ Np) as BP. pose proof (mpow_ge dim (S (S k)) i j). pose proof (mpow_le dim (S (S k)) i j Hi Hj).
    assert (2 ^ 302 <= big) by (apply pow_lit; lia). apply Rle_trans with (2 * (2 ^ 300 * 2)); [|lra]. apply Rmult_le_compat; try lra; [apply Rmult_le_pos; lra|]. apply Rmult_le_compat; lra.
  - split; [exact Fx|]. exists (p * q). split.
    + apply nr_mul; auto. unfold l in Rq. rewrite pairs_length in Rq. apply nr_rat. exact Rq.
    + rewrite Vx, LS. ring.
Qed.

(** ** powers of 2 / tau *)
Lemma npown64 (tau : b64) d A : fin tau -> 0 < val tau -> 1 <= A -> / A <= 2 / val tau <= A -> (2 * A) ^ d <= 2 ^ 900 ->
  fin (npown (ndiv c2 tau) d) /\ exists q, rat (2 * d) q /\ val (npown (ndiv c2 tau) d) = (2 / val tau) ^ d * q.
Proof.
  intros Ft Pt HA Ht. destruct (one64 m) as (F1 & V1). destruct (two64 m) as (F2 & V2).
  induction d as [|d IH]; intros Hd.
  { cbn [npown]. split; [exact F1|]. exists 1. split; [unfold rat; cbn; lra|]. assert (W : val (n1 : b64) = 1) by exact V1. rewrite W. cbn. ring. }
  assert (Hd' : (2 * A) ^ d <= 2 ^ 900). { eapply Rle_trans; [|exact Hd]. apply Rle_pow; [lra|lia]. }
  destruct (IH Hd') as (Fm & q & Rq & Vq). clear IH. cbn [npown]. set (pw := npown (ndiv c2 tau) d) in *.
  assert (AB : 2 * A <= 2 ^ 900). { eapply Rle_trans; [|exact Hd]. rewrite <- (pow_1 (2 * A)) at 1. apply Rle_pow; [lra|lia]. }
  assert (BB : 2 ^ 900 <= big) by (unfold big; apply pow_lit; lia). assert (IA : 0 < / A) by (apply Rinv_0_lt_compat; lra).
  assert (B1 : bnd A (2 / val tau)) by (unfold bnd; rewrite Rabs_pos_eq; lra). assert (W : val (c2 : b64) = 2) by exact V2.
  destruct (div64 m c2 tau) as (Fd & q1 & R1 & W1); [exact F2|lra|rewrite W; apply (bnd_le A); auto; lra|]. rewrite W in W1. set (x := ndiv c2 tau) in *.
  assert (BP : bnd ((2 * A) ^ S d) (val x * val pw)).
  { rewrite Vq, W1. replace (2 / val tau * q1 * ((2 / val tau) ^ d * q)) with ((2 / val tau) ^ S d * (q * q1)) by (cbn [pow]; ring).
    rewrite Rpow_mult_distr, (Rmult_comm (2 ^ S d)). apply bnd_mul; [apply pow_lt; lra|apply pow_lt; lra| |].
    - clear - B1 HA. induction (S d) as [|k IHk]; cbn [pow]; [unfold bnd; rewrite Rabs_R1; lra|]. apply bnd_mul; auto; [lra|apply pow_lt; lra].
    - apply (bnd_le (bt ^ (2 * S d))); [apply bt_pos|apply bt_2k|]. apply bnd_rat. apply (rat_le (2 * d + 1)); [lia|]. apply rat_mul; auto. }
  destruct (mul64 m x pw Fd Fm) as (F3 & q3 & R3 & W3). { apply (bnd_le ((2 * A) ^ S d)); [apply pow_lt; lra|lra|exact BP]. }
  split; [exact F3|]. exists (q1 * q * q3). split; [apply (rat_le (1 + 2 * d + 1)); [lia|]; apply rat_mul; auto; apply rat_mul; auto|].
  eapply eq_trans; [exact W3|]. rewrite Vq, W1. cbn [pow]. ring.
Qed.
Lemma spread_ok tau : 0 < tau -> 1 <= spread tau /\ / spread tau <= 2 / tau <= spread tau.
Proof.
  intros Pt. set (A := spread tau). assert (I2 : 0 < 2 / tau) by (apply Rdiv_lt_0_compat; lra). assert (I3 : / (2 / tau) = tau / 2) by (field; lra).
  assert (A1 : 2 / tau <= A) by apply Rmax_l. assert (A2 : tau / 2 <= A) by apply Rmax_r.
  assert (HA : 1 <= A). { destruct (Rle_lt_dec 1 (2 / tau)); [lra|]. rewrite <- I3 in A2. assert (1 < / (2 / tau)) by (rewrite <- Rinv_1; apply Rinv_lt_contravar; lra). lra. }
  assert (A3 : / A <= 2 / tau). { rewrite <- (Rinv_inv (2 / tau)). apply Rinv_le_contravar; [apply Rinv_0_lt_compat; lra|rewrite I3; lra]. }
  auto.
Qed.

(** ** one coefficient *)
Variable k : nat.
Let d := S k.
Hypothesis CE : coef_error dim d <= / 2.
Hypothesis Hd : INR dim ^ (2 * d) <= 2 ^ 300.
Lemma ce_split : 1 + coef_error dim d = powf k * bt ^ dim * bt ^ (2 * d + 1).
Proof.
  unfold coef_error, powf, d. fold E. change (/ (1 - uu)) with bt. replace (S k * (dim + 2) + 1)%nat with (k * dim + dim + (2 * S k + 1))%nat by lia. rewrite !pow_add. ring.
Qed.
Lemma ce_parts : powf k <= 3 / 2 /\ powf k * bt ^ dim <= 3 / 2 /\ bt ^ (2 * d + 1) <= 3 / 2 /\ bt ^ dim <= 3 / 2 /\ 0 <= coef_error dim d.
Proof.
  pose proof ce_split as S0. pose proof (powf_ge1 k) as A. pose proof (btk_ge1 dim) as B. pose proof (btk_ge1 (2 * d + 1)) as C.
  destruct (prod_ge1 _ _ A B) as (X1 & X2). destruct (prod_ge1 (powf k * bt ^ dim) (bt ^ (2 * d + 1)) ltac:(lra) C) as (X3 & X4). repeat split; lra.
Qed.
Lemma pow1u_le_bt n : (1 + uu) ^ n <= bt ^ n. Proof. apply pow1u_bt. Qed.

Lemma coef64 (c : nat -> b64) (tau : b64) bb : (bb < dim)%nat -> (forall j, (j < dim)%nat -> fin (c j)) -> fin tau -> 0 < val tau ->
  Rsum dim (fun j => Rabs (val (c j))) <= 2 ^ 300 -> (2 * spread (val tau)) ^ d <= 2 ^ 300 ->
  let v := nmul (nsum dim (fun j => nmul (gpow dim k bb j) (c j))) (npown (ndiv c2 tau) (S k)) in
  let g := (2 / val tau) ^ d in
  fin v /\ Rabs (val v - g * Rsum dim (fun j => mpow dim legT d bb j * val (c j))) <=
    coef_error dim d * (g * Rsum dim (fun j => mpow dim legT d bb j * Rabs (val (c j)))) + (4 * INR dim * g + 1) * hh.
Proof.
  intros Hb Fc Ft Pt Sc Sp. cbv zeta. destruct ce_parts as (P1 & P2 & P3 & P4 & P5). pose proof uu_pos as U0. pose proof uu_small as US. pose proof hh_pos as HP.
  set (A := spread (val tau)) in *. destruct (spread_ok (val tau) Pt) as (HA & HB). fold A in HA, HB.
  assert (B900 : 2 ^ 300 <= 2 ^ 900) by (apply pow_lit; lia).
  destruct (npown64 tau (S k) A Ft Pt HA HB) as (Fp & qp & Rp & Vp); [fold d; lra|]. set (pw := npown (ndiv c2 tau) (S k)) in *. change (val pw = (2 / val tau) ^ d * qp) in Vp. change (rat (2 * d) qp) in Rp.
  set (g := (2 / val tau) ^ d) in *.
  assert (I2 : 0 < 2 / val tau) by (apply Rdiv_lt_0_compat; lra). assert (G0 : 0 < g) by (apply pow_lt; auto).
  assert (G1 : g <= 2 ^ 300). { eapply Rle_trans; [|exact Sp]. apply pow_incr. lra. }
  assert (GP := fun j Hj => gpow64 k P1 Hd bb j Hb Hj).
  assert (D1 : 1 <= INR dim) by (apply (le_INR 1); lia).
  assert (D2 : INR dim <= 2 ^ 300). { eapply Rle_trans; [|exact Hd]. rewrite <- (pow_1 (INR dim)) at 1. apply Rle_pow; [lra|unfold d; lia]. }
  assert (Dh : 2 * INR dim * hh <= 1). { apply Rle_trans with (2 * 2 ^ 300 * hh); [apply Rmult_le_compat_r; lra|]. unfold hh. apply Rle_trans with (2 * 2 ^ 300 * / 2 ^ 301); [apply Rmult_le_compat_l; [lra|]; apply Rinv_le_contravar; [apply pow_lt; lra|apply pow_lit; lia]|]. lra. }
  set (M := fun j => mpow dim legT d bb j) in *. set (W := Rsum dim (fun j => M j * Rabs (val (c j)))). set (S1 := Rsum dim (fun j => M j * val (c j))).
  assert (M0 : forall j, 0 <= M j) by (intros; apply mpow_ge).
  assert (W0 : 0 <= W) by (apply Rsum_nonneg; intros; apply Rmult_le_pos; [apply M0|apply Rabs_pos]).
  assert (W1 : W <= 2 ^ 600). { apply Rle_trans with (2 ^ 300 * 2 ^ 300); [|lra]. apply Rle_trans with (2 ^ 300 * Rsum dim (fun j => Rabs (val (c j)))); [|apply Rmult_le_compat_l; [apply pow_le; lra|exact Sc]].
    rewrite <- Rsum_scal. apply Rsum_le. intros j Hj. apply Rmult_le_compat_r; [apply Rabs_pos|]. eapply Rle_trans; [apply mpow_le; auto|exact Hd]. }
  set (l := pairs (fun j => gpow dim k bb j) c dim). pose proof (nsum_dot m (fun j => gpow dim k bb j) c dim) as Dot. fold l in Dot. set (x := nsum dim _) in *.
  assert (LM : lsum dmag l <= powf k * W).
  { unfold l. rewrite lsum_pairs. unfold W. rewrite <- Rsum_scal. apply Rsum_le. intros j Hj. unfold dmag, dprod. cbn [fst snd]. destruct (GP j Hj) as (_ & q & N & V). rewrite V. change (mpow dim legT (S k) bb j) with (M j). pose proof (nr_between _ _ N) as BQ.
    rewrite !Rabs_mult, (Rabs_pos_eq (M j)) by auto. rewrite (Rabs_pos_eq q) by lra. replace (M j * q * Rabs (val (c j))) with (q * (M j * Rabs (val (c j)))) by ring. apply Rmult_le_compat_r; [apply Rmult_le_pos; auto; apply Rabs_pos|lra]. }
  assert (LD0 : Rabs (lsum dprod l - S1) <= (powf k - 1) * W).
  { unfold l. rewrite lsum_pairs. unfold S1, W. rewrite <- Rsum_minus, <- Rsum_scal. eapply Rle_trans; [apply InterpMath2.Rsum_abs|]. apply Rsum_le. intros j Hj. unfold dprod. cbn [fst snd]. destruct (GP j Hj) as (_ & q & N & V). rewrite V. change (mpow dim legT (S k) bb j) with (M j).
    replace (M j * q * val (c j) - M j * val (c j)) with ((q - 1) * (M j * val (c j))) by ring. rewrite !Rabs_mult, (Rabs_pos_eq (M j)) by auto. apply Rmult_le_compat_r; [apply Rmult_le_pos; auto; apply Rabs_pos|exact N]. }
  pose proof (pow1u_le_bt dim) as PB. pose proof (pow_1u_ge1 dim) as PU. pose proof (powf_ge1 k) as PG. pose proof (btk_ge1 dim) as BD.
  assert (PW : powf k * W <= 3 / 2 * 2 ^ 600) by (apply Rmult_le_compat; lra).
  assert (BG : 2 ^ 700 <= big) by (apply pow_lit; lia). assert (BG2 : 2 ^ 610 <= 2 ^ 700) by (apply pow_lit; lia). assert (O6 : 1 <= 2 ^ 600) by (apply pow_R1_Rle; lra).
  assert (LL : 0 <= lsum dmag l) by apply lmag_pos.
  assert (X610 : 2 ^ 610 = 1024 * 2 ^ 600) by (replace 610%nat with (10 + 600)%nat by lia; rewrite pow_add; apply (f_equal (fun z => z * 2 ^ 600)); lra).
  destruct (dot_of_ok l x Dot) as (Fx & Ex).
  { apply Forall_forall. intros pr Hpr. apply in_map_iff in Hpr as (a & <- & Ha). apply in_seq in Ha. cbn [fst snd]. split; [apply GP; lia|apply Fc; lia]. }
  { unfold dot_bound. unfold l at 1 3. rewrite pairs_length. apply Rle_trans with (2 * (2 * 2 ^ 600 + 1)); [|lra]. apply Rmult_le_compat; try lra. apply Rplus_le_le_0_compat; [exact LL|apply Rmult_le_pos; lra]. }
  assert (Exx : Rabs (val x - S1) <= (powf k * bt ^ dim - 1) * W + 2 * INR dim * hh).
  { replace (val x - S1) with ((val x - lsum dprod l) + (lsum dprod l - S1)) by ring. eapply Rle_trans; [apply Rabs_triang|].
    unfold dot_err in Ex. unfold l in Ex at 2 4 5. rewrite pairs_length in Ex.
    assert (T1 : ((1 + uu) ^ dim - 1) * lsum dmag l <= (bt ^ dim - 1) * (powf k * W)) by (apply Rmult_le_compat; lra).
    assert (T2 : (1 + uu) ^ dim * (INR dim * hh) <= 2 * (INR dim * hh)) by (apply Rmult_le_compat_r; [apply Rmult_le_pos; lra|lra]). lra. }
  assert (S1W : Rabs S1 <= W).
  { unfold S1, W. eapply Rle_trans; [apply InterpMath2.Rsum_abs|]. apply Rsum_le. intros j Hj. rewrite Rabs_mult, (Rabs_pos_eq (M j)) by auto. lra. }
  assert (XB : Rabs (val x) <= 4 * 2 ^ 600).
  { apply abs_of_near in Exx. assert ((powf k * bt ^ dim - 1) * W <= 1 * 2 ^ 600) by (apply Rmult_le_compat; try lra; pose proof (prod_ge1 _ _ PG BD); lra). lra. }
  assert (QB := nr_between _ _ (nr_rat _ _ Rp)). assert (BL : bt ^ (2 * d) <= bt ^ (2 * d + 1)) by (apply bt_le; lia).
  destruct (mulr m x pw (2 ^ 910) Fx Fp) as (Fv & dd & e & Hdd & He & Vv).
  { rewrite Vp, Rabs_mult, (Rabs_pos_eq g), (Rabs_pos_eq qp) by lra. apply Rle_trans with (4 * 2 ^ 600 * (2 ^ 300 * 2)); [apply Rmult_le_compat; try apply Rabs_pos; [apply Rmult_le_pos; lra|exact XB|apply Rmult_le_compat; lra]|].
    replace (2 ^ 910) with (2 ^ 600 * 2 ^ 310) by (rewrite <- pow_add; reflexivity). replace (2 ^ 310) with (2 ^ 300 * 2 ^ 10) by (rewrite <- pow_add; reflexivity). set (z := 2 ^ 600 * 2 ^ 300) in *. assert (0 < z) by (apply Rmult_lt_0_compat; apply pow_lt; lra). replace (4 * 2 ^ 600 * (2 ^ 300 * 2)) with (8 * z) by (unfold z; ring). replace (2 ^ 600 * (2 ^ 300 * 2 ^ 10)) with (1024 * z) by (unfold z; ring). lra. }
  { assert (2 ^ 910 <= big) by (apply pow_lit; lia). assert (0 < big) by (pose proof big_1; lra). lra. }
  split; [exact Fv|].
  set (p' := qp * (1 + dd)). assert (N' : nr (bt ^ (2 * d + 1)) p') by (apply nr_rat; apply rat_mul; auto; apply rat_1; auto). pose proof (nr_between _ _ N') as BP'.
  assert (Ev : val (nmul x pw) = g * (val x * p') + e) by (eapply eq_trans; [exact Vv|]; rewrite Vp; unfold p'; ring).
  rewrite Ev. fold S1 W.
  replace (g * (val x * p') + e - g * S1) with (g * ((val x - S1) * p' + S1 * (p' - 1)) + e) by ring.
  eapply Rle_trans; [apply Rabs_triang|]. rewrite Rabs_mult, (Rabs_pos_eq g) by lra.
  assert (IN : Rabs ((val x - S1) * p' + S1 * (p' - 1)) <= coef_error dim d * W + 4 * INR dim * hh).
  { eapply Rle_trans; [apply Rabs_triang|]. rewrite !Rabs_mult, (Rabs_pos_eq p') by lra.
    assert (T1 : Rabs (val x - S1) * p' <= ((powf k * bt ^ dim - 1) * W + 2 * INR dim * hh) * bt ^ (2 * d + 1)) by (apply Rmult_le_compat; try apply Rabs_pos; lra).
    assert (T2 : Rabs S1 * Rabs (p' - 1) <= W * (bt ^ (2 * d + 1) - 1)) by (apply Rmult_le_compat; try apply Rabs_pos; [exact S1W|exact N']).
    pose proof ce_split as CS. assert (T3 : 2 * INR dim * hh * bt ^ (2 * d + 1) <= 2 * INR dim * hh * 2) by (apply Rmult_le_compat_l; [apply Rmult_le_pos; lra|lra]).
    replace (coef_error dim d) with (powf k * bt ^ dim * bt ^ (2 * d + 1) - 1) by lra. lra. }
  assert (g * Rabs ((val x - S1) * p' + S1 * (p' - 1)) <= g * (coef_error dim d * W + 4 * INR dim * hh)) by (apply Rmult_le_compat_l; lra).
  lra.
Qed.
End P.
