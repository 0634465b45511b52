(** Entries of the derivative matrix of the Legendre basis in binary64. *)
From Coquelicot Require Import Coquelicot.
From Coq Require Import ZArith Reals Lra Lia List Arith Bool Permutation.
From Flocq Require Import Core BinarySingleNaN.
From Verif Require Import Num Outcome LinAlg RSum RMat LegendreSpec LegendreMath LegendreModel LegendreProofs StabMath InterpMath2
  IEEEModel IEEESpec IEEEProofs IEEEHorner IEEELegendre IEEESpline IEEELagrange IEEEDerivSpec IEEEDeriv IEEEDeriv3 IEEEDSplineSpec DSplineGen IEEEDSpline.
Import ListNotations.
Local Open Scope R_scope.

Lemma de_S k : dmat_error (S (S k)) = 2 * dmat_error (S k) + dmat_error k + 26 * uu. Proof. reflexivity. Qed.
Lemma de_1 : dmat_error 1 = 3 * uu. Proof. reflexivity. Qed.
Lemma de_pos k : 0 <= dmat_error k /\ dmat_error k <= dmat_error (S k) /\ 3 * uu * INR k <= dmat_error k.
Proof.
  pose proof uu_pos as U. assert (X : forall k, (0 <= dmat_error k /\ 0 <= dmat_error (S k) /\ dmat_error k + 3 * uu <= dmat_error (S k) /\ 3 * uu * INR k <= dmat_error k)).
  { clear k. induction k as [|k (A & B & C & D)]; [cbn; lra|]. rewrite de_S. rewrite S_INR. repeat split; lra. }
  destruct (X k) as (A & B & C & D). repeat split; lra.
Qed.
Lemma de_le i j : (i <= j)%nat -> dmat_error i <= dmat_error j.
Proof. induction 1 as [|j _ IH]; [lra|]. pose proof (de_pos j). lra. Qed.

Lemma bndq x : / 2 ^ 100 <= x <= 2 ^ 100 -> bnd big x.
Proof.
  intros (A & B). assert (P : 0 < / 2 ^ 100) by (apply Rinv_0_lt_compat, pow_lt; lra). unfold bnd. rewrite Rabs_pos_eq by lra.
  assert (BB : 2 ^ 100 <= big) by (apply pow_lit; lia). split; [|lra]. eapply Rle_trans; [|exact A]. apply Rinv_le_contravar; [apply pow_lt; lra|exact BB].
Qed.
Lemma low100 : / 2 ^ 100 <= / 1000.
Proof. apply Rinv_le_contravar; [lra|]. apply Rle_trans with (2 ^ 10); [lra|]. apply pow_lit. lia. Qed.

Section D.
Variable m : libm.
Local Instance BN : Num b64 := B64num m.
Lemma one64 : fin (n1 : b64) /\ val (n1 : b64) = 1. Proof. exact (IEEELegendre.one64 m). Qed.
Lemma two64 : fin (c2 : b64) /\ val (c2 : b64) = 2. Proof. exact (IEEELegendre.two64 m). Qed.
Lemma nofnat64 i : (i <= 2 ^ 53)%nat -> fin (nofnat i) /\ val (nofnat i) = INR i. Proof. exact (IEEELegendre.nofnat64 m i). Qed.
Lemma exact_add a b (x y : b64) : fin x -> fin y -> val x = INR a -> val y = INR b -> (a + b <= 2 ^ 53)%nat -> fin (nadd x y) /\ val (nadd x y) = INR (a + b).
Proof. exact (IEEELegendre.exact_add m a b x y). Qed.
Lemma exact_mul a b (x y : b64) : fin x -> fin y -> val x = INR a -> val y = INR b -> (a * b <= 2 ^ 53)%nat -> fin (nmul x y) /\ val (nmul x y) = INR (a * b).
Proof. exact (IEEELegendre.exact_mul m a b x y). Qed.
Lemma mul64 (x y : b64) : fin x -> fin y -> bnd big (val x * val y) -> fin (nmul x y) /\ exists q, rat 1 q /\ val (nmul x y) = val x * val y * q.
Proof. exact (IEEELagrange.mul64 m x y). Qed.
Lemma div64 (x y : b64) : fin x -> val y <> 0 -> bnd big (val x / val y) -> fin (ndiv x y) /\ exists q, rat 1 q /\ val (ndiv x y) = val x / val y * q.
Proof. exact (IEEELagrange.div64 m x y). Qed.
Lemma addr (x y : b64) B : fin x -> fin y -> Rabs (val x) + Rabs (val y) <= B -> B <= 16 * big ->
  fin (nadd x y) /\ exists d, Rabs d <= uu /\ val (nadd x y) = (val x + val y) * (1 + d).
Proof. exact (IEEEDeriv.addr m x y B). Qed.
Lemma subr (x y : b64) B : fin x -> fin y -> Rabs (val x) + Rabs (val y) <= B -> B <= 16 * big ->
  fin (nsub x y) /\ exists d, Rabs d <= uu /\ val (nsub x y) = (val x - val y) * (1 + d).
Proof. exact (IEEEDeriv.subr m x y B). Qed.
Variable K : nat.
Hypothesis HK : dmat_error K <= / 16.

Lemma K_bound i : (i <= K)%nat -> INR i <= 2 ^ 49.
Proof.
  intros Hi. apply le_INR in Hi. pose proof (de_pos K) as (_ & _ & P). pose proof uu_pos.
  assert (E : uu = / 2 ^ 53) by reflexivity. assert (INR K * 3 * uu <= / 16) by lra.
  assert (E2 : 2 ^ 49 * 16 * uu = 1) by (rewrite E; lra). assert (INR K <= 2 ^ 49); [|lra].
  apply Rmult_le_reg_r with (16 * uu); lra.
Qed.
Lemma K53 i : (i <= K)%nat -> (2 * i + 3 <= 2 ^ 53)%nat.
Proof.
  intros Hi. apply n53. pose proof (K_bound i Hi). rewrite plus_INR, mult_INR. cbn [INR]. lra.
Qed.

(** numerators and denominators are exact *)
Lemma odd64 i : (i <= K)%nat -> fin (nadd (nmul c2 (nofnat i)) n1) /\ val (nadd (nmul c2 (nofnat i)) n1) = 2 * INR i + 1.
Proof.
  intros Hi. pose proof (K53 i Hi) as H. destruct (nofnat64 i ltac:(lia)) as (Fi & Vi). destruct two64 as (F2 & V2). destruct one64 as (F1 & V1).
  destruct (exact_mul 2 i c2 (nofnat i) F2 Fi) as (Fm & Vm); [rewrite V2; cbn; lra|exact Vi|lia|].
  destruct (exact_add (2 * i) 1 (nmul c2 (nofnat i)) n1 Fm F1 Vm) as (Fa & Va); [rewrite V1; reflexivity|lia|].
  split; [exact Fa|]. eapply eq_trans; [exact Va|]. rewrite plus_INR, mult_INR. cbn [INR]. ring.
Qed.
Lemma frac_range a b : 1 <= a <= 2 ^ 50 -> 1 <= b <= 2 ^ 51 -> bnd big (a / b).
Proof.
  intros Ha Hb. apply bndq. assert (0 < / b) by (apply Rinv_0_lt_compat; lra). assert (Ib : / 2 ^ 51 <= / b <= 1) by (split; [apply Rinv_le_contravar; lra|rewrite <- Rinv_1; apply Rinv_le_contravar; lra]).
  assert (L51 : / 2 ^ 100 <= / 2 ^ 51) by (apply Rinv_le_contravar; [apply pow_lt; lra|apply pow_lit; lia]). assert (P51 : 2 ^ 50 <= 2 ^ 100) by (apply pow_lit; lia).
  unfold Rdiv. split.
  - apply Rle_trans with (1 * / b); [lra|]. apply Rmult_le_compat_r; lra.
  - apply Rle_trans with (2 ^ 50 * 1); [apply Rmult_le_compat; lra|lra].
Qed.
Lemma alpha64 i : (i < K)%nat -> fin (leg_alpha i) /\ exists q, rat 1 q /\ val (leg_alpha i) = (INR i + 1) / (2 * INR i + 1) * q.
Proof.
  intros Hi. pose proof (K53 i ltac:(lia)) as H. destruct (nofnat64 i ltac:(lia)) as (Fi & Vi). destruct one64 as (F1 & V1). destruct (odd64 i ltac:(lia)) as (Fo & Vo).
  destruct (exact_add i 1 (nofnat i) n1 Fi F1 Vi) as (Fa & Va); [rewrite V1; reflexivity|lia|]. rewrite plus_INR in Va. cbn [INR] in Va.
  pose proof (K_bound i ltac:(lia)) as KB. pose proof (pos_INR i).
  assert (FF : 1 <= 2 ^ 49) by lra.
  destruct (div64 (nadd (nofnat i) n1) (nadd (nmul c2 (nofnat i)) n1) Fa) as (Fd & q & Rq & Vq).
  - change (val (nadd (nmul c2 (nofnat i)) n1) <> 0). rewrite Vo. lra.
  - change (bnd big (val (nadd (nofnat i) n1) / val (nadd (nmul c2 (nofnat i)) n1))). rewrite Vo. assert (Va' : val (nadd (nofnat i) n1) = INR i + 1) by exact Va. rewrite Va'. apply frac_range; lra.
  - split; [exact Fd|]. exists q. split; [exact Rq|]. change (val (ndiv (nadd (nofnat i) n1) (nadd (nmul c2 (nofnat i)) n1)) = (INR i + 1) / (2 * INR i + 1) * q).
    assert (Va' : val (nadd (nofnat i) n1) = INR i + 1) by exact Va. rewrite <- Vo, <- Va'. exact Vq.
Qed.
Lemma gamma64 i : (1 <= i <= K)%nat -> fin (leg_gamma i) /\ exists q, rat 1 q /\ val (leg_gamma i) = INR i / (2 * INR i + 1) * q.
Proof.
  intros Hi. pose proof (K53 i ltac:(lia)) as H. destruct (nofnat64 i ltac:(lia)) as (Fi & Vi). destruct (odd64 i ltac:(lia)) as (Fo & Vo).
  pose proof (K_bound i ltac:(lia)) as KB. assert (I1 : 1 <= INR i) by (apply (le_INR 1); lia).
  assert (Vi' : val (nofnat i) = INR i) by exact Vi.
  destruct (div64 (nofnat i) (nadd (nmul c2 (nofnat i)) n1) Fi) as (Fd & q & Rq & Vq).
  - change (val (nadd (nmul c2 (nofnat i)) n1) <> 0). rewrite Vo. lra.
  - change (bnd big (val (nofnat i) / val (nadd (nmul c2 (nofnat i)) n1))). rewrite Vo, Vi'. apply frac_range; lra.
  - split; [exact Fd|]. exists q. split; [exact Rq|]. change (val (ndiv (nofnat i) (nadd (nmul c2 (nofnat i)) n1)) = INR i / (2 * INR i + 1) * q).
    rewrite <- Vo, <- Vi' at 1. exact Vq.
Qed.
Lemma add0 (x y : b64) : fin x -> fin y -> val x = 0 -> fin (nadd x y) /\ val (nadd x y) = val y.
Proof.
  intros Fx Fy Zx. assert (E : rnd (val x + val y) = val y) by (rewrite Zx, Rplus_0_l; apply rnd_fmt, val_fmt).
  destruct (add_ok x y Fx Fy) as (Fa & Va); [rewrite E; unfold val; apply (abs_B2R_lt_emax 53 1024)|]. split; [exact Fa|]. rewrite E in Va. exact Va.
Qed.
Lemma sub00 (x y : b64) : fin x -> fin y -> val x = 0 -> val y = 0 -> fin (nsub x y) /\ val (nsub x y) = 0.
Proof.
  intros Fx Fy Zx Zy. assert (E : rnd (val x - val y) = 0) by (rewrite Zx, Zy, Rminus_0_r; apply rnd_fmt, generic_format_0).
  destruct (sub_ok x y Fx Fy) as (Fa & Va); [rewrite E, Rabs_R0; apply omax_pos|]. split; [exact Fa|]. rewrite E in Va. exact Va.
Qed.

(** entry (i, j): exactly zero where it should be, otherwise 2 j + 1 up to the factor q *)
Definition entry_ok (i j : nat) : Prop := fin (gD i j) /\ exists q, nr (1 + dmat_error i) q /\ val (gD i j) = Dent i j * q.
Lemma zero64 : fin (n0 : b64) /\ val (n0 : b64) = 0. Proof. split; reflexivity. Qed.

Lemma prod64 (x y : b64) a qa b qb r s : fin x -> fin y -> val x = a * qa -> val y = b * qb -> nr r qa -> nr s qb -> r <= 5 / 4 -> s <= 5 / 4 ->
  / 4 <= a <= 2 ^ 50 -> / 4 <= b <= 2 ^ 50 -> fin (nmul x y) /\ exists q, nr (r * s * bt) q /\ val (nmul x y) = a * b * q.
Proof.
  intros Fx Fy Vx Vy Na Nb Hr Hs Ha Hb. pose proof (nr_between _ _ Na) as Qa. pose proof (nr_between _ _ Nb) as Qb.
  assert (R0 : / 16 <= a * qa <= 2 ^ 51) by (split; [apply Rle_trans with (/ 4 * (3 / 4)); [lra|apply Rmult_le_compat; lra]|apply Rle_trans with (2 ^ 50 * (5 / 4)); [apply Rmult_le_compat; lra|lra]]).
  assert (R1 : / 16 <= b * qb <= 2 ^ 51) by (split; [apply Rle_trans with (/ 4 * (3 / 4)); [lra|apply Rmult_le_compat; lra]|apply Rle_trans with (2 ^ 50 * (5 / 4)); [apply Rmult_le_compat; lra|lra]]).
  pose proof low100 as L. assert (P102 : 2 ^ 51 * 2 ^ 51 <= 2 ^ 102) by lra.
  destruct (mul64 x y Fx Fy) as (Fm & q & Rq & Vq).
  - rewrite Vx, Vy. assert (P : / 256 <= a * qa * (b * qb) <= 2 ^ 102) by (split; [apply Rle_trans with (/ 16 * / 16); [lra|apply Rmult_le_compat; lra]|eapply Rle_trans; [apply Rmult_le_compat|]; try exact P102; lra]).
    assert (BB : 2 ^ 102 <= big) by (apply pow_lit; lia). unfold bnd. rewrite Rabs_pos_eq by lra. split; [|lra]. apply Rle_trans with (/ 2 ^ 102); [apply Rinv_le_contravar; [apply pow_lt; lra|exact BB]|]. lra.
  - split; [exact Fm|]. exists (qa * qb * q). split; [apply nr_mul; [apply nr_mul; auto|]; rewrite <- (pow_1 bt); apply nr_rat; auto|]. eapply eq_trans; [exact Vq|]. rewrite Vx, Vy. ring.
Qed.

Lemma bt_k k e : (k <= 10)%nat -> e = INR k + 1 -> bt ^ k <= 1 + e * uu. Proof. apply bt_small. Qed.
Lemma nr_1E i q : nr (1 + dmat_error i) q -> Rabs (q - 1) <= dmat_error i. Proof. unfold nr. lra. Qed.
Lemma inv_alpha64 i : (i < K)%nat -> fin (ndiv n1 (leg_alpha i)) /\ exists q, rat 2 q /\ val (ndiv n1 (leg_alpha i)) = (2 * INR i + 1) / (INR i + 1) * q.
Proof.
  intros Hi. destruct (alpha64 i Hi) as (Fa & q & Rq & Va). destruct one64 as (F1 & V1). pose proof (rat_pos _ _ Rq) as Pq. pose proof (pos_INR i).
  pose proof (nr_between _ _ (nr_rat _ _ Rq)) as Bq. pose proof (bt_small 1 2 ltac:(lia) ltac:(cbn; lra)) as B1. pose proof uu_small. pose proof uu_pos.
  assert (Ap : / 2 <= (INR i + 1) / (2 * INR i + 1) <= 1) by (split; [apply Rle_div_r; lra|apply Rle_div_l; lra]).
  assert (Av : / 4 <= val (leg_alpha i) <= 2). { rewrite Va. split; [apply Rle_trans with (/ 2 * / 2); [lra|apply Rmult_le_compat; lra]|apply Rle_trans with (1 * 2); [apply Rmult_le_compat; lra|lra]]. }
  destruct (div64 n1 (leg_alpha i) F1) as (Fd & r & Rr & Vr); [lra| |].
  { rewrite V1. apply bndq. pose proof low100. assert (/ 2 <= / val (leg_alpha i) <= 4). { split; [apply Rinv_le_contravar; lra|]. rewrite <- (Rinv_inv 4). apply Rinv_le_contravar; lra. }
    assert (4 <= 2 ^ 100) by (apply Rle_trans with (2 ^ 2); [lra|apply pow_lit; lia]). unfold Rdiv. lra. }
  split; [exact Fd|]. exists (/ q * r). split; [apply (rat_mul 1 1); auto; apply rat_inv; auto|]. rewrite Vr, V1, Va. field. repeat split; lra.
Qed.
Lemma diag64 j : (j < K)%nat -> entry_ok (j + 1) j.
Proof.
  intros Hj. destruct (alpha64 j Hj) as (Fa & q & Rq & Va). pose proof (K53 (j + 1) ltac:(lia)) as H53. destruct (nofnat64 (j + 1) ltac:(lia)) as (Fi & Vi).
  pose proof (rat_pos _ _ Rq) as Pq. pose proof (pos_INR j). pose proof (K_bound j ltac:(lia)) as KB.
  pose proof (nr_between _ _ (nr_rat _ _ Rq)) as Bq. pose proof (bt_small 1 2 ltac:(lia) ltac:(cbn; lra)) as B1. pose proof uu_small. pose proof uu_pos.
  assert (Vi' : val (nofnat (j + 1)) = INR j + 1) by (eapply eq_trans; [exact Vi|]; rewrite plus_INR; reflexivity).
  assert (Aq : (INR j + 1) / ((INR j + 1) / (2 * INR j + 1) * q) = (2 * INR j + 1) * / q) by (field; repeat split; lra).
  assert (Iq : / 2 <= / q <= 2). { split; [apply Rinv_le_contravar; lra|]. rewrite <- (Rinv_inv 2). apply Rinv_le_contravar; lra. }
  assert (NZ : val (leg_alpha j) <> 0). { rewrite Va. apply Rmult_integral_contrapositive_currified; [|lra]. unfold Rdiv. apply Rmult_integral_contrapositive_currified; [lra|]. apply Rinv_neq_0_compat; lra. }
  destruct (div64 (nofnat (j + 1)) (leg_alpha j) Fi NZ) as (Fd & r & Rr & Vr).
  { rewrite Vi', Va, Aq. apply bndq. pose proof low100. assert (2 ^ 52 <= 2 ^ 100) by (apply pow_lit; lia). split.
    - apply Rle_trans with (1 * / 2); [lra|apply Rmult_le_compat; lra].
    - apply Rle_trans with (2 ^ 51 * 2); [apply Rmult_le_compat; lra|lra]. }
  unfold entry_ok. rewrite gD_diag. split; [exact Fd|]. exists (/ q * r). split.
  - assert (R2 : rat 2 (/ q * r)) by (apply (rat_mul 1 1); auto; apply rat_inv; auto). eapply nr_le; [|apply nr_rat; exact R2].
    pose proof (bt_small 2 3 ltac:(lia) ltac:(cbn; lra)). pose proof (de_le 1 (j + 1) ltac:(lia)) as D1. rewrite de_1 in D1. lra.
  - rewrite Vr, Vi', Va, Aq. rewrite (Dent_diff (j + 1) j 1) by lia. cbn [Nat.odd]. change (Nat.odd 1) with true. cbv iota. ring.
Qed.

Lemma zmul (x y : b64) : fin x -> fin y -> val y = 0 -> fin (nmul x y) /\ val (nmul x y) = 0.
Proof.
  intros Fx Fy Z. assert (E : rnd (val x * val y) = 0) by (rewrite Z, Rmult_0_r; apply rnd_fmt, generic_format_0).
  destruct (mul_ok x y Fx Fy) as (Fa & Va); [rewrite E, Rabs_R0; apply omax_pos|]. split; [exact Fa|]. rewrite E in Va. exact Va.
Qed.

Lemma row64 p j : (j + p + 2 <= K)%nat -> (forall i, (i < j + p + 2)%nat -> forall j', entry_ok i j') -> entry_ok (j + p + 2) j.
Proof.
  intros Hi IH. unfold entry_ok. rewrite gD_rec. rewrite (Dent_diff (j + p + 2) j (S (S p))) by lia. rewrite Nat.odd_succ_succ.
  set (i := (j + p + 2)%nat) in *.
  destruct (inv_alpha64 (j + p + 1) ltac:(lia)) as (Fe & qe & Re & Ve).
  destruct (gamma64 (j + 1) ltac:(lia)) as (Fg & qg & Rg & Vg). destruct (gamma64 (j + p + 1) ltac:(lia)) as (Fh & qh & Rh & Vh).
  destruct (IH (j + p + 1)%nat ltac:(lia) (j + 1)%nat) as (Fy & qy & Ny & Vy). destruct (IH (j + p)%nat ltac:(lia) j) as (Fz & qz & Nz & Vz).
  rewrite (Dent_diff (j + p + 1) (j + 1) p) in Vy by lia. rewrite (Dent_diff (j + p) j p) in Vz by lia.
  destruct zero64 as (F0 & V0).
  destruct (Nat.odd p) eqn:Op.
  2:{ (* all terms vanish *)
    rewrite Rmult_0_l in Vy, Vz.
    assert (X : fin (if Nat.leb 1 j then nmul (leg_alpha (j - 1)) (gD (j + p + 1) (j - 1)) else n0) /\ val (if Nat.leb 1 j then nmul (leg_alpha (j - 1)) (gD (j + p + 1) (j - 1)) else n0) = 0).
    { destruct (Nat.leb_spec 1 j) as [Hj|Hj]; [|exact zero64]. destruct (alpha64 (j - 1) ltac:(lia)) as (Fa & _). destruct (IH (j + p + 1)%nat ltac:(lia) (j - 1)%nat) as (Fx & qx & _ & Vx).
      rewrite (Dent_diff (j + p + 1) (j - 1) (S (S p))) in Vx by lia. rewrite Nat.odd_succ_succ, Op, Rmult_0_l in Vx. apply zmul; auto. }
    destruct X as (FX & VX). destruct (add0 n0 _ F0 FX V0) as (FX' & VX'). rewrite VX in VX'.
    destruct (zmul _ _ Fg Fy Vy) as (FY & VY). destruct (zmul _ _ Fh Fz Vz) as (FZ & VZ).
    destruct (add0 _ _ FX' FY VX') as (FS & VS). rewrite VY in VS. destruct (sub00 _ _ FS FZ VS VZ) as (FD & VD). destruct (zmul _ _ Fe FD VD) as (FR & VR).
    split; [exact FR|]. exists 1. split; [apply nr_1; pose proof (de_pos i); lra|]. rewrite Rmult_0_l. exact VR. }
  set (E1 := dmat_error (j + p + 1)) in *. set (E2 := dmat_error (j + p)) in *.
  pose proof uu_pos as U0. pose proof uu_small as US.
  assert (EE : dmat_error i = 2 * E1 + E2 + 26 * uu). { unfold i, E1, E2. replace (j + p + 2)%nat with (S (S (j + p))) by lia. rewrite de_S. replace (j + p + 1)%nat with (S (j + p)) by lia. reflexivity. }
  assert (EK : dmat_error i <= / 16) by (eapply Rle_trans; [apply (de_le i K); lia|exact HK]).
  assert (P1 : 0 <= E1) by apply de_pos. assert (P2 : 0 <= E2) by apply de_pos.
  pose proof (bt_small 1 2 ltac:(lia) ltac:(cbn; lra)) as B1. pose proof (bt_small 2 3 ltac:(lia) ltac:(cbn; lra)) as B2. pose proof (bt_small 3 4 ltac:(lia) ltac:(cbn; lra)) as B3. pose proof (bt_small 4 5 ltac:(lia) ltac:(cbn; lra)) as B4.
  rewrite pow_1 in B1. pose proof bt_ge1 as BG.
  pose proof (pos_INR j) as J0. pose proof (pos_INR p) as Q0. assert (IB : INR j + INR p + 2 <= 2 ^ 49). { pose proof (K_bound i Hi) as X. unfold i in X. rewrite !plus_INR in X. cbn [INR] in X. lra. }
  (* third term *)
  assert (J1 : INR (j + 1) = INR j + 1) by (rewrite plus_INR; reflexivity). rewrite J1 in Vg, Vy.
  assert (JP : INR (j + p + 1) = INR j + INR p + 1) by (rewrite !plus_INR; reflexivity). rewrite JP in Vh, Ve.
  assert (fr : forall a b, 0 < b -> b <= 4 * a -> a <= b -> / 4 <= a / b <= 2 ^ 50). { intros a b Hb A1 A2. split; [apply Rle_div_r; lra|apply Rle_div_l; lra]. }
  destruct (prod64 _ _ _ qg _ qy bt (1 + E1) Fg Fy Vg Vy) as (FY & qY & NY & VY); [rewrite <- (pow_1 bt); apply nr_rat; auto|exact Ny|lra|lra|apply fr; lra|lra|].
  destruct (prod64 _ _ _ qh _ qz bt (1 + E2) Fh Fz Vh Vz) as (FZ & qZ & NZ & VZ); [rewrite <- (pow_1 bt); apply nr_rat; auto|exact Nz|lra|lra|apply fr; lra|lra|].
  replace ((INR j + 1) / (2 * (INR j + 1) + 1) * (2 * (INR j + 1) + 1)) with (INR j + 1) in VY by (field; lra).
  set (w := (INR j + INR p + 1) / (2 * (INR j + INR p + 1) + 1)) in *.
  assert (Hw : / 4 <= w <= / 2) by (unfold w; split; [apply Rle_div_r; lra|apply Rle_div_l; lra]).
  set (FA := bt * (1 + E1) * bt) in *. set (FB := bt * (1 + E2) * bt) in *.
  assert (FA1 : FA = bt ^ 2 * (1 + E1)) by (unfold FA; ring). assert (FB1 : FB = bt ^ 2 * (1 + E2)) by (unfold FB; ring).
  assert (BA : 1 <= FA). { eapply nr_ge; exact NY. }
  (* second term *)
  assert (X : fin (if Nat.leb 1 j then nmul (leg_alpha (j - 1)) (gD (j + p + 1) (j - 1)) else n0) /\
    exists qX, nr FA qX /\ val (if Nat.leb 1 j then nmul (leg_alpha (j - 1)) (gD (j + p + 1) (j - 1)) else n0) = INR j * qX).
  { destruct (Nat.leb_spec 1 j) as [Hj|Hj].
    - destruct (alpha64 (j - 1) ltac:(lia)) as (Fa & qa & Ra & Va). destruct (IH (j + p + 1)%nat ltac:(lia) (j - 1)%nat) as (Fx & qx & Nx & Vx).
      rewrite (Dent_diff (j + p + 1) (j - 1) (S (S p))) in Vx by lia. rewrite Nat.odd_succ_succ, Op in Vx.
      assert (JM : INR (j - 1) = INR j - 1) by (rewrite minus_INR by lia; reflexivity). rewrite JM in Va, Vx. assert (J1' : 1 <= INR j) by (apply (le_INR 1); auto).
      destruct (prod64 _ _ _ qa _ qx bt (1 + E1) Fa Fx Va Vx) as (FX & qX & NX & VX); [rewrite <- (pow_1 bt); apply nr_rat; auto|exact Nx|lra|lra|apply fr; lra|lra|].
      split; [exact FX|]. exists qX. split; [exact NX|]. eapply eq_trans; [exact VX|]. field. lra.
    - split; [exact F0|]. exists 1. split; [apply nr_1; auto|]. replace j with 0%nat by lia. cbn [INR]. rewrite Rmult_0_l. exact V0. }
  destruct X as (FX & qX & NX & VX). destruct (add0 n0 _ F0 FX V0) as (FX' & VX'). rewrite VX in VX'.
  set (X := nadd n0 _) in *. set (Y := nmul (leg_gamma (j + 1)) _) in *. set (Z := nmul (leg_gamma (j + p + 1)) _) in *.
  assert (BA2 : FA <= 5 / 4). { rewrite FA1. apply Rle_trans with ((1 + 3 * uu) * (17 / 16)); [apply Rmult_le_compat; try lra; apply Rlt_le, bt_pos|lra]. }
  assert (BB2 : FB <= 5 / 4). { rewrite FB1. apply Rle_trans with ((1 + 3 * uu) * (17 / 16)); [apply Rmult_le_compat; try lra; apply Rlt_le, bt_pos|lra]. }
  pose proof (nr_between _ _ NX) as QX. pose proof (nr_between _ _ NY) as QY. pose proof (nr_between _ _ NZ) as QZ.
  (* sum *)
  assert (SX : 0 <= INR j * qX <= INR j * (5 / 4)) by (split; [apply Rmult_le_pos; lra|apply Rmult_le_compat_l; lra]).
  assert (SY : 0 <= (INR j + 1) * qY <= (INR j + 1) * (5 / 4)) by (split; [apply Rmult_le_pos; lra|apply Rmult_le_compat_l; lra]).
  assert (BIG : 2 ^ 60 <= big) by (apply pow_lit; lia).
  destruct (addr X Y big FX' FY) as (FS & d & Dd & VS); [rewrite VX', VY, !Rabs_pos_eq; lra|lra|].
  set (S1 := nadd X Y) in *. set (s2 := 2 * INR j + 1).
  assert (A : exists qA, nr FA qA /\ INR j * qX + (INR j + 1) * qY = s2 * qA).
  { exists ((INR j * qX + (INR j + 1) * qY) / s2). split; [|unfold s2; field; lra]. unfold nr.
    replace ((INR j * qX + (INR j + 1) * qY) / s2 - 1) with ((INR j * (qX - 1) + (INR j + 1) * (qY - 1)) / s2) by (unfold s2; field; lra).
    unfold Rdiv. rewrite Rabs_mult, Rabs_inv, (Rabs_pos_eq s2) by (unfold s2; lra). apply Rle_div_l; [unfold s2; lra|].
    eapply Rle_trans; [apply Rabs_triang|]. rewrite !Rabs_mult, (Rabs_pos_eq (INR j)), (Rabs_pos_eq (INR j + 1)) by lra. unfold nr in NX, NY. unfold s2.
    assert (INR j * Rabs (qX - 1) <= INR j * (FA - 1)) by (apply Rmult_le_compat_l; auto). assert ((INR j + 1) * Rabs (qY - 1) <= (INR j + 1) * (FA - 1)) by (apply Rmult_le_compat_l; auto; lra). lra. }
  destruct A as (qA & NA & EA). rewrite VX', VY, EA in VS.
  assert (s2b : 1 <= s2 <= 2 ^ 50) by (unfold s2; lra).
  pose proof (nr_between _ _ NA) as QA. assert (Dd' : -uu <= d <= uu) by (apply Rabs_le_between; auto).
  assert (SS : 0 <= s2 * qA * (1 + d) <= 2 ^ 52). { split; [apply Rmult_le_pos; [apply Rmult_le_pos|]; lra|]. apply Rle_trans with (2 ^ 50 * (5 / 4) * 2); [|lra]. apply Rmult_le_compat; try lra; first [apply Rmult_le_pos; lra|apply Rmult_le_compat; lra]. }
  assert (SZ : 0 <= w * s2 * qZ <= 2 ^ 51). { split; [apply Rmult_le_pos; [apply Rmult_le_pos|]; lra|]. apply Rle_trans with (/ 2 * 2 ^ 50 * (5 / 4)); [|lra]. apply Rmult_le_compat; try lra; first [apply Rmult_le_pos; lra|apply Rmult_le_compat; lra]. }
  destruct (subr S1 Z big FS FZ) as (FD & d' & Dd2 & VD); [rewrite VS, VZ; fold s2; rewrite !Rabs_pos_eq; lra|lra|].
  set (D1 := nsub S1 Z) in *. rewrite VS, VZ in VD. fold s2 in VD.
  assert (Dd2' : -uu <= d' <= uu) by (apply Rabs_le_between; auto).
  (* what the difference is *)
  set (i0 := INR j + INR p + 2) in *. assert (Ei : w = (i0 - 1) / (2 * i0 - 1)) by (unfold w, i0; field; unfold i0; lra). assert (I2 : 2 <= i0) by (unfold i0; lra).
  set (gA := qA * ((1 + d) * (1 + d'))). set (gB := qZ * (1 + d')).
  assert (nd : nr (bt * bt) ((1 + d) * (1 + d'))) by (apply nr_mul; rewrite <- (pow_1 bt); apply nr_rat, rat_1; auto).
  assert (nd' : nr bt (1 + d')) by (rewrite <- (pow_1 bt); apply nr_rat, rat_1; auto).
  pose proof (nr_mul _ _ _ _ NA nd) as NGA. pose proof (nr_mul _ _ _ _ NZ nd') as NGB. fold gA in NGA. fold gB in NGB.
  set (sE := 1 + (2 * E1 + E2 + 17 * uu)).
  assert (GA : FA * (bt * bt) - 1 <= E1 + 6 * uu). { replace (FA * (bt * bt)) with (bt ^ 4 * (1 + E1)) by (rewrite FA1; ring). assert (bt ^ 4 * (1 + E1) <= (1 + 5 * uu) * (1 + E1)) by (apply Rmult_le_compat_r; lra). assert (uu * E1 <= uu * / 16) by (apply Rmult_le_compat_l; lra). lra. }
  assert (GB : FB * bt - 1 <= E2 + 5 * uu). { replace (FB * bt) with (bt ^ 3 * (1 + E2)) by (rewrite FB1; ring). assert (bt ^ 3 * (1 + E2) <= (1 + 4 * uu) * (1 + E2)) by (apply Rmult_le_compat_r; lra). assert (uu * E2 <= uu * / 16) by (apply Rmult_le_compat_l; lra). lra. }
  assert (ND : exists qD, nr sE qD /\ val D1 = s2 * (i0 / (2 * i0 - 1)) * qD).
  { exists ((2 * i0 - 1) / i0 * gA - (i0 - 1) / i0 * gB). split.
    - unfold nr. replace ((2 * i0 - 1) / i0 * gA - (i0 - 1) / i0 * gB - 1) with ((2 * i0 - 1) / i0 * (gA - 1) - (i0 - 1) / i0 * (gB - 1)) by (field; lra).
      assert (C1 : 0 <= (2 * i0 - 1) / i0 <= 2) by (split; [apply Rmult_le_pos; [lra|apply Rlt_le, Rinv_0_lt_compat; lra]|apply Rle_div_l; lra]).
      assert (C2 : 0 <= (i0 - 1) / i0 <= 1) by (split; [apply Rmult_le_pos; [lra|apply Rlt_le, Rinv_0_lt_compat; lra]|apply Rle_div_l; lra]).
      unfold Rminus at 1. eapply Rle_trans; [apply Rabs_triang|]. rewrite Rabs_Ropp, !Rabs_mult, (Rabs_pos_eq _ (proj1 C1)), (Rabs_pos_eq _ (proj1 C2)).
      unfold nr in NGA, NGB. assert ((2 * i0 - 1) / i0 * Rabs (gA - 1) <= 2 * (E1 + 6 * uu)) by (apply Rmult_le_compat; try apply Rabs_pos; lra).
      assert ((i0 - 1) / i0 * Rabs (gB - 1) <= 1 * (E2 + 5 * uu)) by (apply Rmult_le_compat; try apply Rabs_pos; lra). unfold sE. lra.
    - rewrite VD, Ei. unfold gA, gB. field. lra. }
  destruct ND as (qD & ND & VD').
  assert (Ei2 : (2 * (INR j + INR p + 1) + 1) / (INR j + INR p + 1 + 1) = (2 * i0 - 1) / i0) by (unfold i0; f_equal; ring). rewrite Ei2 in Ve.
  assert (G1 : / 2 <= i0 / (2 * i0 - 1) <= 1) by (split; [apply Rle_div_r; lra|apply Rle_div_l; lra]).
  destruct (prod64 _ _ _ qe _ qD (bt ^ 2) sE Fe FD Ve VD') as (FR & qR & NR & VR); [apply nr_rat; auto|exact ND|lra|unfold sE; lra| | |].
  { split; [apply Rle_div_r; lra|apply Rle_div_l; lra]. }
  { split; [apply Rle_trans with (1 * / 2); [lra|apply Rmult_le_compat; lra]|apply Rle_trans with (2 ^ 50 * 1); [apply Rmult_le_compat; lra|lra]]. }
  split; [exact FR|]. exists qR. split.
  - eapply nr_le; [|exact NR]. replace (bt ^ 2 * sE * bt) with (bt ^ 3 * sE) by ring. rewrite EE.
    assert (bt ^ 3 * sE <= (1 + 4 * uu) * sE) by (apply Rmult_le_compat_r; [unfold sE; lra|lra]). unfold sE in *. assert (uu * (2 * E1 + E2 + 17 * uu) <= uu * / 16) by (apply Rmult_le_compat_l; lra). lra.
  - eapply eq_trans; [exact VR|]. fold s2. field. lra.
Qed.
Lemma entry64 i j : (i <= K)%nat -> entry_ok i j.
Proof.
  revert j. induction i as [i IH] using (well_founded_induction lt_wf). intros j Hi. destruct (Nat.le_gt_cases i j) as [H|H].
  { unfold entry_ok. rewrite gD_hi by auto. split; [apply zero64|]. exists 1. split; [apply nr_1; pose proof (de_pos i); lra|]. rewrite Dent_hi by auto. rewrite Rmult_0_l. apply zero64. }
  destruct (Nat.eq_dec i (j + 1)) as [->|H1]; [apply diag64; lia|].
  assert (exists p, i = (j + p + 2)%nat) as (p & ->) by (exists (i - j - 2)%nat; lia). apply row64; [auto|]. intros i' Hi' j'. apply IH; lia.
Qed.
End D.
