(** Derivatives of the exponential-trigonometric basis in binary64. *)
From Coquelicot Require Import Coquelicot.
From Coq Require Import ZArith Reals Lra Lia List Arith Bool.
From Flocq Require Import Core BinarySingleNaN.
From Verif Require Import Num Outcome LinAlg RSum LegendreModel Basis0101Spec Basis0101Math Basis0101Model Basis0101Proofs
  IEEEModel IEEESpec IEEEProofs IEEEHorner IEEELegendre IEEESpline IEEEProps2 IEEELagrange IEEEFunSpec IEEEFunProofs IEEEFunProofs2 IEEEFunProofs3 IEEE01Spec IEEE01 IEEE01Entry.
Local Open Scope R_scope.

Lemma fD_bound d : forall i p, (i < 6)%nat -> Rabs (fD d i p) <= 2 ^ d * exp (Rabs p).
Proof.
  induction d as [|d IH]; intros i p Hi.
  - cbn [fD pow]. rewrite Rmult_1_l. destruct (exp_abs p) as (A1 & A2 & A3). pose proof (Rabs_pos p). pose proof (COS_bound p) as CB. pose proof (SIN_bound p) as SB.
    assert (M : forall e c, 0 <= e <= exp (Rabs p) -> -1 <= c <= 1 -> Rabs (e * c) <= exp (Rabs p)).
    { intros e c He Hc. rewrite Rabs_mult, (Rabs_right e) by lra. rewrite <- (Rmult_1_r (exp (Rabs p))). apply Rmult_le_compat; try lra; [apply Rabs_pos|apply Rabs_le; lra]. }
    pose proof (exp_pos p). pose proof (exp_pos (- p)).
    destruct i as [|[|[|[|[|[|i]]]]]]; try lia; cbn [b01f]; try (apply M; lra). + lra. + rewrite Rabs_R1. lra.
  - pose proof (IH 0%nat p ltac:(lia)). pose proof (IH 1%nat p ltac:(lia)). pose proof (IH 2%nat p ltac:(lia)). pose proof (IH 3%nat p ltac:(lia)). pose proof (IH 5%nat p ltac:(lia)).
    cbn [pow]. set (B := 2 ^ d * exp (Rabs p)) in *. assert (0 <= B) by (unfold B; apply Rmult_le_pos; [apply pow_le; lra|apply Rlt_le, exp_pos]). replace (2 * 2 ^ d * exp (Rabs p)) with (2 * B) by (unfold B; ring).
    destruct i as [|[|[|[|[|[|i]]]]]]; try lia; cbn [fD].
    + pose proof (Rabs_triang (fD d 0 p) (- fD d 1 p)) as T. rewrite Rabs_Ropp in T. unfold Rminus. lra.
    + pose proof (Rabs_triang (fD d 0 p) (fD d 1 p)) as T. lra.
    + pose proof (Rabs_triang (- fD d 2 p) (- fD d 3 p)) as T. rewrite !Rabs_Ropp in T. unfold Rminus. lra.
    + pose proof (Rabs_triang (fD d 2 p) (- fD d 3 p)) as T. rewrite Rabs_Ropp in T. unfold Rminus. lra.
    + lra.
    + rewrite Rabs_R0. lra.
Qed.
(** one step: g is a rounded sum of two entries, multiplied by a (1 + th) and rounded *)
Lemma step_err M r g G a q : 0 < M -> 0 < a -> 0 <= r <= / 100000 -> Rabs (q - 1) <= 13 * uu -> Rabs G <= 2 * M -> Rabs (g - G) <= 2 * M * (r + uu * (1 + r)) ->
  / 2 ^ 900 <= 2 * a * M <= 2 ^ 900 ->
  Rabs (g * (a * q)) <= big /\ Rabs (rnd (g * (a * q)) - G * a) <= 2 * a * M * (r + 16 * uu).
Proof.
  intros HM Pa Hr Hq HG Hg HB. pose proof uu_pos as U. pose proof uu_15 as U1. assert (P9 : 0 < / 2 ^ 900) by (apply Rinv_0_lt_compat, pow_lt; lra).
  set (t := r + uu * (1 + r)) in *. assert (Ht : 0 <= t <= r + uu * (1 + / 100000)). { unfold t. split; [apply Rplus_le_le_0_compat; [lra|apply Rmult_le_pos; lra]|]. assert (uu * (1 + r) <= uu * (1 + / 100000)) by (apply Rmult_le_compat_l; lra). lra. }
  assert (Q : Rabs q <= 1 + 13 * uu). { replace q with (1 + (q - 1)) by ring. eapply Rle_trans; [apply Rabs_triang|]. rewrite Rabs_R1. lra. }
  assert (Gg : Rabs g <= 2 * M * (1 + t)). { replace g with (G + (g - G)) by ring. eapply Rle_trans; [apply Rabs_triang|]. lra. }
  assert (E1 : Rabs (g * (a * q)) <= 2 * a * M * ((1 + t) * (1 + 13 * uu))).
  { rewrite !Rabs_mult, (Rabs_right a) by lra. replace (2 * a * M * ((1 + t) * (1 + 13 * uu))) with ((2 * M * (1 + t)) * (a * (1 + 13 * uu))) by ring. apply Rmult_le_compat; auto using Rabs_pos; [apply Rmult_le_pos; [lra|apply Rabs_pos]|apply Rmult_le_compat_l; lra]. }
  assert (Sm : (1 + t) * (1 + 13 * uu) <= 1 + / 50000). { apply Rle_trans with ((1 + 2 / 100000 * (99 / 100)) * (1 + / 10000000000)); [apply Rmult_le_compat; lra|lra]. }
  assert (E2 : Rabs (g * (a * q)) <= 2 * a * M * (1 + / 50000)). { eapply Rle_trans; [exact E1|]. apply Rmult_le_compat_l; lra. }
  assert (B9 : 2 ^ 900 * 2 <= big). { replace (2 ^ 900 * 2) with (2 ^ 901) by (change 901%nat with (900 + 1)%nat; rewrite pow_add, pow_1; reflexivity). apply big_of. lia. }
  split; [lra|]. pose proof (rnd_bd _ _ E2) as Rv. pose proof (hh_uup 900 ltac:(lia)) as Hh. pose proof hh_pos as Ph.
  assert (E3 : Rabs (g * (a * q) - G * a) <= 2 * a * M * (t * (1 + 13 * uu) + 13 * uu)).
  { replace (g * (a * q) - G * a) with (a * ((g - G) * q + G * (q - 1))) by ring. rewrite Rabs_mult, (Rabs_right a) by lra. replace (2 * a * M * (t * (1 + 13 * uu) + 13 * uu)) with (a * (2 * M * t * (1 + 13 * uu) + 2 * M * (13 * uu))) by ring.
    apply Rmult_le_compat_l; [lra|]. eapply Rle_trans; [apply Rabs_triang|]. rewrite !Rabs_mult. apply Rplus_le_compat; apply Rmult_le_compat; auto using Rabs_pos. }
  replace (rnd (g * (a * q)) - G * a) with ((rnd (g * (a * q)) - g * (a * q)) + (g * (a * q) - G * a)) by ring. eapply Rle_trans; [apply Rabs_triang|].
  set (W := 2 * a * M) in *. assert (uu * / 2 ^ 900 <= uu * W) by (apply Rmult_le_compat_l; lra).
  assert (T3 : t * (1 + 13 * uu) + 13 * uu <= r + (1421 / 100) * uu). { assert (t * (13 * uu) <= / 50000 * (13 * uu)) by (apply Rmult_le_compat_r; lra). lra. }
  assert (W * (t * (1 + 13 * uu) + 13 * uu) <= W * (r + (1421 / 100) * uu)) by (apply Rmult_le_compat_l; lra).
  assert (0 <= W * uu) by (apply Rmult_le_pos; lra). lra.
Qed.

Section E.
Variable m : libm.
Local Instance BN : Num b64 := B64num m.
Variable eps : R.
Hypothesis HA : accurate m eps.
Hypothesis HR : accurate_root m eps.
Hypothesis He : eps <= 2 * uu.

Lemma k64 alpha : fin alpha -> 0 < val alpha < 1 -> fin (b01_k alpha) /\ (exists q, rat 11 q /\ val (b01_k alpha) = b01K (val alpha) * q) /\ bnd (2 ^ 600) (val (b01_k alpha)).
Proof. exact (IEEE01.k64 m eps HR He alpha). Qed.
Lemma mul64 (x y : b64) : fin x -> fin y -> bnd big (val x * val y) -> fin (nmul x y) /\ exists q, rat 1 q /\ val (nmul x y) = val x * val y * q.
Proof. exact (IEEELagrange.mul64 m x y). Qed.
Lemma entry64 x p i : fin x -> Rabs p <= 450 -> Rabs (val x - p) <= 14 * uu * Rabs p + hh -> (i < 6)%nat -> fin (gb01 x i) /\ Rabs (val (gb01 x i) - b01f i p) <= b01_error p.
Proof. intros A B C. exact (IEEE01Entry.entry64 m eps HA He x p A B C i). Qed.

Lemma a64 alpha : fin alpha -> 0 < val alpha < 1 -> fin (nmul (b01_k alpha) c2) /\ exists q, Rabs (q - 1) <= 13 * uu /\ val (nmul (b01_k alpha) c2) = 2 * b01K (val alpha) * q.
Proof.
  intros Fa Ha. destruct (k64 alpha Fa Ha) as (Fk & (q & Rq & Vk) & B). destruct (ofZ_ok 2) as (F2 & V2); [lia|]. change (fin (c2 : b64)) in F2. change (val (c2 : b64) = 2) in V2.
  destruct (mul64 (b01_k alpha) c2 Fk F2) as (F & q1 & R1 & V1).
  { rewrite V2. apply bnd_le with (2 ^ 600 * 2 ^ 2); [apply Rmult_lt_0_compat; apply pow_lt; lra|rewrite <- pow_add; apply big_of; lia|]. apply bnd_mul; try (apply pow_lt; lra); [exact B|]. unfold bnd. rewrite Rabs_right by lra. cbn [pow]. lra. }
  split; [exact F|]. exists (q * q1). rewrite V1, Vk, V2. split; [|ring].
  eapply Rle_trans; [apply rat_abs; apply (rat_mul 11 1); eassumption|]. pose proof (bt_lin1 12) as L. change (11 + 1)%nat with 12%nat. cbn [INR] in L.
  assert (E : 1 + 1 + 1 + 1 + 1 + 1 + 1 + 1 + 1 + 1 + 1 + 1 = 12) by ring. rewrite E in L. pose proof uu_15. pose proof uu_pos. lra.
Qed.

Section Dv.
Variables (x a' : b64) (p a q : R) (d : nat).
Hypothesis Fx : fin x.
Hypothesis Hp : Rabs p <= 450.
Hypothesis Hx : Rabs (val x - p) <= 14 * uu * Rabs p + hh.
Hypothesis Fa : fin a'.
Hypothesis Pa : 0 < a.
Hypothesis Hq : Rabs (q - 1) <= 13 * uu.
Hypothesis Va : val a' = a * q.
Hypothesis Hd : INR d <= 2 ^ 20.
Let M (j : nat) := (2 * a) ^ j * exp (Rabs p).
Hypothesis HM : forall j, (j <= d)%nat -> / 2 ^ 900 <= M j <= 2 ^ 900.
Let r (j : nat) := uu * (30 * Rabs p + 6 + 16 * INR j).

Lemma r_small j : (j <= d)%nat -> 0 <= r j <= / 100000.
Proof.
  intros Hj. apply le_INR in Hj. pose proof (pos_INR j). pose proof (Rabs_pos p). pose proof uu_pos. pose proof uu_15. unfold r. split; [apply Rmult_le_pos; lra|].
  apply Rle_trans with (/ 1000000000000000 * (30 * 450 + 6 + 16 * 2 ^ 20)); [apply Rmult_le_compat; lra|lra].
Qed.
Lemma M_pos j : 0 < M j.
Proof. unfold M. apply Rmult_lt_0_compat; [apply pow_lt; lra|apply exp_pos]. Qed.
Lemma aD_bound j i : (i < 6)%nat -> Rabs (a ^ j * fD j i p) <= M j.
Proof.
  intros Hi. rewrite Rabs_mult, (Rabs_right (a ^ j)) by (apply Rle_ge, pow_le; lra). unfold M. rewrite Rpow_mult_distr, (Rmult_comm (2 ^ j)), Rmult_assoc. apply Rmult_le_compat_l; [apply pow_le; lra|]. now apply fD_bound.
Qed.
Lemma add_step (u v : b64) U V j : (j <= d)%nat -> fin u -> fin v -> Rabs (val u - U) <= M j * r j -> Rabs (val v - V) <= M j * r j -> Rabs U <= M j -> Rabs V <= M j ->
  (fin (nadd u v) /\ Rabs (val (nadd u v) - (U + V)) <= 2 * M j * (r j + uu * (1 + r j))) /\ (fin (nsub u v) /\ Rabs (val (nsub u v) - (U - V)) <= 2 * M j * (r j + uu * (1 + r j))).
Proof.
  intros Hj Fu Fv Eu Ev BU BV. pose proof (r_small j Hj) as Rj. pose proof (HM j Hj) as Bj. pose proof (M_pos j) as Mp. pose proof uu_pos as Up. set (MM := M j) in *. set (rr := r j) in *.
  assert (Mu : Rabs (val u) <= MM * (1 + rr)). { replace (val u) with (U + (val u - U)) by ring. eapply Rle_trans; [apply Rabs_triang|]. lra. }
  assert (Mv : Rabs (val v) <= MM * (1 + rr)). { replace (val v) with (V + (val v - V)) by ring. eapply Rle_trans; [apply Rabs_triang|]. lra. }
  assert (B9 : 2 ^ 900 * 2 ^ 2 <= big) by (rewrite <- pow_add; apply big_of; lia). change (2 ^ 2) with (2 * (2 * 1)) in B9. assert (MM * (1 + rr) <= MM * 2) by (apply Rmult_le_compat_l; lra). pose proof big_pos as PB.
  split.
  - assert (S1 : Rabs (val u + val v) <= 2 * MM * (1 + rr)) by (eapply Rle_trans; [apply Rabs_triang|]; lra).
    destruct (add_ok u v Fu Fv) as (F & E); [apply rnd_big; lra|]. split; [exact F|]. change (nadd u v) with (Bplus mode_NE u v). rewrite E. pose proof (rnd_add_bd _ _ _ (val_fmt u) (val_fmt v) S1).
    replace (rnd (val u + val v) - (U + V)) with ((rnd (val u + val v) - (val u + val v)) + ((val u - U) + (val v - V))) by ring. eapply Rle_trans; [apply Rabs_triang|]. pose proof (Rabs_triang (val u - U) (val v - V)). lra.
  - assert (S1 : Rabs (val u + - val v) <= 2 * MM * (1 + rr)) by (eapply Rle_trans; [apply Rabs_triang|]; rewrite Rabs_Ropp; lra).
    destruct (sub_ok u v Fu Fv) as (F & E); [apply rnd_big; unfold Rminus; lra|]. split; [exact F|]. change (nsub u v) with (Bminus mode_NE u v). rewrite E. unfold Rminus in *.
    assert (Fo : fmt (- val v)) by (apply generic_format_opp, val_fmt). pose proof (rnd_add_bd _ _ _ (val_fmt u) Fo S1).
    replace (rnd (val u + - val v) + - (U + - V)) with ((rnd (val u + - val v) + - (val u + - val v)) + ((val u + - U) + - (val v + - V))) by ring. eapply Rle_trans; [apply Rabs_triang|]. pose proof (Rabs_triang (val u + - U) (- (val v + - V))) as T. rewrite Rabs_Ropp in T. unfold Rminus in *. lra.
Qed.
Lemma gfD64 j : (j <= d)%nat -> forall i, (i < 6)%nat -> fin (gfD a' x j i) /\ Rabs (val (gfD a' x j i) - a ^ j * fD j i p) <= M j * r j.
Proof.
  induction j as [|j IH]; intros Hj i Hi.
  - destruct (entry64 x p i Fx Hp Hx Hi) as (F & B). cbn [gfD fD]. split; [exact F|]. rewrite Rmult_1_l. eapply Rle_trans; [exact B|]. unfold b01_error, M, r. cbn [pow INR]. lra.
  - pose proof (IH ltac:(lia)) as IHj. pose proof (r_small j ltac:(lia)) as Rj. pose proof (HM j ltac:(lia)) as Bj. pose proof (HM (S j) Hj) as BS. pose proof (M_pos j) as Mp. pose proof uu_pos as Up.
    assert (EM : M (S j) = 2 * a * M j) by (unfold M; cbn [pow]; ring). assert (Er : r (S j) = r j + 16 * uu) by (unfold r; rewrite S_INR; ring).
    assert (Fin : forall (g : b64) G, fin g -> Rabs G <= 2 * M j -> Rabs (val g - G) <= 2 * M j * (r j + uu * (1 + r j)) -> fin (nmul g a') /\ Rabs (val (nmul g a') - G * a) <= M (S j) * r (S j)).
    { intros g G Fg BG Eg. rewrite EM in *. destruct (step_err (M j) (r j) (val g) G a q Mp Pa Rj Hq BG Eg BS) as (B1 & B2).
      destruct (mul_ok g a' Fg Fa) as (F & E); [rewrite Va; apply rnd_big; pose proof big_pos; lra|]. split; [exact F|]. change (nmul g a') with (Bmult mode_NE g a'). rewrite E, Va, Er. exact B2. }
    pose proof (fun k Hk => aD_bound j k Hk) as BD.
    assert (Two : forall U V, Rabs U <= M j -> Rabs V <= M j -> Rabs (U + V) <= 2 * M j /\ Rabs (U - V) <= 2 * M j). { intros U V HU HV. split; [pose proof (Rabs_triang U V)|pose proof (Rabs_triang U (- V)) as T; rewrite Rabs_Ropp in T; unfold Rminus]; lra. }
    assert (Pos : 0 <= M j * (r j + uu * (1 + r j))) by (apply Rmult_le_pos; [lra|]; apply Rplus_le_le_0_compat; [lra|apply Rmult_le_pos; lra]).
    assert (Pr : M j * r j <= M j * (r j + uu * (1 + r j))). { apply Rmult_le_compat_l; [lra|]. assert (0 <= uu * (1 + r j)) by (apply Rmult_le_pos; lra). lra. }
    destruct (IHj 0%nat ltac:(lia)) as (F0 & E0). destruct (IHj 1%nat ltac:(lia)) as (F1 & E1). destruct (IHj 2%nat ltac:(lia)) as (F2 & E2). destruct (IHj 3%nat ltac:(lia)) as (F3 & E3). destruct (IHj 5%nat ltac:(lia)) as (F5 & E5).
    pose proof (BD 0%nat ltac:(lia)) as B0. pose proof (BD 1%nat ltac:(lia)) as B1. pose proof (BD 2%nat ltac:(lia)) as B2. pose proof (BD 3%nat ltac:(lia)) as B3. pose proof (BD 5%nat ltac:(lia)) as B5.
    cbn [gfD]. destruct i as [|[|[|[|[|[|i]]]]]]; try lia; cbn [grot fD].
    + replace (a ^ S j * (fD j 0 p - fD j 1 p)) with ((a ^ j * fD j 0 p - a ^ j * fD j 1 p) * a) by (cbn [pow]; ring).
      destruct (add_step _ _ _ _ j ltac:(lia) F0 F1 E0 E1 B0 B1) as (_ & Fg & Eg). destruct (Two _ _ B0 B1) as (_ & T). apply Fin; assumption.
    + replace (a ^ S j * (fD j 0 p + fD j 1 p)) with ((a ^ j * fD j 0 p + a ^ j * fD j 1 p) * a) by (cbn [pow]; ring).
      destruct (add_step _ _ _ _ j ltac:(lia) F0 F1 E0 E1 B0 B1) as ((Fg & Eg) & _). destruct (Two _ _ B0 B1) as (T & _). apply Fin; assumption.
    + replace (a ^ S j * (- fD j 2 p - fD j 3 p)) with ((- (a ^ j * fD j 2 p) - a ^ j * fD j 3 p) * a) by (cbn [pow]; ring).
      assert (Fo : fin (nopp (gfD a' x j 2))) by (unfold fin; cbn [nopp BN B64num]; rewrite is_finite_Bopp; exact F2). assert (Vo : val (nopp (gfD a' x j 2)) = - val (gfD a' x j 2)) by (apply B2R_Bopp).
      assert (Eo : Rabs (val (nopp (gfD a' x j 2)) - - (a ^ j * fD j 2 p)) <= M j * r j). { rewrite Vo. replace (- val (gfD a' x j 2) - - (a ^ j * fD j 2 p)) with (- (val (gfD a' x j 2) - a ^ j * fD j 2 p)) by ring. rewrite Rabs_Ropp. exact E2. }
      assert (Bo : Rabs (- (a ^ j * fD j 2 p)) <= M j) by (rewrite Rabs_Ropp; exact B2).
      destruct (add_step _ _ _ _ j ltac:(lia) Fo F3 Eo E3 Bo B3) as (_ & Fg & Eg). destruct (Two _ _ Bo B3) as (_ & T). apply Fin; assumption.
    + replace (a ^ S j * (fD j 2 p - fD j 3 p)) with ((a ^ j * fD j 2 p - a ^ j * fD j 3 p) * a) by (cbn [pow]; ring).
      destruct (add_step _ _ _ _ j ltac:(lia) F2 F3 E2 E3 B2 B3) as (_ & Fg & Eg). destruct (Two _ _ B2 B3) as (_ & T). apply Fin; assumption.
    + replace (a ^ S j * fD j 5 p) with (a ^ j * fD j 5 p * a) by (cbn [pow]; ring). apply Fin; [assumption|lra|lra].
    + replace (a ^ S j * 0) with (0 * a) by ring. apply Fin; [reflexivity|rewrite Rabs_R0; lra|]. change (val (n0 : b64)) with 0. rewrite Rminus_eq_0, Rabs_R0. lra.
Qed.
End Dv.
End E.
