(** Gauss-Lobatto weights in binary64. *)
From Coquelicot Require Import Coquelicot.
From Coq Require Import ZArith Reals Lra Lia List Arith Bool Psatz.
From Flocq Require Import Core Relative BinarySingleNaN.
From Verif Require Import Num Outcome LinAlg RSum RDeriv RPoly LegendreModel LegendreSpec LegendreMath LegendreProofs StabMath IEEEModel IEEESpec IEEEProofs IEEEHorner IEEELegendre
  GLSpec QuadSpec QuadMath LobattoRoots ToolsModel GLModel GLProofs GLProofs2 NewtonMath SturmMath LobattoLocate GLConv GLConv2 GLConv3 GL64Math GL64 GL64Step GL64Spec GL64Guess.
Local Open Scope R_scope.

Lemma rel_sq r rho d1 d2 d3 : Rabs (r - 1) <= rho -> rho <= / 1000 -> Rabs d1 <= uu -> Rabs d2 <= uu -> Rabs d3 <= uu ->
  Rabs ((1 + d3) / (r * r * (1 + d1) * (1 + d2)) - 1) <= 201 / 100 * rho + 32 / 10 * uu.
Proof.
  intros Hr Hrho H1 H2 H3. pose proof u_tiny as UT. pose proof uu_pos as U. assert (R0 : 0 <= rho) by (eapply Rle_trans; [apply Rabs_pos|exact Hr]).
  set (e := r - 1) in *. replace r with (1 + e) by (unfold e; ring). clearbody e.
  assert (E2 : Rabs (2 * e + e * e) <= 2001 / 1000 * rho). { eapply Rle_trans; [apply Rabs_triang|]. rewrite !Rabs_mult, (Rabs_pos_eq 2) by lra. assert (Rabs e * Rabs e <= / 1000 * rho) by (apply Rmult_le_compat; auto using Rabs_pos; lra). lra. }
  assert (D2 : Rabs (d1 + d2 + d1 * d2) <= 2001 / 1000 * uu). { eapply Rle_trans; [apply Rabs_triang|]. eapply Rle_trans; [apply Rplus_le_compat_r, Rabs_triang|]. rewrite Rabs_mult. assert (Rabs d1 * Rabs d2 <= / 1000 * uu) by (apply Rmult_le_compat; auto using Rabs_pos; lra). lra. }
  set (a := 2 * e + e * e) in *. set (b := d1 + d2 + d1 * d2) in *. replace ((1 + e) * (1 + e) * (1 + d1) * (1 + d2)) with ((1 + a) * (1 + b)) by (unfold a, b; ring). clearbody a b.
  assert (G : Rabs (a + b + a * b) <= 2002 / 1000 * rho + 2001 / 1000 * uu). { eapply Rle_trans; [apply Rabs_triang|]. eapply Rle_trans; [apply Rplus_le_compat_r, Rabs_triang|]. rewrite Rabs_mult. assert (Rabs a * Rabs b <= 2001 / 1000 * rho * (/ 10000)) by (apply Rmult_le_compat; auto using Rabs_pos; lra). lra. }
  set (c := a + b + a * b) in *. replace ((1 + a) * (1 + b)) with (1 + c) by (unfold c; ring). clearbody c.
  assert (C : 99 / 100 <= 1 + c) by (apply Rabs_le_between in G; lra). assert (C2 : 997 / 1000 <= 1 + c) by (apply Rabs_le_between in G; lra).
  replace ((1 + d3) / (1 + c) - 1) with ((d3 + - c) * / (1 + c)) by (field; lra). rewrite Rabs_mult, (Rabs_pos_eq (/ (1 + c))) by (apply Rlt_le, Rinv_0_lt_compat; lra).
  assert (N : Rabs (d3 + - c) <= uu + (2002 / 1000 * rho + 2001 / 1000 * uu)) by (eapply Rle_trans; [apply Rabs_triang|]; rewrite Rabs_Ropp; lra).
  assert (I : / (1 + c) <= 1000 / 997). { replace (1000 / 997) with (/ (997 / 1000)) by lra. apply Rinv_le_contravar; lra. }
  apply Rle_trans with ((uu + (2002 / 1000 * rho + 2001 / 1000 * uu)) * (1000 / 997)); [apply Rmult_le_compat; auto using Rabs_pos; apply Rlt_le, Rinv_0_lt_compat; lra|]. lra.
Qed.
Section GL.
Variable m : libm.
Local Instance BN : Num b64 := B64num m.
Variable N : nat.
Hypothesis HN : (1 <= N <= 1000)%nat.
Let n := INR N.
Lemma nN : 1 <= n <= 1000.
Proof. destruct HN as (A & B). apply le_INR in A. apply le_INR in B. rewrite INR_1000 in B. change (INR 1) with 1 in A. unfold n. lra. Qed.
Lemma nn1 : fin (nmul (nofnat N) (nadd (nofnat N) n1) : b64) /\ val (nmul (nofnat N) (nadd (nofnat N) n1) : b64) = n * (n + 1).
Proof.
  pose proof p53 as P. destruct (nat_v m N ltac:(lia)) as (F & V). destruct (one_v m) as (F1 & V1).
  destruct (exact_add m N 1 (nofnat N) n1 F F1 V V1 ltac:(lia)) as (Fa & Va).
  destruct (exact_mul m N (N + 1) (nofnat N) (nadd (nofnat N) n1) F Fa V Va) as (Fm & Vm).
  - apply Nat.le_trans with (2 ^ 10 * 2 ^ 11)%nat; [apply Nat.mul_le_mono; (apply Nat.le_trans with 1001%nat; [lia|apply Nat.leb_le; vm_compute; reflexivity])|rewrite <- Nat.pow_add_r; apply Nat.pow_le_mono_r; lia].
  - split; [exact Fm|]. change (val (nmul (nofnat N) (nadd (nofnat N) n1) : b64) = INR (N * (N + 1))) in Vm. rewrite Vm, mult_INR, plus_INR. reflexivity.
Qed.
Lemma w0_64 : fin (gl_w0 N : b64) /\ Rabs (val (gl_w0 N : b64) - 2 / (n * (n + 1))) <= uu * (2 / (n * (n + 1))).
Proof.
  destruct nn1 as (F & V). destruct (two_v m) as (F2 & V2). pose proof nN as NR. unfold gl_w0. set (q := nmul (nofnat N) (nadd (nofnat N) n1)) in *. cbn [ndiv BN B64num]. change (@c2 b64 BN) with (@c2 b64 (GL64.BN m)). set (two := @c2 b64 (GL64.BN m)) in *. clearbody two q.
  assert (Q : 2 <= n * (n + 1) <= 1000 * 1001) by (split; nra). assert (W : 0 < 2 / (n * (n + 1)) <= 1) by (split; [apply Rdiv_lt_0_compat; lra|apply Rle_div_l; lra]).
  assert (P60 : 1 <= 2 ^ 60) by (apply pow_R1_Rle; lra).
  destruct (div_ok two q F2) as (Fd & Vd). { rewrite V; lra. } { apply IEEELegendre.rnd_small. rewrite V2, V, Rabs_pos_eq; lra. }
  rewrite V2, V in Vd. split; [exact Fd|].
  match goal with |- Rabs (val ?w - _) <= _ => change (val w) with (val (Bdiv mode_NE two q)) end. rewrite Vd.
  destruct (rnd_rel (2 / (n * (n + 1)))) as (d & D & ->). { rewrite Rabs_pos_eq by lra. apply Rle_trans with (/ 2 ^ 30); [apply Rinv_le_contravar; [apply pow_lt; lra|apply pow_lit; lia]|]. rewrite pow30. apply Rle_div_r; lra. }
  replace (2 / (n * (n + 1)) * (1 + d) - 2 / (n * (n + 1))) with (d * (2 / (n * (n + 1)))) by ring. rewrite Rabs_mult, (Rabs_pos_eq (2 / _)) by lra. apply Rmult_le_compat_r; lra.
Qed.
Variables (l : b64) (lam rho : R).
Hypothesis Fl : fin l.
Hypothesis L0 : 0 < lam.
Hypothesis L1 : lam <= 1.
Hypothesis L2 : 1 <= 2 * n * (lam * lam).
Hypothesis Hl : Rabs (Rabs (val l) - lam) <= rho * lam.
Hypothesis Hr : rho <= / 1000.
Lemma w_64 : fin (gl_w N l) /\ Rabs (val (gl_w N l) - 2 / (n * (n + 1) * (lam * lam))) <= (201 / 100 * rho + 32 / 10 * uu) * (2 / (n * (n + 1) * (lam * lam))).
Proof.
  destruct nn1 as (F & V). destruct (two_v m) as (F2 & V2). destruct (one_v m) as (F1 & V1). pose proof nN as NR. pose proof uu_pos as U. pose proof u_tiny as UT.
  unfold gl_w. set (q := nmul (nofnat N) (nadd (nofnat N) n1)) in *. cbn [npown]. change (@n1 b64 BN) with (@n1 b64 (GL64.BN m)). cbn [ndiv nmul BN B64num]. change (@c2 b64 BN) with (@c2 b64 (GL64.BN m)).
  set (one := @n1 b64 (GL64.BN m)) in *. set (two := @c2 b64 (GL64.BN m)) in *. clearbody q one two.
  assert (Q : 2 <= n * (n + 1) <= 1000 * 1001) by (split; nra). assert (P60 : 1073741824 <= 2 ^ 60) by (rewrite <- pow30; apply pow_lit; lia).
  assert (I60 : / 2 ^ 60 <= / 1073741824) by (apply Rinv_le_contravar; lra).
  set (r := Rabs (val l) / lam). assert (Er : Rabs (val l) = r * lam) by (unfold r; field; lra).
  assert (Hr1 : Rabs (r - 1) <= rho). { apply (Rmult_le_reg_r lam); auto. replace (Rabs (r - 1) * lam) with (Rabs (Rabs (val l) - lam)); [exact Hl|]. rewrite Er. rewrite <- (Rabs_pos_eq lam) at 3 by lra. rewrite <- Rabs_mult. f_equal. ring. }
  assert (Rr : 999 / 1000 <= r <= 1001 / 1000) by (apply Rabs_le_between in Hr1; lra).
  assert (SQ : val l * val l = r * r * (lam * lam)). { rewrite <- (Rabs_pos_eq (val l * val l)) by apply Rle_0_sqr. rewrite Rabs_mult, Er. ring. }
  assert (LB : / 2000 <= lam * lam <= 1). { split; [|nra]. apply Rnot_lt_le. intros C. assert (2 * n * (lam * lam) < 2 * n * / 2000) by (apply Rmult_lt_compat_l; lra). lra. }
  assert (RB : 998 / 1000 <= r * r <= 1003 / 1000) by (split; nra).
  assert (SB : / 2100 <= val l * val l <= 1003 / 1000). { rewrite SQ. split; [apply Rle_trans with (998 / 1000 * / 2000); [lra|apply Rmult_le_compat; lra]|apply Rle_trans with (1003 / 1000 * 1); [apply Rmult_le_compat; lra|lra]]. }
  assert (LA : Rabs (val l) <= 2). { rewrite Er. apply Rle_trans with (1001 / 1000 * 1); [apply Rmult_le_compat; lra|lra]. }
  (* l * 1 *)
  destruct (mul_ok l one Fl F1) as (Fm & Vm). { apply IEEELegendre.rnd_small. rewrite V1, Rmult_1_r. lra. } rewrite V1, Rmult_1_r in Vm. rewrite rnd_fmt in Vm by apply val_fmt. set (l1 := Bmult mode_NE l one) in *. clearbody l1.
  destruct (mul_ok l l1 Fl Fm) as (Fs & Vs). { apply IEEELegendre.rnd_small. rewrite Vm, Rabs_pos_eq; lra. } rewrite Vm in Vs. destruct (rnd_rel (val l * val l)) as (d1 & D1 & E1). { rewrite Rabs_pos_eq; lra. } rewrite E1 in Vs. set (l2 := Bmult mode_NE l l1) in *. clearbody l2.
  assert (A1 : 99 / 100 <= 1 + d1 <= 101 / 100) by (apply Rabs_le_between in D1; lra).
  assert (B2 : / 2200 <= val l2 <= 11 / 10). { rewrite Vs. split; [apply Rle_trans with (/ 2100 * (99 / 100)); [lra|apply Rmult_le_compat; lra]|apply Rle_trans with (1003 / 1000 * (101 / 100)); [apply Rmult_le_compat; lra|lra]]. }
  assert (B3 : / 1100 <= val q * val l2 <= 1200000). { rewrite V. split; [apply Rle_trans with (2 * / 2200); [lra|apply Rmult_le_compat; lra]|apply Rle_trans with (1000 * 1001 * (11 / 10)); [apply Rmult_le_compat; lra|lra]]. }
  destruct (mul_ok q l2 F Fs) as (Fp & Vp). { apply IEEELegendre.rnd_small. rewrite Rabs_pos_eq; lra. } destruct (rnd_rel (val q * val l2)) as (d2 & D2 & E2). { rewrite Rabs_pos_eq; lra. } rewrite E2 in Vp. set (pp := Bmult mode_NE q l2) in *. clearbody pp.
  assert (A2 : 99 / 100 <= 1 + d2 <= 101 / 100) by (apply Rabs_le_between in D2; lra).
  assert (B4 : / 1200 <= val pp <= 1300000). { rewrite Vp. split; [apply Rle_trans with (/ 1100 * (99 / 100)); [lra|apply Rmult_le_compat; lra]|apply Rle_trans with (1200000 * (101 / 100)); [apply Rmult_le_compat; lra|lra]]. }
  assert (B5 : / 1000000 <= 2 / val pp <= 2400). { split; [apply Rle_div_r; lra|apply Rle_div_l; lra]. }
  destruct (div_ok two pp F2) as (Fd & Vd). { lra. } { apply IEEELegendre.rnd_small. rewrite V2, Rabs_pos_eq; lra. } rewrite V2 in Vd. destruct (rnd_rel (2 / val pp)) as (d3 & D3 & E3). { rewrite Rabs_pos_eq; lra. } rewrite E3 in Vd.
  split; [exact Fd|]. match goal with |- Rabs (val ?w - _) <= _ => change (val w) with (val (Bdiv mode_NE two pp)) end. rewrite Vd, Vp, V, Vs, SQ.
  assert (W0 : 0 < 2 / (n * (n + 1) * (lam * lam))) by (apply Rdiv_lt_0_compat; [lra|apply Rmult_lt_0_compat; lra]).
  replace (2 / (n * (n + 1) * (r * r * (lam * lam) * (1 + d1)) * (1 + d2)) * (1 + d3) - 2 / (n * (n + 1) * (lam * lam)))
    with (((1 + d3) / (r * r * (1 + d1) * (1 + d2)) - 1) * (2 / (n * (n + 1) * (lam * lam)))) by (field; repeat split; lra).
  rewrite Rabs_mult, (Rabs_pos_eq (2 / _)) by lra. apply Rmult_le_compat_r; [lra|]. apply rel_sq; auto.
Qed.
End GL.
