(** Gauss-Lobatto points in binary64: the first guess, and the node the loop returns. *)
From Coquelicot Require Import Coquelicot.
From Coq Require Import ZArith Reals Lra Lia List Arith Bool Psatz.
From Flocq Require Import Core Relative BinarySingleNaN.
From Verif Require Import Num Outcome LinAlg RSum RDeriv RPoly LegendreModel LegendreSpec LegendreMath LegendreProofs StabMath IEEEModel IEEESpec IEEEProofs IEEEHorner IEEELegendre IEEEFunSpec IEEEFunProofs2
  GLSpec QuadSpec QuadMath LobattoRoots ToolsModel GLModel GLProofs GLProofs2 NewtonMath SturmMath LobattoLocate GLConv GLConv2 GLConv3 GL64Math GL64 GL64Step GL64Spec.
Local Open Scope R_scope.

(** absolute error of one rounding *)
Lemma rnd_abs y B : Rabs y <= B -> Rabs (rnd y - y) <= uu * B + hh.
Proof.
  intros H. destruct (rnd_err y) as (d & e & D & E & ->). replace (y * (1 + d) + e - y) with (y * d + e) by ring. eapply Rle_trans; [apply Rabs_triang|]. rewrite Rabs_mult.
  assert (Rabs y * Rabs d <= B * uu) by (apply Rmult_le_compat; auto using Rabs_pos). lra.
Qed.
Lemma hh_tiny : hh <= uu * / 1000000.
Proof.
  unfold hh, uu. rewrite <- Rinv_mult. apply Rinv_le_contravar; [apply Rmult_lt_0_compat; [apply pow_lt; lra|lra]|].
  apply Rle_trans with (2 ^ 53 * 2 ^ 20); [apply Rmult_le_compat_l; [apply pow_le; lra|cbn; lra]|]. rewrite <- pow_add. apply pow_lit. lia.
Qed.
Lemma p_2_12 : 4096 <= 2 ^ 1000. Proof. rewrite <- pow12. apply pow_lit. lia. Qed.

Section GL.
Variable m : libm.
Local Instance BN : Num b64 := B64num m.
Hypothesis HP : accurate_pi m.
Section Guess.
Variables N j : nat.
Hypothesis HN : (3 <= N <= 1000)%nat.
Hypothesis Hj : (1 <= j)%nat.
Hypothesis Hj2 : (2 * j < N)%nat.
Let n := INR N.
Let k := INR j.
Definition garg64 : b64 := let quarter := ndiv n1 (nofZ 4%Z) in
  nsub (ndiv (nmul (nadd (nofnat j) quarter) npi) (nofnat N)) (nmul (ndiv (nofZ 3%Z) (nmul (nmul (nofZ 8%Z) (nofnat N)) npi)) (ndiv n1 (nadd (nofnat j) quarter))).
Definition garg : R := (k + 1 / 4) * PI / n - 3 / (8 * n * PI) * (1 / (k + 1 / 4)).
Lemma k_R : 1 <= k /\ 2 * k + 1 <= n.
Proof. split; [apply (le_INR 1); exact Hj|]. unfold k, n. replace (2 * INR j + 1) with (INR (2 * j + 1)) by (rewrite plus_INR, mult_INR; simpl; ring). apply le_INR. lia. Qed.
Lemma quarter64 : fin (ndiv n1 (nofZ 4%Z) : b64) /\ val (ndiv n1 (nofZ 4%Z) : b64) = 1 / 4.
Proof.
  split; [vm_compute; reflexivity|]. unfold val. replace (B2R (ndiv n1 (nofZ 4%Z) : b64)) with (F2R (Float radix2 4503599627370496 (-54))) by (vm_compute; reflexivity).
  unfold F2R. cbn [Fnum Fexp bpow]. change (Z.pow_pos radix2 54) with 18014398509481984%Z. lra.
Qed.
Lemma fmt_quarter z : (Z.abs z < 2 ^ 53)%Z -> generic_format radix2 (FLT_exp (-1074) 53) (IZR z / 4).
Proof.
  intros H. apply generic_format_FLT. exists (Float radix2 z (-2)); [unfold F2R; cbn; lra|exact H|cbn; lia].
Qed.
Lemma garg_ok : fin garg64 /\ Rabs (val garg64 - garg) <= 12 * uu.
Proof.
  destruct k_R as (K1 & K2). pose proof (N_R N HN) as NR. fold n in NR. pose proof p53 as P53. destruct (nat_v m j ltac:(lia)) as (Fj & Vj). destruct (nat_v m N ltac:(lia)) as (FN & VN). destruct one_v with (m := m) as (F1 & V1).
  change (@nofnat b64 (GL64.BN m)) with (@nofnat b64 BN) in *. change (@n1 b64 (GL64.BN m)) with (@n1 b64 BN) in *. fold k in Vj. fold n in VN.
  destruct quarter64 as (Fq & Vq). destruct HP as (Fp & Ep). pose proof pi_lo as PL. pose proof pi_hi as PH. pose proof uu_pos as U. pose proof u_tiny as UT. pose proof hh_pos as H0. pose proof hh_tiny as HT.
  pose proof p_2_12 as P12. destruct (ofZ_ok 3) as (F3 & V3); [lia|]. destruct (ofZ_ok 8) as (F8 & V8); [lia|].
  assert (PV : Rabs (val (m_pi m)) <= 316 / 100) by (apply Rabs_le_between in Ep; apply Rabs_le; lra). assert (PV2 : 313 / 100 <= val (m_pi m) <= 316 / 100) by (apply Rabs_le_between in Ep; lra).
  unfold garg64. cbv zeta. cbn [nadd nsub nmul ndiv npi nofZ BN B64num]. change (B64num m) with BN.
  set (one := @n1 b64 BN) in *. set (qr := Bdiv mode_NE one (b64_of_Z 4)) in *. change (val qr = 1 / 4) in Vq. change (fin qr) in Fq. clearbody qr.
  set (fj := @nofnat b64 BN j) in *. set (fN := @nofnat b64 BN N) in *. set (c3 := b64_of_Z 3) in *. set (c8 := b64_of_Z 8) in *. set (pi := m_pi m) in *. clearbody fj fN one c3 c8.
  (* j + 1/4 *)
  assert (EA : rnd (val fj + val qr) = k + 1 / 4).
  { rewrite Vj, Vq. apply rnd_fmt. replace (k + 1 / 4) with (IZR (4 * Z.of_nat j + 1) / 4) by (unfold k; rewrite plus_IZR, mult_IZR, <- INR_IZR_INZ; lra). apply fmt_quarter. assert (j <= 1000)%nat by lia. rewrite Z.abs_eq by lia. apply Z.lt_trans with 5000%Z; [lia|reflexivity]. }
  destruct (add_ok fj qr Fj Fq) as (Fa & Va). { apply IEEELegendre.rnd_small. rewrite Vj, Vq, Rabs_pos_eq; lra. } rewrite EA in Va. set (a := Bplus mode_NE fj qr) in *. set (b := k + 1 / 4) in *. clearbody a.
  assert (B0 : 5 / 4 <= b) by (unfold b; lra). assert (B1 : 2 * b <= n) by (unfold b; lra).
  (* a pi / N *)
  assert (XM : Rabs (val a * val pi) <= 316 / 100 * b) by (rewrite Va, Rabs_mult, (Rabs_pos_eq b), Rmult_comm by lra; apply Rmult_le_compat_r; lra).
  destruct (mul_ok a pi Fa Fp) as (Fm & Vm). { apply IEEELegendre.rnd_small. lra. } pose proof (rnd_abs _ _ XM) as RM. rewrite <- Vm in RM. set (mm := Bmult mode_NE a pi) in *. clearbody mm.
  assert (EM : Rabs (val mm - b * PI) <= 8 * uu * b).
  { replace (val mm - b * PI) with ((val mm - val a * val pi) + b * (val pi - PI)) by (rewrite Va; ring). eapply Rle_trans; [apply Rabs_triang|]. rewrite (Rabs_mult b), (Rabs_pos_eq b) by lra.
    assert (b * Rabs (val pi - PI) <= b * (4 * uu)) by (apply Rmult_le_compat_l; lra). assert (uu * / 1000000 <= uu * / 1000000 * b) by (rewrite <- (Rmult_1_r (uu * / 1000000)) at 1; apply Rmult_le_compat_l; lra). lra. }
  assert (BN2 : b / n <= 1 / 2) by (apply Rle_div_l; lra). assert (BN0 : 0 <= b / n) by (apply Rdiv_le_0_compat; lra).
  assert (ED0 : Rabs (val mm / val fN - b * PI / n) <= 4 * uu).
  { rewrite VN. replace (val mm / n - b * PI / n) with ((val mm - b * PI) * / n) by (field; lra). rewrite Rabs_mult, (Rabs_pos_eq (/ n)) by (apply Rlt_le, Rinv_0_lt_compat; lra).
    apply Rle_trans with (8 * uu * b * / n); [apply Rmult_le_compat_r; [apply Rlt_le, Rinv_0_lt_compat; lra|exact EM]|]. replace (8 * uu * b * / n) with (8 * uu * (b / n)) by (field; lra). apply Rle_trans with (8 * uu * (1 / 2)); [apply Rmult_le_compat_l; lra|lra]. }
  assert (BP : Rabs (b * PI / n) <= 158 / 100). { replace (b * PI / n) with (b / n * PI) by (field; lra). rewrite Rabs_pos_eq by (apply Rmult_le_pos; lra). apply Rle_trans with (1 / 2 * (315 / 100)); [apply Rmult_le_compat; lra|lra]. }
  assert (XD : Rabs (val mm / val fN) <= 159 / 100). { replace (val mm / val fN) with ((val mm / val fN - b * PI / n) + b * PI / n) by ring. eapply Rle_trans; [apply Rabs_triang|]. lra. }
  destruct (div_ok mm fN Fm) as (Fd & Vd). { rewrite VN; lra. } { apply IEEELegendre.rnd_small. lra. } pose proof (rnd_abs _ _ XD) as RD. rewrite <- Vd in RD. set (dd := Bdiv mode_NE mm fN) in *. clearbody dd.
  assert (ED : Rabs (val dd - b * PI / n) <= 6 * uu). { replace (val dd - b * PI / n) with ((val dd - val mm / val fN) + (val mm / val fN - b * PI / n)) by ring. eapply Rle_trans; [apply Rabs_triang|]. lra. }
  (* 8 N pi *)
  assert (E8 : rnd (val c8 * val fN) = 8 * n).
  { rewrite V8, VN. transitivity (rnd (INR (8 * N))); [f_equal; unfold n; rewrite mult_INR; simpl; ring|]. rewrite rnd_fmt; [unfold n; rewrite mult_INR; simpl; ring|]. apply INR_fmt. apply Nat.le_trans with (2 ^ 3 * 2 ^ 10)%nat; [apply Nat.mul_le_mono; [cbn; lia|apply Nat.le_trans with 1000%nat; [lia|apply Nat.leb_le; vm_compute; reflexivity]]|rewrite <- Nat.pow_add_r; apply Nat.pow_le_mono_r; lia]. }
  destruct (mul_ok c8 fN F8 FN) as (Fe & Ve). { apply IEEELegendre.rnd_small. rewrite V8, VN, Rabs_pos_eq; [|lra]. apply Rle_trans with (2 ^ 30); [rewrite pow30; lra|apply pow_lit; lia]. } rewrite E8 in Ve. set (en := Bmult mode_NE c8 fN) in *. clearbody en.
  assert (XF : Rabs (val en * val pi) <= 316 / 100 * (8 * n)) by (rewrite Ve, Rabs_mult, (Rabs_pos_eq (8 * n)), Rmult_comm by lra; apply Rmult_le_compat_r; lra).
  destruct (mul_ok en pi Fe Fp) as (Ff & Vf). { apply IEEELegendre.rnd_small. eapply Rle_trans; [exact XF|]. apply Rle_trans with (2 ^ 30); [rewrite pow30; lra|apply pow_lit; lia]. } pose proof (rnd_abs _ _ XF) as RF. rewrite <- Vf in RF. set (ff := Bmult mode_NE en pi) in *. clearbody ff.
  assert (EF : Rabs (val ff - 8 * n * PI) <= 8 * uu * (8 * n)).
  { replace (val ff - 8 * n * PI) with ((val ff - val en * val pi) + 8 * n * (val pi - PI)) by (rewrite Ve; ring). eapply Rle_trans; [apply Rabs_triang|]. rewrite (Rabs_mult (8 * n)), (Rabs_pos_eq (8 * n)) by lra.
    assert (8 * n * Rabs (val pi - PI) <= 8 * n * (4 * uu)) by (apply Rmult_le_compat_l; lra). assert (uu * / 1000000 <= uu * / 1000000 * (8 * n)) by (rewrite <- (Rmult_1_r (uu * / 1000000)) at 1; apply Rmult_le_compat_l; lra). lra. }
  assert (FL : 24 * n <= val ff). { apply Rabs_le_between in EF. assert (8 * n * (314 / 100) <= 8 * n * PI) by (apply Rmult_le_compat_l; lra). assert (8 * uu * (8 * n) <= / 1000 * (8 * n)) by (apply Rmult_le_compat_r; lra). lra. }
  assert (PN : 25 * n <= 8 * n * PI) by (replace (8 * n * PI) with (n * (8 * PI)) by ring; rewrite (Rmult_comm 25); apply Rmult_le_compat_l; lra).
  assert (QE0 : Rabs (val c3 / val ff - 3 / (8 * n * PI)) <= uu).
  { rewrite V3. replace (3 / val ff - 3 / (8 * n * PI)) with (- (3 * (val ff - 8 * n * PI)) * / (val ff * (8 * n * PI))) by (field; repeat split; lra).
    assert (PP : 24 * n * (25 * n) <= val ff * (8 * n * PI)) by (apply Rmult_le_compat; lra). assert (P0 : 0 < 24 * n * (25 * n)) by nra.
    rewrite Rabs_mult, Rabs_Ropp, Rabs_mult, (Rabs_pos_eq 3), (Rabs_pos_eq (/ _)) by (try lra; apply Rlt_le, Rinv_0_lt_compat; lra).
    apply Rle_trans with (3 * (8 * uu * (8 * n)) * / (24 * n * (25 * n))); [apply Rmult_le_compat; [apply Rmult_le_pos; [lra|apply Rabs_pos]|apply Rlt_le, Rinv_0_lt_compat; lra|lra|apply Rinv_le_contravar; lra]|].
    replace (3 * (8 * uu * (8 * n)) * / (24 * n * (25 * n))) with (uu * (8 / 25 * / n)) by (field; lra). rewrite <- (Rmult_1_r uu) at 2. apply Rmult_le_compat_l; [lra|]. assert (/ n <= / 3) by (apply Rinv_le_contravar; lra). lra. }
  assert (QB : 0 <= 3 / (8 * n * PI) <= 4 / 100). { split; [apply Rdiv_le_0_compat; lra|]. apply Rle_div_l; lra. }
  assert (XQ : Rabs (val c3 / val ff) <= 5 / 100). { replace (val c3 / val ff) with ((val c3 / val ff - 3 / (8 * n * PI)) + 3 / (8 * n * PI)) by ring. eapply Rle_trans; [apply Rabs_triang|]. rewrite (Rabs_pos_eq (3 / (8 * n * PI))); lra. }
  destruct (div_ok c3 ff F3) as (Fg & Vg). { lra. } { apply IEEELegendre.rnd_small. lra. } pose proof (rnd_abs _ _ XQ) as RQ. rewrite <- Vg in RQ. set (gg := Bdiv mode_NE c3 ff) in *. clearbody gg.
  assert (EG : Rabs (val gg - 3 / (8 * n * PI)) <= 11 / 10 * uu). { replace (val gg - 3 / (8 * n * PI)) with ((val gg - val c3 / val ff) + (val c3 / val ff - 3 / (8 * n * PI))) by ring. eapply Rle_trans; [apply Rabs_triang|]. lra. }
  (* 1 / a *)
  assert (IB : 0 <= 1 / b <= 8 / 10). { split; [apply Rdiv_le_0_compat; lra|]. apply Rle_div_l; lra. }
  assert (XI : Rabs (val one / val a) <= 8 / 10) by (rewrite V1, Va, Rabs_pos_eq; lra).
  destruct (div_ok one a F1) as (Fi & Vi). { lra. } { apply IEEELegendre.rnd_small. lra. } pose proof (rnd_abs _ _ XI) as RI. rewrite <- Vi, V1, Va in RI. set (ii := Bdiv mode_NE one a) in *. clearbody ii.
  assert (BG : Rabs (val gg) <= 5 / 100). { replace (val gg) with ((val gg - 3 / (8 * n * PI)) + 3 / (8 * n * PI)) by ring. eapply Rle_trans; [apply Rabs_triang|]. rewrite (Rabs_pos_eq (3 / (8 * n * PI))); lra. }
  assert (BI : Rabs (val ii) <= 1). { replace (val ii) with ((val ii - 1 / b) + 1 / b) by ring. eapply Rle_trans; [apply Rabs_triang|]. rewrite (Rabs_pos_eq (1 / b)); lra. }
  assert (XP : Rabs (val gg * val ii) <= 5 / 100) by (rewrite Rabs_mult; apply Rle_trans with (5 / 100 * 1); [apply Rmult_le_compat; auto using Rabs_pos|lra]).
  destruct (mul_ok gg ii Fg Fi) as (Fh & Vh). { apply IEEELegendre.rnd_small. lra. } pose proof (rnd_abs _ _ XP) as RP. rewrite <- Vh in RP. set (hq := Bmult mode_NE gg ii) in *. clearbody hq.
  assert (EH : Rabs (val hq - 3 / (8 * n * PI) * (1 / b)) <= 2 * uu).
  { replace (val hq - 3 / (8 * n * PI) * (1 / b)) with ((val hq - val gg * val ii) + (val gg * (val ii - 1 / b) + 1 / b * (val gg - 3 / (8 * n * PI)))) by ring.
    eapply Rle_trans; [apply Rabs_triang|]. eapply Rle_trans; [apply Rplus_le_compat_l, Rabs_triang|]. rewrite (Rabs_mult (val gg)), (Rabs_mult (1 / b)), (Rabs_pos_eq (1 / b)) by lra.
    assert (Rabs (val gg) * Rabs (val ii - 1 / b) <= 5 / 100 * (uu * (8 / 10) + hh)) by (apply Rmult_le_compat; auto using Rabs_pos). assert (1 / b * Rabs (val gg - 3 / (8 * n * PI)) <= 8 / 10 * (11 / 10 * uu)) by (apply Rmult_le_compat; auto using Rabs_pos; lra). lra. }
  (* difference *)
  assert (BH : Rabs (val hq) <= 6 / 100). { replace (val hq) with ((val hq - val gg * val ii) + val gg * val ii) by ring. eapply Rle_trans; [apply Rabs_triang|]. lra. }
  assert (BD : Rabs (val dd) <= 160 / 100). { replace (val dd) with ((val dd - b * PI / n) + b * PI / n) by ring. eapply Rle_trans; [apply Rabs_triang|]. lra. }
  assert (XS : Rabs (val dd - val hq) <= 2). { unfold Rminus. eapply Rle_trans; [apply Rabs_triang|]. rewrite Rabs_Ropp. lra. }
  destruct (sub_ok dd hq Fd Fh) as (Fs & Vs). { apply IEEELegendre.rnd_small. lra. } pose proof (rnd_abs _ _ XS) as RS. rewrite <- Vs in RS.
  split; [exact Fs|]. unfold garg. fold b. match goal with |- Rabs (val ?w - _) <= _ => change (val w) with (val (Bminus mode_NE dd hq)) end.
  replace (val (Bminus mode_NE dd hq) - (b * PI / n - 3 / (8 * n * PI) * (1 / b))) with ((val (Bminus mode_NE dd hq) - (val dd - val hq)) + ((val dd - b * PI / n) + - (val hq - 3 / (8 * n * PI) * (1 / b)))) by ring.
  eapply Rle_trans; [apply Rabs_triang|]. eapply Rle_trans; [apply Rplus_le_compat_l, Rabs_triang|]. rewrite Rabs_Ropp. lra.
Qed.
Variable eps : R.
Hypothesis HC : accurate_cos m eps.
Lemma guess_ok : fin (gl_guess (T := b64) N j) /\ Rabs (val (gl_guess (T := b64) N j) - gl_guess (T := R) N j) <= eps + 12 * uu.
Proof.
  destruct garg_ok as (Fa & Ea). destruct (HC garg64 Fa) as (Fc & Ec). change (gl_guess (T := b64) N j) with (Bopp (m_cos m garg64)).
  split; [unfold fin in *; rewrite is_finite_Bopp; exact Fc|]. unfold val at 1. rewrite B2R_Bopp. fold (val (m_cos m garg64)).
  assert (E : gl_guess (T := R) N j = - cos garg) by (unfold gl_guess, garg; rewrite !nofnat_INR; reflexivity). rewrite E.
  pose proof (cos_lip (val garg64) garg). replace (- val (m_cos m garg64) - - cos garg) with (- ((val (m_cos m garg64) - cos (val garg64)) + (cos (val garg64) - cos garg))) by ring. rewrite Rabs_Ropp. eapply Rle_trans; [apply Rabs_triang|]. lra.
Qed.
End Guess.

Section Node.
Variables (N : nat) (x : nat -> R) (j : nat) (eps : R).
Hypothesis HN : (3 <= N <= 1000)%nat.
Hypothesis HX : lobatto_nodes N x.
Hypothesis X0 : x 0%nat = -1.
Hypothesis X1 : x N = 1.
Hypothesis HI : incr (S N) x.
Hypothesis Hj : (1 <= j)%nat.
Hypothesis Hj2 : (2 * j < N)%nat.
Hypothesis HC : accurate_cos m eps.
Hypothesis He : eps <= 1 / 1000000000.
Let HN3 : (3 <= N)%nat := proj1 HN.
Lemma qq_abs : 146 / 100 / 1000000 <= qq N x j.
Proof.
  pose proof (qq_lo N x j HN HX X0 X1 HI Hj Hj2) as QL. pose proof (N_R N HN). pose proof (Qp N x j HN3 HX X0 X1 HI Hj Hj2).
  assert (INR N * INR N <= 1000 * 1000) by (apply Rmult_le_compat; lra). assert (INR N * INR N * qq N x j <= 1000 * 1000 * qq N x j) by (apply Rmult_le_compat_r; lra). lra.
Qed.
Lemma gX64 : fin (gX (T := b64) N j) /\ Rabs (val (gX (T := b64) N j) - x j) <= node_error N.
Proof.
  destruct (guess_ok N j HN Hj Hj2 eps HC) as (Fg & Eg). pose proof (guess_start N x j HN3 HX X0 X1 HI Hj Hj2) as S. pose proof qq_abs as Q. pose proof u_tiny. pose proof uu_pos.
  apply (loop64 m N x j HN HX X0 X1 HI Hj Hj2 gl_iters 0 (gl_guess N j) Fg); [|unfold gl_iters; lia]. cbn [stage]. set (g := val (gl_guess (T := b64) N j)) in *.
  assert (E : Rabs (g - gl_guess (T := R) N j) <= / 1000 * qq N x j) by lra. destruct S as [S|S].
  - destruct (out_R N x j HN3 HX X0 X1 HI Hj Hj2 _ (/ 1000) _ g S) as [K|K]; auto; try lra.
    + left. apply (R_le N x j HN3 HX X0 X1 HI Hj Hj2 (1029 / 1000 + / 1000)); [lra|exact K].
    + right. apply (L_le N x j HN3 HX X0 X1 HI Hj Hj2 (/ 1000)); [lra|exact K].
  - destruct (out_L N x j HN3 HX X0 X1 HI Hj Hj2 _ (/ 1000) _ g S) as [K|K]; auto; try lra.
    + right. apply (L_le N x j HN3 HX X0 X1 HI Hj Hj2 (11 / 100 + / 1000)); [lra|exact K].
    + left. apply (R_le N x j HN3 HX X0 X1 HI Hj Hj2 (/ 1000)); [lra|exact K].
Qed.
End Node.
End GL.
