(** Gauss-Lobatto points in binary64: one step of the loop, and the loop. *)
From Coquelicot Require Import Coquelicot.
From Coq Require Import ZArith Reals Lra Lia List Arith Bool Psatz.
From Flocq Require Import Core Relative BinarySingleNaN.
From Verif Require Import Num Outcome LinAlg RSum RDeriv RPoly LegendreModel LegendreSpec LegendreMath LegendreProofs StabMath IEEEModel IEEESpec IEEEProofs IEEEHorner IEEELegendre
  GLSpec QuadSpec QuadMath LobattoRoots ToolsModel GLModel GLProofs GLProofs2 NewtonMath SturmMath LobattoLocate GLConv GLConv2 GLConv3 GL64Math GL64.
Local Open Scope R_scope.

Lemma quotient_err q qp Q Qp eq ep L mu : 0 < L -> L <= Rabs qp -> 0 <= eq -> 0 <= ep -> ep <= L / 100 -> Rabs (Q - q) <= eq -> Rabs (Qp - qp) <= ep -> Rabs (q / qp) <= mu ->
  99 / 100 * L <= Rabs Qp /\ Rabs (Q / Qp - q / qp) <= 102 / 100 * (eq + mu * ep) / L.
Proof.
  intros HL Lq E0 E1 E2 H1 H2 Hm. assert (P : 99 / 100 * L <= Rabs Qp). { pose proof (Rabs_triang_inv qp (qp - Qp)) as T. replace (qp - (qp - Qp)) with Qp in T by ring. rewrite (Rabs_minus_sym qp Qp) in T. lra. }
  split; [exact P|]. assert (Z1 : qp <> 0) by (intros ->; rewrite Rabs_R0 in Lq; lra). assert (Z2 : Qp <> 0) by (intros ->; rewrite Rabs_R0 in P; lra).
  replace (Q / Qp - q / qp) with (((Q - q) + - (q / qp * (Qp - qp))) / Qp) by (field; auto). unfold Rdiv at 1. rewrite Rabs_mult, Rabs_inv.
  assert (M0 : 0 <= mu) by (eapply Rle_trans; [apply Rabs_pos|exact Hm]).
  assert (A : Rabs (Q - q + - (q / qp * (Qp - qp))) <= eq + mu * ep). { eapply Rle_trans; [apply Rabs_triang|]. rewrite Rabs_Ropp, Rabs_mult. apply Rplus_le_compat; auto. apply Rmult_le_compat; auto using Rabs_pos. }
  assert (B : / Rabs Qp <= 102 / 100 * / L). { replace (102 / 100 * / L) with (/ (100 / 102 * L)) by (field; lra). apply Rinv_le_contravar; lra. }
  assert (B0 : 0 <= / Rabs Qp) by (apply Rlt_le, Rinv_0_lt_compat; lra).
  replace (102 / 100 * (eq + mu * ep) / L) with ((eq + mu * ep) * (102 / 100 * / L)) by (field; lra). apply Rmult_le_compat; auto using Rabs_pos.
Qed.
Lemma ten9 (m : libm) : fin (ten_m (H := B64num m) 9) /\ / 1000000001 <= val (ten_m (H := B64num m) 9) <= / 999999999.
Proof.
  split; [vm_compute; reflexivity|]. unfold val. replace (B2R (ten_m (H := B64num m) 9 : b64)) with (F2R (Float radix2 4835703278458517 (-82))) by (vm_compute; reflexivity).
  unfold F2R. cbn [Fnum Fexp bpow]. change (Z.pow_pos radix2 82) with 4835703278458516698824704%Z. lra.
Qed.

Section GL.
Variable m : libm.
Local Instance BN : Num b64 := B64num m.
Section Step.
Variables (t : b64) (N : nat) (hs hn L mu : R).
Hypothesis Ft : fin t.
Hypothesis Bt : Rabs (val t) <= 1.
Hypothesis HN : (3 <= N <= 1000)%nat.
Hypothesis Hs : Rabs (val (lv m t (S N)) - legP (S N) (val t)) + Rabs (val (lv m t (N - 1)) - legP (N - 1) (val t)) <= hs.
Hypothesis Hn : Rabs (val (lv m t N) - legP N (val t)) <= hn.
Hypothesis HL : 0 < L.
Hypothesis HL2 : L <= (2 * INR N + 1) * Rabs (legP N (val t)).
Let eq := hs + 201 / 100 * uu.
Let ep := (2 * INR N + 1) * hn + 5 * (INR N * INR N) * uu.
Hypothesis Hep : ep <= L / 100.
Hypothesis Hmu : Rabs (nmap N (val t) - val t) <= mu.
Hypothesis Hmu2 : mu <= 6 / 10.
Hypothesis Hnm : Rabs (nmap N (val t)) <= 1.
Let A := 102 / 100 * (eq + mu * ep) / L.
Hypothesis HA : A <= 1 / 100.
Lemma step64 : let d := nstep N t in let v := (t + d)%num in fin d /\ fin v /\
  Rabs (val d - (nmap N (val t) - val t)) <= A + 2 * uu /\ Rabs (val v - nmap N (val t)) <= A + 2 * uu.
Proof.
  cbv zeta. pose proof (N_R N HN) as NR. pose proof uu_pos as U. pose proof uu_small as US. pose proof hh_pos as HP. pose proof hh_uu as HU.
  assert (S0 : 0 <= hs) by (eapply Rle_trans; [|exact Hs]; apply Rplus_le_le_0_compat; apply Rabs_pos). assert (N0 : 0 <= hn) by (eapply Rle_trans; [apply Rabs_pos|exact Hn]).
  destruct (q_val m t Ft Bt N HN _ _ Hs Hn) as (Fq & Eq & Bq). destruct (qp_val m t Ft Bt N HN _ _ Hs Hn) as (Fp & Ep & Bp).
  change (BN) with (GL64.BN m). unfold nstep. destruct (qe (HN := GL64.BN m) t N) as [[q qp] l] eqn:Q. cbn [fst snd] in *.
  set (g := qpol N (val t)) in *. set (gp := (2 * INR N + 1) * legP N (val t)) in *.
  assert (Gp : L <= Rabs gp) by (unfold gp; rewrite Rabs_mult, (Rabs_pos_eq (2 * INR N + 1)); lra).
  assert (Z : gp <> 0) by (intros E; rewrite E, Rabs_R0 in Gp; lra).
  assert (MV : nmap N (val t) - val t = - (g / gp)) by (unfold nmap; fold g; fold gp; ring).
  assert (M1 : Rabs (g / gp) <= mu) by (rewrite <- (Rabs_Ropp (g / gp)), <- MV; exact Hmu). assert (M0 : 0 <= mu) by (eapply Rle_trans; [apply Rabs_pos|exact M1]).
  assert (E0 : 0 <= eq) by (unfold eq; lra). assert (P0 : 0 <= ep). { unfold ep. apply Rplus_le_le_0_compat; apply Rmult_le_pos; try lra. nra. }
  destruct (quotient_err g gp (val q) (val qp) eq ep L mu HL Gp E0 P0 Hep Eq Ep M1) as (LP & QE). fold A in QE.
  assert (A0 : 0 <= A) by (eapply Rle_trans; [apply Rabs_pos|exact QE]).
  assert (Zq : val qp <> 0) by (intros E; rewrite E, Rabs_R0 in LP; lra).
  assert (Fo : fin (Bopp q)) by (unfold fin in *; rewrite is_finite_Bopp; exact Fq). assert (Vo : val (Bopp q) = - val q) by apply B2R_Bopp.
  assert (QB : Rabs (- val q / val qp) <= 62 / 100). { replace (- val q / val qp) with (- ((val q / val qp - g / gp) + g / gp)) by (field; auto). rewrite Rabs_Ropp. eapply Rle_trans; [apply Rabs_triang|]. lra. }
  cbn [ndiv nopp nadd GL64.BN B64num]. destruct (div_ok (Bopp q) qp Fo Zq) as (Fd & Vd). { rewrite Vo. apply IEEELegendre.rnd_small. lra. }
  rewrite Vo in Vd. destruct (rnd_err (- val q / val qp)) as (d1 & e1 & D1 & E1 & R1). rewrite R1 in Vd. set (d := Bdiv mode_NE (Bopp q) qp) in *.
  assert (DE : Rabs (val d - (nmap N (val t) - val t)) <= A + 63 / 100 * uu + hh).
  { rewrite Vd, MV. replace (- val q / val qp * (1 + d1) + e1 - - (g / gp)) with (- (val q / val qp - g / gp) + (- val q / val qp) * d1 + e1) by (field; auto).
    eapply Rle_trans; [apply Rabs_triang|]. eapply Rle_trans; [apply Rplus_le_compat_r, Rabs_triang|]. rewrite Rabs_Ropp, (Rabs_mult (- val q / val qp)).
    assert (Rabs (- val q / val qp) * Rabs d1 <= 62 / 100 * uu) by (apply Rmult_le_compat; auto using Rabs_pos). lra. }
  assert (SB : Rabs (val t + val d) <= 102 / 100). { replace (val t + val d) with (nmap N (val t) + (val d - (nmap N (val t) - val t))) by ring. eapply Rle_trans; [apply Rabs_triang|]. lra. }
  destruct (add_ok t d Ft Fd) as (Fv & Vv). { apply IEEELegendre.rnd_small. lra. }
  destruct (rnd_err_plus (val t) (val d)) as (d2 & D2 & R2); try apply val_fmt. rewrite R2 in Vv.
  split; [exact Fd|]. split; [exact Fv|]. split; [lra|]. match goal with |- Rabs (val ?w - _) <= _ => change (val w) with (val (Bplus mode_NE t d)) end. rewrite Vv.
  replace ((val t + val d) * (1 + d2) - nmap N (val t)) with ((val d - (nmap N (val t) - val t)) + (val t + val d) * d2) by ring. eapply Rle_trans; [apply Rabs_triang|]. rewrite (Rabs_mult (val t + val d)).
  assert (Rabs (val t + val d) * Rabs d2 <= 102 / 100 * uu) by (apply Rmult_le_compat; auto using Rabs_pos). lra.
Qed.
End Step.

Section Node.
Variables (N : nat) (x : nat -> R) (j : nat).
Hypothesis HN : (3 <= N <= 1000)%nat.
Hypothesis HX : lobatto_nodes N x.
Hypothesis X0 : x 0%nat = -1.
Hypothesis X1 : x N = 1.
Hypothesis HI : incr (S N) x.
Hypothesis Hj : (1 <= j)%nat.
Hypothesis Hj2 : (2 * j < N)%nat.
Let HN3 : (3 <= N)%nat := proj1 HN.
Notation zz := (zz x j).
Notation qq := (qq N x j).
Local Notation lam := (Rabs (legP N zz)).
Let n := INR N.
Let s := sqrt n.
(** the error of the computed node *)
Definition nerr : R := 156 / 10 * (n * s) * uu.
Definition ee : R := nerr / qq.
Lemma n_R : 3 <= n <= 1000. Proof. exact (N_R N HN). Qed.
Lemma s_sq : s * s = n. Proof. apply sqrt_sqrt. pose proof n_R. lra. Qed.
Lemma s_lo : 173 / 100 <= s <= 32.
Proof.
  pose proof s_sq as E. pose proof n_R. assert (0 <= s) by apply sqrt_pos. split; apply Rnot_lt_le; intros C.
  - assert (s * s < 173 / 100 * (173 / 100)) by (apply Rmult_le_0_lt_compat; lra). lra.
  - assert (32 * 32 < s * s) by (apply Rmult_le_0_lt_compat; lra). lra.
Qed.
Lemma Lam_lo : 1414 / 1000 * s <= (2 * n + 1) * lam.
Proof.
  pose proof n_R as NR. pose proof s_lo. pose proof s_sq as E. pose proof (lam_sq N x j HN3 HX X0 X1 HI Hj Hj2) as LS. fold n in LS. assert (L0 : 0 <= lam) by apply Rabs_pos.
  set (l := lam) in *. apply Rnot_lt_le. intros C. assert (0 <= (2 * n + 1) * l) by (apply Rmult_le_pos; lra).
  assert (C2 : (2 * n + 1) * l * ((2 * n + 1) * l) < 1414 / 1000 * s * (1414 / 1000 * s)) by (apply Rmult_le_0_lt_compat; lra).
  assert (C3 : 2 * n * ((2 * n + 1) * (2 * n + 1) * (l * l)) < 2 * n * (2 * n)). { apply Rmult_lt_compat_l; [lra|]. replace (1414 / 1000 * s * (1414 / 1000 * s)) with (1414 / 1000 * (1414 / 1000) * (s * s)) in C2 by ring. rewrite E in C2. lra. }
  assert ((2 * n + 1) * (2 * n + 1) * 1 <= (2 * n + 1) * (2 * n + 1) * (2 * n * (l * l))) by (apply Rmult_le_compat_l; nra). nra.
Qed.
Lemma qq_lo : 146 / 100 <= n * n * qq.
Proof.
  pose proof (unit_gmin N x ltac:(lia) HX X0 X1 HI j Hj Hj2) as G. pose proof n_R as NR. unfold M in G. fold n in G.
  assert (E : (n + 1 / 2) * (n + 1 / 2) <= 49 / 36 * (n * n)) by nra.
  assert (P : 0 < (n + 1 / 2) * (n + 1 / 2)) by nra. pose proof (Qp N x j HN3 HX X0 X1 HI Hj Hj2) as Q.
  assert (G2 : 2 <= qq * ((n + 1 / 2) * (n + 1 / 2))). { apply (Rmult_le_compat_r ((n + 1 / 2) * (n + 1 / 2))) in G; [|lra]. replace (2 / ((n + 1 / 2) * (n + 1 / 2)) * ((n + 1 / 2) * (n + 1 / 2))) with 2 in G by (field; lra). exact G. }
  assert (qq * ((n + 1 / 2) * (n + 1 / 2)) <= qq * (49 / 36 * (n * n))) by (apply Rmult_le_compat_l; lra). lra.
Qed.
Lemma qq_hi : qq <= / n /\ qq <= 29 / 100.
Proof.
  pose proof n_R as NR. pose proof (rt_sq N HN3) as E. pose proof (rt_pos N HN3) as P. fold n in E. pose proof (ss_1 x j) as S1. pose proof (qq_rt N x j HN3) as Q. pose proof (Qp N x j HN3 HX X0 X1 HI Hj Hj2) as QP.
  assert (R1 : n <= rt N). { apply Rnot_lt_le. intros C. assert (rt N * rt N < n * n) by (apply Rmult_le_0_lt_compat; lra). nra. }
  assert (R2 : 346 / 100 <= rt N). { apply Rnot_lt_le. intros C. assert (rt N * rt N < 346 / 100 * (346 / 100)) by (apply Rmult_le_0_lt_compat; lra). nra. }
  assert (QN : qq * n <= 1). { apply Rle_trans with (qq * rt N); [apply Rmult_le_compat_l; lra|lra]. }
  assert (QM : qq * (346 / 100) <= 1). { apply Rle_trans with (qq * rt N); [apply Rmult_le_compat_l; lra|lra]. }
  split; [|lra]. apply (Rmult_le_reg_r n); [lra|]. rewrite Rinv_l; lra.
Qed.
Lemma n3u : n * n * n * uu <= / 8000000.
Proof.
  pose proof n_R. pose proof u_tiny. pose proof uu_pos. assert (n * n * n <= 1000 * 1000 * 1000) by (repeat apply Rmult_le_compat; try lra; nra).
  apply Rle_trans with (1000 * 1000 * 1000 * / 8000000000000000); [apply Rmult_le_compat; try lra; nra|lra].
Qed.
Lemma nerr_pos : 0 < nerr.
Proof. pose proof n_R. pose proof s_lo. pose proof uu_pos. unfold nerr. apply Rmult_lt_0_compat; auto. nra. Qed.
Lemma nerr_small : nerr <= / 500 * qq /\ nerr <= / 10000000000.
Proof.
  pose proof n_R. pose proof s_lo. pose proof uu_pos. pose proof n3u as U3. pose proof qq_lo as Q. pose proof u_tiny.
  assert (N3 : n * n * nerr <= 156 / 10 * 32 * / 8000000). { replace (n * n * nerr) with (156 / 10 * s * (n * n * n * uu)) by (unfold nerr; ring). apply Rmult_le_compat; try lra. assert (0 <= n * n * n) by nra. apply Rmult_le_pos; lra. }
  split.
  - apply (Rmult_le_reg_l (n * n)); [nra|]. lra.
  - unfold nerr. assert (n * s <= 1000 * 32) by (apply Rmult_le_compat; lra). assert (0 <= n * s) by nra. apply Rle_trans with (156 / 10 * (1000 * 32) * / 8000000000000000); [apply Rmult_le_compat; lra|lra].
Qed.
Lemma ee_R : 0 <= ee <= 1 / 500.
Proof.
  pose proof (Qp N x j HN3 HX X0 X1 HI Hj Hj2) as Q. pose proof nerr_pos. pose proof nerr_small as (S & _). unfold ee. split; [apply Rdiv_le_0_compat; lra|]. apply Rle_div_l; lra.
Qed.
Lemma ee_qq : ee * qq = nerr.
Proof. pose proof (Qp N x j HN3 HX X0 X1 HI Hj Hj2) as Q. unfold ee. field. lra. Qed.
Notation far := (far N x j).
Notation close := (close N x j).
Notation pert := (pert N x j ee).

Section One.
Variable t : b64.
Hypothesis Ft : fin t.
Hypothesis Bt : far (val t).
Let u := val t.
Lemma t_1 : Rabs u <= 1.
Proof. pose proof (far_range N x j HN3 HX X0 X1 HI Hj Hj2 u Bt). apply Rabs_le. lra. Qed.
Let hs := 14 * (n * n + n + 1) * uu.
Let hn := 7 * (n * (n + 1)) * uu.
Lemma Hs64 : Rabs (val (lv m t (S N)) - legP (S N) (val t)) + Rabs (val (lv m t (N - 1)) - legP (N - 1) (val t)) <= hs.
Proof.
  pose proof (lv_err m t Ft t_1 (S N) ltac:(lia)) as A. pose proof (lv_err m t Ft t_1 (N - 1) ltac:(lia)) as B. rewrite S_INR in A. rewrite minus_INR in B by lia. change (INR 1) with 1 in B. fold n in A, B. unfold hs. lra.
Qed.
Lemma Hn64 : Rabs (val (lv m t N) - legP N (val t)) <= hn.
Proof. pose proof (lv_err m t Ft t_1 N ltac:(lia)) as A. fold n in A. unfold hn. lra. Qed.
Lemma eq_R : 0 <= hs + 201 / 100 * uu <= 206 / 10 * (n * n) * uu.
Proof. pose proof n_R. pose proof uu_pos. unfold hs. assert (14 * (n * n + n + 1) + 201 / 100 <= 206 / 10 * (n * n)) by nra. split; [apply Rplus_le_le_0_compat; apply Rmult_le_pos; nra|]. replace (14 * (n * n + n + 1) * uu + 201 / 100 * uu) with ((14 * (n * n + n + 1) + 201 / 100) * uu) by ring. apply Rmult_le_compat_r; lra. Qed.
Lemma ep_R : 0 <= (2 * n + 1) * hn + 5 * (n * n) * uu <= 236 / 10 * (n * n * n) * uu.
Proof.
  pose proof n_R. pose proof uu_pos. unfold hn. assert (0 <= n * n * (n - 3)) by (apply Rmult_le_pos; nra). assert (0 <= n * (n - 3)) by nra.
  assert ((2 * n + 1) * (7 * (n * (n + 1))) + 5 * (n * n) <= 236 / 10 * (n * n * n)) by nra.
  replace ((2 * n + 1) * (7 * (n * (n + 1)) * uu) + 5 * (n * n) * uu) with (((2 * n + 1) * (7 * (n * (n + 1))) + 5 * (n * n)) * uu) by ring. split; [apply Rmult_le_pos; nra|apply Rmult_le_compat_r; lra].
Qed.
Lemma range_nmap : Rabs (nmap N u) <= 1.
Proof. pose proof ee_R. pose proof (far_range N x j HN3 HX X0 X1 HI Hj Hj2 _ (far_next N x j HN3 HX X0 X1 HI Hj Hj2 ee ee_R u Bt)). apply Rabs_le. lra. Qed.
(** a step with slope at least kap of the one at the node and length at most mu0 / n *)
Lemma step_any kap mu0 : / 3 <= kap -> kap <= 1 -> kap * lam <= Rabs (legP N u) -> Rabs (nmap N u - u) <= mu0 * qq -> 0 <= mu0 -> mu0 <= 182 / 100 ->
  let d := nstep N t in let v := (t + d)%num in let B := 102 / 100 * (206 / 10 + 236 / 10 * mu0) / (kap * (1414 / 1000)) * (n * s) * uu + 2 * uu in
  fin d /\ fin v /\ Rabs (val d - (nmap N u - u)) <= B /\ Rabs (val v - nmap N u) <= B.
Proof.
  intros K1 K2 HK HM M0 M1. cbv zeta. pose proof n_R as NR. pose proof s_lo as SL. pose proof s_sq as SS. pose proof uu_pos as U. pose proof n3u as U3. pose proof u_tiny as UT. pose proof Lam_lo as LL. destruct qq_hi as (QN & QM). pose proof eq_R as EQ. pose proof ep_R as EP.
  pose proof (Qp N x j HN3 HX X0 X1 HI Hj Hj2) as Q0.
  set (L := kap * (1414 / 1000 * s)). assert (L0 : / 3 * (1414 / 1000 * (173 / 100)) <= L) by (apply Rmult_le_compat; lra).
  assert (HL2 : L <= (2 * INR N + 1) * Rabs (legP N (val t))).
  { fold n u. apply Rle_trans with ((2 * n + 1) * (kap * lam)); [|apply Rmult_le_compat_l; lra]. unfold L. replace ((2 * n + 1) * (kap * lam)) with (kap * ((2 * n + 1) * lam)) by ring. apply Rmult_le_compat_l; lra. }
  set (mu := mu0 * qq). assert (MU : 0 <= mu <= 6 / 10). { unfold mu. split; [apply Rmult_le_pos; lra|]. apply Rle_trans with (182 / 100 * (29 / 100)); [apply Rmult_le_compat; lra|lra]. }
  set (eq := hs + 201 / 100 * uu) in *. set (ep := (2 * n + 1) * hn + 5 * (n * n) * uu) in *.
  assert (EPL : ep <= L / 100) by lra.
  assert (NN : n * n * uu <= / 8000000000). { assert (n * n <= 1000 * 1000) by (apply Rmult_le_compat; lra). apply Rle_trans with (1000 * 1000 * / 8000000000000000); [apply Rmult_le_compat; nra|lra]. }
  assert (AB : 102 / 100 * (eq + mu * ep) / L <= 102 / 100 * (206 / 10 + 236 / 10 * mu0) / (kap * (1414 / 1000)) * (n * s) * uu).
  { assert (MP : mu * ep <= mu0 * (236 / 10 * (n * n) * uu)).
    { apply Rle_trans with (mu0 * / n * (236 / 10 * (n * n * n) * uu)); [|right; field; lra]. apply Rmult_le_compat; try lra. unfold mu. apply Rmult_le_compat_l; lra. }
    apply Rle_trans with (102 / 100 * ((206 / 10 + 236 / 10 * mu0) * (n * n) * uu) / L).
    - unfold Rdiv at 1 4. apply Rmult_le_compat_r; [apply Rlt_le, Rinv_0_lt_compat; lra|]. apply Rmult_le_compat_l; [lra|]. lra.
    - right. unfold L. rewrite <- SS. field. split; lra. }
  assert (A1 : 102 / 100 * (206 / 10 + 236 / 10 * mu0) / (kap * (1414 / 1000)) * (n * s) * uu <= 1 / 100).
  { assert (102 / 100 * (206 / 10 + 236 / 10 * mu0) / (kap * (1414 / 1000)) <= 200). { apply Rle_div_l; [lra|]. lra. }
    assert (0 <= n * s) by (apply Rmult_le_pos; lra). assert (n * s <= 1000 * 32) by (apply Rmult_le_compat; lra).
    apply Rle_trans with (200 * (1000 * 32) * / 8000000000000000); [|lra]. assert (0 <= 102 / 100 * (206 / 10 + 236 / 10 * mu0) / (kap * (1414 / 1000))) by (apply Rdiv_le_0_compat; lra). set (cc := 102 / 100 * (206 / 10 + 236 / 10 * mu0) / (kap * (1414 / 1000))) in *. assert (cc * (n * s) <= 200 * (1000 * 32)) by (apply Rmult_le_compat; lra). assert (0 <= cc * (n * s)) by (apply Rmult_le_pos; lra). apply Rmult_le_compat; lra. }
  destruct (step64 t N hs hn L mu Ft t_1 HN Hs64 Hn64 ltac:(lra) HL2 EPL HM ltac:(lra) range_nmap) as (F1 & F2 & B1 & B2); [fold n; fold eq; fold ep; lra|].
  fold n in B1, B2. fold eq in B1, B2. fold ep in B1, B2. fold u in B1, B2. split; [exact F1|]. split; [exact F2|]. split; lra.
Qed.
Lemma step_far : let d := nstep N t in let v := (t + d)%num in fin d /\ fin v /\ Rabs (val d - (nmap N u - u)) <= 1 / 500 * qq /\ Rabs (val v - nmap N u) <= 1 / 500 * qq.
Proof.
  destruct (far_slope N x j HN3 HX X0 X1 HI Hj Hj2 u Bt) as (K & _). destruct (far_move N x j HN3 HX X0 X1 HI Hj Hj2 u Bt) as (M1 & _).
  destruct (step_any (/ 3) (182 / 100) ltac:(lra) ltac:(lra) ltac:(lra) M1 ltac:(lra) ltac:(lra)) as (F1 & F2 & B1 & B2). cbv zeta.
  match type of B1 with _ <= ?b => assert (BB : b <= 1 / 500 * qq) end.
  { pose proof n_R. pose proof s_lo. pose proof qq_lo. pose proof n3u. pose proof uu_pos. pose proof u_tiny. apply (Rmult_le_reg_l (n * n)); [nra|].
    match goal with |- n * n * (?c * (n * s) * uu + 2 * uu) <= _ => assert (C : 0 <= c <= 140) by lra; set (cc := c) in * end.
    replace (n * n * (cc * (n * s) * uu + 2 * uu)) with (cc * s * (n * n * n * uu) + 2 * (n * n * uu)) by ring.
    assert (n * n * uu <= n * n * n * uu) by (apply Rmult_le_compat_r; nra).
    assert (cc * s * (n * n * n * uu) <= 140 * 32 * / 8000000). { apply Rmult_le_compat; try lra; [apply Rmult_le_pos; lra|apply Rmult_le_pos; nra|apply Rmult_le_compat; lra]. } lra. }
  split; [exact F1|]. split; [exact F2|]. split; lra.
Qed.
Lemma step_close : close u -> let d := nstep N t in let v := (t + d)%num in Rabs (val d - (nmap N u - u)) <= ee * qq /\ Rabs (val v - nmap N u) <= ee * qq.
Proof.
  intros C. rewrite ee_qq. pose proof (Qp N x j HN3 HX X0 X1 HI Hj Hj2) as Q0. unfold GL64Math.close in C.
  destruct (slope N x j HN3 HX X0 X1 HI Hj Hj2 (15 / 1000) u C ltac:(lra) ltac:(lra)) as (K & _). pose proof (lam_pos N x j HN3 HX X0 X1 HI Hj Hj2) as LP.
  pose proof (near_step N x j HN3 HX X0 X1 HI Hj Hj2 (15 / 1000) u ltac:(lra) ltac:(lra) C) as G. apply near_abs in G; [|assumption..]. pose proof C as C'. apply near_abs in C'; [|assumption..].
  assert (MV : Rabs (nmap N u - u) <= 152 / 10000 * qq). { replace (nmap N u - u) with ((nmap N u - zz) + - (u - zz)) by ring. eapply Rle_trans; [apply Rabs_triang|]. rewrite Rabs_Ropp. lra. }
  assert (KK : 999 / 1000 * lam <= Rabs (legP N u)). { change (x j) with zz in K. eapply Rle_trans; [|exact K]. rewrite Rmult_comm. apply Rmult_le_compat_l; lra. }
  destruct (step_any (999 / 1000) (152 / 10000) ltac:(lra) ltac:(lra) KK MV ltac:(lra) ltac:(lra)) as (F1 & F2 & B1 & B2).
  cbv zeta. match type of B1 with _ <= ?b => assert (BB : b <= nerr) end; [|split; lra].
  pose proof n_R. pose proof s_lo. pose proof uu_pos. unfold nerr.
  match goal with |- ?c * (n * s) * uu + 2 * uu <= _ => assert (C0 : 0 <= c <= 152 / 10) by lra; set (cc := c) in * end.
  assert (P : 519 / 100 <= n * s) by (apply Rle_trans with (3 * (173 / 100)); [lra|apply Rmult_le_compat; lra]).
  assert (cc * (n * s) <= 152 / 10 * (n * s)) by (apply Rmult_le_compat_r; lra). replace (cc * (n * s) * uu + 2 * uu) with ((cc * (n * s) + 2) * uu) by ring. apply Rmult_le_compat_r; lra.
Qed.
Lemma step_pert : pert u (val (t + nstep N t)%num).
Proof. split; [apply step_far|apply step_close]. Qed.
End One.

(** the loop *)
Lemma loop64 fuel : forall i t, fin t -> stage N x j ee i (val t) -> (100 <= fuel + i)%nat -> fin (gn fuel N t) /\ Rabs (val (gn fuel N t) - zz) <= 16 * (n * s) * uu.
Proof.
  pose proof (Qp N x j HN3 HX X0 X1 HI Hj Hj2) as Q0. pose proof ee_R as ER. pose proof ee_qq as EQ. destruct nerr_small as (NS1 & NS2). pose proof n_R as NR. pose proof s_lo as SL. pose proof uu_pos as U. pose proof nerr_pos as NP. destruct qq_hi as (QN & QM).
  induction fuel as [|f IH]; intros i t Ft St Hi.
  - cbn [gn]. split; [exact Ft|]. destruct i as [|[|[|[|[|[|k]]]]]]; try lia. cbn [stage] in St. apply near_abs in St; [|assumption..]. eapply Rle_trans; [exact St|].
    assert (T : 11 / 1000 / 100 ^ k <= / 100 ^ 10).
    { assert (P10 : 0 < 100 ^ 10) by (apply pow_lt; lra). assert (Pk : 100 ^ 10 <= 100 ^ k) by (apply Rle_pow; [lra|lia]). assert (/ 100 ^ k <= / 100 ^ 10) by (apply Rinv_le_contravar; auto). assert (0 < / 100 ^ k) by (apply Rinv_0_lt_compat; lra). unfold Rdiv. lra. }
    assert (T2 : / 100 ^ 10 <= / 1000 * uu). { unfold uu. rewrite <- Rinv_mult. apply Rinv_le_contravar; [apply Rmult_lt_0_compat; [lra|apply pow_lt; lra]|]. cbn. lra. }
    rewrite Rmult_plus_distr_r. replace (100 / 99 * ee * qq) with (100 / 99 * nerr) by (rewrite <- EQ; ring).
    assert (11 / 1000 / 100 ^ k * qq <= / 1000 * uu * (29 / 100)) by (apply Rmult_le_compat; try lra; apply Rdiv_le_0_compat; [lra|apply pow_lt; lra]).
    assert (5 <= n * s) by (apply Rle_trans with (3 * (173 / 100)); [lra|apply Rmult_le_compat; lra]). unfold nerr. assert (5 * uu <= n * s * uu) by (apply Rmult_le_compat_r; lra). lra.
  - pose proof (stage_far N x j HN3 HX X0 X1 HI Hj Hj2 ee ER i _ St) as Hf. destruct (step_far t Ft Hf) as (Fd & Fv & Bd & Bv). pose proof (step_close t Ft Hf) as Hc. pose proof (step_pert t Ft Hf) as Hp.
    pose proof (stage_step N x j HN3 HX X0 X1 HI Hj Hj2 ee ER i _ _ St Hp) as Sv. pose proof (stage_far N x j HN3 HX X0 X1 HI Hj Hj2 ee ER _ _ Sv) as Hv. pose proof (far_range N x j HN3 HX X0 X1 HI Hj Hj2 _ Hv) as Rv.
    cbn [gn]. cbv zeta in Hc. set (d := nstep N t) in *. set (v := (t + d)%num) in *.
    destruct (nltb (nabs d) (nmul (ten_m 9) (nabs v))) eqn:TE; [|apply (IH (S i)); [exact Fv|exact Sv|lia]].
    split; [exact Fv|].
    assert (Fad : fin (nabs d)) by (unfold fin in *; cbn [nabs BN B64num]; rewrite is_finite_Babs; exact Fd). assert (Vad : val (nabs d) = Rabs (val d)) by apply B2R_Babs.
    assert (Fav : fin (nabs v)) by (unfold fin in *; cbn [nabs BN B64num]; rewrite is_finite_Babs; exact Fv). assert (Vav : val (nabs v) = Rabs (val v)) by apply B2R_Babs.
    assert (Rav : Rabs (val v) <= 1) by (apply Rabs_le; lra). destruct (ten9 m) as (F9 & V9). change (ten_m (H := B64num m) 9) with (ten_m 9) in *.
    set (av := nabs v) in *. set (ad := nabs d) in *. set (c9 := ten_m 9) in *. clearbody c9. assert (PR : 0 <= val c9 * val av <= / 999999999). { rewrite Vav. split; [apply Rmult_le_pos; [lra|apply Rabs_pos]|]. rewrite <- (Rmult_1_r (/ 999999999)). apply Rmult_le_compat; try lra. apply Rabs_pos. }
    destruct (mul_ok c9 av F9 Fav) as (Fm & Vm). { apply IEEELegendre.rnd_small. rewrite Rabs_pos_eq; lra. }
    destruct (rnd_err (val c9 * val av)) as (d1 & e1 & D1 & E1 & R1). rewrite R1 in Vm. cbn [nltb nmul BN B64num] in TE. rewrite ltb_val in TE by auto. unfold Rltb in TE.
    match type of TE with context [Rlt_dec ?p ?q] => destruct (Rlt_dec p q) as [LT|]; [|discriminate] end. rewrite Vm, Vad in LT. pose proof hh_pos. pose proof hh_uu. pose proof u_tiny. pose proof (abs_1d d1 D1). apply Rabs_le_between in E1.
    assert (B : val c9 * val av * (1 + d1) <= / 999999999 * (1 + uu)). { apply Rabs_le_between in D1. apply Rmult_le_compat; lra. }
    assert (DD : Rabs (val d) <= / 999000000) by lra. clear - DD Hp Bd Hc Hf Q0 ER EQ NS1 NS2 NP NR SL U QN QM HN HX X0 X1 HI Hj Hj2 HN3.
    pose proof qq_lo as QL. assert (QL2 : 146 / 100 / 1000000 <= qq). { apply Rle_div_l; [lra|]. assert (n * n <= 1000 * 1000) by (apply Rmult_le_compat; lra). assert (n * n * qq <= 1000 * 1000 * qq) by (apply Rmult_le_compat_r; lra). lra. }
    set (D := / 999000000 / qq). assert (DQ : D * qq = / 999000000) by (unfold D; field; lra).
    assert (DR : 0 <= D <= 13 / 1000). { split; [apply Rdiv_le_0_compat; lra|]. unfold D. apply Rle_div_l; lra. }
    pose proof (settle N x j HN3 HX X0 X1 HI Hj Hj2 ee ER D (val d) (val t) (val v) Hf Hp Bd (fun C => proj1 (Hc C)) ltac:(lra) DR) as G.
    apply near_abs in G; [|assumption..]. eapply Rle_trans; [exact G|]. rewrite Rmult_plus_distr_r, EQ.
    assert (CU : 2 / 5 * (D + ee) ^ 3 * qq <= / 10 * (n * s) * uu).
    { assert (DE : (D + ee) * qq <= / 900000000) by (rewrite Rmult_plus_distr_r; lra).
      assert (QI : D + ee <= / 900000000 * (n * n)). { apply Rle_trans with ((D + ee) * (n * n * qq)); [rewrite <- (Rmult_1_r (D + ee)) at 1; apply Rmult_le_compat_l; lra|]. replace ((D + ee) * (n * n * qq)) with ((D + ee) * qq * (n * n)) by ring. apply Rmult_le_compat_r; [nra|exact DE]. }
      replace (2 / 5 * (D + ee) ^ 3 * qq) with (2 / 5 * ((D + ee) * qq) * (D + ee) * (D + ee)) by ring.
      apply Rle_trans with (2 / 5 * / 900000000 * (/ 900000000 * (n * n)) * (/ 900000000 * (n * n))).
      { assert (Z0 : 0 <= 2 / 5 * ((D + ee) * qq)) by (apply Rmult_le_pos; [lra|apply Rmult_le_pos; lra]). assert (Z1 : 0 <= D + ee) by lra. apply Rmult_le_compat; [apply Rmult_le_pos; auto|auto| |auto]. apply Rmult_le_compat; auto. lra. }
      assert (UL : / 10000000000000000 <= uu). { unfold uu. apply Rinv_le_contravar; [apply pow_lt; lra|cbn; lra]. }
      assert (N3 : n * n * n <= 1000 * 1000 * 1000) by (repeat apply Rmult_le_compat; try lra; nra).
      apply Rle_trans with (/ 10 * (n * (173 / 100)) * / 10000000000000000); [|assert (n * (173 / 100) <= n * s) by (apply Rmult_le_compat_l; lra); apply Rmult_le_compat; lra].
      replace (2 / 5 * / 900000000 * (/ 900000000 * (n * n)) * (/ 900000000 * (n * n))) with (2 / 5 * / 900000000 * / 900000000 * / 900000000 * (n * (n * n * n))) by ring.
      assert (n * (n * n * n) <= n * (1000 * 1000 * 1000)) by (apply Rmult_le_compat_l; lra). lra. }
    assert (0 <= n * s * uu) by (repeat apply Rmult_le_pos; lra). unfold nerr. lra.
Qed.
End Node.
End GL.
