(** The numerical integral in binary64: interval lengths, evaluation points, sums. *)
From Coquelicot Require Import Coquelicot.
From Coq Require Import ZArith Reals Lra Lia List Arith Bool Psatz.
From Flocq Require Import Core Relative BinarySingleNaN.
From Verif Require Import Num Outcome LinAlg LegendreModel GLModel RSum IEEEModel IEEESpec IEEEProofs IEEEHorner IEEELegendre IEEESpline GLSpec GL64.
Local Open Scope R_scope.

Lemma pow_1u_lin2 k : INR k * uu <= / 1000 -> (1 + uu) ^ k <= 1 + 101 / 100 * (INR k * uu).
Proof.
  pose proof uu_pos as U. induction k as [|k IH]; intros H; [cbn; lra|]. rewrite S_INR in *. pose proof (pos_INR k). assert (0 <= INR k * uu) by (apply Rmult_le_pos; lra). cbn [pow].
  assert (E : (1 + uu) ^ k <= 1 + 101 / 100 * (INR k * uu)) by (apply IH; lra). apply Rle_trans with ((1 + uu) * (1 + 101 / 100 * (INR k * uu))); [apply Rmult_le_compat_l; lra|].
  assert (INR k * uu * uu <= / 1000 * uu) by (apply Rmult_le_compat_r; lra). lra.
Qed.
Lemma p2 k j : (k <= j)%nat -> 2 ^ k <= 2 ^ j. Proof. intros H. apply Rle_pow; [lra|exact H]. Qed.
Lemma p2i k j : (k <= j)%nat -> / 2 ^ j <= / 2 ^ k. Proof. intros H. apply Rinv_le_contravar; [apply pow_lt; lra|apply p2; exact H]. Qed.
Lemma i2_split j k : / 2 ^ (j + k) = / 2 ^ j * / 2 ^ k. Proof. rewrite pow_add, Rinv_mult. reflexivity. Qed.
Lemma hh_small : hh = / 2 ^ 500 * / 2 ^ 575. Proof. exact (i2_split 500 575). Qed.
Lemma normal_500 x : / 2 ^ 960 <= Rabs x -> exists d, Rabs d <= uu /\ rnd x = x * (1 + d).
Proof.
  intros H. apply rnd_err_normal. eapply Rle_trans; [|exact H]. unfold hh. replace (/ 2 ^ 1075) with (/ 2 ^ 960 * / 2 ^ 115) by (symmetry; exact (i2_split 960 115)).
  replace (2 * (/ 2 ^ 960 * / 2 ^ 115) * 2 ^ 53) with (/ 2 ^ 960 * (2 * / 2 ^ 115 * 2 ^ 53)) by ring. rewrite <- (Rmult_1_r (/ 2 ^ 960)) at 2. apply Rmult_le_compat_l; [apply Rlt_le, Rinv_0_lt_compat, pow_lt; lra|].
  apply Rmult_le_reg_l with (2 ^ 115); [apply pow_lt; lra|]. replace (2 ^ 115 * (2 * / 2 ^ 115 * 2 ^ 53)) with (2 ^ 54) by (change (2 ^ 54) with (2 * 2 ^ 53); field; apply pow_nonzero; lra). rewrite Rmult_1_r. apply p2. lia.
Qed.
(** composition of two relative errors *)
Lemma rel2 d1 d2 r1 r2 : Rabs d1 <= r1 -> Rabs d2 <= r2 -> Rabs (d1 + d2 + d1 * d2) <= r1 + r2 + r1 * r2.
Proof. intros H1 H2. eapply Rle_trans; [apply Rabs_triang|]. rewrite Rabs_mult. pose proof (Rabs_triang d1 d2). assert (Rabs d1 * Rabs d2 <= r1 * r2) by (apply Rmult_le_compat; auto using Rabs_pos). lra. Qed.

Lemma u1 : 0 < uu <= / 8000000000000000. Proof. pose proof uu_pos. pose proof u_tiny. lra. Qed.
Lemma p400 : 1 <= 2 ^ 400. Proof. apply pow_R1_Rle. lra. Qed.
Lemma no_over x : Rabs x <= 16 * 2 ^ 900 -> Rabs (rnd x) < omax.
Proof. intros H. apply rnd_big. eapply Rle_trans; [exact H|]. apply Rmult_le_compat_l; [lra|]. unfold big. apply p2. lia. Qed.
Lemma no_over4 x : Rabs x <= 64 * 2 ^ 400 -> Rabs (rnd x) < omax.
Proof. intros H. apply no_over. eapply Rle_trans; [exact H|]. replace (64 * 2 ^ 400) with (16 * 2 ^ 402) by (change (2 ^ 402) with (2 ^ (400 + 2)); rewrite pow_add; ring). apply Rmult_le_compat_l; [lra|]. apply p2. lia. Qed.

Section Int.
Variable m : libm.
Local Instance BN : Num b64 := B64num m.
Variables (A B : b64) (n : nat) (D : R).
Let a := val A.
Let b := val B.
Let len := (b - a) / INR n.
Hypothesis FA : fin A.
Hypothesis FB : fin B.
Hypothesis Hab : / 2 ^ 400 <= b - a.
Hypothesis DA : Rabs a <= D.
Hypothesis DB : Rabs b <= D.
Hypothesis HD : D <= 2 ^ 400.
Hypothesis Hn : (1 <= n)%nat.
Hypothesis Hn2 : INR n * uu <= / 1000.

Lemma n_53 : (n <= 2 ^ 53)%nat.
Proof.
  apply INR_le. rewrite pow_INR. replace (INR 2) with 2 by (simpl; lra). apply Rnot_lt_le. intros C. assert (2 ^ 53 * uu < INR n * uu) by (apply Rmult_lt_compat_r; [apply u1|exact C]). unfold uu in *. rewrite Rinv_r in * by (apply pow_nonzero; lra). lra.
Qed.
Lemma n_1 : 1 <= INR n. Proof. apply (le_INR 1). exact Hn. Qed.
Lemma L_R : b - a <= 2 * D /\ 0 < b - a /\ 0 < D.
Proof. assert (0 < / 2 ^ 400) by (apply Rinv_0_lt_compat, pow_lt; lra). apply Rabs_le_between in DA. apply Rabs_le_between in DB. lra. Qed.
Lemma len_R : / 2 ^ 453 <= len <= b - a /\ 0 < len.
Proof.
  pose proof n_1 as N1. destruct L_R as (_ & L0 & _). assert (N53 : INR n <= 2 ^ 53) by (pose proof (le_INR _ _ n_53) as X; rewrite pow_INR in X; replace (INR 2) with 2 in X by (simpl; lra); exact X).
  assert (E : len * INR n = b - a) by (unfold len; field; lra). assert (Lp : 0 < len) by (unfold len; apply Rdiv_lt_0_compat; lra). split; [|exact Lp]. split.
  - change (/ 2 ^ 453) with (/ 2 ^ (400 + 53)). rewrite i2_split. assert (P : 0 < 2 ^ 53) by (apply pow_lt; lra). apply Rmult_le_reg_r with (2 ^ 53); auto. rewrite Rmult_assoc, Rinv_l by lra. rewrite Rmult_1_r. eapply Rle_trans; [exact Hab|]. rewrite <- E. apply Rmult_le_compat_l; lra.
  - rewrite <- E. rewrite <- (Rmult_1_r len) at 1. apply Rmult_le_compat_l; lra.
Qed.
Definition len64 : b64 := ndiv (nsub B A) (nofnat n).
Lemma len_ok : fin len64 /\ exists l, Rabs l <= 201 / 100 * uu /\ val len64 = len * (1 + l).
Proof.
  pose proof u1 as U. destruct L_R as (L2 & L0 & D0). pose proof n_1 as N1. destruct len_R as (LR & Lp). destruct (nat_v m n n_53) as (Fn & Vn).
  change (@nofnat b64 (GL64.BN m)) with (@nofnat b64 BN) in *. destruct (sub_ok B A FB FA) as (F1 & V1). { apply no_over4. fold a b. rewrite Rabs_pos_eq; lra. }
  fold a b in V1. destruct (rnd_err_minus b a (val_fmt B) (val_fmt A)) as (d1 & D1 & E1). rewrite E1 in V1. unfold len64. cbn [nsub BN B64num]. change (B64num m) with BN. set (s := Bminus mode_NE B A) in *. clearbody s.
  assert (Nz : val (nofnat n : b64) <> 0) by (rewrite Vn; lra). assert (R1 : Rabs d1 <= / 1000) by lra. apply Rabs_le_between in R1. set (k := nofnat n : b64) in *. clearbody k.
  assert (Eq : val s / val k = len * (1 + d1)) by (rewrite V1, Vn; unfold len; field; lra).
  assert (Lq : / 2 ^ 454 <= val s / val k <= 4 * 2 ^ 400). { rewrite Eq. split; [|apply Rle_trans with ((b - a) * 2); [apply Rmult_le_compat; lra|lra]]. change (/ 2 ^ 454) with (/ 2 ^ (453 + 1)). rewrite i2_split. assert (0 < / 2 ^ 453) by (apply Rinv_0_lt_compat, pow_lt; lra). apply Rmult_le_compat; simpl (2 ^ 1) in *; lra. }
  assert (P0 : 0 < / 2 ^ 454) by (apply Rinv_0_lt_compat, pow_lt; lra).
  destruct (div_ok s k F1 Nz) as (F2 & V2). { apply no_over4. rewrite Rabs_pos_eq by lra. pose proof p400. lra. }
  split; [exact F2|]. cbn [ndiv BN B64num]. rewrite V2. destruct (normal_500 (val s / val k)) as (d2 & D2 & ->). { rewrite Rabs_pos_eq by lra. pose proof (p2i 454 960 ltac:(lia)). lra. }
  exists (d1 + d2 + d1 * d2). split; [|rewrite Eq; ring]. eapply Rle_trans; [apply (rel2 _ _ uu uu); auto|]. assert (uu * uu <= / 1000 * uu) by (apply Rmult_le_compat_r; lra). lra.
Qed.
Lemma hhD : hh <= / 1000 * uu * D.
Proof.
  destruct L_R as (L2 & L0 & D0). assert (E : hh <= uu * / 2 ^ 402 * / 1000). { unfold hh, uu. replace (/ 2 ^ 1075) with (/ 2 ^ 53 * / 2 ^ 402 * / 2 ^ 620) by (rewrite <- !i2_split; reflexivity). apply Rmult_le_compat_l; [apply Rmult_le_pos; apply Rlt_le, Rinv_0_lt_compat, pow_lt; lra|].
    apply Rinv_le_contravar; [lra|]. apply Rle_trans with (2 ^ 10); [simpl; lra|apply p2; lia]. }
  assert (DL : / 2 ^ 402 <= D). { pose proof (p2i 401 402 ltac:(lia)). assert (/ 2 ^ 401 = / 2 ^ 400 * / 2) by (change (/ 2 ^ 401) with (/ 2 ^ (400 + 1)); rewrite i2_split; f_equal; simpl; field). lra. }
  pose proof u1. assert (uu * / 2 ^ 402 <= uu * D) by (apply Rmult_le_compat_l; lra). lra.
Qed.
Definition left64 (iv : nat) : b64 := nadd A (nmul (nofnat iv) len64).
Lemma left_R iv : (iv <= n)%nat -> 0 <= INR iv * len <= b - a.
Proof.
  intros Hi. destruct len_R as (_ & Lp). pose proof (pos_INR iv). split; [apply Rmult_le_pos; lra|]. pose proof n_1. replace (b - a) with (INR n * len) by (unfold len; field; lra). apply Rmult_le_compat_r; [lra|apply le_INR; exact Hi].
Qed.
Lemma left_ok iv : (iv <= n)%nat -> fin (left64 iv) /\ Rabs (val (left64 iv) - (a + INR iv * len)) <= 72 / 10 * uu * D.
Proof.
  intros Hi. pose proof u1 as U. destruct L_R as (L2 & L0 & D0). destruct len_ok as (Fl & l & Hl & El). destruct (nat_v m iv ltac:(pose proof n_53; lia)) as (Fn & Vn). change (@nofnat b64 (GL64.BN m)) with (@nofnat b64 BN) in *.
  pose proof (left_R iv Hi) as LR. unfold left64. set (k := nofnat iv : b64) in *. clearbody k. set (ll := len64) in *. clearbody ll. set (p := INR iv * len) in *.
  assert (Ep : val k * val ll = p * (1 + l)) by (rewrite Vn, El; unfold p; ring). assert (l1 : Rabs l <= / 1000) by lra. pose proof l1 as l2. apply Rabs_le_between in l2.
  destruct (rnd_err (val k * val ll)) as (d & e & Dd & De & ER). assert (d1 : Rabs d <= / 1000) by lra. pose proof d1 as d2. apply Rabs_le_between in d2. pose proof hhD as HH.
  destruct (mul_ok k ll Fn Fl) as (F1 & V1). { apply no_over4. rewrite Ep. rewrite Rabs_pos_eq by (apply Rmult_le_pos; lra). apply Rle_trans with ((2 * 2 ^ 400) * 2); [apply Rmult_le_compat; lra|pose proof p400; lra]. }
  rewrite ER, Ep in V1. cbn [nmul BN B64num]. set (q := Bmult mode_NE k ll) in *. clearbody q.
  assert (Eq : Rabs (val q - p) <= 303 / 100 * uu * (b - a) + hh).
  { rewrite V1. replace (p * (1 + l) * (1 + d) + e - p) with (p * (l + d + l * d) + e) by ring. eapply Rle_trans; [apply Rabs_triang|]. rewrite Rabs_mult, (Rabs_pos_eq p) by lra.
    assert (R2 : Rabs (l + d + l * d) <= 303 / 100 * uu). { eapply Rle_trans; [apply (rel2 _ _ (201 / 100 * uu) uu); auto|]. assert (uu * uu <= / 1000 * uu) by (apply Rmult_le_compat_r; lra). lra. }
    assert (p * Rabs (l + d + l * d) <= (b - a) * (303 / 100 * uu)) by (apply Rmult_le_compat; try lra; apply Rabs_pos). lra. }
  assert (uD : uu * (b - a) <= uu * (2 * D)) by (apply Rmult_le_compat_l; lra).
  assert (UD : 0 <= uu * D) by (apply Rmult_le_pos; lra). assert (Eq2 : Rabs (val q - p) <= 607 / 100 * uu * D) by lra. clear Eq.
  assert (AL : Rabs (a + p) <= D). { apply Rabs_le_between in DA. apply Rabs_le_between in DB. apply Rabs_le. lra. }
  assert (UD2 : uu * D <= / 1000 * D) by (apply Rmult_le_compat_r; lra).
  assert (SQ : Rabs (a + val q) <= 102 / 100 * D). { replace (a + val q) with ((a + p) + (val q - p)) by ring. eapply Rle_trans; [apply Rabs_triang|]. lra. }
  destruct (add_ok A q FA F1) as (F2 & V2). { apply no_over4. fold a. pose proof p400. lra. }
  split; [exact F2|]. cbn [nadd BN B64num]. rewrite V2. fold a. destruct (rnd_err_plus a (val q) (val_fmt A) (val_fmt q)) as (d3 & D3 & ->).
  replace ((a + val q) * (1 + d3) - (a + p)) with ((val q - p) + (a + val q) * d3) by ring. eapply Rle_trans; [apply Rabs_triang|]. rewrite Rabs_mult.
  assert (Rabs (a + val q) * Rabs d3 <= 102 / 100 * D * uu) by (apply Rmult_le_compat; auto using Rabs_pos). lra.
Qed.
Definition node64 (iv : nat) (x : b64) : b64 := nadd (ndiv (nmul (nadd x n1) len64) c2) (left64 iv).
Lemma node_ok iv x : (iv < n)%nat -> fin x -> -1 <= val x <= 1 -> fin (node64 iv x) /\ Rabs (val (node64 iv x) - on_interval (a + INR iv * len) len (val x)) <= 20 * uu * D.
Proof.
  intros Hi Fx Hx. pose proof u1 as U. destruct L_R as (L2 & L0 & D0). destruct len_ok as (Fl & l & Hl & El). destruct (left_ok iv ltac:(lia)) as (FL & VL). destruct len_R as (LR & Lp). destruct (one_v m) as (F1 & V1). destruct (two_v m) as (F2 & V2).
  change (@Num.n1 b64 (GL64.BN m)) with (@Num.n1 b64 BN) in *. change (@c2 b64 (GL64.BN m)) with (@c2 b64 BN) in *. pose proof (left_R iv ltac:(lia)) as LR'. pose proof (left_R (S iv) Hi) as LS. rewrite S_INR in LS.
  unfold node64. set (o := Num.n1 : b64) in *. clearbody o. set (t := c2 : b64) in *. clearbody t. set (ll := len64) in *. clearbody ll. set (lf := left64 iv) in *. clearbody lf. pose proof p400 as P4. pose proof hhD as HH.
  assert (UD : 0 <= uu * D) by (apply Rmult_le_pos; lra). assert (UD2 : uu * D <= / 1000000 * D) by (apply Rmult_le_compat_r; lra).
  (* x + 1 *)
  destruct (add_ok x o Fx F1) as (Fa & Va). { apply no_over4. rewrite V1, Rabs_pos_eq; lra. } destruct (rnd_err_plus (val x) (val o) (val_fmt x) (val_fmt o)) as (d1 & D1 & E1). rewrite E1, V1 in Va. clear E1.
  cbn [nadd nmul ndiv BN B64num]. set (y := Bplus mode_NE x o) in *. clearbody y. set (w := val x + 1) in *. assert (W : 0 <= w <= 2) by (unfold w; lra).
  assert (S1 : Rabs d1 <= / 1000) by lra. pose proof S1 as S1'. apply Rabs_le_between in S1'. assert (Sl : Rabs l <= / 1000) by lra. pose proof Sl as Sl'. apply Rabs_le_between in Sl'.
  (* times len *)
  assert (Ey : val y * val ll = w * len * (1 + (d1 + l + d1 * l))) by (rewrite Va, El; ring). set (g := d1 + l + d1 * l) in *. assert (Hg : Rabs g <= 302 / 100 * uu). { eapply Rle_trans; [apply (rel2 _ _ uu (201 / 100 * uu)); auto|]. assert (uu * uu <= / 1000 * uu) by (apply Rmult_le_compat_r; lra). lra. }
  assert (Sg : Rabs g <= / 1000) by lra. pose proof Sg as Sg'. apply Rabs_le_between in Sg'. clearbody g. assert (WL : 0 <= w * len <= 4 * D). { split; [apply Rmult_le_pos; lra|]. replace (4 * D) with (2 * (2 * D)) by ring. apply Rmult_le_compat; lra. }
  assert (WL2 : w * len <= 2 * (b - a)) by (apply Rmult_le_compat; lra).
  assert (Ay : 0 <= val y * val ll <= 8 * D). { rewrite Ey. split; [apply Rmult_le_pos; lra|]. apply Rle_trans with (4 * D * 2); [apply Rmult_le_compat; lra|lra]. }
  destruct (mul_ok y ll Fa Fl) as (Fb & Vb). { apply no_over4. rewrite Rabs_pos_eq by lra. lra. } destruct (rnd_err (val y * val ll)) as (d2 & e2 & D2 & E2 & ER). rewrite ER, Ey in Vb. clear ER. set (z := Bmult mode_NE y ll) in *. clearbody z.
  assert (S2 : Rabs d2 <= / 1000) by lra. pose proof S2 as S2'. apply Rabs_le_between in S2'. set (g2 := g + d2 + g * d2). assert (Hg2 : Rabs g2 <= 403 / 100 * uu). { eapply Rle_trans; [apply (rel2 _ _ (302 / 100 * uu) uu); auto|]. assert (uu * uu <= / 1000 * uu) by (apply Rmult_le_compat_r; lra). lra. }
  assert (Ez : val z = w * len * (1 + g2) + e2) by (rewrite Vb; unfold g2; ring). clearbody g2. assert (Sg2 : Rabs g2 <= / 1000) by lra. pose proof Sg2 as Sg2'. apply Rabs_le_between in Sg2'.
  assert (Dz : Rabs (val z - w * len) <= 403 / 100 * uu * (4 * D) + hh). { rewrite Ez. replace (w * len * (1 + g2) + e2 - w * len) with (w * len * g2 + e2) by ring. eapply Rle_trans; [apply Rabs_triang|]. rewrite Rabs_mult, (Rabs_pos_eq (w * len)) by lra. assert (w * len * Rabs g2 <= 4 * D * (403 / 100 * uu)) by (apply Rmult_le_compat; try lra; apply Rabs_pos). lra. }
  assert (Az : Rabs (val z) <= 401 / 100 * D). { replace (val z) with (w * len + (val z - w * len)) by ring. eapply Rle_trans; [apply Rabs_triang|]. rewrite (Rabs_pos_eq (w * len)) by lra. lra. }
  (* half *)
  assert (Nz : val t <> 0) by (rewrite V2; lra). assert (Ez2 : Rabs (val z / 2) <= 201 / 100 * D). { unfold Rdiv. rewrite Rabs_mult, (Rabs_pos_eq (/ 2)) by lra. lra. }
  destruct (div_ok z t Fb Nz) as (Fc & Vc). { rewrite V2. apply no_over4. lra. } rewrite V2 in Vc. destruct (rnd_err (val z / 2)) as (d3 & e3 & D3 & E3 & ER). rewrite ER in Vc. clear ER. set (c := Bdiv mode_NE z t) in *. clearbody c.
  assert (Dc : Rabs (val c - w * len / 2) <= 102 / 10 * uu * D). { rewrite Vc. replace (val z / 2 * (1 + d3) + e3 - w * len / 2) with ((val z - w * len) / 2 + (val z / 2 * d3 + e3)) by field. eapply Rle_trans; [apply Rabs_triang|].
    assert (Rabs ((val z - w * len) / 2) <= 807 / 100 * uu * D). { unfold Rdiv. rewrite Rabs_mult, (Rabs_pos_eq (/ 2)) by lra. lra. }
    assert (Rabs (val z / 2 * d3 + e3) <= 202 / 100 * uu * D). { eapply Rle_trans; [apply Rabs_triang|]. rewrite Rabs_mult. assert (Rabs (val z / 2) * Rabs d3 <= 201 / 100 * D * uu) by (apply Rmult_le_compat; auto using Rabs_pos). lra. } lra. }
  (* plus left *)
  set (tx := on_interval (a + INR iv * len) len (val x)). assert (Et : tx = w * len / 2 + (a + INR iv * len)) by (unfold tx, on_interval, w; field).
  assert (At : Rabs tx <= D). { rewrite Et. apply Rabs_le_between in DA. apply Rabs_le_between in DB. assert (0 <= w * len / 2 <= len). { split; [lra|]. assert (w * len <= 2 * len) by (apply Rmult_le_compat_r; lra). lra. } apply Rabs_le. lra. }
  assert (Ds : Rabs ((val c + val lf) - tx) <= 175 / 10 * uu * D). { rewrite Et. replace (val c + val lf - (w * len / 2 + (a + INR iv * len))) with ((val c - w * len / 2) + (val lf - (a + INR iv * len))) by ring. eapply Rle_trans; [apply Rabs_triang|]. lra. }
  assert (As : Rabs (val c + val lf) <= 101 / 100 * D). { replace (val c + val lf) with (tx + (val c + val lf - tx)) by ring. eapply Rle_trans; [apply Rabs_triang|]. lra. }
  destruct (add_ok c lf Fc FL) as (Fd & Vd). { apply no_over4. lra. }
  split; [exact Fd|]. rewrite Vd. destruct (rnd_err_plus (val c) (val lf) (val_fmt c) (val_fmt lf)) as (d4 & D4 & ->).
  replace ((val c + val lf) * (1 + d4) - tx) with ((val c + val lf - tx) + (val c + val lf) * d4) by ring. eapply Rle_trans; [apply Rabs_triang|]. rewrite Rabs_mult.
  assert (Rabs (val c + val lf) * Rabs d4 <= 101 / 100 * D * uu) by (apply Rmult_le_compat; auto using Rabs_pos). lra.
Qed.
End Int.
