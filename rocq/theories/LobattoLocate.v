(** Where the Gauss-Lobatto nodes are: x_j = - cos th_j with th_j between (j + 1/4 - 3/(16(2j-1))) d and (j + 1/4) d, d = PI / (N + 1/2), for the left half. *)
From Coquelicot Require Import Coquelicot.
From Coq Require Import Arith Reals Lra Lia Psatz.
From Verif Require Import RSum RDeriv RPoly LegendreSpec LegendreMath GLSpec QuadSpec QuadMath LobattoRoots NewtonMath SturmMath.
Local Open Scope R_scope.

Lemma no_zero_open (f : R -> R) a b : a < b -> (forall t, continuous f t) -> (forall t, a < t < b -> f t <> 0) ->
  (forall t, a < t < b -> 0 < f t) \/ (forall t, a < t < b -> f t < 0).
Proof.
  intros H C N. set (x := (a + b) / 2). assert (Hx : a < x < b) by (unfold x; lra). pose proof (N x Hx) as Nx.
  assert (Z : forall t, a < t < b -> f t * f x < 0 -> False).
  { intros t Ht S0. destruct (Rtotal_order t x) as [L|[->|L]].
    - destruct (ivt f t x C L S0) as (c & Hc & Ec). apply (N c); [lra|exact Ec].
    - pose proof (Rle_0_sqr (f x)) as Q. unfold Rsqr in Q. lra.
    - destruct (ivt f x t C L) as (c & Hc & Ec); [lra|]. apply (N c); [lra|exact Ec]. }
  destruct (Rtotal_order (f x) 0) as [L|[L|L]]; [right|contradiction|left]; intros t Ht; specialize (N t Ht); specialize (Z t Ht);
    destruct (Rtotal_order (f t) 0) as [M|[M|M]]; try contradiction; auto; exfalso; apply Z.
  - assert (0 < f t * - f x) by (apply Rmult_lt_0_compat; lra). lra.
  - assert (0 < - f t * f x) by (apply Rmult_lt_0_compat; lra). lra.
Qed.
Lemma sin_chord t : 0 <= t <= PI / 2 -> 2 * t / PI <= sin t.
Proof.
  intros Ht. pose proof PI_RGT_0 as Pp. destruct (Req_dec t 0) as [->|N0]; [rewrite sin_0; right; field; lra|]. destruct (Req_dec t (PI / 2)) as [->|N1]; [rewrite sin_PI2; right; field; lra|].
  destruct (mvt_in sin cos 0 t) as (c1 & H1 & E1); [lra|intros; apply is_derive_sin|intros; apply continuous_sin|].
  destruct (mvt_in sin cos t (PI / 2)) as (c2 & H2 & E2); [lra|intros; apply is_derive_sin|intros; apply continuous_sin|].
  rewrite sin_0 in E1. rewrite sin_PI2 in E2. pose proof (cos_decr_1 c1 c2 ltac:(lra) ltac:(lra) ltac:(lra) ltac:(lra) ltac:(lra)) as D.
  assert (X : t * cos c2 * (PI / 2 - t) <= t * cos c1 * (PI / 2 - t)) by (apply Rmult_le_compat_r; [lra|]; apply Rmult_le_compat_l; lra).
  assert (Y : t <= sin t * (PI / 2)).
  { assert (X' : t * (1 - sin t) <= sin t * (PI / 2 - t)); [|lra]. replace (sin t) with (cos c1 * t) at 2 by lra. rewrite E2. lra. }
  apply (Rmult_le_reg_r (PI / 2)); [lra|]. apply (Rle_trans _ t); [right; field; lra|exact Y].
Qed.
Lemma sin_mid a t : 0 <= a -> a <= t <= PI - a -> sin a <= sin t.
Proof.
  intros Ha Ht. destruct (Rle_dec t (PI / 2)) as [L|L].
  - apply sin_incr_1; lra.
  - rewrite <- (sin_PI_x t). apply sin_incr_1; lra.
Qed.

Section Locate.
Variables (N : nat) (x : nat -> R).
Hypothesis HN : (1 <= N)%nat.
Hypothesis HX : lobatto_nodes N x.
Hypothesis X0 : x 0%nat = -1.
Hypothesis X1 : x N = 1.
Hypothesis HI : incr (S N) x.

Lemma x_range i : (i <= N)%nat -> -1 <= x i <= 1.
Proof. intros Hi. apply (lobatto_root_range N); auto. apply HX; auto. Qed.
Lemma Rprod_zero n (f : nat -> R) : Rprod n f = 0 -> exists i, (i < n)%nat /\ f i = 0.
Proof.
  induction n as [|n IH]; cbn [Rprod]; intros Z; [lra|]. apply Rmult_integral in Z. destruct Z as [Z|Z]; [|exists n; auto].
  destruct (IH Z) as (i & Hi & E). exists i. auto.
Qed.
Lemma zero_node y : lobatto N y = 0 -> exists i, (i <= N)%nat /\ y = x i.
Proof.
  intros Z. destruct N as [|M] eqn:EN; [lia|].
  destruct (poly_factor_all (S (S M)) 1 (lobatto (S M)) x) as (k & (ck & Ek) & Ef).
  { replace (S (S M) + 1)%nat with (S (S (S M))) by lia. apply lobatto_isPoly. }
  { apply incr_distinct, HI. }
  { intros i Hi. apply HX. lia. }
  assert (Kc : forall t, k t = ck 0%nat) by (intros t; rewrite Ek; unfold peval; simpl; ring).
  rewrite Ef, Kc in Z. apply Rmult_integral in Z. destruct Z as [Z|Z].
  - destruct (Rprod_zero _ _ Z) as (i & Hi & E). exists i. split; [lia|lra].
  - exfalso. assert (L2 : lobatto (S M) 2 = 0) by (rewrite Ef, Kc, Z; ring). apply lobatto_root_range in L2; [lra|lia].
Qed.
Lemma lobatto_odd y : lobatto N y = 0 -> lobatto N (- y) = 0.
Proof.
  unfold lobatto. rewrite !(is_derive_unique _ _ _ (legP_derive N _)). rewrite LD1_odd. intros Z. 
  replace ((1 - - y * - y) * ((-1) ^ S N * LD 1 N y)) with ((-1) ^ S N * ((1 - y * y) * LD 1 N y)) by ring. rewrite Z. ring.
Qed.
Lemma x_sym i : (i <= N)%nat -> x (N - i)%nat = - x i.
Proof.
  set (y := fun i => - x (N - i)%nat).
  assert (Iy : incr (S N) y). { intros a b Hab Hb. unfold y. pose proof (HI (N - b)%nat (N - a)%nat ltac:(lia) ltac:(lia)). lra. }
  assert (Ey : forall a, (a <= N)%nat -> exists b, (b <= N)%nat /\ y a = x b). { intros a Ha. apply zero_node, lobatto_odd, HX. lia. }
  assert (Mx : forall a b, (a <= N)%nat -> (b <= N)%nat -> x a < x b -> (a < b)%nat).
  { intros a b Ha Hb L. destruct (le_lt_dec b a) as [K|K]; auto. exfalso. destruct (Nat.eq_dec b a) as [->|Ne]; [lra|]. pose proof (HI b a ltac:(lia) ltac:(lia)). lra. }
  assert (Lo : forall a, (a <= N)%nat -> forall b, (b <= N)%nat -> y a = x b -> (a <= b)%nat).
  { induction a as [|a IH]; intros Ha b Hb E; [lia|]. destruct (Ey a ltac:(lia)) as (c & Hc & Ec). specialize (IH ltac:(lia) c Hc Ec).
    pose proof (Iy a (S a) ltac:(lia) ltac:(lia)) as L. rewrite E, Ec in L. apply Mx in L; auto. lia. }
  assert (Up : forall d a, (a <= N)%nat -> (N - a <= d)%nat -> forall b, (b <= N)%nat -> y a = x b -> (b <= a)%nat).
  { induction d as [|d IH]; intros a Ha Hd b Hb E; [lia|]. destruct (Nat.eq_dec a N) as [->|Ne]; [lia|].
    destruct (Ey (S a) ltac:(lia)) as (c & Hc & Ec). specialize (IH (S a) ltac:(lia) ltac:(lia) c Hc Ec).
    pose proof (Iy a (S a) ltac:(lia) ltac:(lia)) as L. rewrite E, Ec in L. apply Mx in L; auto. lia. }
  intros Hi. destruct (Ey i Hi) as (b & Hb & E). pose proof (Lo i Hi b Hb E). pose proof (Up N i Hi ltac:(lia) b Hb E). replace b with i in E by lia. unfold y in E. lra.
Qed.

Definition th (i : nat) : R := acos (- x i).
Lemma th_range i : (i <= N)%nat -> 0 <= th i <= PI.
Proof. intros Hi. pose proof (x_range i Hi). apply acos_bound. Qed.
Lemma th_cos i : (i <= N)%nat -> cos (th i) = - x i.
Proof. intros Hi. pose proof (x_range i Hi). apply cos_acos. lra. Qed.
Lemma th_incr i j : (i < j)%nat -> (j <= N)%nat -> th i < th j.
Proof.
  intros Hij Hj. pose proof (th_range i ltac:(lia)). pose proof (th_range j Hj). pose proof (HI i j Hij ltac:(lia)).
  apply Rnot_le_lt. intros L. pose proof (cos_decr_1 (th j) (th i) ltac:(lra) ltac:(lra) ltac:(lra) ltac:(lra) L) as D. rewrite !th_cos in D by lia. lra.
Qed.
Lemma th_0 : th 0 = 0.
Proof. unfold th. rewrite X0. replace (- -1) with 1 by ring. apply acos_1. Qed.
Lemma th_sym i : (i <= N)%nat -> th (N - i) = PI - th i.
Proof. intros Hi. unfold th. rewrite x_sym by auto. apply acos_opp. Qed.
Lemma th_inside i : (1 <= i)%nat -> (i < N)%nat -> 0 < th i < PI.
Proof.
  intros H1 H2. pose proof (th_incr 0 i ltac:(lia) ltac:(lia)) as A. rewrite th_0 in A. pose proof (th_incr i N ltac:(lia) ltac:(lia)) as B.
  pose proof (th_sym 0 ltac:(lia)) as C. rewrite th_0 in C. replace (N - 0)%nat with N in C by lia. lra.
Qed.
Lemma th_half i : (2 * i <= N)%nat -> th i <= PI / 2.
Proof.
  intros Hi. pose proof (th_sym i ltac:(lia)) as E. destruct (Nat.eq_dec (N - i) i) as [K|K].
  - rewrite K in E. lra.
  - pose proof (th_incr i (N - i) ltac:(lia) ltac:(lia)). lra.
Qed.
Lemma between i t : (i < N)%nat -> th i < t < th (S i) -> lw N t <> 0.
Proof.
  intros Hi Ht Z. pose proof (th_range i ltac:(lia)) as A. pose proof (th_range (S i) ltac:(lia)) as B. pose proof (sin_gt_0 t ltac:(lra) ltac:(lra)) as P. destruct (sqrt_pos_sin t P) as (Sp & _).
  unfold lw in Z. apply Rmult_integral in Z. destruct Z as [Z|Z]; [apply Rmult_integral in Z; lra|].
  assert (L : lobatto N (- cos t) = 0) by (unfold lobatto; rewrite (is_derive_unique _ _ _ (legP_derive N _)), Z; ring).
  destruct (zero_node _ L) as (k & Hk & E).
  assert (Et : t = th k). { unfold th. rewrite <- E, Ropp_involutive. symmetry. apply acos_cos. lra. }
  destruct (le_lt_dec k i) as [Q|Q].
  - destruct (Nat.eq_dec k i) as [->|Ne]; [lra|]. pose proof (th_incr k i ltac:(lia) ltac:(lia)). lra.
  - destruct (Nat.eq_dec k (S i)) as [->|Ne]; [lra|]. pose proof (th_incr (S i) k ltac:(lia) ltac:(lia)). lra.
Qed.
Lemma lw_th i : (i <= N)%nat -> lw N (th i) = 0.
Proof.
  intros Hi. unfold lw. pose proof (proj1 HX i Hi) as L. unfold lobatto in L. rewrite (is_derive_unique _ _ _ (legP_derive N _)) in L.
  rewrite th_cos, Ropp_involutive by auto. apply Rmult_integral in L. destruct L as [L|L]; [|rewrite L; ring].
  assert (S2 : sin (th i) = 0). { unfold th. pose proof (x_range i Hi). rewrite sin_acos by lra. replace (1 - (- x i)²) with 0 by (unfold Rsqr; lra). apply sqrt_0. }
  rewrite S2. ring.
Qed.
Definition M : R := INR N + 1 / 2.
Lemma M_pos : 0 < M.
Proof. unfold M. pose proof (pos_INR N). lra. Qed.

(** both comparison results, whatever the sign of lw between the nodes *)
Lemma gap_far i : (i < N)%nat -> PI / M < th (S i) - th i.
Proof.
  intros Hi. pose proof (th_incr i (S i) ltac:(lia) ltac:(lia)) as L. pose proof (th_range i ltac:(lia)). pose proof (th_range (S i) ltac:(lia)).
  assert (HQ : forall t, th i < t < th (S i) -> lQ N t < M * M).
  { intros t Ht. unfold lQ. fold M. pose proof (sin_gt_0 t ltac:(lra) ltac:(lra)). assert (0 < 3 / (4 * sin t ^ 2)) by (apply Rdiv_lt_0_compat; [lra|]; apply Rmult_lt_0_compat; [lra|apply pow_lt; auto]). lra. }
  destruct (no_zero_open (lw N) (th i) (th (S i)) L (lw_cont N) (fun t => between i t Hi)) as [P|P].
  - apply (sturm_far (lw N) (lw1 N) (lQ N)); auto using M_pos, lw_th, lw_cont, lw1_cont.
    + intros; apply lw_derive; lra.
    + intros; apply lw1_derive; lra.
    + apply lw_th; lia.
  - apply (sturm_far (fun t => - lw N t) (fun t => - lw1 N t) (lQ N)); auto using M_pos.
    + intros; apply d_opp, lw_derive; lra.
    + intros t Ht; eapply is_derive_eq; [apply d_opp, lw1_derive; lra|ring].
    + intros; apply (continuous_opp (lw N)), lw_cont.
    + intros; apply (continuous_opp (lw1 N)), lw1_cont.
    + rewrite lw_th by lia. ring.
    + rewrite lw_th by lia. ring.
    + intros t Ht. specialize (P t Ht). lra.
Qed.
Lemma gap_near i m : (i < N)%nat -> 0 < m -> (forall t, th i < t < th (S i) -> m * m <= lQ N t) -> th (S i) - th i <= PI / m.
Proof.
  intros Hi Hm HQ. pose proof (th_incr i (S i) ltac:(lia) ltac:(lia)) as L. pose proof (th_range i ltac:(lia)). pose proof (th_range (S i) ltac:(lia)).
  destruct (no_zero_open (lw N) (th i) (th (S i)) L (lw_cont N) (fun t => between i t Hi)) as [P|P].
  - apply (sturm_near (lw N) (lw1 N) (lQ N)); auto using lw_th, lw_cont, lw1_cont.
    + intros; apply lw_derive; lra.
    + intros; apply lw1_derive; lra.
    + apply lw_th; lia.
  - apply (sturm_near (fun t => - lw N t) (fun t => - lw1 N t) (lQ N)); auto.
    + intros; apply d_opp, lw_derive; lra.
    + intros t Ht; eapply is_derive_eq; [apply d_opp, lw1_derive; lra|ring].
    + intros; apply (continuous_opp (lw N)), lw_cont.
    + intros; apply (continuous_opp (lw1 N)), lw1_cont.
    + rewrite lw_th by lia. ring.
    + intros t Ht. specialize (P t Ht). lra.
Qed.
Lemma th_lower k : (k <= N)%nat -> INR k * (PI / M) <= th k.
Proof.
  induction k as [|k IH]; intros Hk; [rewrite th_0; simpl; lra|]. specialize (IH ltac:(lia)). pose proof (gap_far k ltac:(lia)). rewrite S_INR. lra.
Qed.
Lemma sin_th k : (2 * k <= N)%nat -> 2 * INR k <= M * sin (th k).
Proof.
  intros Hk. pose proof M_pos as Mp. pose proof PI_RGT_0 as Pp. pose proof (th_lower k ltac:(lia)) as L. pose proof (th_half k Hk) as H. pose proof (th_range k ltac:(lia)) as G.
  pose proof (sin_chord (th k) ltac:(lra)) as C. apply (Rle_trans _ (M * (2 * th k / PI))); [|apply Rmult_le_compat_l; lra].
  apply (Rle_trans _ (M * (2 * (INR k * (PI / M)) / PI))); [right; field; lra|]. apply Rmult_le_compat_l; [lra|]. apply Rmult_le_compat_r; [apply Rlt_le, Rinv_0_lt_compat; auto|]. lra.
Qed.
Definition ex (k : nat) : R := 3 / (8 * (4 * INR k ^ 2 - 1)).
Definition Ex (k : nat) : R := 3 / (16 * (2 * INR k - 1)).
Lemma gap_upper k : (1 <= k)%nat -> (2 * k + 1 <= N)%nat -> th (S k) - th k <= PI / M * (1 + ex k).
Proof.
  intros H1 H2. pose proof M_pos as Mp. pose proof (sin_th k ltac:(lia)) as Sk. assert (K1 : 1 <= INR k) by (apply (le_INR 1); auto).
  assert (Kq : 1 <= INR k ^ 2) by (replace 1 with (1 ^ 2) by ring; apply pow_incr; lra).
  assert (E0 : 0 < ex k) by (unfold ex; apply Rdiv_lt_0_compat; lra).
  replace (PI / M * (1 + ex k)) with (PI / (M / (1 + ex k))) by (field; lra).
  apply gap_near; [lia|apply Rdiv_lt_0_compat; lra|].
  intros t Ht. unfold lQ. fold M. pose proof (th_sym k ltac:(lia)) as Sy. pose proof (th_range k ltac:(lia)) as Rg.
  assert (Hi : th (S k) <= PI - th k).
  { rewrite <- Sy. destruct (Nat.eq_dec (S k) (N - k)) as [->|Ne]; [lra|]. pose proof (th_incr (S k) (N - k) ltac:(lia) ltac:(lia)). lra. }
  pose proof (sin_mid (th k) t ltac:(lra) ltac:(lra)) as Sm.
  assert (St : 2 * INR k <= M * sin t) by (apply (Rle_trans _ _ _ Sk), Rmult_le_compat_l; lra).
  assert (Sp : 0 < sin t) by (apply (Rmult_lt_reg_l M); lra).
  assert (S2 : 4 * INR k ^ 2 <= M * M * sin t ^ 2).
  { replace (M * M * sin t ^ 2) with ((M * sin t) ^ 2) by ring. replace (4 * INR k ^ 2) with ((2 * INR k) ^ 2) by ring. apply pow_incr. lra. }
  set (q := INR k ^ 2) in *. assert (Sq : 0 < sin t ^ 2) by (apply pow_lt; auto).
  (* 3/(4 sin^2) <= 3 M^2 / (16 k^2) *)
  assert (A : 3 / (4 * sin t ^ 2) <= M * M * (3 / (16 * q))).
  { apply (Rmult_le_reg_r (4 * sin t ^ 2)); [lra|]. replace (3 / (4 * sin t ^ 2) * (4 * sin t ^ 2)) with 3 by (field; lra).
    replace (M * M * (3 / (16 * q)) * (4 * sin t ^ 2)) with (3 / (4 * q) * (M * M * sin t ^ 2)) by (field; lra).
    apply (Rle_trans _ (3 / (4 * q) * (4 * q))); [right; field; lra|]. apply Rmult_le_compat_l; [|exact S2]. apply Rlt_le, Rdiv_lt_0_compat; lra. }
  assert (B : 1 / ((1 + ex k) * (1 + ex k)) <= 1 - 3 / (16 * q)).
  { unfold ex. fold q. set (s := 16 * q). assert (Hs : 16 <= s) by (unfold s; lra).
    replace (8 * (4 * q - 1)) with (2 * s - 8) by (unfold s; ring).
    replace (1 + 3 / (2 * s - 8)) with ((2 * s - 5) / (2 * s - 8)) by (field; lra).
    apply Rminus_le. replace (1 / ((2 * s - 5) / (2 * s - 8) * ((2 * s - 5) / (2 * s - 8))) - (1 - 3 / s)) with (- ((21 * s - 75) / (s * (2 * s - 5) ^ 2))) by (field; lra).
    assert (0 <= (21 * s - 75) / (s * (2 * s - 5) ^ 2)); [|lra]. apply Rdiv_le_0_compat; [lra|]. apply Rmult_lt_0_compat; [lra|apply pow_lt; lra]. }
  replace (M / (1 + ex k) * (M / (1 + ex k))) with (M * M * (1 / ((1 + ex k) * (1 + ex k)))) by (field; lra).
  apply (Rle_trans _ (M * M * (1 - 3 / (16 * q)))); [apply Rmult_le_compat_l; [apply Rmult_le_pos; lra|exact B]|]. replace (M ^ 2) with (M * M) by ring. lra.
Qed.
Lemma node_angle d : forall j, (1 <= j)%nat -> (2 * j <= N)%nat -> (N - 2 * j <= d)%nat ->
  (INR j + 1 / 4 - Ex j) * (PI / M) <= th j <= (INR j + 1 / 4) * (PI / M).
Proof.
  induction d as [d IH] using lt_wf_ind. intros j H1 H2 Hd. pose proof M_pos as Mp. pose proof PI_RGT_0 as Pp.
  assert (Dp : 0 < PI / M) by (apply Rdiv_lt_0_compat; auto). assert (J1 : 1 <= INR j) by (apply (le_INR 1); auto).
  assert (Ej : 0 < Ex j) by (apply Rdiv_lt_0_compat; lra).
  pose proof (th_sym j ltac:(lia)) as Sy.
  destruct (Nat.eq_dec N (2 * j)) as [E|Ne].
  - replace (N - j)%nat with j in Sy by lia. assert (Et : th j = PI / 2) by lra.
    assert (Ec : (INR j + 1 / 4) * (PI / M) = PI / 2). { unfold M in *. rewrite E, mult_INR in *. simpl (INR 2) in *. field. lra. }
    rewrite Et. split; [|lra]. rewrite Rmult_minus_distr_r, Ec. assert (0 < Ex j * (PI / M)) by (apply Rmult_lt_0_compat; auto). lra.
  - pose proof (gap_far j ltac:(lia)) as F. pose proof (gap_upper j H1 ltac:(lia)) as G.
    assert (Q0 : 0 < ex j). { unfold ex. apply Rdiv_lt_0_compat; [lra|]. assert (1 <= INR j ^ 2) by (replace 1 with (1 ^ 2) by ring; apply pow_incr; lra). lra. }
    destruct (Nat.eq_dec N (2 * j + 1)) as [E|Ne2].
    + replace (N - j)%nat with (S j) in Sy by lia. 
      assert (Ec : (INR j + 3 / 4) * (PI / M) = PI / 2). { unfold M in *. rewrite E, plus_INR, mult_INR in *. simpl (INR 2) in *. simpl (INR 1) in *. field. lra. }
      assert (Eh : ex j / 2 <= Ex j).
      { unfold ex, Ex. replace (3 / (8 * (4 * INR j ^ 2 - 1)) / 2) with (3 / (16 * (2 * INR j - 1)) * (1 / (2 * INR j + 1))) by (field; split; [|split]; nra).
        rewrite <- (Rmult_1_r (3 / (16 * (2 * INR j - 1)))) at 2. apply Rmult_le_compat_l; [apply Rlt_le, Rdiv_lt_0_compat; lra|]. 
        apply (Rmult_le_reg_r (2 * INR j + 1)); [lra|]. unfold Rdiv. rewrite Rmult_assoc, Rinv_l by lra. lra. }
      split.
      * assert (X : PI / M * (ex j / 2) <= PI / M * Ex j) by (apply Rmult_le_compat_l; lra). rewrite Sy in G. lra.
      * rewrite Sy in F. lra.
    + destruct (IH (N - 2 * S j)%nat ltac:(lia) (S j) ltac:(lia) ltac:(lia) ltac:(lia)) as (A & B). rewrite S_INR in A, B.
      assert (Es : Ex j = Ex (S j) + ex j). { unfold Ex, ex. rewrite S_INR. field. split; [|split]; nra. }
      split.
      * rewrite Es. lra.
      * lra.
Qed.
End Locate.
