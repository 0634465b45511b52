(** Gauss-Lobatto points and weights over the reals. *)
From Coquelicot Require Import Coquelicot.
From Coq Require Import List Arith Lia Bool ZArith Reals Lra.
From Verif Require Import Num Outcome LinAlg RSum RDeriv LegendreSpec LegendreMath LegendreModel ToolsModel GSplineModel GLModel GLProofs.
Import ListNotations.
Local Open Scope R_scope.

Lemma q_odd_R k : q_odd k = 2 * INR k - 1.
Proof. unfold q_odd, c2. rewrite nofnat_INR. reflexivity. Qed.
Lemma q_rec_R t k a b : q_rec t k a b = (2 * INR k - 1) / INR k * t * a - (INR k - 1) / INR k * b.
Proof. unfold q_rec. rewrite q_odd_R, nofnat_INR. reflexivity. Qed.
Lemma q_rec_leg t m : q_rec t (m + 2) (legP (S m) t) (legP m t) = legP (S (S m)) t.
Proof.
  rewrite q_rec_R, legP_SS, plus_INR. replace (INR 2) with 2 by (simpl; ring). pose proof (INR_pos2 m). field. exact H.
Qed.
Lemma ql2_leg t m : ql2 t m = (legP m t, legP (S m) t, LD 1 m t, LD 1 (S m) t).
Proof.
  induction m as [|m IH]; cbn [ql2].
  - rewrite LD_1_1, LD_S_0, legP_0, legP_1. reflexivity.
  - rewrite IH, q_rec_leg, q_odd_R. f_equal. change (LD 1 m t + (2 * INR (m + 2) - 1) * legP (S m) t = LD 1 (S (S m)) t).
    pose proof (leg_id3 m t). rewrite plus_INR. replace (INR 2) with 2 by (simpl; ring). lra.
Qed.
Lemma qe_leg t n : (1 <= n)%nat -> qe t n = (legP (S n) t - legP (n - 1) t, LD 1 (S n) t - LD 1 (n - 1) t, legP n t).
Proof.
  intros Hn. destruct n as [|m]; [lia|]. unfold qe. replace (S m - 1)%nat with m by lia. rewrite ql2_leg.
  replace (S m + 1)%nat with (m + 2)%nat by lia. rewrite q_rec_leg, q_odd_R. f_equal. f_equal. cbn [nsub nadd nmul Rnum].
  pose proof (leg_id3 m t). rewrite plus_INR. replace (INR 2) with 2 by (simpl; ring). lra.
Qed.

(** the polynomial q and its factored form *)
Definition qpol (N : nat) (t : R) : R := legP (S N) t - legP (N - 1) t.
Lemma qpol_derive N t : (1 <= N)%nat -> is_derive (qpol N) t ((2 * INR N + 1) * legP N t).
Proof.
  intros HN. unfold qpol. eapply is_derive_eq; [apply d_minus; apply legP_derive|].
  destruct N as [|m]; [lia|]. replace (S m - 1)%nat with m by lia. pose proof (leg_id3 m t). rewrite S_INR. lra.
Qed.
Lemma qpol_factor N t : (1 <= N)%nat -> qpol N t = - ((2 * INR N + 1) / (INR N * (INR N + 1))) * ((1 - t * t) * LD 1 N t).
Proof.
  intros HN. unfold qpol. destruct N as [|m]; [lia|]. replace (S m - 1)%nat with m by lia.
  replace ((1 - t * t) * LD 1 (S m) t) with (- ((t * t - 1) * LD 1 (S m) t)) by ring.
  rewrite leg_id4, legP_SS, S_INR. pose proof (pos_INR m). field. lra.
Qed.

Lemma legP_parity n x : legP n (- x) = (-1) ^ n * legP n x.
Proof.
  induction n as [| |m IH0 IH1] using two_ind; [rewrite !legP_0; simpl; ring|rewrite !legP_1; simpl; ring|].
  rewrite !legP_SS, IH0, IH1. simpl. field. apply INR_pos2.
Qed.
Lemma sign_sq n : (-1) ^ n * (-1) ^ n = 1.
Proof. rewrite <- Rpow_mult_distr. replace (-1 * -1) with 1 by ring. apply pow1. Qed.
Lemma legP_sq_opp n x : legP n (- x) ^ 2 = legP n x ^ 2.
Proof. rewrite legP_parity. simpl. transitivity ((-1) ^ n * (-1) ^ n * (legP n x * legP n x)); [ring|rewrite sign_sq; ring]. Qed.

(** weights *)
Lemma gl_w_R N l : gl_w N l = 2 / (INR N * (INR N + 1) * l ^ 2).
Proof. unfold gl_w, c2. rewrite nofnat_INR, npown_pow. reflexivity. Qed.
Lemma gl_w0_R N : gl_w0 N = 2 / (INR N * (INR N + 1)).
Proof. unfold gl_w0, c2. rewrite nofnat_INR. reflexivity. Qed.
Lemma gwf2_R N i : (1 <= N)%nat -> (i <= N)%nat -> gwf2 N i = 2 / (INR N * (INR N + 1) * legP N (gpoint N i) ^ 2).
Proof.
  intros HN Hi. unfold gwf2. destruct (Nat.eqb_spec N 1) as [->|N1].
  - unfold gpoint. destruct i as [|[|i]]; [|cbn [Nat.eqb]|lia].
    + cbn [Nat.eqb]. rewrite legP_1. cbn [n1 nopp Rnum INR]. simpl. field.
    + rewrite legP_1. cbn [n1 Rnum INR]. simpl. field.
  - unfold gweight, gpoint.
    assert (E1 : forall x, x = 1 \/ x = -1 -> legP N x ^ 2 = 1).
    { intros x [->| ->]; [rewrite legP_at_1; simpl; ring|]. replace (-1) with (- (1)) by ring. rewrite legP_sq_opp, legP_at_1. simpl. ring. }
    destruct (Nat.eqb_spec i 0). { rewrite gl_w0_R, (E1 (- n1)); [|right; cbn; ring]. rewrite Rmult_1_r. reflexivity. }
    destruct (Nat.eqb_spec i N). { rewrite gl_w0_R, (E1 n1); [|left; reflexivity]. rewrite Rmult_1_r. reflexivity. }
    destruct (Nat.ltb_spec (2 * i) N). { rewrite gl_w_R, qe_leg by lia. reflexivity. }
    destruct (Nat.eqb_spec (2 * i) N). { rewrite gl_w_R, qe_leg by lia. reflexivity. }
    rewrite gl_w_R, qe_leg by lia. cbn [snd]. change (@nopp R Rnum) with Ropp. rewrite legP_sq_opp. reflexivity.
Qed.

(** Newton runs *)
Definition nmap (N : nat) (x : R) : R := x - qpol N x / ((2 * INR N + 1) * legP N x).
Lemma nstep_R N x : (1 <= N)%nat -> x + nstep N x = nmap N x.
Proof.
  intros HN. unfold nstep. rewrite qe_leg by auto. unfold nmap.
  destruct N as [|m]; [lia|]. unfold qpol. replace (S m - 1)%nat with m by lia. rewrite leg_id3, S_INR.
  replace (2 * (INR m + 1) + 1) with (2 * INR m + 3) by ring. cbn [nopp ndiv Rnum]. unfold Rdiv. ring.
Qed.
Fixpoint niter (N k : nat) (x : R) : R := match k with O => x | S k' => niter N k' (nmap N x) end.
Lemma niter_last N k x : niter N (S k) x = nmap N (niter N k x).
Proof. revert x. induction k as [|k IH]; intros x; [reflexivity|]. exact (IH (nmap N x)). Qed.
Lemma ten_m_R k : ten_m k = / 10 ^ k.
Proof. unfold ten_m. rewrite npown_pow. cbn. apply Rmult_1_l. Qed.
Lemma gn_run N fuel : (1 <= N)%nat -> forall x, exists k, (k <= fuel)%nat /\ gn fuel N x = niter N k x /\
  (forall i, (S i < k)%nat -> ~ Rabs (niter N (S i) x - niter N i x) < / 10 ^ 9 * Rabs (niter N (S i) x)) /\
  (k = fuel \/ exists m, k = S m /\ Rabs (niter N k x - niter N m x) < / 10 ^ 9 * Rabs (niter N k x)).
Proof.
  intros HN. induction fuel as [|f IH]; intros x.
  - exists O. repeat split; auto. intros; lia.
  - cbn [gn].
    assert (D : nstep N x = nmap N x - x) by (rewrite <- nstep_R by auto; ring). change (@nadd R Rnum) with Rplus. rewrite (nstep_R N x HN), D.
    change (@nabs R Rnum) with Rabs. change (@nmul R Rnum) with Rmult. rewrite ten_m_R. cbn [nltb Rnum]. destruct (Rltb _ _) eqn:E.
    + apply Rltb_true in E. exists 1%nat. split; [lia|]. split; [reflexivity|]. split; [intros; lia|]. right. exists O. split; auto.
    + apply Rltb_false in E. destruct (IH (nmap N x)) as (k & Hk & Ek & S1 & S2). exists (S k). split; [lia|]. split; [exact Ek|]. split.
      * intros [|i] Hi; [cbn [niter]; lra|]. apply (S1 i). lia.
      * destruct S2 as [->|(m & -> & Hm)]; [left; reflexivity|right]. exists (S m). split; auto.
Qed.

Lemma legP_fixed N x : (1 <= N)%nat -> legP N x <> 0 -> (nmap N x = x <-> (1 - x * x) * LD 1 N x = 0).
Proof.
  intros HN Hx. pose proof (INR_odd N). unfold nmap.
  assert (HNp : 0 < INR N) by (apply lt_0_INR; lia).
  split; intros E.
  - assert (Q : qpol N x = 0).
    { assert (Z : qpol N x / ((2 * INR N + 1) * legP N x) = 0) by lra.
      replace (qpol N x) with (qpol N x / ((2 * INR N + 1) * legP N x) * ((2 * INR N + 1) * legP N x)) by (field; split; assumption).
      rewrite Z. ring. }
    rewrite qpol_factor in Q by auto. apply Rmult_integral in Q. destruct Q as [Q|Q]; [|exact Q]. exfalso.
    assert (P : 0 < (2 * INR N + 1) / (INR N * (INR N + 1))) by (apply Rdiv_lt_0_compat; [lra|apply Rmult_lt_0_compat; lra]). lra.
  - rewrite qpol_factor, E by auto. field. repeat split; try assumption; lra.
Qed.

(** reference weights that sum to 2 *)
Lemma gpoint_3 : gpoint 2 0 = -1 /\ gpoint 2 1 = 0 /\ gpoint 2 2 = 1.
Proof. unfold gpoint. cbn. repeat split; ring. Qed.
Lemma gweight_3 : gwf2 2 0 = / 3 /\ gwf2 2 1 = 4 / 3 /\ gwf2 2 2 = / 3.
Proof.
  assert (P2 : forall x, legP 2 x = (3 * x * x - 1) / 2) by (intros x; rewrite legP_SS, legP_1, legP_0; simpl; field).
  destruct gpoint_3 as (A & B & C).
  rewrite !gwf2_R by lia. rewrite A, B, C, !P2. simpl INR. repeat split; field.
Qed.

Lemma lens_equal_iff n (tf : nat -> R) :
  (forall iv, (iv < n)%nat -> INR iv * tf iv = Rsum iv tf) <-> (forall i j, (i < n)%nat -> (j < n)%nat -> tf i = tf j).
Proof.
  split.
  - intros E. assert (A : forall i, (i < n)%nat -> tf i = tf 0%nat).
    { intros i. induction i as [i IH] using lt_wf_ind. intros Hi. destruct i as [|i]; [reflexivity|].
      specialize (E (S i) Hi). rewrite (Rsum_ext _ tf (fun _ => tf 0%nat)) in E by (intros; apply IH; lia).
      rewrite Rsum_const in E. apply Rmult_eq_reg_l in E; auto. rewrite S_INR. pose proof (pos_INR i). lra. }
    intros i j Hi Hj. rewrite (A i), (A j) by auto. reflexivity.
  - intros E iv Hiv. rewrite (Rsum_ext _ tf (fun _ => tf iv)) by (intros; apply E; lia). rewrite Rsum_const. reflexivity.
Qed.
