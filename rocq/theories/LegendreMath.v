(** Mathematics of the Legendre polynomials. *)
From Coquelicot Require Import Coquelicot.
From Coq Require Import Reals Lra Lia Arith List.
From Verif Require Import RSum RDeriv LegendreSpec.
Local Open Scope R_scope.

Lemma INR_pos1 n : INR n + 1 <> 0.
Proof. pose proof (pos_INR n). lra. Qed.
Lemma INR_pos2 n : INR n + 2 <> 0.
Proof. pose proof (pos_INR n). lra. Qed.
Lemma INR_odd n : 2 * INR n + 1 <> 0.
Proof. pose proof (pos_INR n). lra. Qed.
Lemma INR_odd3 n : 2 * INR n + 3 <> 0.
Proof. pose proof (pos_INR n). lra. Qed.

Lemma legP_0 x : legP 0 x = 1.
Proof. reflexivity. Qed.
Lemma legP_1 x : legP 1 x = x.
Proof. reflexivity. Qed.
Lemma leg2_snd n x : snd (leg2 n x) = legP (S n) x.
Proof. unfold legP. simpl. destruct (leg2 n x). reflexivity. Qed.
Lemma legP_SS m x : legP (S (S m)) x =
  ((2 * INR m + 3) * x * legP (S m) x - (INR m + 1) * legP m x) / (INR m + 2).
Proof.
  rewrite <- (leg2_snd (S m)), <- (leg2_snd m). unfold legP. simpl. destruct (leg2 m x). reflexivity.
Qed.
Lemma legP_rec m x :
  (INR m + 2) * legP (S (S m)) x = (2 * INR m + 3) * x * legP (S m) x - (INR m + 1) * legP m x.
Proof. rewrite legP_SS. field. apply INR_pos2. Qed.

(** derivatives: LD d n = d-th derivative of P_n *)
Fixpoint LDpair (prev : nat -> R -> R) (d : nat) (n : nat) (x : R) : R * R :=
  match n with
  | O => (0, match d with O => 1 | _ => 0 end)
  | S m => let '(a, b) := LDpair prev d m x in
     (b, ((2 * INR m + 3) * ((INR d + 1) * prev (S m) x + x * b) - (INR m + 1) * a) / (INR m + 2))
  end.
Fixpoint LD (d : nat) : nat -> R -> R :=
  match d with
  | O => legP
  | S d' => fun n x => fst (LDpair (LD d') d' n x)
  end.
Lemma LD_S_0 d x : LD (S d) 0 x = 0.
Proof. reflexivity. Qed.
Lemma LD_1_1 x : LD 1 1 x = 1.
Proof. reflexivity. Qed.
Lemma LD_SS_1 d x : LD (S (S d)) 1 x = 0.
Proof. reflexivity. Qed.
Lemma LDpair_snd prev d n x : snd (LDpair prev d n x) = fst (LDpair prev d (S n) x).
Proof. simpl. destruct (LDpair prev d n x). reflexivity. Qed.
Lemma LD_rec d m x : LD (S d) (S (S m)) x =
  ((2 * INR m + 3) * ((INR d + 1) * LD d (S m) x + x * LD (S d) (S m) x)
     - (INR m + 1) * LD (S d) m x) / (INR m + 2).
Proof.
  cbn [LD]. rewrite <- (LDpair_snd _ _ (S m)), <- (LDpair_snd _ _ m). simpl.
  destruct (LDpair (LD d) d m x). reflexivity.
Qed.

Lemma two_ind (P : nat -> Prop) : P O -> P 1%nat -> (forall n, P n -> P (S n) -> P (S (S n))) -> forall n, P n.
Proof.
  intros H0 H1 HS n. cut (P n /\ P (S n)); [tauto|]. induction n; [auto|]. destruct IHn; auto.
Qed.

Lemma LD_derive : forall d n x, is_derive (LD d n) x (LD (S d) n x).
Proof.
  induction d as [|d IHd].
  - intros n. induction n as [| |m IH0 IH1] using two_ind; intros x.
    + rewrite LD_S_0. exact (d_const 1 x).
    + rewrite LD_1_1. exact (d_id x).
    + apply (is_derive_ext (fun y => ((2 * INR m + 3) * y * legP (S m) y - (INR m + 1) * legP m y) / (INR m + 2))).
      { intros t. symmetry. apply legP_SS. }
      eapply is_derive_eq.
      * apply d_divc, d_minus; [apply d_mult; [apply d_scal, d_id|apply IH1]|apply d_scal, IH0].
      * rewrite LD_rec. simpl. unfold Rdiv. ring.
  - intros n. induction n as [| |m IH0 IH1] using two_ind; intros x.
    + rewrite LD_S_0. exact (d_const 0 x).
    + rewrite LD_SS_1. destruct d as [|d]; [exact (d_const 1 x)|exact (d_const 0 x)].
    + apply (is_derive_ext (fun y => ((2 * INR m + 3) * ((INR d + 1) * LD d (S m) y + y * LD (S d) (S m) y)
         - (INR m + 1) * LD (S d) m y) / (INR m + 2))).
      { intros t. symmetry. apply LD_rec. }
      eapply is_derive_eq.
      * apply d_divc, d_minus; [apply d_scal, d_plus; [apply d_scal, IHd|apply d_mult; [apply d_id|apply IH1]]|apply d_scal, IH0].
      * rewrite LD_rec, S_INR. unfold Rdiv. ring.
Qed.

Lemma legP_derive n x : is_derive (legP n) x (LD 1 n x).
Proof. exact (LD_derive 0 n x). Qed.
Lemma LD_derive_n k n x : is_derive_n (legP n) k x (LD k n x).
Proof. apply (is_derive_n_chain (fun j => LD j n)). intros. apply LD_derive. Qed.
Lemma LD_continuous k n x : continuous (LD k n) x.
Proof. eapply derive_continuous, LD_derive. Qed.
Lemma legP_continuous n x : continuous (legP n) x.
Proof. exact (LD_continuous 0 n x). Qed.

(** entries below the diagonal *)
Lemma LD_low : forall d n x, (n < d)%nat -> LD d n x = 0.
Proof.
  induction d as [|d IHd]; [lia|]. intros n. induction n as [| |m IH0 IH1] using two_ind; intros x Hn.
  - apply LD_S_0.
  - destruct d; [lia|apply LD_SS_1].
  - rewrite LD_rec, IH0, IH1, IHd by lia. unfold Rdiv. ring.
Qed.
(** (2d-1)!! *)
Fixpoint dfact (d : nat) : R := match d with O => 1 | S e => (2 * INR e + 1) * dfact e end.
Lemma LD_diag : forall d x, LD d d x = dfact d.
Proof.
  induction d as [|d IHd]; intros x; [reflexivity|]. destruct d as [|d].
  - rewrite LD_1_1. simpl. ring.
  - rewrite LD_rec, (LD_low (S (S d)) (S d)), (LD_low (S (S d)) d), IHd by lia.
    rewrite S_INR. cbn [dfact]. rewrite S_INR. field. apply INR_pos2.
Qed.

(** classical identities *)
Lemma leg_id12 n x : LD 1 (S n) x = x * LD 1 n x + (INR n + 1) * legP n x /\
  x * LD 1 (S n) x - LD 1 n x = (INR n + 1) * legP (S n) x.
Proof.
  induction n as [|n [I1 I2]].
  - rewrite LD_1_1, LD_S_0, legP_0, legP_1. simpl. split; ring.
  - assert (I1' : LD 1 (S (S n)) x = x * LD 1 (S n) x + (INR (S n) + 1) * legP (S n) x).
    { rewrite LD_rec, S_INR. change (LD 0 (S n) x) with (legP (S n) x).
      replace (LD 1 n x) with (x * LD 1 (S n) x - (INR n + 1) * legP (S n) x) by lra.
      simpl (INR 0). field. apply INR_pos2. }
    split; auto. rewrite I1', legP_SS, S_INR.
    replace (INR n + 1 + 1) with (INR n + 2) by ring.
    apply (Rmult_eq_reg_l 1); [|lra].
    transitivity ((2 * INR n + 3) * x * legP (S n) x - (INR n + 1) * legP n x).
    + assert (K : (x * x - 1) * LD 1 (S n) x = (INR n + 1) * (x * legP (S n) x - legP n x)).
      { replace ((x * x - 1) * LD 1 (S n) x) with (x * (x * LD 1 (S n) x - LD 1 n x) - (LD 1 (S n) x - x * LD 1 n x)) by ring.
        rewrite I2, I1. ring. }
      replace (1 * (x * (x * LD 1 (S n) x + (INR n + 2) * legP (S n) x) - LD 1 (S n) x))
        with ((x * x - 1) * LD 1 (S n) x + (INR n + 2) * x * legP (S n) x) by ring.
      rewrite K. ring.
    + field. apply INR_pos2.
Qed.
Lemma leg_id3 n x : LD 1 (S (S n)) x - LD 1 n x = (2 * INR n + 3) * legP (S n) x.
Proof.
  destruct (leg_id12 n x) as [A1 A2]. destruct (leg_id12 (S n) x) as [B1 _].
  rewrite S_INR in B1. rewrite B1. lra.
Qed.
Lemma leg_id4 n x : (x * x - 1) * LD 1 (S n) x = (INR n + 1) * (x * legP (S n) x - legP n x).
Proof.
  destruct (leg_id12 n x) as [I1 I2].
  replace ((x * x - 1) * LD 1 (S n) x) with (x * (x * LD 1 (S n) x - LD 1 n x) - (LD 1 (S n) x - x * LD 1 n x)) by ring.
  rewrite I2, I1. ring.
Qed.
(** Legendre's equation in divergence form *)
Lemma leg_ode n x : is_derive (fun y => (y * y - 1) * LD 1 n y) x (INR n * (INR n + 1) * legP n x).
Proof.
  destruct n as [|n].
  - apply (is_derive_ext (fun _ => 0)); [intros; rewrite LD_S_0; symmetry; apply Rmult_0_r|].
    eapply is_derive_eq; [apply d_const|]. simpl. ring.
  - apply (is_derive_ext (fun y => (INR n + 1) * (y * legP (S n) y - legP n y))); [intros; symmetry; apply leg_id4|].
    eapply is_derive_eq.
    + apply d_scal, d_minus; [apply d_mult; [apply d_id|apply legP_derive]|apply legP_derive].
    + destruct (leg_id12 n x) as [_ I2].
      replace (1 * legP (S n) x + x * LD 1 (S n) x - LD 1 n x) with (legP (S n) x + (x * LD 1 (S n) x - LD 1 n x)) by ring.
      rewrite I2, S_INR. ring.
Qed.

(** values at 1 *)
Lemma legP_at_1 n : legP n 1 = 1.
Proof.
  induction n as [| |m IH0 IH1] using two_ind; [reflexivity|reflexivity|].
  rewrite legP_SS, IH0, IH1. field. apply INR_pos2.
Qed.

(** orthogonality *)
Lemma leg_orth m n : m <> n -> is_RInt (fun x => legP m x * legP n x) (-1) 1 0.
Proof.
  intros Hmn. set (k := INR m * (INR m + 1) - INR n * (INR n + 1)).
  assert (Hk : k <> 0).
  { unfold k. pose proof (pos_INR m). pose proof (pos_INR n). assert (INR m <> INR n) by (intros E; apply Hmn, INR_eq, E).
    replace (INR m * (INR m + 1) - INR n * (INR n + 1)) with ((INR m - INR n) * (INR m + INR n + 1)) by ring.
    intros E. apply Rmult_integral in E. destruct E; lra. }
  pose (W := fun x => ((x * x - 1) * LD 1 m x) * legP n x - ((x * x - 1) * LD 1 n x) * legP m x).
  assert (HW : is_RInt (fun x => k * (legP m x * legP n x)) (-1) 1 (W 1 - W (-1))).
  { apply i_ftc.
    - intros x. eapply is_derive_eq.
      + unfold W. apply d_minus; (apply d_mult; [apply leg_ode|apply legP_derive]).
      + unfold k. ring.
    - intros x. apply c_mult; [apply c_const|]. apply c_mult; apply legP_continuous. }
  apply (i_scal (/ k)) in HW. apply (i_ext _ (fun x => legP m x * legP n x)) in HW.
  - replace 0 with (/ k * (W 1 - W (-1))); auto. unfold W. field; auto.
  - intros x. field. auto.
Qed.

Lemma leg_norm n : is_RInt (fun x => legP n x * legP n x) (-1) 1 (2 / (2 * INR n + 1)).
Proof.
  induction n as [|n IH].
  - replace (2 / (2 * INR 0 + 1)) with (1 - (-1)) by (simpl; field).
    apply (i_ftc (fun x => x) (fun _ => legP 0 _ * legP 0 _)).
    + intros x. rewrite legP_0. rewrite Rmult_1_r. apply d_id.
    + intros x. apply c_mult; apply legP_continuous.
  - (* X = int x P_n P_{n+1} *)
    pose (X := RInt (fun x => x * (legP n x * legP (S n) x)) (-1) 1).
    assert (HX : is_RInt (fun x => x * (legP n x * legP (S n) x)) (-1) 1 X).
    { apply i_exists. intros x. apply c_mult; [apply c_id|apply c_mult; apply legP_continuous]. }
    (* P_{n+2} P_n *)
    assert (E1 : (INR n + 2) * 0 = (2 * INR n + 3) * X - (INR n + 1) * (2 / (2 * INR n + 1))).
    { apply (i_unique (fun x => (INR n + 2) * (legP (S (S n)) x * legP n x)) (-1) 1).
      - apply i_scal, leg_orth. lia.
      - apply (i_ext (fun x => (2 * INR n + 3) * (x * (legP n x * legP (S n) x)) - (INR n + 1) * (legP n x * legP n x))).
        + intros x. rewrite <- (Rmult_assoc (INR n + 2)), legP_rec. ring.
        + apply i_minus; apply i_scal; auto. }
    pose (N := RInt (fun x => legP (S n) x * legP (S n) x) (-1) 1).
    assert (HN : is_RInt (fun x => legP (S n) x * legP (S n) x) (-1) 1 N).
    { apply i_exists. intros x. apply c_mult; apply legP_continuous. }
    assert (E2 : (INR n + 1) * N = (2 * INR n + 1) * X).
    { destruct n as [|n].
      - replace N with X; [simpl; ring|].
        apply (i_unique (fun x => legP 1 x * legP 1 x) (-1) 1); auto.
        apply (i_ext (fun x => x * (legP 0 x * legP 1 x))); auto.
        intros x. rewrite legP_0, legP_1. ring.
      - apply (i_unique (fun x => (INR (S n) + 1) * (legP (S (S n)) x * legP (S (S n)) x)) (-1) 1).
        + apply i_scal; auto.
        + apply (i_ext (fun x => (2 * INR (S n) + 1) * (x * (legP (S n) x * legP (S (S n)) x)) - (INR n + 1) * (legP n x * legP (S (S n)) x))).
          * intros x. rewrite S_INR. replace (INR n + 1 + 1) with (INR n + 2) by ring.
            rewrite <- (Rmult_assoc (INR n + 2)), (legP_rec n). ring.
          * replace ((2 * INR (S n) + 1) * X) with ((2 * INR (S n) + 1) * X - (INR n + 1) * 0) by ring.
            apply i_minus; apply i_scal; auto. apply leg_orth. lia. }
    replace (2 / (2 * INR (S n) + 1)) with N; auto.
    rewrite S_INR. replace (2 * (INR n + 1) + 1) with (2 * INR n + 3) by ring.
    apply (Rmult_eq_reg_l (INR n + 1)); [|apply INR_pos1]. rewrite E2.
    apply (Rmult_eq_reg_l (2 * INR n + 3)); [|apply INR_odd3].
    replace ((2 * INR n + 3) * ((2 * INR n + 1) * X)) with ((2 * INR n + 1) * ((2 * INR n + 3) * X)) by ring.
    replace ((2 * INR n + 3) * X) with ((INR n + 1) * (2 / (2 * INR n + 1))) by lra.
    field. split; [apply INR_odd3|apply INR_odd].
Qed.

(** P_n is a polynomial of degree exactly n *)
Lemma legP_poly n : exists c : nat -> R, c n <> 0 /\ (forall k, (n < k)%nat -> c k = 0) /\
  forall x, legP n x = Rsum (S n) (fun k => c k * x ^ k).
Proof.
  enough (H : exists c : nat -> R, 0 < c n /\ (forall k, (n < k)%nat -> c k = 0) /\
     forall N x, (n <= N)%nat -> legP n x = Rsum (S N) (fun k => c k * x ^ k)).
  { destruct H as (c & A & B & D). exists c. split; [lra|]. split; auto. }
  induction n as [| |m IH0 IH1] using two_ind.
  - exists (fun k => match k with O => 1 | _ => 0 end). split; [lra|]. split.
    + intros k Hk. destruct k; [lia|auto].
    + intros N x _. rewrite Rsum_first, Rsum_zero; [rewrite legP_0; simpl; ring|]. intros; ring.
  - exists (fun k => match k with 1%nat => 1 | _ => 0 end). split; [lra|]. split.
    + intros k Hk. destruct k as [|[|k]]; [lia|lia|auto].
    + intros N x HN. rewrite (Rsum_delta _ 1); [rewrite legP_1; simpl; ring|lia|].
      intros i _ Hi. destruct i as [|[|i]]; try lia; ring.
  - destruct IH0 as (a & A1 & A2 & A3). destruct IH1 as (b & B1 & B2 & B3).
    pose (sh := fun k => match k with O => 0 | S j => b j end).
    exists (fun k => ((2 * INR m + 3) * sh k - (INR m + 1) * a k) / (INR m + 2)).
    pose proof (pos_INR m).
    split; [|split].
    + unfold sh. rewrite A2 by lia. apply Rdiv_lt_0_compat; [|lra]. rewrite Rmult_0_r, Rminus_0_r.
      apply Rmult_lt_0_compat; lra.
    + intros k Hk. destruct k as [|k]; [lia|]. unfold sh. rewrite B2, A2 by lia. unfold Rdiv. ring.
    + intros N x HN. rewrite legP_SS.
      assert (HS : x * legP (S m) x = Rsum (S N) (fun k => sh k * x ^ k)).
      { destruct N as [|N]; [lia|]. rewrite Rsum_first, (B3 N) by lia. rewrite <- Rsum_scal.
        unfold sh. rewrite Rmult_0_l, Rplus_0_l. apply Rsum_ext. intros i _. simpl. ring. }
      rewrite Rmult_assoc, HS, (A3 N) by lia. rewrite <- !Rsum_scal, <- Rsum_minus.
      unfold Rdiv. rewrite <- Rsum_scal_r. apply Rsum_ext. intros. ring.
Qed.

(** derivative of P_n in terms of lower P_j *)
Definition lodd (i j : nat) : bool := Nat.ltb j i && Nat.odd (i - j).
Definition Dent (i j : nat) : R := if lodd i j then 2 * INR j + 1 else 0.
Lemma Dent_SS n j : Dent (S (S n)) j = Dent n j + (if Nat.eqb j (S n) then 2 * INR j + 1 else 0).
Proof.
  unfold Dent, lodd. destruct (Nat.eqb_spec j (S n)) as [->|Hj].
  - replace (S (S n) - S n)%nat with 1%nat by lia.
    destruct (Nat.ltb_spec (S n) (S (S n))); [|lia]. destruct (Nat.ltb_spec (S n) n); [lia|]. simpl. ring.
  - rewrite Rplus_0_r. destruct (Nat.ltb_spec j n).
    + destruct (Nat.ltb_spec j (S (S n))); [|lia]. replace (S (S n) - j)%nat with (S (S (n - j))) by lia.
      rewrite Nat.odd_succ_succ. reflexivity.
    + destruct (Nat.eq_dec j n) as [->|].
      * destruct (Nat.ltb_spec n (S (S n))); [|lia]. replace (S (S n) - n)%nat with 2%nat by lia. reflexivity.
      * destruct (Nat.ltb_spec j (S (S n))); [lia|]. reflexivity.
Qed.
Lemma LD1_series n : forall N x, (n <= N)%nat -> LD 1 n x = Rsum N (fun j => Dent n j * legP j x).
Proof.
  induction n as [| |m IH0 _] using two_ind; intros N x HN.
  - rewrite LD_S_0, Rsum_zero; auto. intros i Hi. unfold Dent, lodd. simpl. ring.
  - rewrite LD_1_1, (Rsum_delta N 0); [unfold Dent, lodd; simpl; rewrite legP_0; ring|lia|].
    intros i Hi Hi0. unfold Dent, lodd. destruct (Nat.ltb_spec i 1); [lia|]. simpl. ring.
  - transitivity (LD 1 m x + (2 * INR m + 3) * legP (S m) x); [pose proof (leg_id3 m x); lra|].
    rewrite (IH0 N) by lia.
    rewrite (Rsum_ext N (fun j => Dent (S (S m)) j * legP j x)
        (fun j => Dent m j * legP j x + (if Nat.eqb j (S m) then 2 * INR j + 1 else 0) * legP j x)).
    + rewrite Rsum_plus. f_equal. rewrite (Rsum_delta N (S m)); [|lia|].
      * rewrite Nat.eqb_refl, S_INR. ring.
      * intros i Hi Hne. destruct (Nat.eqb_spec i (S m)); [contradiction|ring].
    + intros i Hi. rewrite Dent_SS. ring.
Qed.

(** positivity of all derivatives at 1 *)
Lemma LD_id1 : forall k n x, LD (S k) (S n) x = x * LD (S k) n x + (INR n + 1 + INR k) * LD k n x.
Proof.
  induction k as [|k IH]; intros n x.
  - rewrite (proj1 (leg_id12 n x)). simpl. ring.
  - apply (d_unique (LD (S k) (S n)) x); [apply LD_derive|].
    apply (is_derive_ext (fun y => y * LD (S k) n y + (INR n + 1 + INR k) * LD k n y));
      [intros; symmetry; apply IH|].
    eapply is_derive_eq.
    + apply d_plus; [apply d_mult; [apply d_id|apply LD_derive]|apply d_scal, LD_derive].
    + rewrite S_INR. ring.
Qed.
Lemma LD_at_1_pos : forall n k, (k <= n)%nat -> 0 < LD k n 1.
Proof.
  induction n as [|n IH]; intros k Hk.
  - replace k with 0%nat by lia. simpl. rewrite legP_0. lra.
  - destruct k as [|k]; [simpl; rewrite legP_at_1; lra|].
    rewrite LD_id1. pose proof (IH k ltac:(lia)). pose proof (pos_INR n). pose proof (pos_INR k).
    assert (0 <= LD (S k) n 1).
    { destruct (Nat.le_gt_cases (S k) n); [left; apply IH; auto|rewrite LD_low by lia; lra]. }
    assert (0 < (INR n + 1 + INR k) * LD k n 1) by (apply Rmult_lt_0_compat; lra). lra.
Qed.
Lemma LD_norm_pos n k : (k <= n)%nat -> 0 < RInt (fun x => LD k n x * LD k n x) (-1) 1.
Proof.
  intros Hk. apply RInt_pos_right; [lra| | |].
  - intros x. apply c_mult; apply LD_continuous.
  - intros x. apply Rle_0_sqr.
  - pose proof (LD_at_1_pos n k Hk). apply Rmult_lt_0_compat; auto.
Qed.
