(** Roots of the Legendre polynomials and of (1 - t^2) P_N'. *)
From Coquelicot Require Import Coquelicot.
From Coq Require Import Arith Lia Reals Lra.
From Verif Require Import RSum RDeriv RPoly LegendreSpec LegendreMath GLSpec QuadSpec QuadMath.
Local Open Scope R_scope.

(** ** no root outside [-1, 1] *)
Lemma LD_pos_right : forall n k x, (k <= n)%nat -> 1 <= x -> 0 < LD k n x.
Proof.
  induction n as [|n IH]; intros k x Hk Hx.
  - replace k with 0%nat by lia. cbn. lra.
  - destruct k as [|k].
    + clear Hk. change (LD 0 (S n) x) with (legP (S n) x). apply (Rlt_le_trans _ 1); [lra|]. 
      assert (Mono : forall t, 1 <= t -> 0 < LD 1 (S n) t).
      { intros t Ht. rewrite LD_id1. destruct n as [|n].
        - rewrite LD_low by lia. specialize (IH 0%nat t ltac:(lia) Ht). simpl INR. nra.
        - pose proof (IH 1%nat t ltac:(lia) Ht). pose proof (IH 0%nat t ltac:(lia) Ht). pose proof (pos_INR (S n)). simpl (INR 0).
          assert (0 < t * LD 1 (S n) t) by (apply Rmult_lt_0_compat; lra). assert (0 < (INR (S n) + 1 + 0) * LD 0 (S n) t) by (apply Rmult_lt_0_compat; lra). lra. }
      destruct (Req_dec x 1) as [->|Ne]; [rewrite legP_at_1; lra|].
      destruct (MVT_gen (legP (S n)) 1 x (LD 1 (S n))) as (c & Hc & Ec).
      * intros t _. apply legP_derive.
      * intros t _. apply continuity_pt_filterlim, legP_continuous.
      * rewrite legP_at_1 in Ec. rewrite Rmin_left, Rmax_right in Hc by lra. specialize (Mono c ltac:(lra)).
        assert (0 < LD 1 (S n) c * (x - 1)) by (apply Rmult_lt_0_compat; lra). lra.
    + rewrite LD_id1. pose proof (IH k x ltac:(lia) Hx) as B. pose proof (pos_INR n). pose proof (pos_INR k).
      assert (0 < (INR n + 1 + INR k) * LD k n x) by (apply Rmult_lt_0_compat; lra).
      destruct (Nat.eq_dec k n) as [->|Ne].
      * rewrite LD_low by lia. lra.
      * pose proof (IH (S k) x ltac:(lia) Hx). assert (0 < x * LD (S k) n x) by (apply Rmult_lt_0_compat; lra). lra.
Qed.
Lemma legP_odd n : forall x, legP n (- x) = (-1) ^ n * legP n x.
Proof.
  induction n using two_ind; intros x.
  - rewrite !legP_0. simpl. ring.
  - rewrite !legP_1. simpl. ring.
  - rewrite !legP_SS, IHn, IHn0. simpl. field. apply INR_pos2.
Qed.
Lemma LD1_odd n x : LD 1 n (- x) = (-1) ^ (S n) * LD 1 n x.
Proof.
  assert (D1 : is_derive (fun y => legP n (- y)) x (LD 1 n (- x) * (- 1))).
  { apply (d_comp (legP n) (fun y => - y)); [apply legP_derive|apply d_opp, d_id]. }
  assert (D2 : is_derive (fun y => legP n (- y)) x ((-1) ^ n * LD 1 n x)).
  { apply (is_derive_ext (fun y => (-1) ^ n * legP n y)); [intros; symmetry; apply legP_odd|]. apply d_scal, legP_derive. }
  pose proof (d_unique _ _ _ _ D1 D2). change ((-1) ^ S n) with (-1 * (-1) ^ n). lra.
Qed.
Lemma pm1_neq0 n : (-1) ^ n <> 0.
Proof. apply pow_nonzero. lra. Qed.
Lemma lobatto_root_range N t : (1 <= N)%nat -> lobatto N t = 0 -> -1 <= t <= 1.
Proof.
  intros HN Z. unfold lobatto in Z. rewrite (is_derive_unique _ _ _ (legP_derive N t)) in Z. apply Rmult_integral in Z. destruct Z as [Z|Z].
  - assert ((1 - t) * (1 + t) = 0) by lra. apply Rmult_integral in H. lra.
  - split; apply Rnot_lt_le; intros L.
    + pose proof (LD_pos_right N 1 (- t) HN ltac:(lra)) as K. rewrite LD1_odd, Z in K. lra.
    + pose proof (LD_pos_right N 1 t HN ltac:(lra)). lra.
Qed.

(** ** sign of a product of differences *)
Lemma sgn_prod n : forall (r : nat -> R) k t, (k <= n)%nat -> (forall i, (i < k)%nat -> r i < t) -> (forall i, (k <= i)%nat -> (i < n)%nat -> t < r i) ->
  0 < (-1) ^ (n - k) * Rprod n (fun i => t - r i).
Proof.
  induction n as [|n IH]; intros r k t Hk L U.
  - replace (0 - k)%nat with 0%nat by lia. simpl. lra.
  - cbn [Rprod]. destruct (Nat.eq_dec k (S n)) as [->|Ne].
    + specialize (IH r n t (le_n n) ltac:(auto) ltac:(intros; lia)). replace (S n - S n)%nat with 0%nat by lia. replace (n - n)%nat with 0%nat in IH by lia. simpl in *.
      specialize (L n ltac:(lia)). assert (0 < Rprod n (fun i => t - r i) * (t - r n)) by (apply Rmult_lt_0_compat; lra). lra.
    + specialize (IH r k t ltac:(lia) ltac:(auto) ltac:(auto)). replace (S n - k)%nat with (S (n - k)) by lia. simpl.
      specialize (U n ltac:(lia) ltac:(lia)). replace (-1 * (-1) ^ (n - k) * (Rprod n (fun i => t - r i) * (t - r n))) with ((-1) ^ (n - k) * Rprod n (fun i => t - r i) * (r n - t)) by ring.
      apply Rmult_lt_0_compat; lra.
Qed.
Lemma ivt (f : R -> R) a b : (forall x, continuous f x) -> a < b -> f a * f b < 0 -> exists c, a < c < b /\ f c = 0.
Proof.
  intros C Hab S0. destruct (IVT_gen f a b 0) as (c & Hc & Ec).
  - intros x. apply continuity_pt_filterlim, C.
  - unfold Rmin, Rmax. destruct (Rle_dec (f a) (f b)); split; nra.
  - rewrite Rmin_left, Rmax_right in Hc by lra. exists c. split; auto. split; apply Rnot_le_lt; intros L.
    + assert (c = a) by lra. subst. rewrite Ec in S0. lra.
    + assert (c = b) by lra. subst. rewrite Ec in S0. lra.
Qed.
Lemma choice_n n (P : nat -> R -> Prop) : (forall i, (i < n)%nat -> exists c, P i c) -> exists f, forall i, (i < n)%nat -> P i (f i).
Proof.
  induction n as [|n IH]; intros H; [exists (fun _ => 0); intros; lia|].
  destruct IH as (f & Hf); [auto|]. destruct (H n ltac:(lia)) as (c & Hc).
  exists (fun i => if Nat.eqb i n then c else f i). intros i Hi. destruct (Nat.eqb_spec i n) as [->|Ne]; auto. apply Hf. lia.
Qed.
Definition incr (n : nat) (r : nat -> R) : Prop := forall i j, (i < j)%nat -> (j < n)%nat -> r i < r j.
Lemma incr_step n r : (forall i, (S i < n)%nat -> r i < r (S i)) -> incr n r.
Proof.
  intros H i j Hij Hj. induction j as [|j IH]; [lia|]. destruct (Nat.eq_dec i j) as [->|Ne]; [apply H; auto|].
  apply (Rlt_trans _ (r j)); [apply IH; lia|apply H; auto].
Qed.
Lemma incr_distinct n r : incr n r -> distinct n r.
Proof. intros H i j Hi Hj Ne E. destruct (Nat.lt_total i j) as [L|[L|L]]; try contradiction; [specialize (H i j L Hj)|specialize (H j i L Hi)]; lra. Qed.
(** P_n factors over its roots *)
Lemma legP_factor n r : incr n r -> (forall i, (i < n)%nat -> legP n (r i) = 0) -> (forall i, (i < n)%nat -> r i < 1) ->
  exists c, 0 < c /\ forall t, legP n t = c * Rprod n (fun i => t - r i).
Proof.
  intros I Z B. destruct (poly_factor_all n 1 (legP n) r) as (k & (ck & Ek) & Ef); auto.
  { replace (n + 1)%nat with (S n) by lia. apply legP_isPoly. }
  { apply incr_distinct; auto. }
  assert (Kc : forall t, k t = ck 0%nat) by (intros t; rewrite Ek; unfold peval; simpl; ring).
  exists (ck 0%nat). split; [|intros t; rewrite Ef, Kc; ring].
  pose proof (Ef 1) as E1. rewrite legP_at_1, Kc in E1.
  pose proof (sgn_prod n r n 1 (le_n n) B ltac:(intros; lia)) as P. replace (n - n)%nat with 0%nat in P by lia. simpl in P. 
  apply Rnot_le_lt. intros L. assert (Rprod n (fun i => 1 - r i) * ck 0%nat <= 0); [|lra]. assert (0 <= Rprod n (fun i => 1 - r i) * - ck 0%nat) by (apply Rmult_le_pos; lra). lra.
Qed.
Lemma pow_m1_sq k : (-1) ^ k * (-1) ^ k = 1.
Proof. rewrite <- Rpow_mult_distr. replace (-1 * -1) with 1 by ring. apply pow1. Qed.
Lemma sgn_mul s a b : s * s = 1 -> 0 < s * a -> 0 < - s * b -> a * b < 0.
Proof. intros S2 A B. replace (a * b) with (- ((s * a) * (- s * b))); [assert (0 < s * a * (- s * b)) by (apply Rmult_lt_0_compat; auto); lra|]. transitivity (s * s * (a * b)); [ring|rewrite S2; ring]. Qed.
(** roots of P_n, interlaced with those of P_{n+1} *)
Theorem legendre_roots n : exists r, incr n r /\ (forall i, (i < n)%nat -> -1 < r i < 1 /\ legP n (r i) = 0 /\ 0 < (-1) ^ (n - i) * legP (S n) (r i)).
Proof.
  induction n as [|n (r & I & Hr)].
  - exists (fun _ => 0). split; [intros i j; lia|intros; lia].
  - (* brackets: -1, r 0, .., r (n-1), 1 *)
    set (b := fun i => match i with O => -1 | S j => if Nat.ltb j n then r j else 1 end).
    assert (Sb : forall i, (i <= S n)%nat -> 0 < (-1) ^ (S n - i) * legP (S n) (b i)).
    { intros i Hi. destruct i as [|j]; cbn [b].
      - change (-1) with (- (1)) at 2. replace (S n - 0)%nat with (S n) by lia. replace (IZR (-1)) with (- (1)) by lra. rewrite legP_odd, legP_at_1.
        replace (- (1)) with (-1) by lra. rewrite Rmult_1_r, pow_m1_sq. lra.
      - destruct (Nat.ltb_spec j n).
        + destruct (Hr j ltac:(lia)) as (_ & _ & K). exact K.
        + replace (S n - S j)%nat with 0%nat by lia. rewrite legP_at_1. simpl. lra. }
    assert (Ib : forall i, (i <= n)%nat -> b i < b (S i)).
    { intros i Hi. unfold b. destruct i as [|j].
      - destruct (Nat.ltb_spec 0 n); [apply Hr; lia|lra].
      - destruct (Nat.ltb_spec j n); [|lia]. destruct (Nat.ltb_spec (S j) n); [apply I; lia|apply Hr; lia]. }
    destruct (choice_n (S n) (fun i c => b i < c < b (S i) /\ legP (S n) c = 0)) as (s & Hs).
    { intros i Hi. apply ivt; [intros; apply legP_continuous|apply Ib; lia|].
      pose proof (Sb i ltac:(lia)) as A. pose proof (Sb (S i) ltac:(lia)) as B. replace (S n - i)%nat with (S (S n - S i)) in A by lia.
      apply (sgn_mul ((-1) ^ S (S n - S i))); [apply pow_m1_sq|exact A|]. simpl. replace (- (-1 * (-1) ^ (n - i))) with ((-1) ^ (n - i)) by ring. exact B. }
    assert (Is : incr (S n) s).
    { apply incr_step. intros i Hi. destruct (Hs i ltac:(lia)) as ((_ & A) & _). destruct (Hs (S i) ltac:(lia)) as ((B & _) & _). lra. }
    assert (Lo : forall i, (i <= S n)%nat -> -1 <= b i).
    { induction i as [|i IH]; intros Hi; [cbn [b]; lra|]. specialize (IH ltac:(lia)). specialize (Ib i ltac:(lia)). lra. }
    assert (Hi1 : forall i, (i <= S n)%nat -> b i <= 1).
    { intros i Hi. unfold b. destruct i as [|j]; [lra|]. destruct (Nat.ltb_spec j n); [|lra]. destruct (Hr j ltac:(lia)) as (K & _). lra. }
    destruct (legP_factor n r I) as (c & Hc & Ef); [intros; apply Hr; auto|intros; apply Hr; auto|].
    exists s. split; auto. intros i Hi. destruct (Hs i Hi) as ((A & B) & Z).
    split; [pose proof (Lo i ltac:(lia)); pose proof (Hi1 (S i) ltac:(lia)); lra|]. split; auto.
    (* sign of P_{n+2} at s i from the recurrence: -(n+1)/(n+2) P_n *)
    rewrite legP_SS, Z.
    assert (Q : 0 < (-1) ^ (n - i) * legP n (s i)).
    { rewrite Ef. replace ((-1) ^ (n - i) * (c * Rprod n (fun j => s i - r j))) with (c * ((-1) ^ (n - i) * Rprod n (fun j => s i - r j))) by ring.
      apply Rmult_lt_0_compat; auto. apply sgn_prod; [lia| |].
      - intros j Hj. destruct i as [|i]; [lia|]. unfold b in A. destruct (Nat.ltb_spec i n); [|lia]. destruct (Nat.eq_dec j i) as [->|Ne]; [lra|]. specialize (I j i ltac:(lia) ltac:(lia)). lra.
      - intros j Hj Hn. unfold b in B. destruct (Nat.ltb_spec i n); [|lia]. destruct (Nat.eq_dec j i) as [->|Ne]; [lra|]. specialize (I i j ltac:(lia) ltac:(lia)). lra. }
    replace (S n - i)%nat with (S (n - i)) by lia. simpl (_ ^ S _). pose proof (pos_INR n).
    replace (-1 * (-1) ^ (n - i) * (((2 * INR n + 3) * s i * 0 - (INR n + 1) * legP n (s i)) / (INR n + 2))) with ((INR n + 1) / (INR n + 2) * ((-1) ^ (n - i) * legP n (s i))) by (field; apply INR_pos2).
    apply Rmult_lt_0_compat; auto. apply Rdiv_lt_0_compat; lra.
Qed.
(** the N + 1 Gauss-Lobatto nodes exist *)
Theorem lobatto_nodes_exist N : (1 <= N)%nat -> exists x, lobatto_nodes N x /\ x 0%nat = -1 /\ x N = 1 /\ incr (S N) x.
Proof.
  intros HN. destruct (legendre_roots N) as (r & I & Hr).
  destruct (choice_n (N - 1) (fun i c => r i < c < r (S i) /\ LD 1 N c = 0)) as (s & Hs).
  { intros i Hi. destruct (MVT_gen (legP N) (r i) (r (S i)) (LD 1 N)) as (c & Hc & Ec).
    - intros t _. apply legP_derive.
    - intros t _. apply continuity_pt_filterlim, legP_continuous.
    - assert (L : r i < r (S i)) by (apply I; lia). rewrite Rmin_left, Rmax_right in Hc by lra.
      rewrite (proj1 (proj2 (Hr i ltac:(lia)))), (proj1 (proj2 (Hr (S i) ltac:(lia)))) in Ec.
      assert (Zc : LD 1 N c = 0) by (assert (Y : LD 1 N c * (r (S i) - r i) = 0) by lra; apply Rmult_integral in Y; destruct Y; auto; lra).
      (* a root of P_N is not a root of its derivative *)
      assert (Nz : forall j, (j < N)%nat -> LD 1 N (r j) <> 0).
      { intros j Hj Y. destruct N as [|M]; [lia|]. pose proof (leg_id4 M (r j)) as Q. rewrite Y, (proj1 (proj2 (Hr j Hj))) in Q.
        assert (P0 : legP M (r j) = 0) by (assert ((INR M + 1) * legP M (r j) = 0) by lra; apply Rmult_integral in H; destruct H; auto; exfalso; exact (INR_pos1 M H)).
        pose proof (proj2 (proj2 (Hr j Hj))) as K. rewrite legP_SS, P0, (proj1 (proj2 (Hr j Hj))) in K. unfold Rdiv in K. lra. }
      exists c. split; auto. split; apply Rnot_le_lt; intros L2.
      + assert (c = r i) by lra. subst c. apply (Nz i); [lia|auto].
      + assert (c = r (S i)) by lra. subst c. apply (Nz (S i)); [lia|auto]. }
  set (x := fun i => if Nat.eqb i 0 then -1 else if Nat.ltb i N then s (i - 1)%nat else 1).
  assert (In : forall i, (i < N - 1)%nat -> -1 < s i < 1).
  { intros i Hi. destruct (Hs i Hi) as (A & _). pose proof (proj1 (Hr i ltac:(lia))). pose proof (proj1 (Hr (S i) ltac:(lia))). lra. }
  assert (Ix : incr (S N) x).
  { apply incr_step. intros i Hi. unfold x. cbn [Nat.eqb]. destruct (Nat.eqb_spec i 0) as [->|N0].
    - destruct (Nat.ltb_spec 1 N); [apply (In 0%nat); lia|lra].
    - destruct (Nat.ltb_spec i N); [|lia]. destruct (Nat.ltb_spec (S i) N).
      + destruct i as [|i]; [lia|]. replace (S i - 1)%nat with i by lia. replace (S (S i) - 1)%nat with (S i) by lia.
        destruct (Hs i ltac:(lia)) as ((_ & A) & _). destruct (Hs (S i) ltac:(lia)) as ((B & _) & _). lra.
      + apply (In (i - 1)%nat). lia. }
  exists x. split; [|split; [reflexivity|split; auto]].
  - split.
    + intros i Hi. unfold lobatto. rewrite (is_derive_unique _ _ _ (legP_derive N _)). unfold x. destruct (Nat.eqb_spec i 0); [lra|].
      destruct (Nat.ltb_spec i N); [|lra]. rewrite (proj2 (Hs (i - 1)%nat ltac:(lia))). ring.
    + intros i j Hi Hj E. destruct (Nat.eq_dec i j) as [|Ne]; auto. exfalso. apply (incr_distinct _ _ Ix i j); auto; lia.
  - unfold x. destruct (Nat.eqb_spec N 0); [lia|]. destruct (Nat.ltb_spec N N); [lia|reflexivity].
Qed.

Lemma lobatto_nodes_2 : lobatto_nodes 1 (fun i => List.nth i (cons (-1) (cons 1 nil)) 0).
Proof.
  split.
  - intros [|[|i]] Hi; try lia; unfold lobatto; cbn; ring.
  - intros [|[|i]] [|[|j]] Hi Hj E; try lia; cbn in E; lra.
Qed.
Lemma lobatto_nodes_3 : lobatto_nodes 2 (fun i => List.nth i (cons (-1) (cons 0 (cons 1 nil))) 0).
Proof.
  split.
  - intros [|[|[|i]]] Hi; try lia; unfold lobatto; cbn [List.nth]; try ring.
    rewrite (is_derive_unique _ _ _ (legP_derive 2 0)). rewrite LD_rec. rewrite LD_1_1, LD_S_0. cbn. field.
  - intros [|[|[|i]]] [|[|[|j]]] Hi Hj E; try lia; cbn in E; lra.
Qed.
Lemma i_value (f : R -> R) a b p q : p = q -> is_RInt f a b q -> is_RInt f a b p.
Proof. now intros ->. Qed.
