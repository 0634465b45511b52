(** Gauss-Lobatto quadrature with exact nodes: degree of exactness. *)
From Coquelicot Require Import Coquelicot.
From Coq Require Import Arith Lia Reals Lra.
From Verif Require Import RSum RDeriv RPoly LegendreSpec LegendreMath LagrangeSpec LagrangeMath GLSpec QuadSpec.
Local Open Scope R_scope.

Lemma legP_isPoly n : isPoly (S n) (legP n).
Proof. destruct (legP_poly n) as (c & _ & _ & E). exists c. exact E. Qed.
(** P_n is orthogonal to polynomials of smaller degree *)
Lemma orth_poly m : forall f n, isPoly m f -> (m <= n)%nat -> is_RInt (fun t => legP n t * f t) (-1) 1 0.
Proof.
  induction m as [|m IH]; intros f n P Hn.
  - apply (i_ext (fun _ => 0)).
    { intros t. destruct P as (c & E). rewrite E. unfold peval. simpl. ring. }
    pose proof (is_RInt_const (-1) 1 0) as K. unfold scal in K; simpl in K; unfold mult in K; simpl in K. now rewrite Rmult_0_r in K.
  - destruct (legP_poly m) as (l & Nz & _ & El). destruct P as (c & E).
    set (g := fun t => f t - c m / l m * legP m t).
    assert (Pg : isPoly m g).
    { exists (fun k => c k - c m / l m * l k). intros t. unfold g. rewrite E, El. unfold peval. cbn [Rsum].
      replace (Rsum m (fun k => c k * t ^ k) + c m * t ^ m - c m / l m * (Rsum m (fun k => l k * t ^ k) + l m * t ^ m))
        with (Rsum m (fun k => c k * t ^ k) - c m / l m * Rsum m (fun k => l k * t ^ k)) by (field; auto).
      rewrite <- Rsum_scal, <- Rsum_minus. apply Rsum_ext. intros; ring. }
    apply (i_ext (fun t => legP n t * g t + c m / l m * (legP m t * legP n t))); [intros t; unfold g; ring|].
    replace 0 with (0 + c m / l m * 0) by ring. apply i_plus; [apply IH; auto; lia|]. apply i_scal. apply leg_orth. lia.
Qed.

(** the product of the linear factors divides *)
Lemma poly_factor_all n : forall m f x, isPoly (n + m) f -> distinct n x -> (forall i, (i < n)%nat -> f (x i) = 0) ->
  exists g, isPoly m g /\ forall t, f t = Rprod n (fun i => t - x i) * g t.
Proof.
  induction n as [|n IH]; intros m f x P D Z.
  - exists f. split; auto. intros. simpl. ring.
  - destruct (poly_factor (n + m) f (x n) P (Z n ltac:(lia))) as (h & Ph & Eh).
    destruct (IH m h x Ph) as (g & Pg & Eg).
    + intros i j Hi Hj. apply D; lia.
    + intros i Hi. specialize (Z i ltac:(lia)). rewrite Eh in Z. apply Rmult_integral in Z. destruct Z as [Z|Z]; auto.
      exfalso. apply (D i n); try lia. lra.
    + exists g. split; auto. intros t. rewrite Eh, Eg. simpl. ring.
Qed.

Section N.
Variable M : nat.
Let N := S M.
Lemma lobatto_eq t : lobatto N t = (INR M + 1) * (legP M t - t * legP N t).
Proof.
  unfold lobatto. rewrite (is_derive_unique _ _ _ (legP_derive N t)). pose proof (leg_id4 M t) as K. fold N in K.
  replace ((1 - t * t) * LD 1 N t) with (- ((t * t - 1) * LD 1 N t)) by ring. rewrite K. ring.
Qed.
Lemma lobatto_derive t : is_derive (lobatto N) t (- (INR N * (INR N + 1) * legP N t)).
Proof.
  apply (is_derive_ext (fun y => - ((y * y - 1) * LD 1 N y))).
  - intros y. unfold lobatto. rewrite (is_derive_unique _ _ _ (legP_derive N y)). match goal with |- ?a = ?b => change (@eq R a b) end. ring.
  - apply d_opp. apply leg_ode.
Qed.
Lemma lobatto_isPoly : isPoly (S (S N)) (lobatto N).
Proof.
  apply (isPoly_ext _ (fun t => (INR M + 1) * (legP M t - t * legP N t))); [intros; symmetry; apply lobatto_eq|].
  apply isPoly_scal, isPoly_minus; [apply (isPoly_mono N); [lia|apply legP_isPoly]|apply isPoly_mulX, legP_isPoly].
Qed.
Lemma NM : INR N = INR M + 1.
Proof. unfold N. apply S_INR. Qed.
Lemma M1 : INR M + 1 <> 0.
Proof. pose proof (pos_INR M). lra. Qed.

(** (1 - t^2) P_N' is orthogonal to degree <= N - 2 *)
Lemma lobatto_orth g : isPoly M g -> is_RInt (fun t => lobatto N t * g t) (-1) 1 0.
Proof.
  intros P. apply (i_ext (fun t => (INR M + 1) * (legP M t * g t - legP N t * (t * g t)))); [intros; rewrite lobatto_eq; ring|].
  replace 0 with ((INR M + 1) * (0 - 0)) by ring. apply i_scal, i_minus; [apply (orth_poly M); auto|apply (orth_poly (S M)); auto]. apply isPoly_mulX; auto.
Qed.

(** the quotient of (1 - t^2) P_N' by one of its linear factors *)
Lemma lobatto_quotient c : lobatto N c = 0 -> exists u, isPoly (S N) u /\ (forall t, lobatto N t = (t - c) * u t) /\ u c = - (INR N * (INR N + 1) * legP N c) /\
  exists I, is_RInt u (-1) 1 I /\ legP N c * I = -2.
Proof.
  intros Zc. rewrite lobatto_eq in Zc.
  destruct (poly_factor N (fun t => INR N * legP M t - INR N * c * legP N t) c) as (g & Pg & Eg).
  { apply isPoly_minus; apply isPoly_scal; [apply (isPoly_mono N); [lia|apply legP_isPoly]|apply legP_isPoly]. }
  { rewrite NM. lra. }
  set (u := fun t => g t - INR N * legP N t).
  assert (Pu : isPoly (S N) u) by (apply isPoly_minus; [apply (isPoly_mono N); auto|apply isPoly_scal, legP_isPoly]).
  assert (Eu : forall t, lobatto N t = (t - c) * u t).
  { intros t. unfold u. rewrite Rmult_minus_distr_l, <- Eg, lobatto_eq, NM. ring. }
  destruct (poly_factor N (fun t => legP N t - legP N c) c) as (v & Pv & Ev).
  { apply isPoly_minus; [apply legP_isPoly|apply isPoly_const; lia]. }
  { ring. }
  (* v = (2 N - 1) / N P_{N-1} + lower *)
  assert (Hv : exists h, isPoly M h /\ forall t, INR N * v t = (2 * INR N - 1) * legP M t + h t).
  { assert (R1 : forall t, INR N * legP N t = (2 * INR N - 1) * t * legP M t - (INR N - 1) * (if Nat.eqb M 0 then 0 else legP (M - 1) t)).
    { intros t. unfold N. destruct M as [|m]; cbn [Nat.eqb]; [rewrite legP_1, legP_0; simpl; ring|]. replace (S m - 1)%nat with m by lia. rewrite legP_SS, !S_INR. field. apply INR_pos2. }
    destruct (poly_factor M (fun t => - (INR N - 1) * (if Nat.eqb M 0 then 0 else legP (M - 1) t) + (2 * INR N - 1) * c * legP M t - INR N * legP N c) c) as (h & Ph & Eh).
    - apply isPoly_minus; [apply isPoly_plus|apply isPoly_const; lia].
      + apply isPoly_scal. destruct (Nat.eqb_spec M 0); [apply isPoly_0|]. apply (isPoly_mono (S (M - 1))); [lia|apply legP_isPoly].
      + apply isPoly_scal, legP_isPoly.
    - rewrite R1. ring.
    - exists h. split; auto. intros t.
      assert (Q : forall t, (t - c) * (INR N * v t - (2 * INR N - 1) * legP M t - h t) = 0).
      { intros s. replace ((s - c) * (INR N * v s - (2 * INR N - 1) * legP M s - h s)) with (INR N * ((s - c) * v s) - (2 * INR N - 1) * (s - c) * legP M s - (s - c) * h s) by ring.
        rewrite <- Ev, <- Eh, Rmult_minus_distr_l, R1. ring. }
      (* the second factor is a polynomial vanishing off c *)
      set (q := fun t => INR N * v t - (2 * INR N - 1) * legP M t - h t).
      assert (Pq : isPoly N q).
      { apply isPoly_minus; [apply isPoly_minus; apply isPoly_scal; [exact Pv|apply legP_isPoly]|apply (isPoly_mono M); [lia|exact Ph]]. }
      assert (Zq : q t = 0).
      { apply (poly_zero N q (fun i => c + 1 + INR i)); auto.
        - intros i j _ _ Ne E. apply Ne. apply INR_eq. lra.
        - intros i _. specialize (Q (c + 1 + INR i)). apply Rmult_integral in Q. destruct Q as [Q|Q]; auto. pose proof (pos_INR i). lra. }
      unfold q in Zq. lra. }
  destruct Hv as (h & Ph & Eh).
  assert (Cu : forall t, continuous u t) by (intros; apply (isPoly_continuous (S N)); auto).
  assert (Cv : forall t, continuous v t) by (intros; apply (isPoly_continuous N); auto).
  split with u. split; auto. split; auto. split.
  { pose proof (lobatto_derive c) as D. assert (D' : is_derive (lobatto N) c (u c)).
    { apply (is_derive_ext (fun t => (t - c) * u t)); [intros; symmetry; apply Eu|].
      destruct Pu as (cu & Ecu). eapply is_derive_eq.
      - apply d_mult; [apply d_minus; [apply d_id|apply d_const]|].
        apply (is_derive_ext (peval (S N) cu)); [intros; symmetry; apply Ecu|apply peval_derive].
      - cbv beta. ring. }
    exact (d_unique _ _ _ _ D' D). }
  exists (RInt u (-1) 1). split; [apply i_exists; auto|].
  (* integral of u P_N *)
  assert (I1 : is_RInt (fun t => u t * legP N t) (-1) 1 (- INR N * (2 / (2 * INR N + 1)))).
  { apply (i_ext (fun t => legP N t * g t + - INR N * (legP N t * legP N t))); [intros; unfold u; ring|].
    replace (- INR N * (2 / (2 * INR N + 1))) with (0 + - INR N * (2 / (2 * INR N + 1))) by ring. apply i_plus; [apply (orth_poly N); auto|]. apply i_scal, leg_norm. }
  (* integral of (1 - t^2) P_N' v *)
  assert (I2 : is_RInt (fun t => legP M t * v t) (-1) 1 (2 / INR N)).
  { apply (i_ext (fun t => / INR N * ((2 * INR N - 1) * (legP M t * legP M t) + legP M t * h t))).
    - intros t. replace (v t) with (/ INR N * (INR N * v t)) by (rewrite NM; field; apply M1). rewrite Eh. ring.
    - replace (2 / INR N) with (/ INR N * ((2 * INR N - 1) * (2 / (2 * INR M + 1)) + 0)) by (rewrite NM; field; split; [apply M1|apply INR_odd]).
      apply i_scal, i_plus; [apply i_scal, leg_norm|apply (orth_poly M); auto]. }
  assert (I3 : is_RInt (fun t => legP N t * (t * v t)) (-1) 1 (2 / (2 * INR N + 1))).
  { apply (i_ext (fun t => legP N t * legP N t + legP N t * (c * v t - legP N c))).
    - intros t. pose proof (Ev t) as K. replace (t * v t) with ((t - c) * v t + c * v t) by ring. rewrite <- K. ring.
    - rewrite <- (Rplus_0_r (2 / (2 * INR N + 1))). apply i_plus; [apply leg_norm|]. apply (orth_poly N); auto. apply isPoly_minus; [apply isPoly_scal; auto|apply isPoly_const; unfold N; lia]. }
  assert (I4 : is_RInt (fun t => lobatto N t * v t) (-1) 1 (INR N * (2 / INR N - 2 / (2 * INR N + 1)))).
  { apply (i_ext (fun t => INR N * (legP M t * v t - legP N t * (t * v t)))); [intros; rewrite lobatto_eq, NM; ring|]. apply i_scal, i_minus; auto. }
  assert (I5 : is_RInt (fun t => u t * legP N t - legP N c * u t) (-1) 1 (- INR N * (2 / (2 * INR N + 1)) - legP N c * RInt u (-1) 1)).
  { apply i_minus; auto. apply i_scal, i_exists; auto. }
  assert (I6 : is_RInt (fun t => lobatto N t * v t) (-1) 1 (- INR N * (2 / (2 * INR N + 1)) - legP N c * RInt u (-1) 1)).
  { apply (i_ext (fun t => u t * legP N t - legP N c * u t)); auto. intros t. rewrite Eu.
    replace (u t * legP N t - legP N c * u t) with (u t * (legP N t - legP N c)) by ring. rewrite Ev. ring. }
  pose proof (i_unique _ _ _ _ _ I4 I6) as E. 
  assert (Hn : INR N <> 0) by (rewrite NM; apply M1). pose proof (INR_odd N) as Ho.
  assert (E2 : INR N * (2 / INR N - 2 / (2 * INR N + 1)) + INR N * (2 / (2 * INR N + 1)) = 2) by (field; auto). lra.
Qed.

Section X.
Variable x : nat -> R.
Hypothesis HX : lobatto_nodes N x.
Lemma HX_distinct : distinct (S N) x.
Proof. intros i j Hi Hj Ne E. apply Ne. apply HX; auto; lia. Qed.
Lemma nodes_weight i : (i <= N)%nat -> legP N (x i) <> 0 /\ is_RInt (lagr (S N) x i) (-1) 1 (lob_weight N (x i)).
Proof.
  intros Hi. destruct (lobatto_quotient (x i)) as (u & Pu & Eu & Uc & I & HI & EI); [apply HX; auto|].
  assert (Nz : legP N (x i) <> 0) by (intros Z; rewrite Z in EI; lra). split; auto.
  assert (Hn : INR N <> 0) by (rewrite NM; apply M1). assert (Hn1 : INR N + 1 <> 0) by (apply INR_pos1).
  assert (E : forall t, lagr (S N) x i t - - / (INR N * (INR N + 1) * legP N (x i)) * u t = 0).
  { apply (poly_zero (S N) _ x); [|apply HX_distinct|].
    - apply isPoly_minus; [apply lagr_poly; lia|apply isPoly_scal; auto].
    - intros j Hj. rewrite lagr_delta by (try lia; apply HX_distinct). destruct (Nat.eqb_spec j i) as [->|Ne].
      + rewrite Uc. field. auto.
      + assert (U0 : u (x j) = 0).
        { pose proof (Eu (x j)) as K. rewrite (proj1 HX j) in K by lia. symmetry in K. apply Rmult_integral in K. destruct K as [K|K]; auto.
          exfalso. apply Ne. apply HX; try lia. lra. }
        rewrite U0. ring. }
  apply (i_ext (fun t => - / (INR N * (INR N + 1) * legP N (x i)) * u t)); [intros t; specialize (E t); lra|].
  replace (lob_weight N (x i)) with (- / (INR N * (INR N + 1) * legP N (x i)) * I); [apply i_scal; auto|].
  unfold lob_weight. replace I with (-2 / legP N (x i)) by (rewrite <- EI; field; auto). field. auto.
Qed.
(** the rule is exact up to degree 2 N - 1 *)
Theorem lobatto_exact F : isPoly (2 * N) F -> is_RInt F (-1) 1 (Rsum (S N) (fun i => lob_weight N (x i) * F (x i))).
Proof.
  intros P. set (L := fun t => Rsum (S N) (fun j => F (x j) * lagr (S N) x j t)).
  assert (PL : isPoly (S N) L) by (apply isPoly_Rsum; intros; apply isPoly_scal, lagr_poly; auto).
  assert (EL : forall i, (i < S N)%nat -> L (x i) = F (x i)).
  { intros i Hi. unfold L. rewrite (Rsum_delta (S N) i) by (try assumption; intros j Hj Ne; rewrite lagr_other by auto; ring). rewrite lagr_self by (auto; apply HX_distinct). ring. }
  destruct (poly_factor_all (S N) M (fun t => F t - L t) x) as (g & Pg & Eg).
  { replace (S N + M)%nat with (2 * N)%nat by (unfold N; lia). apply isPoly_minus; auto. apply (isPoly_mono (S N)); auto. unfold N. lia. }
  { apply HX_distinct. }
  { intros i Hi. rewrite EL by auto. ring. }
  destruct (poly_factor_all (S N) 1 (lobatto N) x) as (k & (ck & Ek) & Ew).
  { replace (S N + 1)%nat with (S (S N)) by lia. apply lobatto_isPoly. }
  { apply HX_distinct. }
  { intros i Hi. apply HX. lia. }
  assert (Kc : forall t, k t = ck 0%nat) by (intros t; rewrite Ek; unfold peval; simpl; ring).
  assert (Nz : ck 0%nat <> 0).
  { intros Z. (* otherwise (1 - t^2) P_N' vanishes identically, but its derivative at x 0 does not *)
    destruct (nodes_weight 0 ltac:(lia)) as (Np & _).
    assert (D0 : is_derive (lobatto N) (x 0%nat) 0).
    { apply (is_derive_ext (fun _ => 0)); [intros t; rewrite Ew, Kc, Z; symmetry; apply Rmult_0_r|apply d_const]. }
    pose proof (d_unique _ _ _ _ (lobatto_derive (x 0%nat)) D0) as E.
    assert (INR N <> 0) by (rewrite NM; apply M1). assert (INR N + 1 <> 0) by apply INR_pos1.
    assert (Y : INR N * (INR N + 1) * legP N (x 0%nat) = 0) by lra. apply Rmult_integral in Y. destruct Y as [Y|Y]; [apply Rmult_integral in Y; tauto|auto]. }
  apply (i_ext (fun t => L t + / ck 0%nat * (lobatto N t * g t))).
  - intros t. rewrite Ew, Kc. replace (/ ck 0%nat * (Rprod (S N) (fun i => t - x i) * ck 0%nat * g t)) with (Rprod (S N) (fun i => t - x i) * g t) by (field; auto). rewrite <- Eg. ring.
  - rewrite <- (Rplus_0_r (Rsum _ _)). apply i_plus.
    + apply is_RInt_Rsum. intros i Hi. rewrite Rmult_comm. apply i_scal. apply nodes_weight. lia.
    + replace 0 with (/ ck 0%nat * 0) by ring. apply i_scal, lobatto_orth; auto.
Qed.
End X.
End N.

(** ** composite rules *)
Lemma i_chain (f : R -> R) (b : nat -> R) (v : nat -> R) n : (forall i, (i < n)%nat -> is_RInt f (b i) (b (S i)) (v i)) -> is_RInt f (b 0%nat) (b n) (Rsum n v).
Proof.
  induction n as [|n IH]; intros H; [apply @is_RInt_point|]. cbn [Rsum]. apply (is_RInt_Chasles f _ (b n) _ (Rsum n v) (v n)); [apply IH; auto|apply H; lia].
Qed.
Lemma to_interval (F : R -> R) a len v : is_RInt (fun s => F (on_interval a len s)) (-1) 1 v -> is_RInt F a (a + len) (len / 2 * v).
Proof.
  intros H. destruct (Req_dec len 0) as [->|Hl].
  - replace (0 / 2 * v) with 0 by field. rewrite Rplus_0_r. apply @is_RInt_point.
  - pose proof (is_RInt_comp_lin (fun s => F (on_interval a len s)) (2 / len) (- (2 / len) * a - 1) a (a + len) v) as K.
    replace (2 / len * a + (- (2 / len) * a - 1)) with (-1) in K by ring. replace (2 / len * (a + len) + (- (2 / len) * a - 1)) with 1 in K by (field; auto). specialize (K H).
    apply (i_ext (fun t => len / 2 * (scal (2 / len) (F (on_interval a len (2 / len * t + (- (2 / len) * a - 1))))))); [|apply i_scal; exact K].
    intros t. unfold scal; simpl; unfold mult; simpl. replace (on_interval a len (2 / len * t + (- (2 / len) * a - 1))) with t by (unfold on_interval; field; auto). field. auto.
Qed.
Lemma isPoly_affine n f a b : isPoly n f -> isPoly n (fun x => f (a * x + b)).
Proof.
  intros (c & E). apply (isPoly_ext n (fun x => Rsum n (fun k => c k * (a * x + b) ^ k))). { intros x. rewrite E. reflexivity. }
  apply isPoly_Rsum. intros k Hk. apply isPoly_scal. apply (isPoly_mono (S k)); [lia|].
  clear. induction k as [|k IH]; [apply (isPoly_const 1 1); lia|]. apply (isPoly_ext _ (fun x => (a * x + b) * (a * x + b) ^ k)); [reflexivity|]. apply isPoly_mul_lin, IH.
Qed.
(** a rule exact for the polynomials of degree < d on [-1, 1] is so on every domain with every number of intervals *)
Lemma quad_exact d np n x w a b F : (forall G, isPoly d G -> is_RInt G (-1) 1 (Rsum np (fun i => w i * G (x i)))) -> (1 <= n)%nat -> isPoly d F ->
  is_RInt F a b (quad np n x w a b F).
Proof.
  intros Ex Hn P. unfold quad. set (len := (b - a) / INR n). assert (Hi : INR n <> 0) by (apply not_0_INR; lia).
  replace b with (a + INR n * len) at 1 by (unfold len; field; auto). replace a with (a + INR 0 * len) at 1 by (simpl; ring).
  apply (i_chain F (fun i => a + INR i * len)). intros iv _. rewrite S_INR. replace (a + (INR iv + 1) * len) with (a + INR iv * len + len) by ring.
  apply to_interval. apply (Ex (fun s => F (on_interval (a + INR iv * len) len s))).
  apply (isPoly_ext d (fun s => F (len / 2 * s + (a + INR iv * len + len / 2)))); [intros s; f_equal; unfold on_interval; field|]. apply isPoly_affine; auto.
Qed.
(** nodes in [-1, 1], weights >= 0 with sum 2, Lipschitz integrand *)
Lemma i_abs_le (f : R -> R) a b v M : a <= b -> is_RInt f a b v -> (forall t, a <= t <= b -> Rabs (f t) <= M) -> Rabs v <= M * (b - a).
Proof.
  intros Hab H B. pose proof (norm_RInt_le_const f a b v M Hab B H) as K. unfold norm in K; simpl in K; unfold abs in K; simpl in K. lra.
Qed.
Lemma Rsum_abs_le n (f g : nat -> R) : (forall i, (i < n)%nat -> Rabs (f i) <= g i) -> Rabs (Rsum n f) <= Rsum n g.
Proof.
  induction n as [|n IH]; intros H; simpl; [rewrite Rabs_R0; lra|]. eapply Rle_trans; [apply Rabs_triang|]. apply Rplus_le_compat; auto.
Qed.
Lemma quad_error np n x w a b F K v : a <= b -> (1 <= n)%nat -> (forall i, (i < np)%nat -> -1 <= x i <= 1 /\ 0 <= w i) -> Rsum np w = 2 ->
  (forall s t, a <= s <= b -> a <= t <= b -> Rabs (F s - F t) <= K * Rabs (s - t)) -> is_RInt F a b v ->
  Rabs (quad np n x w a b F - v) <= K * (b - a) ^ 2 / INR n.
Proof.
  intros Hab Hn Hx Hw Lip HI. set (len := (b - a) / INR n). assert (Hi : 0 < INR n) by (apply lt_0_INR; lia).
  assert (Hlen : 0 <= len) by (unfold len; apply Rmult_le_pos; [lra|apply Rlt_le, Rinv_0_lt_compat; auto]).
  assert (Eb : b = a + INR n * len) by (unfold len; field; lra).
  assert (HK : 0 <= K \/ a = b).
  { destruct (Req_dec a b); auto. left. specialize (Lip a b ltac:(lra) ltac:(lra)). pose proof (Rabs_pos (F a - F b)). rewrite (Rabs_left (a - b)) in Lip by lra.
    destruct (Rle_dec 0 K); auto. assert (K * - (a - b) < 0); [|lra]. apply Ropp_lt_cancel. rewrite Ropp_0, Ropp_mult_distr_l. apply Rmult_lt_0_compat; lra. }
  assert (In : forall iv, (iv < n)%nat -> a <= a + INR iv * len /\ a + INR iv * len + len <= b).
  { intros iv Hv. split; [assert (0 <= INR iv * len) by (apply Rmult_le_pos; auto; apply pos_INR); lra|]. rewrite Eb.
    assert ((INR iv + 1) * len <= INR n * len) by (apply Rmult_le_compat_r; auto; rewrite <- S_INR; apply le_INR; lia). lra. }
  (* pieces of the integral *)
  assert (Ex : forall iv, (iv < n)%nat -> exists vi, is_RInt F (a + INR iv * len) (a + INR (S iv) * len) vi).
  { intros iv Hv. destruct (In iv Hv). apply (ex_RInt_Chasles_1 F _ _ b).
    - rewrite S_INR. lra.
    - apply (ex_RInt_Chasles_2 F a); [lra|]. exists v; auto. }
  set (vi := fun iv => RInt F (a + INR iv * len) (a + INR (S iv) * len)).
  assert (Vi : forall iv, (iv < n)%nat -> is_RInt F (a + INR iv * len) (a + INR (S iv) * len) (vi iv)).
  { intros iv Hv. destruct (Ex iv Hv) as (q & Hq). unfold vi. now rewrite (is_RInt_unique _ _ _ _ Hq). }
  assert (Ev : v = Rsum n vi).
  { apply (i_unique F a b); auto. rewrite Eb. pose proof (i_chain F (fun i => a + INR i * len) vi n Vi) as C. cbv beta in C. simpl (INR 0) in C.
    replace (a + 0 * len) with a in C by ring. exact C. }
  assert (Hloc : forall iv, (iv < n)%nat -> Rabs (len / 2 * Rsum np (fun i => w i * F (on_interval (a + INR iv * len) len (x i))) - vi iv) <= K * len * len).
  { intros iv Hv. destruct (In iv Hv) as (A1 & A2). set (al := a + INR iv * len) in *.
    assert (Q : len / 2 * Rsum np (fun i => w i * F (on_interval al len (x i))) - vi iv = Rsum np (fun i => w i / 2 * (len * F (on_interval al len (x i)) - vi iv))).
    { replace (vi iv) with (Rsum np (fun i => w i / 2 * vi iv)) at 1.
      - rewrite <- Rsum_scal, <- Rsum_minus. apply Rsum_ext. intros. field.
      - transitivity (Rsum np w * (vi iv / 2)); [rewrite <- Rsum_scal_r; apply Rsum_ext; intros; field|]. rewrite Hw. field. }
    rewrite Q.
    assert (B : forall i, (i < np)%nat -> Rabs (len * F (on_interval al len (x i)) - vi iv) <= K * len * len).
    { intros i Hi'. destruct (Hx i Hi') as (X & _). set (y := on_interval al len (x i)).
      assert (Hy : al <= y <= al + len).
      { unfold y, on_interval. assert (0 <= len * (x i + 1) / 2 <= len); [|lra]. assert (0 <= len * (x i + 1)) by (apply Rmult_le_pos; lra).
        assert (len * (x i + 1) <= len * 2) by (apply Rmult_le_compat_l; lra). lra. }
      assert (Ic : is_RInt (fun t => F y - F t) al (al + len) (len * F y - vi iv)).
      { apply i_minus.
        - pose proof (is_RInt_const al (al + len) (F y)) as C. unfold scal in C; simpl in C; unfold mult in C; simpl in C. now replace (al + len - al) with len in C by ring.
        - specialize (Vi iv Hv). rewrite S_INR in Vi. fold al in Vi. replace (a + (INR iv + 1) * len) with (al + len) in Vi by (unfold al; ring). exact Vi. }
      replace (K * len * len) with (K * len * (al + len - al)) by ring. apply (i_abs_le (fun t => F y - F t)); auto; [lra|].
      intros t Ht. eapply Rle_trans; [apply Lip; lra|]. destruct HK as [HK|HK].
      - apply Rmult_le_compat_l; auto. apply Rabs_le. lra.
      - assert (L0 : len = 0) by (unfold len; rewrite HK, Rminus_eq_0; unfold Rdiv; ring). replace (y - t) with 0 by lra. rewrite Rabs_R0, L0. lra. }
    apply (Rle_trans _ (Rsum np (fun i => w i / 2 * (K * len * len)))).
    - clear - Hx B. revert Hx B. generalize (fun i => len * F (on_interval al len (x i)) - vi iv). intros z Hx B. induction np as [|m IH]; simpl; [rewrite Rabs_R0; lra|].
      eapply Rle_trans; [apply Rabs_triang|]. apply Rplus_le_compat; [apply IH; auto|]. rewrite Rabs_mult. rewrite (Rabs_pos_eq (w m / 2)) by (specialize (Hx m ltac:(lia)); lra).
      apply Rmult_le_compat_l; [specialize (Hx m ltac:(lia)); lra|apply B; lia].
    - right. transitivity (Rsum np w * (K * len * len / 2)); [rewrite <- Rsum_scal_r; apply Rsum_ext; intros; field|]. rewrite Hw. field. }
  unfold quad. fold len. rewrite Ev, <- Rsum_minus.
  apply (Rle_trans _ (Rsum n (fun _ => K * len * len))).
  - apply Rsum_abs_le. exact Hloc.
  - rewrite Rsum_const. right. unfold len. field. lra.
Qed.
