(** Properties C61-C62: rounding in the interval search and in the value of a Legendre spline. *)
From Coquelicot Require Import Coquelicot.
From Coq Require Import ZArith Reals Lra Lia List Arith Bool SpecFloat Permutation.
From Flocq Require Import Core BinarySingleNaN.
From Verif Require Import Num Outcome LinAlg RSum LegendreModel LegendreSpec LegendreMath LegendreProofs StabMath InterpMath2
  BasisModel GSplineModel GSplineProofs GSplineProofs2 GSplineProofs5 SplineSpec IEEEModel IEEESpec IEEEProofs IEEEHorner IEEELegendre IEEESpline.
Import ListNotations.
Local Open Scope R_scope.

Lemma gbp_acc m t0 tf k : gbp (HN := B64num m) t0 tf k = acc m t0 tf k.
Proof. induction k as [|k IH]; cbn [gbp acc]; [reflexivity|]. rewrite IH. reflexivity. Qed.
Lemma mag_time T0 tau n : ((1 + uu) ^ S n - 1) * mag T0 tau n = time_error T0 tau n.
Proof. reflexivity. Qed.

(** (1 + u)^k when k u is small, and a converse *)
Lemma pow_1u_lin k : INR k * uu <= / 2 -> (1 + uu) ^ k <= 1 + 2 * INR k * uu.
Proof.
  pose proof uu_pos as U. induction k as [|k IH]; intros H; [cbn; lra|]. rewrite S_INR in *. pose proof (pos_INR k).
  assert (IH' := IH ltac:(nra)). cbn [pow]. apply Rle_trans with ((1 + uu) * (1 + 2 * INR k * uu)); [apply Rmult_le_compat_l; lra|]. nra.
Qed.

Section S.
Variable m : libm.
Local Instance BN : Num b64 := B64num m.

(** an object with finite data and positive lengths, far from overflow *)
Definition finite_spline (g : gspline b64) (n codom : nat) (t0 : b64) (tf cf : nat -> b64) : Prop :=
  gwf g n codom tf cf /\ (1 <= n)%nat /\ fst (gs_dom g) = t0 /\ fin t0 /\
  (forall i, (i < n)%nat -> fin (tf i) /\ 0 < val (tf i)) /\
  (1 + uu) ^ S n * (Rabs (val t0) + Rsum n (fun i => Rabs (val (tf i)))) <= big.

(** ** C61 *)
(** the search and the reported breakpoints agree exactly, and the breakpoints are near the exact ones *)
Theorem C61_search (g : gspline b64) n codom t0 tf cf t : finite_spline g n codom t0 tf cf -> fin t ->
  exists iv b bf, get_interval g t = Ok iv /\ gs_breakpoints g = Ok b /\ vec_is b (S n) bf /\ (iv < n)%nat /\
    (forall k, (k <= n)%nat -> fin (bf k)) /\
    (iv = 0%nat \/ val (bf iv) < val t) /\ (iv = (n - 1)%nat \/ val t <= val (bf (S iv))) /\
    (forall k, (k < n)%nat -> val (bf k) <= val (bf (S k))) /\
    (forall k, (k <= n)%nat -> Rabs (val (bf k) - bp (val t0) (fun i => val (tf i)) k) <= ((1 + uu) ^ k - 1) * (Rabs (val t0) + Rsum k (fun i => Rabs (val (tf i))))).
Proof.
  intros (W & Hn & E0 & F0 & Ht & HM) Ft. destruct (breakpoints_gen g n codom tf cf W) as (b & Eb & Vb). rewrite E0 in Vb.
  exists (gint t0 tf n t), b, (gbp t0 tf). split; [rewrite (get_interval_gen g n codom tf cf t W Hn), E0; reflexivity|]. split; [exact Eb|]. split; [exact Vb|].
  split; [apply gint_bound; auto|]. assert (Ff : forall i, (i < n)%nat -> fin (tf i)) by (intros; apply Ht; auto).
  assert (HB : (1 + uu) ^ n * mag (val t0) (fun i => val (tf i)) n <= big).
  { eapply Rle_trans; [|exact HM]. apply Rmult_le_compat_r; [apply mag_pos|]. apply pow_1u_le. lia. }
  assert (A : forall k, (k <= n)%nat -> fin (acc m t0 tf k) /\ Rabs (val (acc m t0 tf k) - (val t0 + Rsum k (fun i => val (tf i)))) <= ((1 + uu) ^ k - 1) * mag (val t0) (fun i => val (tf i)) k) by (intros k Hk; apply (acc_ok m t0 tf n); auto).
  assert (Mono : forall k, (k < n)%nat -> val (acc m t0 tf k) <= val (acc m t0 tf (S k))).
  { intros k Hk. destruct (A (S k) ltac:(lia)) as (FS & _). cbn [acc] in FS |- *. destruct (add_fin _ _ FS) as (_ & _ & V). unfold nadd in V |- *. cbn [IEEESpline.BN B64num] in V |- *. rewrite V.
    rewrite <- (rnd_fmt (val (acc m t0 tf k)) (val_fmt _)) at 1. apply rnd_le. destruct (Ht k Hk). lra. }
  assert (G : forall k, gbp t0 tf k = acc m t0 tf k) by apply gbp_acc.
  split; [intros k Hk; rewrite G; apply A; auto|].
  assert (Sc : forall k i, (i + k = n)%nat -> val (acc m t0 tf i) < val t ->
    match gscan tf t (acc m t0 tf i) i k with Some j => (i <= j < n)%nat /\ val (acc m t0 tf j) < val t <= val (acc m t0 tf (S j)) | None => val (acc m t0 tf n) < val t end).
  { induction k as [|k IH]; intros i Hk Hl; cbn [gscan]; [replace n with i by lia; auto|].
    change (acc m t0 tf i + tf i)%num with (acc m t0 tf (S i)). cbn [nltb nleb BN B64num].
    rewrite ltb_val, leb_val; try apply A; auto; try lia. destruct (Rltb_true (val (acc m t0 tf i)) (val t)) as (_ & ->); auto. cbn [andb].
    destruct (Rleb (val t) (val (acc m t0 tf (S i)))) eqn:E.
    - apply Rleb_true in E. split; [lia|]. lra.
    - apply Rleb_false in E. specialize (IH (S i) ltac:(lia) E). destruct (gscan tf t (acc m t0 tf (S i)) (S i) k) as [j|]; auto. split; [lia|]. apply IH. }
  assert (I : (gint t0 tf n t = 0%nat \/ val (acc m t0 tf (gint t0 tf n t)) < val t) /\ (gint t0 tf n t = (n - 1)%nat \/ val t <= val (acc m t0 tf (S (gint t0 tf n t))))).
  { unfold gint. cbn [nleb BN B64num]. rewrite leb_val by auto. destruct (Rleb (val t) (val t0)) eqn:E.
    - apply Rleb_true in E. split; [auto|]. right. eapply Rle_trans; [exact E|]. apply (Mono 0%nat). lia.
    - apply Rleb_false in E. pose proof (Sc n 0%nat eq_refl E) as Q. change (acc m t0 tf 0) with t0 in Q. destruct (gscan tf t t0 0 n) as [j|].
      + destruct Q as (_ & L & U). auto.
      + split; [|auto]. right. eapply Rle_lt_trans; [|exact Q]. destruct n as [|k]; [lia|]. replace (S k - 1)%nat with k by lia. apply Mono. lia. }
  rewrite !G. split; [apply I|]. split; [apply I|]. split.
  - intros k Hk. rewrite !G. apply Mono; auto.
  - intros k Hk. rewrite G. apply A; auto.
Qed.

(** ** C62 *)
Section Value.
Variables (g : gspline b64) (dim n codom : nat) (t0 : b64) (tf cf : nat -> b64) (gram : list (mat b64)).
Hypothesis Fin : finite_spline g n codom t0 tf cf.
Hypothesis Leg : gs_basis g = BLegendre dim gram.
Hypothesis Fc : forall i, (i < n * dim * codom)%nat -> fin (cf i).
Let T0 := val t0.
Let tau i := val (tf i).
Let C iv cc := Rsum dim (fun k => Rabs (val (cf ((iv * codom + cc) * dim + k)%nat))).
Hypothesis Sz : forall iv cc, (iv < n)%nat -> (cc < codom)%nat -> C iv cc <= 2 ^ 990.
Let dl := time_error T0 tau n.
Hypothesis Sm : forall iv, (iv < n)%nat -> leg_error (window_error dl (tau iv)) (dim - 1) <= / 16.

Lemma value64 (t : b64) cc : fin t -> T0 <= val t <= bp T0 tau n + dl -> (cc < codom)%nat ->
  let iv := gint t0 tf n t in (iv < n)%nat /\
  exists t', bp T0 tau iv <= t' <= bp T0 tau (S iv) /\ Rabs (t' - val t) <= dl /\
    forall v, dot_of (pairs (fun k => cf (iv * dim * codom + dim * cc + k)%nat) (gleg (gwin t0 tf iv t)) dim) v ->
    fin v /\ Rabs (val v - piece (DLeg dim) codom T0 tau (fun i => val (cf i)) iv cc t') <=
      value_error dim (window_error dl (tau iv)) * C iv cc + INR dim * / 2 ^ 1074.
Proof.
  intros Ft Ht Hcc. cbv zeta. destruct Fin as (W & Hn & E0 & F0 & Htf & HM). pose proof W as (B & _). rewrite Leg in B. cbn [bok] in B.
  assert (Ff : forall i, (i < n)%nat -> fin (tf i)) by (intros; apply Htf; auto). assert (Tp : forall i, (i < n)%nat -> 0 < tau i) by (intros; apply Htf; auto).
  destruct (search_ok m t0 tf n t Hn F0 Ft Ff Tp HM) as (Hiv & Hin); try tauto. set (iv := gint t0 tf n t) in *.
  change (tdelta t0 tf n) with dl in Hin. specialize (Sm iv Hiv).
  assert (DP : 0 <= dl) by (apply (delta_pos t0 tf n)). pose proof uu_pos as U. pose proof uu_small as US. pose proof (Tp iv Hiv) as Hp.
  set (sg := window_error dl (tau iv)) in *. assert (DT : 0 <= 4 * dl / tau iv) by (apply Rdiv_le_0_compat; lra).
  assert (sg0 : 0 < sg) by (unfold sg, window_error; lra).
  assert (D1 : 1 <= INR (dim - 1)) by (apply (le_INR 1); lia).
  assert (Dsm : INR (dim - 1) * (3 * sg + 21 * uu) <= / 16).
  { eapply Rle_trans; [|exact Sm]. unfold leg_error. apply Rmult_le_compat_r; [lra|]. nra. }
  assert (Wsm : 4 * dl / tau iv <= / 16). { assert (3 * sg + 21 * uu <= / 16) by nra. unfold sg, window_error in *. lra. }
  destruct (window_ok m t0 tf n t Hn F0 Ft Ff Tp HM iv Hiv) as (t' & Ht' & Hdt & Fw & Bw); auto.
  change (tdelta t0 tf n) with dl in *. fold T0 in Ht', Bw. change (fun i => val (tf i)) with tau in Ht', Bw. change (val (tf iv)) with (tau iv) in Bw. split; [exact Hiv|]. exists t'. split; [exact Ht'|]. split; [exact Hdt|]. intros v Hv.
  set (s := gwin t0 tf iv t) in *. set (x := window (bp T0 tau iv) (tau iv) t') in *.
  assert (Hx : -1 <= x <= 1).
  { unfold x, window. assert (EbS : bp T0 tau (S iv) = bp T0 tau iv + tau iv) by apply bp_S64. rewrite EbS in Ht'. split.
    - assert (0 <= 2 * (t' - bp T0 tau iv) / tau iv) by (apply Rdiv_le_0_compat; lra). lra.
    - assert (2 * (t' - bp T0 tau iv) / tau iv <= 2) by (apply Rle_div_l; lra). lra. }
  assert (LG : forall k, (k < dim)%nat -> fin (gleg s k) /\ Rabs (val (gleg s k) - legP k x) <= leg_error sg k).
  { intros k Hk. apply (leg64 m s x sg (dim - 1)); auto; lia. }
  set (c := fun k => cf (iv * dim * codom + dim * cc + k)%nat).
  assert (Ec : forall k, c k = cf ((iv * codom + cc) * dim + k)%nat) by (intros k; unfold c; f_equal; ring).
  assert (Hidx : forall k, (k < dim)%nat -> ((iv * codom + cc) * dim + k < n * dim * codom)%nat).
  { intros k Hk. assert ((iv * codom + cc) * dim + k < (iv * codom + codom) * dim)%nat by nia. assert ((iv * codom + codom) * dim <= n * codom * dim)%nat by (apply Nat.mul_le_mono_r; nia). nia. }
  assert (EC : Rsum dim (fun k => Rabs (val (c k))) = C iv cc) by (apply Rsum_ext; intros k _; rewrite Ec; reflexivity).
  assert (C0 : 0 <= C iv cc) by (apply Rsum_nonneg; intros; apply Rabs_pos).
  assert (LEm : forall k, (k < dim)%nat -> leg_error sg k <= leg_error sg (dim - 1)).
  { intros k Hk. unfold leg_error. apply Rmult_le_compat_r; [lra|]. pose proof (le_INR k (dim - 1) ltac:(lia)). pose proof (pos_INR k). nra. }
  assert (PB : forall k, (k < dim)%nat -> fin (c k) /\ fin (gleg s k) /\ Rabs (val (gleg s k)) <= 17 / 16).
  { intros k Hk. split; [rewrite Ec; apply Fc; auto|]. destruct (LG k Hk) as (Fk & Bk). split; auto. apply abs_of_near in Bk. pose proof (legP_bound k x Hx). pose proof (LEm k Hk). lra. }
  assert (Dd : INR dim = INR (dim - 1) + 1) by (rewrite <- S_INR; f_equal; lia).
  assert (DU : INR (S dim) * uu <= / 16). { rewrite S_INR, Dd. nra. }
  pose proof (pow_1u_lin (S dim) ltac:(lra)) as PL. pose proof (pow_1u_le dim (S dim) ltac:(lia)) as PM. pose proof (pow_1u_ge1 dim) as P1. pose proof hh_pos as HP. pose proof hh_uu as HU.
  destruct (dot_ok c (gleg s) dim (17 / 16) v PB) as (Fv & Bv); [lra| |exact Hv|].
  { rewrite EC. specialize (Sz iv cc Hiv Hcc). assert (C iv cc * (17 / 16) + INR dim * hh <= 2 * 2 ^ 990).
    { assert (1 <= 2 ^ 990) by (apply pow_R1_Rle; lra). rewrite S_INR in DU. set (zz := 2 ^ 990) in *. assert (INR dim * hh <= INR dim * (uu * / 1000)) by (apply Rmult_le_compat_l; [apply pos_INR|auto]). lra. }
    apply Rle_trans with (2 * (2 * 2 ^ 990)).
    - assert (0 <= INR dim * hh) by (apply Rmult_le_pos; [apply pos_INR|lra]). pose proof (pow_1u_ge1 (S dim)). apply Rmult_le_compat; lra.
    - unfold big. replace (2 * (2 * 2 ^ 990)) with (2 ^ 992) by (cbn [pow]; ring). apply pow_lit. lia. }
  rewrite EC in Bv.
  split; [exact Fv|]. unfold piece. cbn [d_dim]. unfold tphi. cbn [phi]. fold x.
  set (X := val v) in *. set (Y := Rsum dim (fun k => val (c k) * val (gleg s k))) in *.
  set (Z := Rsum dim (fun bb => val (cf ((iv * codom + cc) * dim + bb)%nat) * legP bb x)).
  assert (YZ : Rabs (Y - Z) <= leg_error sg (dim - 1) * C iv cc).
  { unfold Y, Z. rewrite <- Rsum_minus. eapply Rle_trans; [apply InterpMath2.Rsum_abs|]. unfold C. rewrite <- Rsum_scal. apply Rsum_le. intros k Hk.
    rewrite Ec. rewrite <- Rmult_minus_distr_l, Rabs_mult. rewrite Rmult_comm. apply Rmult_le_compat_r; [apply Rabs_pos|]. destruct (LG k Hk) as (_ & Bk). specialize (LEm k Hk). lra. }
  replace (X - Z) with ((X - Y) + (Y - Z)) by ring. eapply Rle_trans; [apply Rabs_triang|].
  assert (H1074 : / 2 ^ 1074 = 2 * hh). { unfold hh. replace (2 ^ 1075) with (2 * 2 ^ 1074) by reflexivity. rewrite Rinv_mult. field. }
  assert (BX : Rabs (X - Y) <= ((1 + uu) ^ S dim - 1) * (C iv cc * (17 / 16)) + (1 + uu) ^ dim * (INR dim * hh)) by exact Bv.
  rewrite H1074. unfold value_error.
  assert (A1 : ((1 + uu) ^ S dim - 1) * (C iv cc * (17 / 16)) <= 3 * INR (dim + 1) * uu * C iv cc).
  { replace (dim + 1)%nat with (S dim) by lia. apply Rle_trans with (2 * INR (S dim) * uu * (C iv cc * (17 / 16))); [apply Rmult_le_compat_r; lra|]. assert (0 <= INR (S dim) * uu * C iv cc) by (apply Rmult_le_pos; auto; apply Rmult_le_pos; [apply pos_INR|lra]). lra. }
  assert (A2 : (1 + uu) ^ dim * (INR dim * hh) <= 2 * (INR dim * hh)) by (apply Rmult_le_compat_r; [apply Rmult_le_pos; [apply pos_INR|lra]|lra]).
  fold sg. rewrite Rmult_plus_distr_r. lra.
Qed.
Lemma bval_leg s x : (2 <= dim)%nat -> forall k, (k < dim)%nat -> bval (BLegendre dim gram) s x k = gleg s k.
Proof.
  intros B k Hk. destruct (leg_eval_gen dim s (vnew dim) B eq_refl) as (v & E & V). apply (bval_is (BLegendre dim gram) s x v (gleg s)); auto.
Qed.

Theorem C62_value pts pf np : vec_is pts np pf -> (forall i, (i < np)%nat -> fin (pf i) /\ T0 <= val (pf i) <= bp T0 tau n + dl) ->
  exists M, gs_value g pts = Ok M /\ mrows M = np /\ mcols M = codom /\
  forall i cc, (i < np)%nat -> (cc < codom)%nat -> exists v iv t', mget M i cc = Some v /\ fin v /\
    (iv < n)%nat /\ bp T0 tau iv <= t' <= bp T0 tau (S iv) /\ Rabs (t' - val (pf i)) <= dl /\
    Rabs (val v - piece (DLeg dim) codom T0 tau (fun k => val (cf k)) iv cc t') <=
      value_error dim (window_error dl (tau iv)) * C iv cc + INR dim * / 2 ^ 1074.
Proof.
  intros V Hp. destruct Fin as (W & Hn & E0 & _). destruct (value_gen g n codom tf cf pts pf np W Hn V) as (M & E & R1 & R2 & G). rewrite E0 in G.
  exists M. split; [exact E|]. split; [exact R1|]. split; [exact R2|]. intros i cc Hi Hcc. destruct (Hp i Hi) as (Ft & Ht).
  destruct (value64 (pf i) cc Ft Ht Hcc) as (H1 & t' & H2 & H3 & Hv). eexists. exists (gint t0 tf n (pf i)), t'. split; [apply G; auto|].
  pose proof W as (B & _). rewrite Leg in B |- *. cbn [bok] in B. unfold gpt. cbn [b_dim].
  destruct (Hv (nsum dim (fun k => nmul (cf (gint t0 tf n (pf i) * dim * codom + dim * cc + k)%nat) (gleg (gwin t0 tf (gint t0 tf n (pf i)) (pf i)) k)))) as (Fv & Bv); [apply (nsum_dot m)|].
  match goal with |- fin ?v /\ _ => replace v with (nsum dim (fun k => nmul (cf (gint t0 tf n (pf i) * dim * codom + dim * cc + k)%nat) (gleg (gwin t0 tf (gint t0 tf n (pf i)) (pf i)) k))) end; [auto|].
  apply nsum_ext. intros k Hk. f_equal. symmetry. apply bval_leg; auto.
Qed.

Lemma segment_gen iv cc : (iv < n)%nat -> (cc < codom)%nat -> exists cs, coef_segment g iv cc = Ok cs /\ vec_is cs dim (fun k => cf (iv * dim * codom + dim * cc + k)%nat).
Proof.
  intros Hi Hc. destruct Fin as ((_ & Cd & _ & V & _) & _). assert (D : gs_dim g = dim) by (unfold gs_dim; rewrite Leg; reflexivity). rewrite D in V.
  unfold coef_segment. rewrite Cd, D. apply (vsegment_is (gs_coef g) _ cf (iv * dim * codom + dim * cc) dim V).
  assert (S iv * dim * codom <= n * dim * codom)%nat by (apply Nat.mul_le_mono_r, Nat.mul_le_mono_r; lia).
  assert (dim * S cc <= dim * codom)%nat by (apply Nat.mul_le_mono_l; lia). simpl in H. nia.
Qed.
(** the same bound for every order of summation, and with fused multiply-adds: what a vectorised scalar product may return *)
Theorem C62_any_order t cc buf : fin t -> T0 <= val t <= bp T0 tau n + dl -> (cc < codom)%nat -> vlen buf = dim ->
  exists iv t' b p c cs, gs_fill g t buf = Ok (iv, b) /\ vec_is b dim p /\ coef_segment g iv cc = Ok cs /\ vec_is cs dim c /\ (iv < n)%nat /\
    bp T0 tau iv <= t' <= bp T0 tau (S iv) /\ Rabs (t' - val t) <= dl /\
    forall v, dot_of (pairs c p dim) v -> fin v /\
      Rabs (val v - piece (DLeg dim) codom T0 tau (fun k => val (cf k)) iv cc t') <= value_error dim (window_error dl (tau iv)) * C iv cc + INR dim * / 2 ^ 1074.
Proof.
  intros Ft Ht Hcc Lb. destruct Fin as (W & Hn & E0 & _). pose proof W as (B & _). rewrite Leg in B. cbn [bok] in B.
  assert (D : gs_dim g = dim) by (unfold gs_dim; rewrite Leg; reflexivity).
  destruct (fill_gen g n codom tf cf t buf W Hn ltac:(congruence)) as (b & Eb & Vb). rewrite E0, Leg, D in *.
  destruct (value64 t cc Ft Ht Hcc) as (H1 & t' & H2 & H3 & Hv). set (iv := gint t0 tf n t) in *.
  destruct (segment_gen iv cc H1 Hcc) as (cs & Es & Vs).
  exists iv, t', b, (gleg (gwin t0 tf iv t)), (fun k => cf (iv * dim * codom + dim * cc + k)%nat), cs. split; [exact Eb|]. split.
  { eapply vec_is_ext; [exact Vb|]. intros k Hk. apply bval_leg; auto. }
  split; [exact Es|]. split; [exact Vs|]. auto.
Qed.

(** a continuous spline: the exact spline at a time nearby *)
Theorem C62_continuous pts pf np : vec_is pts np pf -> (forall i, (i < np)%nat -> fin (pf i) /\ T0 <= val (pf i) <= bp T0 tau n + dl) ->
  (forall iv cc, (S iv < n)%nat -> (cc < codom)%nat ->
    piece (DLeg dim) codom T0 tau (fun k => val (cf k)) iv cc (bp T0 tau (S iv)) = piece (DLeg dim) codom T0 tau (fun k => val (cf k)) (S iv) cc (bp T0 tau (S iv))) ->
  exists M, gs_value g pts = Ok M /\
  forall i cc, (i < np)%nat -> (cc < codom)%nat -> exists v iv t', mget M i cc = Some v /\ fin v /\ (iv < n)%nat /\
    T0 <= t' <= bp T0 tau n /\ Rabs (t' - val (pf i)) <= dl /\
    Rabs (val v - sfun (DLeg dim) codom n T0 tau (fun k => val (cf k)) cc t') <=
      value_error dim (window_error dl (tau iv)) * C iv cc + INR dim * / 2 ^ 1074.
Proof.
  intros V Hp Hc. destruct (C62_value pts pf np V Hp) as (M & E & _ & _ & G). destruct Fin as (_ & Hn & _ & _ & Htf & _).
  assert (Tp : forall i, (i < n)%nat -> 0 < tau i) by (intros; apply Htf; auto).
  exists M. split; [exact E|]. intros i cc Hi Hcc. destruct (G i cc Hi Hcc) as (v & iv & t' & Gv & Fv & Hiv & Ht' & Hd & B).
  exists v, iv, t'. split; [exact Gv|]. split; [exact Fv|]. split; [exact Hiv|]. split.
  { split.
    - eapply Rle_trans; [|apply Ht']. unfold bp. pose proof (Rsum_nonneg iv tau ltac:(intros; apply Rlt_le, Tp; lia)). lra.
    - eapply Rle_trans; [apply Ht'|]. apply (bp_mono T0 tau n); auto; lia. }
  split; [exact Hd|]. replace (sfun (DLeg dim) codom n T0 tau (fun k => val (cf k)) cc t') with (piece (DLeg dim) codom T0 tau (fun k => val (cf k)) iv cc t'); [exact B|].
  unfold sfun. pose proof (locate_in T0 tau n t' Hn Tp) as LI.
  destruct (Req_dec t' (bp T0 tau iv)) as [Et|Nt].
  - destruct iv as [|iv].
    + f_equal. apply (in_iv_unique T0 tau n t'); auto. split; [lia|]. split; [auto|]. right. lra.
    + replace (locate T0 tau n t') with iv.
      * rewrite Et. symmetry. apply Hc; auto.
      * apply (in_iv_unique T0 tau n t'); auto. split; [lia|]. split; [|right; lra]. right. rewrite Et. unfold bp. cbn [Rsum]. specialize (Tp iv ltac:(lia)). lra.
  - f_equal. apply (in_iv_unique T0 tau n t'); auto. split; [lia|]. split; [right; lra|]. right. lra.
Qed.
End Value.
End S.

(** ** Cases *)
Definition z64 (z : Z) : b64 := b64_of_Z z.
Lemma z64_ok z : (Z.abs z <= 2 ^ 53)%Z -> fin (z64 z) /\ val (z64 z) = IZR z.
Proof. apply ofZ_ok. Qed.
(** a spline object from lists *)
Definition leg64_spline (m : libm) (dim : nat) (t0 t1 : b64) (codom : nat) (taus coefs : list b64) : gspline b64 :=
  mkgs (t0, t1) codom (vec_of_list coefs) (vec_of_list taus) (BLegendre dim []) (bs_init (H := B64num m) (BLegendre dim [])) (vnew dim).
(** intervals of lengths 1 and 2 from 1; the pieces 1 + 2 P1 + 3 P2 and 5 + P2, continuous *)
Definition tau64 (i : nat) : b64 := nth i [z64 1; z64 2] (z64 0).
Definition cf64 (i : nat) : b64 := nth i [z64 1; z64 2; z64 3; z64 5; z64 0; z64 1] (z64 0).
Definition ex64 (m : libm) : gspline b64 := leg64_spline m 3 (z64 1) (z64 4) 1 [z64 1; z64 2] [z64 1; z64 2; z64 3; z64 5; z64 0; z64 1].
Lemma z64v z : (Z.abs z <= 2 ^ 53)%Z -> val (z64 z) = IZR z.
Proof. apply z64_ok. Qed.
Lemma small_case : (1 + uu) ^ 3 <= 1 + 6 * uu.
Proof. pose proof uu_small. pose proof (pow_1u_lin 3) as P. cbn [INR] in P. specialize (P ltac:(lra)). lra. Qed.
Lemma ex64_ok m : finite_spline (ex64 m) 2 1 (z64 1) tau64 cf64.
Proof.
  split; [|split; [lia|split; [reflexivity|split; [reflexivity|split]]]].
  - split; [cbn; lia|]. split; [reflexivity|]. split; [apply (vec_of_list_is [z64 1; z64 2] (z64 0))|]. split; [apply (vec_of_list_is [z64 1; z64 2; z64 3; z64 5; z64 0; z64 1] (z64 0))|reflexivity].
  - intros [|[|i]] Hi; [| |lia]; unfold tau64; cbn [nth]; (split; [apply z64_ok; cbn; lia|rewrite z64v by (cbn; lia); lra]).
  - cbn [Rsum]. unfold tau64. cbn [nth]. rewrite !z64v by (cbn; lia).
    rewrite !Rabs_pos_eq by lra. pose proof small_case as P. pose proof uu_small. pose proof uu_pos.
    apply Rle_trans with (2 ^ 3); [replace (1 + (0 + 1 + 2)) with 4 by ring; lra|]. apply pow_lit. lia.
Qed.
Example C61_case m : exists iv, get_interval (H := B64num m) (ex64 m) (z64 2) = Ok iv /\ iv = 0%nat.
Proof.
  destruct (C61_search m (ex64 m) 2 1 (z64 1) tau64 cf64 (z64 2) (ex64_ok m) ltac:(reflexivity)) as (iv & b & bf & E & _).
  exists iv. split; [exact E|]. vm_compute in E. congruence.
Qed.
Lemma ex64_small : time_error (val (z64 1)) (fun i => val (tau64 i)) 2 <= 24 * uu.
Proof.
  unfold time_error. cbn [Rsum]. unfold tau64. cbn [nth]. rewrite !z64v by (cbn; lia). rewrite !Rabs_pos_eq by lra. pose proof small_case as P. pose proof uu_small. lra.
Qed.
Definition seven_thirds : b64 := Bdiv mode_NE (z64 7) (z64 3).
Lemma ex64_hyps : let dl := time_error (val (z64 1)) (fun i => val (tau64 i)) 2 in
  (forall i, (i < 2 * 3 * 1)%nat -> fin (cf64 i)) /\
  (forall iv cc, (iv < 2)%nat -> (cc < 1)%nat -> Rsum 3 (fun k => Rabs (val (cf64 ((iv * 1 + cc) * 3 + k)%nat))) = 6) /\
  (forall iv, (iv < 2)%nat -> leg_error (window_error dl (val (tau64 iv))) 2 <= 981 * uu) /\
  fin seven_thirds /\ val (z64 1) <= val seven_thirds <= bp (val (z64 1)) (fun i => val (tau64 i)) 2 + dl.
Proof.
  pose proof uu_small as US. pose proof uu_pos as UP. pose proof ex64_small as TS. cbv zeta.
  assert (T0 : forall i, (i < 2)%nat -> 1 <= val (tau64 i)) by (intros [|[|i]] Hi; [| |lia]; unfold tau64; cbn [nth]; rewrite z64v by (cbn; lia); lra).
  assert (F7 : fin seven_thirds) by reflexivity.
  split; [intros i Hi; do 6 (destruct i as [|i]; [reflexivity|]); lia|]. split.
  { intros iv cc Hi Hcc. replace cc with 0%nat by lia. destruct iv as [|[|iv]]; [| |lia]; cbn [Rsum]; unfold cf64; cbn [nth Nat.add Nat.mul]; rewrite !z64v by (cbn; lia); rewrite !Rabs_pos_eq by lra; ring. }
  split.
  { intros i Hi. specialize (T0 i Hi). unfold window_error. set (d := time_error _ _ _) in *.
    assert (4 * d / val (tau64 i) <= 96 * uu) by (apply Rle_div_l; nra). unfold leg_error. cbn [INR]. lra. }
  split; [exact F7|]. split.
  { apply Rleb_true. rewrite <- leb_val; [vm_compute; reflexivity|reflexivity|exact F7]. }
  assert (L2 : val seven_thirds <= val (z64 4)). { apply Rleb_true. rewrite <- leb_val; [vm_compute; reflexivity|exact F7|reflexivity]. }
  assert (0 <= time_error (val (z64 1)) (fun i => val (tau64 i)) 2) by (apply (delta_pos (z64 1) tau64 2)).
  eapply Rle_trans; [exact L2|]. unfold bp. cbn [Rsum]. unfold tau64 at 1 2. cbn [nth]. rewrite !z64v in * by (cbn; lia). lra.
Qed.
Example C62_case m : exists M v t', gs_value (H := B64num m) (ex64 m) (vec_of_list [seven_thirds]) = Ok M /\ mget M 0 0 = Some v /\ fin v /\
  Rabs (t' - val seven_thirds) <= 24 * uu /\
  Rabs (val v - sfun (DLeg 3) 1 2 (val (z64 1)) (fun i => val (tau64 i)) (fun i => val (cf64 i)) 0 t') <= 6000 * uu.
Proof.
  pose proof uu_small as US. pose proof uu_pos as UP. pose proof ex64_small as TS. destruct ex64_hyps as (Hf & CS & LE & F7 & L7). cbv zeta in *.
  destruct (C62_continuous m (ex64 m) 3 2 1 (z64 1) tau64 cf64 [] (ex64_ok m) eq_refl Hf) with (pts := vec_of_list [seven_thirds]) (pf := fun i => nth i [seven_thirds] seven_thirds) (np := 1%nat) as (M & E & G).
  - intros iv cc Hiv Hcc. rewrite CS by auto. apply Rle_trans with (2 ^ 3); [lra|]. apply pow_lit. lia.
  - intros iv Hiv. specialize (LE iv Hiv). cbn [Nat.sub]. lra.
  - apply (vec_of_list_is [seven_thirds] seven_thirds).
  - intros i Hi. replace i with 0%nat by lia. cbn [nth]. auto.
  - intros iv cc Hiv Hcc. replace cc with 0%nat by lia. replace iv with 0%nat by lia. unfold piece, bp. cbn [Rsum]. unfold tau64, cf64. cbn -[z64 val].
    rewrite !z64v by (cbn; lia). unfold window. field.
  - destruct (G 0%nat 0%nat ltac:(lia) ltac:(lia)) as (v & iv & t' & Gv & Fv & Hiv & _ & Hd & B). exists M, v, t'. split; [exact E|]. split; [exact Gv|]. split; [exact Fv|].
    split; [cbn [nth] in Hd; lra|]. eapply Rle_trans; [exact B|]. rewrite CS by auto. unfold value_error. cbn [Nat.sub Nat.add INR]. specialize (LE iv Hiv). pose proof hh_uu as H. unfold hh in H.
    change (2 ^ 1075) with (2 * 2 ^ 1074) in H. rewrite Rinv_mult in H. lra.
Qed.
(** with two lanes, or with fused multiply-adds from the last product down *)
Example C62_any_order_case m : exists iv b p c t', gs_fill (H := B64num m) (ex64 m) seven_thirds (vnew 3) = Ok (iv, b) /\ vec_is b 3 p /\
  forall v, (v = Bplus mode_NE (Bplus mode_NE (Bmult mode_NE (c 0%nat) (p 0%nat)) (Bmult mode_NE (c 2%nat) (p 2%nat))) (Bmult mode_NE (c 1%nat) (p 1%nat)) \/
    v = Bfma mode_NE (c 0%nat) (p 0%nat) (Bfma mode_NE (c 1%nat) (p 1%nat) (Bmult mode_NE (c 2%nat) (p 2%nat)))) ->
  fin v /\ Rabs (val v - piece (DLeg 3) 1 (val (z64 1)) (fun i => val (tau64 i)) (fun i => val (cf64 i)) iv 0 t') <= 6000 * uu.
Proof.
  pose proof uu_small as US. pose proof uu_pos as UP. destruct ex64_hyps as (Hf & CS & LE & F7 & L7). cbv zeta in *.
  destruct (C62_any_order m (ex64 m) 3 2 1 (z64 1) tau64 cf64 [] (ex64_ok m) eq_refl Hf) with (t := seven_thirds) (cc := 0%nat) (buf := @vnew b64 3) as (iv & t' & b & p & c & cs & E & Vb & _ & _ & Hiv & _ & _ & B); auto.
  - intros iv cc Hiv Hcc. rewrite CS by auto. apply Rle_trans with (2 ^ 3); [lra|]. apply pow_lit. lia.
  - intros iv Hiv. specialize (LE iv Hiv). cbn [Nat.sub]. lra.
  - exists iv, b, p, c, t'. split; [exact E|]. split; [exact Vb|]. intros v Hv. destruct (B v) as (Fv & Bv).
    + unfold pairs. cbn [seq map]. destruct Hv as [-> | ->].
      * apply (dot_perm [(c 0%nat, p 0%nat); (c 2%nat, p 2%nat); (c 1%nat, p 1%nat)]); [apply perm_skip, perm_swap|].
        apply (dot_add [(c 0%nat, p 0%nat); (c 2%nat, p 2%nat)] [(c 1%nat, p 1%nat)]); [|apply dot_mul]. apply (dot_add [_] [_]); apply dot_mul.
      * apply dot_fma, dot_fma, dot_mul.
    + split; [exact Fv|]. eapply Rle_trans; [exact Bv|]. rewrite CS by auto. unfold value_error. cbn [Nat.sub Nat.add INR]. specialize (LE iv Hiv). pose proof hh_uu as H. unfold hh in H.
      change (2 ^ 1075) with (2 * 2 ^ 1074) in H. rewrite Rinv_mult in H. lra.
Qed.

(** ** Large offsets: no bound holds once the lengths are of the size of the rounding of the initial time *)
Lemma val_sf x s k e : B2SF x = S754_finite s k e -> val x = IZR (cond_Zopp s (Zpos k)) * bpow radix2 e.
Proof. intros E. unfold val. rewrite <- SF2R_B2SF, E. reflexivity. Qed.
Definition q64 (k : Z) : b64 := Bdiv mode_NE (z64 k) (z64 4).
Definition far64 : b64 := z64 (2 ^ 53).
Definition fartau (_ : nat) : b64 := q64 1.
(** the straight line from 0 to 8: constant part i + 1/2 and slope 1/2 in the window coordinate *)
Definition farcf (k : nat) : b64 := if Nat.even k then q64 (2 + 2 * Z.of_nat k) else q64 2.
Definition ex_far (m : libm) : gspline b64 := leg64_spline m 2 far64 (z64 (2 ^ 53 + 2)) 1 (repeat (q64 1) 8) (map farcf (seq 0 16)).
Lemma fartauv i : val (fartau i) = / 4.
Proof. unfold fartau. rewrite (val_sf (q64 1) false 4503599627370496 (-54)) by (vm_compute; reflexivity). cbn. lra. Qed.
Lemma farv : val far64 = IZR (2 ^ 53).
Proof. apply z64v. vm_compute. discriminate. Qed.
Ltac sfv k e := rewrite (val_sf _ false k e) by (vm_compute; reflexivity); cbn; lra.
Lemma farcfv i : (i < 8)%nat -> fin (farcf (2 * i)) /\ fin (farcf (2 * i + 1)) /\ val (farcf (2 * i)) = INR i + / 2 /\ val (farcf (2 * i + 1)) = / 2.
Proof.
  intros Hi. assert (H2 : val (q64 2) = / 2) by sfv 4503599627370496%positive (-53)%Z.
  destruct i as [|[|[|[|[|[|[|[|i]]]]]]]]; [.. |lia]; (split; [vm_compute; reflexivity|]; split; [vm_compute; reflexivity|]; split; [|exact H2]); cbn [Nat.mul Nat.add].
  - rewrite (H2 : val (farcf 0) = / 2). cbn; lra.
  - sfv 6755399441055744%positive (-52)%Z.
  - sfv 5629499534213120%positive (-51)%Z.
  - sfv 7881299347898368%positive (-51)%Z.
  - sfv 5066549580791808%positive (-50)%Z.
  - sfv 6192449487634432%positive (-50)%Z.
  - sfv 7318349394477056%positive (-50)%Z.
  - sfv 8444249301319680%positive (-50)%Z.
Qed.
Theorem C62_offset_refuted m : exists (g : gspline b64) n t0 tf cf t M v,
  finite_spline g n 1 t0 tf cf /\ gs_basis g = BLegendre 2 [] /\
  (forall i, (i < n * 2 * 1)%nat -> fin (cf i) /\ Rabs (val (cf i)) <= 8) /\ fin t /\ val t = bp (val t0) (fun i => val (tf i)) n /\
  (forall iv, (S iv < n)%nat ->
    piece (DLeg 2) 1 (val t0) (fun i => val (tf i)) (fun k => val (cf k)) iv 0 (bp (val t0) (fun i => val (tf i)) (S iv)) =
    piece (DLeg 2) 1 (val t0) (fun i => val (tf i)) (fun k => val (cf k)) (S iv) 0 (bp (val t0) (fun i => val (tf i)) (S iv))) /\
  gs_value (H := B64num m) g (vec_of_list [t]) = Ok M /\ mget M 0 0 = Some v /\
  val v = 7 /\ sfun (DLeg 2) 1 n (val t0) (fun i => val (tf i)) (fun k => val (cf k)) 0 (val t) = 8.
Proof.
  assert (W : gwf (ex_far m) 8 1 fartau farcf).
  { split; [cbn; lia|]. split; [reflexivity|]. split.
    - destruct (vec_of_list_is (repeat (q64 1) 8) (q64 1)) as (L & G). split; [exact L|]. intros i Hi. unfold ex_far, leg64_spline. cbn [gs_tau]. rewrite G by exact Hi. rewrite nth_repeat. reflexivity.
    - split; [|reflexivity]. destruct (vec_of_list_is (map farcf (seq 0 16)) (farcf 0)) as (L & G). split; [exact L|]. intros i Hi. unfold ex_far, leg64_spline. cbn [gs_coef].
      rewrite G by (rewrite map_length, seq_length; exact Hi). rewrite map_nth, seq_nth by exact Hi. reflexivity. }
  assert (Wc : forall i, (i < 16)%nat -> fin (farcf i) /\ Rabs (val (farcf i)) <= 8).
  { intros i Hi. destruct (farcfv (i / 2) ltac:(apply Nat.div_lt_upper_bound; lia)) as (A & B & C & D). pose proof (Nat.div_mod i 2 ltac:(lia)) as E. pose proof (Nat.mod_upper_bound i 2 ltac:(lia)) as Hm.
    assert (Hd : (i / 2 <= 7)%nat) by (apply Nat.lt_succ_r, Nat.div_lt_upper_bound; lia). apply le_INR in Hd. pose proof (pos_INR (i / 2)).
    replace (INR 7) with 7 in Hd by (cbn; ring).
    destruct (i mod 2) as [|[|r]] eqn:Er; [| |lia].
    - replace i with (2 * (i / 2))%nat by lia. split; [exact A|]. rewrite C, Rabs_pos_eq; lra.
    - replace i with (2 * (i / 2) + 1)%nat by lia. split; [exact B|]. rewrite D, Rabs_pos_eq; lra. }
  assert (Vt : val (z64 (2 ^ 53 + 2)) = IZR (2 ^ 53) + 2). { rewrite (val_sf _ false 4503599627370497 1) by (vm_compute; reflexivity). cbn. lra. }
  assert (EB : forall k, bp (val far64) (fun i => val (fartau i)) k = IZR (2 ^ 53) + INR k / 4).
  { intros k. unfold bp. rewrite farv. f_equal. induction k as [|k IH]; cbn [Rsum]; [cbn; lra|]. rewrite IH, S_INR, fartauv. lra. }
  assert (P : forall i t, (i < 8)%nat -> piece (DLeg 2) 1 (val far64) (fun i => val (fartau i)) (fun k => val (farcf k)) i 0 t = INR i + / 2 + / 2 * (8 * (t - (IZR (2 ^ 53) + INR i / 4)) - 1)).
  { intros i t Hi. destruct (farcfv i Hi) as (_ & _ & C & D). unfold piece. rewrite EB, fartauv. cbn [Rsum d_dim]. replace ((i * 1 + 0) * 2 + 0)%nat with (2 * i)%nat by lia. replace ((i * 1 + 0) * 2 + 1)%nat with (2 * i + 1)%nat by lia. rewrite C, D.
    unfold tphi, window. cbn -[IZR]. field. }
  destruct (value_gen (HN := B64num m) (ex_far m) 8 1 fartau farcf (vec_of_list [z64 (2 ^ 53 + 2)]) (fun i => nth i [z64 (2 ^ 53 + 2)] (z64 (2 ^ 53 + 2))) 1) as (M & E & _ & _ & V); [exact W|lia|apply (vec_of_list_is [z64 (2 ^ 53 + 2)] (z64 (2 ^ 53 + 2)))|].
  exists (ex_far m), 8%nat, far64, fartau, farcf, (z64 (2 ^ 53 + 2)), M, (gpt (HN := B64num m) (BLegendre 2 []) far64 fartau farcf 8 1 (z64 (2 ^ 53 + 2)) 0).
  split.
  { split; [exact W|]. split; [lia|]. split; [reflexivity|]. split; [vm_compute; reflexivity|]. split.
    - intros i _. split; [vm_compute; reflexivity|]. rewrite fartauv. lra.
    - pose proof (EB 8%nat) as E8. unfold bp in E8. rewrite (Rabs_pos_eq (val far64)) by (rewrite farv; apply IZR_le; lia).
      replace (Rsum 8 (fun i => Rabs (val (fartau i)))) with (Rsum 8 (fun i => val (fartau i))) by (apply Rsum_ext; intros; rewrite Rabs_pos_eq; rewrite fartauv; lra).
      rewrite E8. pose proof (pow_1u_lin 9) as P9. pose proof uu_small. pose proof uu_pos. cbn [INR] in P9 |- *. specialize (P9 ltac:(lra)).
      apply Rle_trans with (2 * (2 * 2 ^ 53)); [|change (2 * (2 * 2 ^ 53)) with (2 ^ 55); apply pow_lit; lia].
      change (2 ^ 53)%Z with (Z.pow 2 (Z.of_nat 53)). rewrite <- pow_IZR. pose proof (pow_le 2 53 ltac:(lra)). pose proof (pow_lit 1 53 ltac:(lia)). rewrite pow_1 in *.
      apply Rmult_le_compat; [apply pow_le; lra|lra|lra|lra]. }
  split; [reflexivity|]. split; [exact Wc|]. split; [vm_compute; reflexivity|]. split.
  { rewrite EB, Vt. cbn. lra. }
  split.
  { intros iv Hiv. rewrite !P by lia. rewrite EB, S_INR. field. }
  split; [exact E|]. split.
  { exact (V 0%nat 0%nat ltac:(lia) ltac:(lia)). }
  split. { rewrite (val_sf _ false 7881299347898368 (-50)) by (vm_compute; reflexivity). cbn; lra. }
  unfold sfun. rewrite Vt.
  replace (locate (val far64) (fun i => val (fartau i)) 8 (IZR (2 ^ 53) + 2)) with 7%nat.
  - rewrite P by lia. cbn. lra.
  - assert (Tp : forall i, (i < 8)%nat -> 0 < val (fartau i)) by (intros; rewrite fartauv; lra).
    apply (in_iv_unique (val far64) (fun i => val (fartau i)) 8 (IZR (2 ^ 53) + 2)); auto; [|apply locate_in; auto; lia].
    split; [lia|]. rewrite !EB. split; [right; cbn; lra|left; reflexivity].
Qed.
