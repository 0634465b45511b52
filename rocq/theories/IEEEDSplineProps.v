(** Property C73: rounding errors of the derivative of a Legendre spline. *)
From Coquelicot Require Import Coquelicot.
From Coq Require Import ZArith Reals Lra Lia List Arith Bool SpecFloat Permutation.
From Flocq Require Import Core BinarySingleNaN.
From Verif Require Import Num Outcome LinAlg RSum RMat LegendreModel LegendreSpec LegendreMath LegendreProofs StabMath InterpMath2
  BasisModel BasisProofs BasisProofs2 BasisProofs3 GSplineModel GSplineProofs GSplineProofs2 GSplineProofs5 SplineSpec IEEEModel IEEESpec IEEEProofs IEEEHorner IEEELegendre IEEESpline
  IEEEProps2 IEEELagrange IEEEDerivSpec IEEEDeriv IEEEDSplineSpec DSplineGen IEEEDSpline IEEEDSpline2 IEEEDSpline3.
Import ListNotations.
Local Open Scope R_scope.

(** ** the matrix *)
(** every entry is near the coefficient of the expansion of the exact derivative, and zeros are exact *)
Theorem C73_matrix m dim : (2 <= dim)%nat -> dmat_error (dim - 1) <= / 16 ->
  exists M D, leg_dmat (H := B64num m) dim = Ok M /\ mrows M = dim /\ mcols M = dim /\
    (forall i x, (i < dim)%nat -> is_derive (legP i) x (Rsum dim (fun j => D i j * legP j x))) /\
    forall i j, (i < dim)%nat -> (j < dim)%nat -> exists v, mget M i j = Some v /\ fin v /\ 0 <= D i j /\ Rabs (val v - D i j) <= dmat_error i * D i j.
Proof.
  intros Hd HE. destruct (leg_dmat_gen (HN := B64num m) dim) as (M & E & R1 & C1 & G). exists M, Dent. split; [exact E|]. split; [exact R1|]. split; [exact C1|]. split.
  { intros i x Hi. rewrite <- (LD1_series i dim) by lia. apply legP_derive. }
  intros i j Hi Hj. destruct (entry64 m (dim - 1) HE i j ltac:(lia)) as (Fv & q & N & V). exists (gD (HN := B64num m) i j). split; [apply G; auto|]. split; [exact Fv|].
  assert (P : 0 <= Dent i j) by (unfold Dent; destruct lodd; [pose proof (pos_INR j)|]; lra). split; [exact P|].
  assert (V' : val (gD (HN := B64num m) i j) = Dent i j * q) by exact V. rewrite V'. replace (Dent i j * q - Dent i j) with ((q - 1) * Dent i j) by ring. rewrite Rabs_mult, (Rabs_pos_eq (Dent i j)) by auto.
  apply Rmult_le_compat_r; auto. unfold nr in N. lra.
Qed.

(** ** the coefficients *)
Lemma LD_D d j x : Derive_n (legP j) d x = LD d j x.
Proof. apply is_derive_n_unique, LD_derive_n. Qed.
Section Derivative.
Variable m : libm.
Local Instance BN : Num b64 := B64num m.
Variables (g : gspline b64) (dim n codom : nat) (t0 : b64) (tf cf : nat -> b64) (gram : list (mat b64)) (hist : list (request b64)) (k : nat).
Hypothesis Fin : finite_spline g n codom t0 tf cf.
Hypothesis Leg : gs_basis g = BLegendre dim gram.
Hypothesis Cache : serve_all (gs_basis g) hist (bs_init (gs_basis g)) = Ok (gs_bst g).
Hypothesis Fc : forall i, (i < n * dim * codom)%nat -> fin (cf i).
Let d := S k.
Let T0 := val t0.
Let tau i := val (tf i).
Let c i := val (cf i).
Hypothesis Sz : derivable dim d n codom tau c.
Let size iv cc := deriv_size dim d (tau iv) (fun j => c ((iv * codom + cc) * dim + j)%nat).
Let ce := coef_error dim d.
Let gg iv := (2 / tau iv) ^ d.

Lemma dim2 : (2 <= dim)%nat.
Proof. destruct Fin as ((B & _) & _). rewrite Leg in B. exact B. Qed.
Lemma tau_pos iv : (iv < n)%nat -> fin (tf iv) /\ 0 < tau iv.
Proof. destruct Fin as (_ & _ & _ & _ & H & _). apply H. Qed.
Lemma gg_pos iv : (iv < n)%nat -> 0 < gg iv.
Proof. intros Hi. destruct (tau_pos iv Hi). apply pow_lt. apply Rdiv_lt_0_compat; lra. Qed.
Lemma idx_ok iv cc bb : (iv < n)%nat -> (cc < codom)%nat -> (bb < dim)%nat -> ((iv * codom + cc) * dim + bb < n * dim * codom)%nat.
Proof. intros. assert (iv * codom + cc < n * codom)%nat by nia. assert ((iv * codom + cc) * dim + bb < n * codom * dim)%nat by nia. nia. Qed.
Lemma idx_split i : (i < n * dim * codom)%nat -> exists iv cc bb, (iv < n)%nat /\ (cc < codom)%nat /\ (bb < dim)%nat /\ i = ((iv * codom + cc) * dim + bb)%nat.
Proof.
  intros Hi. assert (dim <> 0 /\ codom <> 0)%nat as (D0 & C0) by (split; intros ->; nia).
  exists (i / dim / codom)%nat, ((i / dim) mod codom)%nat, (i mod dim)%nat.
  pose proof (Nat.div_mod i dim D0). pose proof (Nat.mod_upper_bound i dim D0). pose proof (Nat.div_mod (i / dim) codom C0). pose proof (Nat.mod_upper_bound (i / dim) codom C0).
  set (q := (i / dim)%nat) in *. set (r := (i mod dim)%nat) in *. set (q1 := (q / codom)%nat) in *. set (r1 := (q mod codom)%nat) in *.
  repeat split; auto.
  - assert (q < n * codom)%nat by nia. nia.
  - nia.
Qed.

(** the exact coefficients of the derivative *)
Definition dcoef (iv cc bb : nat) : R := gg iv * Rsum dim (fun j => mpow dim legT d bb j * c ((iv * codom + cc) * dim + j)%nat).
Definition dabs (iv cc bb : nat) : R := gg iv * Rsum dim (fun j => mpow dim legT d bb j * Rabs (c ((iv * codom + cc) * dim + j)%nat)).
Lemma dabs_sum iv cc : Rsum dim (dabs iv cc) = size iv cc.
Proof.
  unfold dabs, size, deriv_size. rewrite Rsum_scal. unfold gg. f_equal. rewrite Rsum_swap. apply Rsum_ext. intros j Hj. rewrite LD_D, (LD_1_sum dim) by auto. rewrite <- Rsum_scal. apply Rsum_ext. intros; ring.
Qed.
Lemma dabs_ge iv cc bb : (iv < n)%nat -> 0 <= dabs iv cc bb.
Proof. intros Hi. apply Rmult_le_pos; [apply Rlt_le, gg_pos; auto|]. apply Rsum_nonneg. intros; apply Rmult_le_pos; [apply mpow_ge|apply Rabs_pos]. Qed.
Lemma dcoef_le iv cc bb : (iv < n)%nat -> Rabs (dcoef iv cc bb) <= dabs iv cc bb.
Proof.
  intros Hi. pose proof (gg_pos iv Hi). unfold dcoef, dabs. rewrite Rabs_mult, (Rabs_pos_eq (gg iv)) by lra. apply Rmult_le_compat_l; [lra|]. eapply Rle_trans; [apply InterpMath2.Rsum_abs|]. apply Rsum_le. intros j Hj. rewrite Rabs_mult, (Rabs_pos_eq (mpow _ _ _ _ _)) by apply mpow_ge. lra.
Qed.
Lemma dcoef_piece iv cc t : (iv < n)%nat -> is_derive_n (piece (DLeg dim) codom T0 tau c iv cc) d t (Rsum dim (fun bb => dcoef iv cc bb * tphi (DLeg dim) (bp T0 tau iv) (tau iv) bb t)).
Proof.
  intros Hi. destruct (tau_pos iv Hi) as (_ & Pt). pose proof (piece_derive_n (DLeg dim) codom T0 tau c iv cc d t ltac:(lra)) as D. cbn [d_dim] in D.
  eapply (fun H => eq_ind _ (is_derive_n (piece (DLeg dim) codom T0 tau c iv cc) d t) D _ H). set (w := window (bp T0 tau iv) (tau iv) t).
  transitivity (Rsum dim (fun j => Rsum dim (fun bb => gg iv * (mpow dim legT d bb j * c ((iv * codom + cc) * dim + j)%nat) * legP bb w))).
  - apply Rsum_ext. intros j Hj. unfold tphi. cbn [phi]. rewrite (is_derive_n_unique _ _ _ _ (legP_time_derive d j (bp T0 tau iv) (tau iv) t)). fold w. rewrite (LD_mpow dim) by auto. unfold gg. rewrite <- !Rsum_scal. apply Rsum_ext. intros; ring.
  - rewrite Rsum_swap. apply Rsum_ext. intros bb Hb. unfold dcoef, tphi. cbn [phi]. fold w. rewrite Rsum_scal_r. f_equal. rewrite Rsum_scal. reflexivity.
Qed.

Lemma derived : exists g' cf', gs_derivate g d = Ok g' /\ finite_spline g' n codom t0 tf cf' /\ gs_basis g' = BLegendre dim gram /\ gs_dom g' = gs_dom g /\
  (exists hist', serve_all (gs_basis g') hist' (bs_init (gs_basis g')) = Ok (gs_bst g')) /\
  forall iv cc bb, (iv < n)%nat -> (cc < codom)%nat -> (bb < dim)%nat ->
    fin (cf' ((iv * codom + cc) * dim + bb)%nat) /\ Rabs (val (cf' ((iv * codom + cc) * dim + bb)%nat) - dcoef iv cc bb) <= ce * dabs iv cc bb + (4 * INR dim * gg iv + 1) * hh.
Proof.
  destruct Fin as (W & Hn & E0 & F0 & Htf & HM).
  destruct (derivate_gen g dim gram n codom tf cf hist k W Leg Cache) as (g' & cf' & E & W' & Leg' & Dom' & Hist' & Coef). exists g', cf'. split; [exact E|].
  split. { split; [exact W'|]. split; [exact Hn|]. split; [rewrite Dom'; exact E0|]. auto. }
  split; [exact Leg'|]. split; [exact Dom'|]. split; [exact Hist'|]. intros iv cc bb Hi Hc Hb. rewrite (Coef iv cc bb Hi Hc Hb).
  destruct Sz as (S1 & S2 & S3 & S4 & S5). destruct (tau_pos iv Hi) as (Ft & Pt).
  assert (Fj : forall j, (j < dim)%nat -> fin (cf ((iv * codom + cc) * dim + j)%nat)) by (intros j Hj; apply Fc, idx_ok; auto).
  exact (coef64 m dim dim2 S1 k S2 S3 (fun j => cf ((iv * codom + cc) * dim + j)%nat) (tf iv) bb Hb Fj Ft Pt (S5 iv cc Hi Hc) (S4 iv Hi)).
Qed.

(** The derivative exists as an object on the same intervals, and its coefficients are near those of the exact derivative. *)
Theorem C73_coefficients : exists g' cf' c', gs_derivate g d = Ok g' /\ finite_spline g' n codom t0 tf cf' /\ gs_basis g' = BLegendre dim gram /\ gs_dom g' = gs_dom g /\
  (forall iv cc t, (iv < n)%nat -> (cc < codom)%nat -> is_derive_n (piece (DLeg dim) codom T0 tau c iv cc) d t (piece (DLeg dim) codom T0 tau c' iv cc t)) /\
  (forall i, (i < n * dim * codom)%nat -> fin (cf' i)) /\
  (forall iv cc, (iv < n)%nat -> (cc < codom)%nat ->
    Rsum dim (fun bb => Rabs (val (cf' ((iv * codom + cc) * dim + bb)%nat) - c' ((iv * codom + cc) * dim + bb)%nat)) <= ce * size iv cc + INR dim * (4 * INR dim * gg iv + 1) * / 2 ^ 1075).
Proof.
  destruct derived as (g' & cf' & E & F' & L' & D' & _ & B). pose proof dim2 as D2.
  set (c' := fun i => dcoef (i / dim / codom)%nat ((i / dim) mod codom)%nat (i mod dim)%nat).
  assert (c'at : forall iv cc bb, (cc < codom)%nat -> (bb < dim)%nat -> c' ((iv * codom + cc) * dim + bb)%nat = dcoef iv cc bb).
  { intros iv cc bb Hc Hb. unfold c'.
    assert (E1 : (((iv * codom + cc) * dim + bb) / dim = iv * codom + cc)%nat) by (rewrite Nat.div_add_l by lia; rewrite Nat.div_small by lia; lia).
    rewrite E1. f_equal.
    - rewrite Nat.div_add_l by lia. rewrite Nat.div_small by lia. lia.
    - rewrite Nat.add_comm, Nat.mod_add by lia. apply Nat.mod_small. auto.
    - rewrite Nat.add_comm, Nat.mod_add by lia. apply Nat.mod_small. auto. }
  exists g', cf', c'. split; [exact E|]. split; [exact F'|]. split; [exact L'|]. split; [exact D'|]. split; [|split].
  - intros iv cc t Hi Hc. pose proof (dcoef_piece iv cc t Hi) as D. replace (piece (DLeg dim) codom T0 tau c' iv cc t) with (Rsum dim (fun bb => dcoef iv cc bb * tphi (DLeg dim) (bp T0 tau iv) (tau iv) bb t)); [exact D|].
    unfold piece. cbn [d_dim]. apply Rsum_ext. intros bb Hb. rewrite c'at by auto. reflexivity.
  - intros i Hi. destruct (idx_split i Hi) as (iv & cc & bb & H1 & H2 & H3 & ->). apply B; auto.
  - intros iv cc Hi Hc. rewrite <- dabs_sum. apply Rle_trans with (Rsum dim (fun bb => ce * dabs iv cc bb + (4 * INR dim * gg iv + 1) * hh)).
    + apply Rsum_le. intros bb Hb. rewrite c'at by auto. apply B; auto.
    + rewrite Rsum_plus, Rsum_scal, Rsum_const. unfold hh. lra.
Qed.

(** ** the values *)
Let dl := time_error T0 tau n.
Hypothesis Sm : forall iv, (iv < n)%nat -> leg_error (window_error dl (tau iv)) (dim - 1) <= / 16.

Theorem C73_value : exists g', gs_derivate g d = Ok g' /\
  forall pts pf np, vec_is pts np pf -> (forall i, (i < np)%nat -> fin (pf i) /\ T0 <= val (pf i) <= bp T0 tau n + dl) ->
  exists M, gs_value g' pts = Ok M /\ mrows M = np /\ mcols M = codom /\
  forall i cc, (i < np)%nat -> (cc < codom)%nat -> exists v iv t', mget M i cc = Some v /\ fin v /\
    (iv < n)%nat /\ bp T0 tau iv <= t' <= bp T0 tau (S iv) /\ Rabs (t' - val (pf i)) <= dl /\
    Rabs (val v - Derive_n (piece (DLeg dim) codom T0 tau c iv cc) d t') <=
      (value_error dim (window_error dl (tau iv)) * (1 + ce) + ce) * size iv cc + deriv_tiny dim d (tau iv).
Proof.
  destruct derived as (g' & cf' & E & F' & L' & D' & _ & B). pose proof dim2 as D2. pose proof hh_pos as HP. pose proof uu_pos as U0. pose proof uu_small as US.
  exists g'. split; [exact E|]. intros pts pf np V Hp. destruct Sz as (S1 & S2 & S3 & S4 & S5).
  assert (CE0 : 0 <= ce) by (unfold ce; apply (ce_parts dim D2 k S2)).
  assert (D1 : 1 <= INR dim) by (apply (le_INR 1); lia).
  set (ty := fun iv => (4 * INR dim * gg iv + 1) * hh).
  assert (ty0 : forall iv, (iv < n)%nat -> 0 <= ty iv). { intros iv Hi. pose proof (gg_pos iv Hi). apply Rmult_le_pos; [|lra]. assert (0 <= 4 * INR dim * gg iv) by (apply Rmult_le_pos; lra). lra. }
  set (C' := fun iv cc => Rsum dim (fun bb => Rabs (val (cf' ((iv * codom + cc) * dim + bb)%nat)))).
  assert (CB : forall iv cc, (iv < n)%nat -> (cc < codom)%nat -> C' iv cc <= (1 + ce) * size iv cc + INR dim * ty iv).
  { intros iv cc Hi Hc. rewrite <- dabs_sum. apply Rle_trans with (Rsum dim (fun bb => (1 + ce) * dabs iv cc bb + ty iv)).
    - apply Rsum_le. intros bb Hb. destruct (B iv cc bb Hi Hc Hb) as (_ & Bv). apply abs_of_near in Bv. pose proof (dcoef_le iv cc bb Hi). fold (ty iv) in Bv. lra.
    - rewrite Rsum_plus, Rsum_scal, Rsum_const. lra. }
  assert (size0 : forall iv cc, (iv < n)%nat -> 0 <= size iv cc) by (intros; rewrite <- dabs_sum; apply Rsum_nonneg; intros; apply dabs_ge; auto).
  assert (gB : forall iv, (iv < n)%nat -> gg iv <= 2 ^ 300).
  { intros iv Hi. destruct (tau_pos iv Hi) as (_ & Pt). eapply Rle_trans; [|apply (S4 iv Hi)]. destruct (spread_ok (tau iv) Pt) as (A1 & A2). assert (0 < 2 / tau iv) by (apply Rdiv_lt_0_compat; lra). apply pow_incr. lra. }
  assert (D3 : INR dim <= 2 ^ 300). { eapply Rle_trans; [|exact S3]. rewrite <- (pow_1 (INR dim)) at 1. apply Rle_pow; [lra|unfold d; lia]. }
  assert (X300 : 1 <= 2 ^ 300) by (apply pow_R1_Rle; lra).
  assert (sizeB : forall iv cc, (iv < n)%nat -> (cc < codom)%nat -> size iv cc <= 2 ^ 300 * (2 ^ 300 * 2 ^ 300)).
  { intros iv cc Hi Hc. pose proof (gg_pos iv Hi). unfold size, deriv_size. fold (gg iv). apply Rmult_le_compat; try lra; [|apply gB; auto|].
    - apply Rsum_nonneg. intros j Hj. apply Rmult_le_pos; [apply Rabs_pos|]. rewrite LD_D. apply (LD_1_le dim); auto.
    - apply Rle_trans with (Rsum dim (fun j => Rabs (c ((iv * codom + cc) * dim + j)%nat)) * 2 ^ 300).
      + rewrite <- Rsum_scal_r. apply Rsum_le. intros j Hj. apply Rmult_le_compat_l; [apply Rabs_pos|]. rewrite LD_D. eapply Rle_trans; [apply (LD_1_le dim); auto|exact S3].
      + apply Rmult_le_compat_r; [lra|]. apply S5; auto. }
  assert (tyB : forall iv, (iv < n)%nat -> INR dim * ty iv <= 1).
  { intros iv Hi. pose proof (gg_pos iv Hi). specialize (gB iv Hi). unfold ty. set (z := 2 ^ 300) in *.
    apply Rle_trans with (z * ((4 * z * z + 1 * (z * z)) * hh)).
    - assert (INR dim * gg iv <= z * z) by (apply Rmult_le_compat; lra). assert (1 <= z * z) by (apply Rle_trans with (1 * 1); [lra|apply Rmult_le_compat; lra]).
      apply Rmult_le_compat; try lra; [apply Rmult_le_pos; [|lra]; assert (0 <= INR dim * gg iv) by (apply Rmult_le_pos; lra); lra|]. apply Rmult_le_compat_r; lra.
    - replace (z * ((4 * z * z + 1 * (z * z)) * hh)) with (5 * (z * z * z) * hh) by ring. unfold hh.
      assert (Z3 : z * z * z = 2 ^ 900) by (unfold z; rewrite <- !pow_add; reflexivity). rewrite Z3.
      assert (Z4 : / 2 ^ 1075 = / 2 ^ 900 * / 2 ^ 175) by (rewrite <- Rinv_mult, <- pow_add; reflexivity). rewrite Z4. assert (P900 : 0 < 2 ^ 900) by (apply pow_lt; lra).
      generalize dependent (2 ^ 900). intros aa _ _ P900. replace (5 * aa * (/ aa * / 2 ^ 175)) with (5 * / 2 ^ 175 * (aa * / aa)) by ring. rewrite Rinv_r, Rmult_1_r by lra. assert (/ 2 ^ 175 <= / 2 ^ 3) by (apply Rinv_le_contravar; [lra|apply pow_lit; lia]). lra. }
  destruct (C62_value m g' dim n codom t0 tf cf' gram F' L') with (pts := pts) (pf := pf) (np := np) as (M & EM & R1 & R2 & G); auto.
  { intros i Hi. destruct (idx_split i Hi) as (iv & cc & bb & H1 & H2 & H3 & ->). apply B; auto. }
  { intros iv cc Hi Hc. eapply Rle_trans; [apply (CB iv cc Hi Hc)|]. pose proof (size0 iv cc Hi). specialize (sizeB iv cc Hi Hc). specialize (tyB iv Hi).
    apply Rle_trans with (2 ^ 902).
    - replace (2 ^ 902) with (4 * (2 ^ 300 * (2 ^ 300 * 2 ^ 300))) by (rewrite <- !pow_add; replace 902%nat with (2 + (300 + (300 + 300)))%nat by lia; rewrite (pow_add 2 2); apply (f_equal (fun z => z * _)); lra).
      set (z := 2 ^ 300 * (2 ^ 300 * 2 ^ 300)) in *. assert (1 <= z). { unfold z. apply Rle_trans with (1 * (1 * 1)); [lra|]. repeat apply Rmult_le_compat; lra. }
      assert ((1 + ce) * size iv cc <= 2 * z) by (apply Rmult_le_compat; unfold ce in *; lra). lra.
    - apply pow_lit. lia. }
  exists M. split; [exact EM|]. split; [exact R1|]. split; [exact R2|]. intros i cc Hi Hc. destruct (G i cc Hi Hc) as (v & iv & t' & Gv & Fv & Hiv & Ht' & Hd' & Bv).
  exists v, iv, t'. split; [exact Gv|]. split; [exact Fv|]. split; [exact Hiv|]. split; [exact Ht'|]. split; [exact Hd'|].
  change (Rsum dim (fun k0 => Rabs (val (cf' ((iv * codom + cc) * dim + k0)%nat)))) with (C' iv cc) in Bv. fold T0 in Bv. change (fun i => val (tf i)) with tau in Bv. change (val (tf iv)) with (tau iv) in Bv. fold dl in Bv.
  rewrite (is_derive_n_unique _ _ _ _ (dcoef_piece iv cc t' Hiv)). set (Z := Rsum dim (fun bb => dcoef iv cc bb * _)). set (Y := piece _ _ _ _ _ iv cc t') in Bv.
  destruct (tau_pos iv Hiv) as (_ & Pt). specialize (Sm iv Hiv). fold T0 tau dl in Ht'.
  assert (YZ : Rabs (Y - Z) <= ce * size iv cc + INR dim * ty iv).
  { unfold Y, Z, piece. cbn [d_dim]. rewrite <- Rsum_minus. eapply Rle_trans; [apply InterpMath2.Rsum_abs|]. rewrite <- dabs_sum.
    apply Rle_trans with (Rsum dim (fun bb => ce * dabs iv cc bb + ty iv)); [|rewrite Rsum_plus, Rsum_scal, Rsum_const; lra].
    apply Rsum_le. intros bb Hb. rewrite <- Rmult_minus_distr_r, Rabs_mult. unfold tphi. cbn [phi].
    assert (Hx : -1 <= window (bp T0 tau iv) (tau iv) t' <= 1).
    { unfold window. assert (EbS : bp T0 tau (S iv) = bp T0 tau iv + tau iv) by apply bp_S64. rewrite EbS in Ht'. split.
      - assert (0 <= 2 * (t' - bp T0 tau iv) / tau iv) by (apply Rdiv_le_0_compat; lra). lra.
      - assert (2 * (t' - bp T0 tau iv) / tau iv <= 2) by (apply Rle_div_l; lra). lra. }
    pose proof (legP_bound bb _ Hx) as LB. destruct (B iv cc bb Hiv Hc Hb) as (_ & Bb). fold (ty iv) in Bb. eapply Rle_trans; [apply Rmult_le_compat; [apply Rabs_pos|apply Rabs_pos|exact Bb|exact LB]|]. lra. }
  set (ve := value_error dim (window_error dl (tau iv))) in *.
  assert (DP : 0 <= dl) by (apply (delta_pos t0 tf n)).
  assert (VE : 0 <= ve <= 1).
  { assert (W0 : 0 < window_error dl (tau iv)) by (unfold window_error; assert (0 <= 4 * dl / tau iv) by (apply Rdiv_le_0_compat; lra); lra).
    assert (K1 : 1 <= INR (dim - 1)) by (apply (le_INR 1); lia). assert (KK : INR (dim - 1) * (21 * uu) <= / 16).
    { eapply Rle_trans; [|exact Sm]. unfold leg_error. set (kk := INR (dim - 1)) in *. set (w := window_error dl (tau iv)) in *. assert (0 <= kk * w) by (apply Rmult_le_pos; lra). assert (kk * 1 <= kk * kk) by (apply Rmult_le_compat_l; lra). assert (0 <= kk * kk * w) by (apply Rmult_le_pos; [apply Rmult_le_pos|]; lra). nra. }
    assert (DD : INR (dim + 1) = INR (dim - 1) + 2) by (replace (dim + 1)%nat with (dim - 1 + 2)%nat by lia; rewrite plus_INR; cbn [INR]; lra).
    unfold ve, value_error. rewrite DD. assert (0 <= leg_error (window_error dl (tau iv)) (dim - 1)) by (unfold leg_error; apply Rmult_le_pos; nra).
    set (kk := INR (dim - 1)) in *. assert (0 <= kk * uu) by (apply Rmult_le_pos; lra). split; lra. }
  replace (val v - Z) with ((val v - Y) + (Y - Z)) by ring. eapply Rle_trans; [apply Rabs_triang|].
  assert (A1 : ve * C' iv cc <= ve * ((1 + ce) * size iv cc + INR dim * ty iv)) by (apply Rmult_le_compat_l; [lra|apply CB; auto]).
  assert (A2 : ve * (INR dim * ty iv) <= 1 * (INR dim * ty iv)) by (apply Rmult_le_compat_r; [apply Rmult_le_pos; [lra|apply ty0; auto]|lra]).
  assert (H1074 : / 2 ^ 1074 = 2 * hh). { unfold hh. replace (2 ^ 1075) with (2 * 2 ^ 1074) by reflexivity. rewrite Rinv_mult. field. }
  rewrite H1074 in Bv. unfold deriv_tiny. fold (gg iv). change (/ 2 ^ 1075) with hh.
  assert (A3 : INR dim * (8 * INR dim * gg iv + 4) * hh = 2 * (INR dim * ty iv) + INR dim * (2 * hh)) by (unfold ty; ring). rewrite A3. lra.
Qed.
End Derivative.

(** ** cases *)
(** the matrix of the basis with six polynomials: P5' = P0 + 5 P2 + 9 P4 *)
Example C73_matrix_case m : exists M v w, leg_dmat (H := B64num m) 6 = Ok M /\ mget M 5 2 = Some v /\ Rabs (val v - 5) <= 3035 * uu /\ mget M 5 3 = Some w /\ val w = 0.
Proof.
  pose proof uu_pos as U. pose proof uu_small as US.
  destruct (leg_dmat_gen (HN := B64num m) 6) as (M & E & R1 & C1 & G). assert (HE : dmat_error 5 <= / 16) by (cbn [dmat_error]; lra).
  destruct (entry64 m 5 HE 5 2 ltac:(lia)) as (_ & q & N & V). destruct (entry64 m 5 HE 5 3 ltac:(lia)) as (_ & q' & _ & V').
  exists M, (gD (HN := B64num m) 5 2), (gD (HN := B64num m) 5 3). split; [exact E|]. split; [apply G; lia|]. split; [|split; [apply G; lia|]].
  - assert (W : val (gD (HN := B64num m) 5 2) = Dent 5 2 * q) by exact V. rewrite W. unfold Dent, lodd. cbn -[dmat_error]. unfold nr in N. apply Rabs_le_between in N. cbn [dmat_error] in N. apply Rabs_le. lra.
  - eapply eq_trans; [exact V'|]. unfold Dent, lodd. cbn. ring.
Qed.
Lemma ex64_tau i : (i < 2)%nat -> 1 <= val (tau64 i) <= 2.
Proof. intros Hi. destruct i as [|[|i]]; [| |lia]; unfold tau64; cbn [nth]; rewrite z64v by (cbn; lia); lra. Qed.
Lemma ce_31 : coef_error 3 1 <= 50 * uu.
Proof.
  pose proof uu_pos. pose proof uu_small. unfold coef_error. cbn [Nat.sub Nat.mul Nat.add]. change (/ (1 - uu)) with bt. pose proof (bt_small 6 7 ltac:(lia) ltac:(cbn; lra)) as B. rewrite pow_1. cbn [dmat_error].
  set (e := 2 * (3 * uu) + 0 + 26 * uu). assert ((1 + e) * bt ^ 6 <= (1 + e) * (1 + 7 * uu)) by (apply Rmult_le_compat_l; unfold e; lra). assert ((1 + e) * (1 + 7 * uu) - 1 <= 50 * uu) by (unfold e; nra). lra.
Qed.
Lemma ex64_derivable : derivable 3 1 2 1 (fun i => val (tau64 i)) (fun i => val (cf64 i)).
Proof.
  pose proof uu_pos. pose proof uu_small. assert (P : 2 ^ 4 <= 2 ^ 300) by (apply pow_lit; lia).
  split; [cbn [Nat.sub dmat_error]; lra|]. split; [pose proof ce_31; lra|]. split; [cbn [INR Nat.mul Nat.add]; lra|]. split.
  - intros iv Hi. pose proof (ex64_tau iv Hi) as T. assert (spread (val (tau64 iv)) <= 2). { unfold spread. apply Rmax_lub; [apply Rle_div_l; lra|lra]. } rewrite pow_1. lra.
  - intros iv cc Hi Hc. destruct ex64_hyps as (_ & CS & _). rewrite CS by auto. lra.
Qed.
(** the first derivative of the spline of C62 at 7/3 *)
Example C73_case m : exists g' M v iv t', gs_derivate (H := B64num m) (ex64 m) 1 = Ok g' /\ gs_value (H := B64num m) g' (vec_of_list [seven_thirds]) = Ok M /\ mget M 0 0 = Some v /\ fin v /\
  Rabs (t' - val seven_thirds) <= 24 * uu /\
  Rabs (val v - Derive (piece (DLeg 3) 1 (val (z64 1)) (fun i => val (tau64 i)) (fun i => val (cf64 i)) iv 0) t') <= 60000 * uu.
Proof.
  pose proof uu_small as US. pose proof uu_pos as UP. pose proof ex64_small as TS. destruct ex64_hyps as (Hf & CS & LE & F7 & L7). cbv zeta in *. pose proof ce_31 as CE.
  destruct (C73_value m (ex64 m) 3 2 1 (z64 1) tau64 cf64 [] [] 0 (ex64_ok m) eq_refl eq_refl Hf ex64_derivable) as (g' & E & G).
  { intros iv Hiv. specialize (LE iv Hiv). cbn [Nat.sub]. lra. }
  destruct (G (vec_of_list [seven_thirds]) (fun i => nth i [seven_thirds] seven_thirds) 1%nat) as (M & EM & _ & _ & GM).
  { apply (vec_of_list_is [seven_thirds] seven_thirds). }
  { intros i Hi. replace i with 0%nat by lia. cbn [nth]. auto. }
  destruct (GM 0%nat 0%nat ltac:(lia) ltac:(lia)) as (v & iv & t' & Gv & Fv & Hiv & _ & Hd & B). cbn [nth] in Hd.
  exists g', M, v, iv, t'. split; [exact E|]. split; [exact EM|]. split; [exact Gv|]. split; [exact Fv|]. split; [lra|].
  change (Derive_n ?f 1 t') with (Derive f t') in B. eapply Rle_trans; [exact B|]. clear B GM G.
  pose proof (ex64_tau iv Hiv) as T. specialize (LE iv Hiv).
  assert (P2 : 0 <= 2 / val (tau64 iv) <= 2) by (split; [apply Rdiv_le_0_compat; lra|apply Rle_div_l; lra]).
  assert (DS : 0 <= deriv_size 3 1 (val (tau64 iv)) (fun j => val (cf64 ((iv * 1 + 0) * 3 + j)%nat)) <= 2 * (6 * 4)).
  { unfold deriv_size. rewrite pow_1. assert (L : forall j, (j < 3)%nat -> 0 <= Derive_n (legP j) 1 1 <= 4).
    { intros j Hj. rewrite LD_D. pose proof (LD_1_le 3 1 j Hj) as X. split; [apply X|]. eapply Rle_trans; [eapply Rle_trans; [apply Rle_abs|]; apply (LD_boundK 1 1 j 2); [lra|lia]|]. cbn [INR Nat.mul Nat.add]. lra. }
    assert (S0 : 0 <= Rsum 3 (fun j => Rabs (val (cf64 ((iv * 1 + 0) * 3 + j)%nat)) * Derive_n (legP j) 1 1) <= 6 * 4).
    { split; [apply Rsum_nonneg; intros j Hj; apply Rmult_le_pos; [apply Rabs_pos|apply L; auto]|]. rewrite <- (CS iv 0%nat Hiv ltac:(lia)). rewrite <- Rsum_scal_r. apply Rsum_le. intros j Hj. apply Rmult_le_compat_l; [apply Rabs_pos|apply L; auto]. }
    split; [apply Rmult_le_pos; lra|apply Rmult_le_compat; lra]. }
  unfold value_error, deriv_tiny. cbn [Nat.sub Nat.add INR]. rewrite pow_1. change (/ 2 ^ 1075) with hh. pose proof hh_uu as H. pose proof hh_pos.
  set (sz := deriv_size _ _ _ _) in *. set (le := leg_error _ _) in *. set (ce := coef_error 3 1) in *. set (p := 2 / val (tau64 iv)) in *.
  assert (C0 : 0 <= ce) by (apply (ce_parts 3 ltac:(lia) 0); change (ce <= / 2); lra).
  assert (LE0 : 0 <= le). { unfold le, leg_error. apply Rmult_le_pos; [cbn; nra|]. assert (0 <= time_error (val (z64 1)) (fun i => val (tau64 i)) 2) by (apply (delta_pos (z64 1) tau64 2)). unfold window_error. assert (0 <= 4 * time_error (val (z64 1)) (fun i => val (tau64 i)) 2 / val (tau64 iv)) by (apply Rdiv_le_0_compat; lra). lra. }
  assert (A1 : (le + 3 * (1 + 1 + 1 + 1) * uu) * (1 + ce) <= (993 * uu) * (1 + / 10)) by (apply Rmult_le_compat; lra).
  assert (A0 : 0 <= (le + 3 * (1 + 1 + 1 + 1) * uu) * (1 + ce)) by (apply Rmult_le_pos; lra).
  set (X := (le + 3 * (1 + 1 + 1 + 1) * uu) * (1 + ce)) in *.
  assert (A2 : (X + ce) * sz <= (1093 * uu + 50 * uu) * (2 * (6 * 4))) by (apply Rmult_le_compat; lra).
  assert (A3 : (1 + 1 + 1) * (8 * (1 + 1 + 1) * p + 4) * hh <= 200 * hh) by (apply Rmult_le_compat_r; lra). lra.
Qed.
