(** Property C64: rounding in the barycentric formula and in the value of a Lagrange spline. *)
From Coquelicot Require Import Coquelicot.
From Coq Require Import ZArith Reals Lra Lia List Arith Bool SpecFloat Permutation.
From Flocq Require Import Core BinarySingleNaN.
From Verif Require Import Num Outcome LinAlg RSum RPoly LegendreModel LegendreSpec LegendreMath LegendreProofs InterpMath2 LagrangeModel LagrangeSpec LagrangeMath LagrangeProofs
  BasisModel GSplineModel GSplineProofs GSplineProofs2 GSplineProofs5 SplineSpec IEEEModel IEEESpec IEEEProofs IEEEHorner IEEELegendre IEEESpline IEEEProps2 IEEELagrange.
Import ListNotations.
Local Open Scope R_scope.

(** ** Specification *)
(** the Lebesgue function of the nodes: how much the Lagrange polynomials amplify *)
Definition lebesgue (n : nat) (x : nat -> R) (s : R) : R := Rsum n (fun j => Rabs (lagr n x j s)).
(** relative error of one polynomial where the Lebesgue function is at most L *)
Definition lag_error (n : nat) (L : R) : R := 12 * INR (n + 1) * uu * (1 + L).
(** relative error of the value of a piece *)
Definition lag_value_error (n : nat) (L : R) : R := 33 * INR (n + 1) * uu * L * L.
(** nodes of the window, finite, with gaps of at least 1/G, far from under- and overflow *)
Definition nodes64 (n : nat) (x : nat -> b64) (G : R) : Prop :=
  (1 <= n)%nat /\ (forall j, (j < n)%nat -> fin (x j) /\ Rabs (val (x j)) <= 1) /\
  (forall j k, (j < n)%nat -> (k < n)%nat -> j <> k -> / G <= Rabs (val (x j) - val (x k))) /\ 2 <= G /\ (2 * G) ^ n <= 2 ^ 400.

Section L.
Variable m : libm.
Local Instance BN : Num b64 := B64num m.
Section N.
Variables (n : nat) (x : nat -> b64) (G : R).
Hypothesis (Nd : nodes64 n x G).
Let X j := val (x j).

Lemma nd_gap j k : (j < n)%nat -> (k < n)%nat -> j <> k -> / G <= Rabs (val (x j) - val (x k)) <= G.
Proof.
  destruct Nd as (_ & F & Gp & G2 & _). intros Hj Hk N. split; [apply Gp; auto|]. eapply Rle_trans; [apply (Rabs_triang _ (- val (x k)))|]. rewrite Rabs_Ropp. pose proof (proj2 (F j Hj)). pose proof (proj2 (F k Hk)). lra.
Qed.
Lemma nd_off s : fin s -> Rabs (val s) <= 2 -> (forall j, (j < n)%nat -> almost_equal s (x j) tol9 = false) -> forall j, (j < n)%nat -> / 2 ^ 61 <= Rabs (val s - val (x j)) <= 2 ^ 61.
Proof.
  intros Fs Hs Ha j Hj. destruct Nd as (_ & F & _). destruct (F j Hj) as (Fj & Bj). split; [apply (near64 m s (x j)); auto; apply Ha; auto|].
  eapply Rle_trans; [apply (Rabs_triang _ (- val (x j)))|]. rewrite Rabs_Ropp. apply Rle_trans with (2 ^ 2); [lra|apply pow_lit; lia].
Qed.
(** what evaluation writes *)
Lemma lag_values (pts bw b : vec b64) s : vec_is pts n x -> bary_weights pts = Ok bw -> vlen b = n -> fin s -> Rabs (val s) <= 2 ->
  6 * INR (n + 1) * uu * lebesgue n X (val s) <= / 2 ->
  exists b' p, lag_eval pts bw s b = Ok b' /\ vec_is b' n p /\ (forall i, (i < n)%nat -> fin (p i)) /\
    ((exists j, (j < n)%nat /\ Rabs (val s - X j) <= 11 / 10000000000 /\ forall i, (i < n)%nat -> val (p i) = if Nat.eqb i j then 1 else 0) \/
     (forall i, (i < n)%nat -> Rabs (val (p i) - lagr n X i (val s)) <= lag_error n (lebesgue n X (val s)) * Rabs (lagr n X i (val s)) + hh)).
Proof.
  intros P Eb Lb Fs Hs HL. destruct Nd as (Hn & F & Gp & G2 & Cap).
  destruct (bary_weights_gen pts n x P) as (w & E & W). rewrite Eb in E. injection E as <-.
  destruct (lag_eval_gen pts bw b n x (gw x n) s P W Lb) as (b' & mt & M & Ee & V). exists b'. eexists. split; [exact Ee|]. split; [exact V|]. destruct mt as [j|]; cbn [first_match] in M.
  - destruct M as (Hj & Ma & _). destruct (F j Hj) as (Fj & Bj). destruct (one64 m) as (F1 & V1). split; [intros i Hi; destruct (Nat.eqb i j); [exact F1|reflexivity]|].
    left. exists j. split; auto. split; [apply (near64 m s (x j)); auto|]. intros i Hi. destruct (Nat.eqb i j); [exact V1|reflexivity].
  - pose proof (nd_off s Fs Hs M) as Off. assert (Fx : forall j, (j < n)%nat -> fin (x j)) by (intros; apply F; auto). assert (G1 : 1 <= G) by lra.
    assert (A : forall i, (i < n)%nat -> _) by exact (fun i Hi => lag64 m n x G G1 Fx nd_gap Cap s Fs Off Hn i Hi HL).
    split; [intros i Hi; apply A; auto|]. right. intros i Hi. apply (A i Hi).
Qed.
Lemma lebesgue_ge1 s : 1 <= lebesgue n X s.
Proof.
  destruct Nd as (Hn & F & Gp & G2 & Cap). assert (D : distinct n X). { intros i j Hi Hj N E. specialize (Gp i j Hi Hj N). unfold X in E. rewrite E, Rminus_eq_0, Rabs_R0 in Gp. pose proof (Rinv_0_lt_compat G ltac:(lra)). lra. }
  rewrite <- (lagr_sum n X s D Hn). eapply Rle_trans; [apply Rle_abs|]. apply InterpMath2.Rsum_abs.
Qed.
End N.

(** ** C64 *)
(** weights: relative error *)
Theorem C64_weights n x G pts : nodes64 n x G -> vec_is pts n x -> exists bw w, bary_weights pts = Ok bw /\ vec_is bw n w /\
  forall k, (k < n)%nat -> fin (w k) /\ let W := Rprod n (fun i => if Nat.eqb i k then 1 else val (x k) - val (x i)) in W <> 0 /\ Rabs (val (w k) - / W) <= 2 * INR (2 * n + 1) * uu * Rabs (/ W).
Proof.
  intros Nd P. pose proof Nd as (Hn & F & Gp & G2 & Cap). destruct (bary_weights_gen pts n x P) as (bw & E & W). exists bw, (gw x n). split; [exact E|]. split; [exact W|]. intros k Hk.
  assert (Fx : forall j, (j < n)%nat -> fin (x j)) by (intros; apply F; auto). assert (G1 : 1 <= G) by lra.
  destruct (w64 m n x G G1 Fx (nd_gap n x G Nd) Cap k Hk) as (Fw & q & Q & Vw). split; [exact Fw|]. cbv zeta. change (Rprod n _) with (wprod n (fun j => val (x j)) k). split.
  - apply (bnd_neq0 (G ^ n)); [apply pow_lt; lra|]. exact (dprd_bnd n x G G1 (nd_gap n x G Nd) k n Hk (le_n n)).
  - assert (W' : val (gw x n k) = / wprod n (fun j => val (x j)) k * q) by exact Vw. rewrite W'. set (w := / wprod _ _ _). replace (w * q - w) with (w * (q - 1)) by ring. rewrite Rabs_mult, Rmult_comm. apply Rmult_le_compat_r; [apply Rabs_pos|].
    eapply Rle_trans; [apply (rat_abs _ _ Q)|]. apply bt_lin. eapply Rle_trans; [|apply (ksmall n G G1 Cap)]. apply Rmult_le_compat_r; [apply Rlt_le, uu_pos|]. apply le_INR. lia.
Qed.
(** values of all polynomials: exact at a node, small relative error elsewhere *)
Theorem C64_values n x G (pts b : vec b64) s : nodes64 n x G -> vec_is pts n x -> vlen b = n -> fin s -> Rabs (val s) <= 2 ->
  let L := lebesgue n (fun j => val (x j)) (val s) in 6 * INR (n + 1) * uu * L <= / 2 ->
  exists bw b' p, bary_weights pts = Ok bw /\ lag_eval pts bw s b = Ok b' /\ vec_is b' n p /\ (forall i, (i < n)%nat -> fin (p i)) /\
    ((exists j, (j < n)%nat /\ Rabs (val s - val (x j)) <= 11 / 10000000000 /\ forall i, (i < n)%nat -> val (p i) = if Nat.eqb i j then 1 else 0) \/
     (forall i, (i < n)%nat -> let l := lagr n (fun j => val (x j)) i (val s) in Rabs (val (p i) - l) <= lag_error n L * Rabs l + hh)).
Proof.
  intros Nd P Lb Fs Hs L HL. destruct (bary_weights_gen pts n x P) as (bw & E & _). destruct (lag_values n x G Nd pts bw b s P E Lb Fs Hs HL) as (b' & p & H). exists bw, b', p. split; [exact E|]. exact H.
Qed.

(** scalar products with a single term different from 0 are exact *)
Definition nz (p : b64 * b64) : R := if Req_EM_T (dprod p) 0 then 0 else 1.
Lemma nz_dec l : (lsum nz l = 0 /\ lsum dprod l = 0) \/ 1 <= lsum nz l.
Proof.
  unfold lsum. induction l as [|a l IH]; cbn [fold_right]; [auto|]. unfold nz at 1 3. destruct (Req_EM_T (dprod a) 0) as [E|N]; destruct IH as [(A & B)|A]; [left; lra|right; lra|right; lra|right; lra].
Qed.
Lemma fin_omax (v : b64) : Rabs (val v) < omax.
Proof. apply abs_B2R_lt_emax. Qed.
Lemma dot_single l v : dot_of l v -> Forall (fun p => fin (fst p) /\ fin (snd p)) l -> Forall (fun p => fmt (dprod p) /\ Rabs (dprod p) < omax) l -> lsum nz l <= 1 -> fin v /\ val v = lsum dprod l.
Proof.
  induction 1 as [|a b|l l' y z Dx IHx Dy IHy|a b l y Dx IHx|l l' y Pm Dx IHx]; intros Fl Pl Hz.
  - split; reflexivity.
  - inversion_clear Fl as [|? ? (Fa & Fb) _]. inversion_clear Pl as [|? ? (Pf & Pb) _]. cbn [fst snd dprod] in *. destruct (mul_ok a b Fa Fb) as (A & B); [rewrite rnd_fmt; auto|]. split; [exact A|]. rewrite B, rnd_fmt by auto. unfold lsum, dprod. cbn. ring.
  - apply Forall_app in Fl, Pl. destruct Fl as (Fl & Fl'), Pl as (Pl & Pl'). rewrite lsum_app in Hz |- *.
    assert (N : 0 <= lsum nz l /\ 0 <= lsum nz l') by (split; [destruct (nz_dec l) as [(A & _)|A]|destruct (nz_dec l') as [(A & _)|A]]; lra).
    destruct (IHx Fl Pl ltac:(lra)) as (Fx & Vx). destruct (IHy Fl' Pl' ltac:(lra)) as (Fy & Vy).
    assert (E : val y + val z = val y /\ lsum dprod l' = 0 \/ val y + val z = val z /\ lsum dprod l = 0).
    { destruct (nz_dec l) as [(_ & A)|A]; [right|]. { rewrite Vx, A. split; [ring|reflexivity]. } destruct (nz_dec l') as [(_ & B)|B]; [left|lra]. rewrite Vy, B. split; [ring|reflexivity]. }
    destruct E as [(E & Z)|(E & Z)].
    + destruct (add_ok y z Fx Fy) as (A & B); [rewrite E, rnd_fmt by apply val_fmt; apply fin_omax|]. split; [exact A|]. rewrite B, E, rnd_fmt by apply val_fmt. rewrite Z, Vx. ring.
    + destruct (add_ok y z Fx Fy) as (A & B); [rewrite E, rnd_fmt by apply val_fmt; apply fin_omax|]. split; [exact A|]. rewrite B, E, rnd_fmt by apply val_fmt. rewrite Z, Vy. ring.
  - inversion_clear Fl as [|? ? (Fa & Fb) Fl']. inversion_clear Pl as [|? ? (Pf & Pb) Pl']. cbn [fst snd] in *. change (lsum nz ((a, b) :: l)) with (nz (a, b) + lsum nz l) in Hz. change (lsum dprod ((a, b) :: l)) with (dprod (a, b) + lsum dprod l).
    assert (N0 : 0 <= nz (a, b)) by (unfold nz; destruct (Req_EM_T (dprod (a, b)) 0); lra). destruct (IHx Fl' Pl' ltac:(lra)) as (Fx & Vx).
    assert (E : val a * val b + val y = dprod (a, b) /\ lsum dprod l = 0 \/ val a * val b + val y = val y /\ dprod (a, b) = 0).
    { destruct (nz_dec l) as [(_ & A)|A]; [left; rewrite Vx, A; split; [unfold dprod; cbn; ring|reflexivity]|right]. unfold nz at 1 in Hz. destruct (Req_EM_T (dprod (a, b)) 0) as [Z|]; [|lra]. split; [|exact Z]. unfold dprod in Z. cbn in Z. rewrite Z. ring. }
    destruct E as [(E & Z)|(E & Z)].
    + destruct (fma_ok a b y Fa Fb Fx) as (A & B); [rewrite E, rnd_fmt; auto|]. split; [exact A|]. rewrite B, E, rnd_fmt by auto. rewrite Z. ring.
    + destruct (fma_ok a b y Fa Fb Fx) as (A & B); [rewrite E, rnd_fmt by apply val_fmt; apply fin_omax|]. split; [exact A|]. rewrite B, E, rnd_fmt by apply val_fmt. rewrite Z, Vx. ring.
  - rewrite <- (lsum_perm dprod l l' Pm). apply IHx; [eapply Permutation_Forall; [apply Permutation_sym, Pm|exact Fl]|eapply Permutation_Forall; [apply Permutation_sym, Pm|exact Pl]|]. rewrite (lsum_perm nz l l' Pm). exact Hz.
Qed.

Section Value.
Variables (g : gspline b64) (dim n codom : nat) (t0 : b64) (tf cf : nat -> b64) (gram : list (mat b64)) (pts bw : vec b64) (x : nat -> b64) (G L : R).
Hypothesis Fin : finite_spline g n codom t0 tf cf.
Hypothesis Lag : gs_basis g = BLagrange pts bw gram.
Hypothesis Bw : bary_weights pts = Ok bw.
Hypothesis Pts : vec_is pts dim x.
Hypothesis Nd : nodes64 dim x G.
Hypothesis Fc : forall i, (i < n * dim * codom)%nat -> fin (cf i).
Let T0 := val t0.
Let tau i := val (tf i).
Let X j := val (x j).
Let C iv cc := Rsum dim (fun k => Rabs (val (cf ((iv * codom + cc) * dim + k)%nat))).
Hypothesis Sz : forall iv cc, (iv < n)%nat -> (cc < codom)%nat -> C iv cc <= 2 ^ 900.
Let dl := time_error T0 tau n.
Hypothesis Sm : forall iv, (iv < n)%nat -> 4 * dl / tau iv <= / 16.
Hypothesis Lb : forall s, Rabs s <= 9 / 8 -> lebesgue dim X s <= L.
Hypothesis Ls : 6 * INR (dim + 1) * uu * L <= / 2.

Lemma lvalue64 (t : b64) cc : fin t -> T0 <= val t <= bp T0 tau n + dl -> (cc < codom)%nat ->
  let iv := gint t0 tf n t in (iv < n)%nat /\ exists p t',
    (forall xx k, (k < dim)%nat -> bval (BLagrange pts bw gram) (gwin t0 tf iv t) xx k = p k) /\ Rabs (t' - val t) <= 3 * dl + 3 * uu * tau iv /\
    forall v, dot_of (pairs (fun k => cf (iv * dim * codom + dim * cc + k)%nat) p dim) v -> fin v /\
    ((exists j, (j < dim)%nat /\ Rabs (window (bp T0 tau iv) (tau iv) t' - X j) <= 11 / 10000000000 /\ val v = val (cf ((iv * codom + cc) * dim + j)%nat)) \/
     Rabs (val v - piece (DLag dim X) codom T0 tau (fun i => val (cf i)) iv cc t') <= lag_value_error dim L * C iv cc + INR dim * / 2 ^ 1074).
Proof.
  intros Ft Ht Hcc. cbv zeta. destruct Fin as (W & Hn & E0 & F0 & Htf & HM).
  assert (Ff : forall i, (i < n)%nat -> fin (tf i)) by (intros; apply Htf; auto). assert (Tp : forall i, (i < n)%nat -> 0 < tau i) by (intros; apply Htf; auto).
  destruct (search_ok m t0 tf n t Hn F0 Ft Ff Tp HM) as (Hiv & Hin); try tauto. set (iv := gint t0 tf n t) in *.
  change (tdelta t0 tf n) with dl in Hin. specialize (Sm iv Hiv).
  assert (DP : 0 <= dl) by (apply (delta_pos t0 tf n)). pose proof uu_pos as U. pose proof uu_small as US. pose proof (Tp iv Hiv) as Hp.
  destruct (window_ok m t0 tf n t Hn F0 Ft Ff Tp HM iv Hiv) as (t1 & Ht1 & Hdt & Fw & Bww); auto.
  change (tdelta t0 tf n) with dl in *. fold T0 in Ht1, Bww. change (fun i => val (tf i)) with tau in Ht1, Bww. change (val (tf iv)) with (tau iv) in Bww. split; [exact Hiv|].
  set (s := gwin t0 tf iv t) in *. set (x1 := window (bp T0 tau iv) (tau iv) t1) in *.
  assert (Hx : -1 <= x1 <= 1).
  { unfold x1, window. assert (EbS : bp T0 tau (S iv) = bp T0 tau iv + tau iv) by apply bp_S64. rewrite EbS in Ht1. split.
    - assert (0 <= 2 * (t1 - bp T0 tau iv) / tau iv) by (apply Rdiv_le_0_compat; lra). lra.
    - assert (2 * (t1 - bp T0 tau iv) / tau iv <= 2) by (apply Rle_div_l; lra). lra. }
  assert (Hs : Rabs (val s) <= 9 / 8). { pose proof Bww as B1. apply Rabs_le_between in B1. apply Rabs_le. lra. }
  set (t2 := bp T0 tau iv + tau iv * (val s + 1) / 2).
  assert (Ew : window (bp T0 tau iv) (tau iv) t2 = val s) by (unfold window, t2; field; lra).
  specialize (Lb (val s) Hs). pose proof (lebesgue_ge1 dim x G Nd (val s)) as L1. fold X in L1.
  assert (Sml : 6 * INR (dim + 1) * uu * lebesgue dim X (val s) <= / 2).
  { eapply Rle_trans; [|exact Ls]. apply Rmult_le_compat_l; [|exact Lb]. apply Rmult_le_pos; [|lra]. pose proof (pos_INR (dim + 1)). lra. }
  destruct (lag_values dim x G Nd pts bw (vnew dim) s Pts Bw eq_refl Fw ltac:(lra) Sml) as (b' & p & Ep & Vp & Fp & Cs). fold X in Cs.
  exists p, t2. split.
  { intros xx k Hk. assert (Dm : vlen pts = dim) by apply Pts. apply (bval_is (BLagrange pts bw gram) s xx b' p); cbn [b_eval b_dim]; rewrite ?Dm; auto. }
  split.
  { replace (t2 - val t) with ((t2 - t1) + (t1 - val t)) by ring. eapply Rle_trans; [apply Rabs_triang|].
    assert (Et : t2 - t1 = tau iv / 2 * (val s - x1)) by (unfold t2, x1, window; field; lra).
    assert (Rabs (t2 - t1) <= tau iv / 2 * (4 * dl / tau iv + 6 * uu)). { rewrite Et, Rabs_mult, (Rabs_pos_eq (tau iv / 2)) by lra. apply Rmult_le_compat_l; [lra|exact Bww]. }
    replace (tau iv / 2 * (4 * dl / tau iv + 6 * uu)) with (2 * dl + 3 * uu * tau iv) in H by (field; lra). lra. }
  intros v Hv. set (c := fun k => cf (iv * dim * codom + dim * cc + k)%nat) in *.
  assert (Ec : forall k, c k = cf ((iv * codom + cc) * dim + k)%nat) by (intros k; unfold c; f_equal; ring).
  assert (Hidx : forall k, (k < dim)%nat -> ((iv * codom + cc) * dim + k < n * dim * codom)%nat).
  { intros k Hk. assert ((iv * codom + cc) * dim + k < (iv * codom + codom) * dim)%nat by nia. assert ((iv * codom + codom) * dim <= n * codom * dim)%nat by (apply Nat.mul_le_mono_r; nia). nia. }
  assert (EC : Rsum dim (fun k => Rabs (val (c k))) = C iv cc) by (apply Rsum_ext; intros k _; rewrite Ec; reflexivity).
  assert (C0 : 0 <= C iv cc) by (apply Rsum_nonneg; intros; apply Rabs_pos).
  assert (Fck : forall k, (k < dim)%nat -> fin (c k)) by (intros k Hk; rewrite Ec; apply Fc; auto).
  destruct Cs as [(j & Hj & Hd & Up)|Er].
  - assert (Sg : fin v /\ val v = lsum dprod (pairs c p dim)).
    { apply dot_single; auto.
      - apply Forall_forall. intros (a, b) Hin'. unfold pairs in Hin'. apply in_map_iff in Hin'. destruct Hin' as (k & Ek & Hk). injection Ek as <- <-. apply in_seq in Hk. cbn. split; [apply Fck|apply Fp]; lia.
      - apply Forall_forall. intros (a, b) Hin'. unfold pairs in Hin'. apply in_map_iff in Hin'. destruct Hin' as (k & Ek & Hk). injection Ek as <- <-. apply in_seq in Hk. unfold dprod. cbn [fst snd]. rewrite Up by lia.
        destruct (Nat.eqb k j); [rewrite Rmult_1_r; split; [apply val_fmt|apply fin_omax]|]. rewrite Rmult_0_r, Rabs_R0. split; [apply generic_format_0|]. unfold omax. apply bpow_gt_0.
      - rewrite lsum_pairs. rewrite (Rsum_delta dim j); auto.
        + unfold nz. destruct (Req_EM_T (dprod (c j, p j)) 0); lra.
        + intros k Hk N. unfold nz. destruct (Req_EM_T (dprod (c k, p k)) 0) as [|Z]; auto. exfalso. apply Z. unfold dprod. cbn [fst snd]. rewrite Up by auto. rewrite (proj2 (Nat.eqb_neq k j) N). ring. }
    destruct Sg as (Fv & Vv). split; [exact Fv|]. left. exists j. split; [exact Hj|]. rewrite Ew. split; [exact Hd|]. rewrite Vv, lsum_pairs. rewrite (Rsum_delta dim j); auto.
    + unfold dprod. cbn [fst snd]. rewrite Up by auto. rewrite Nat.eqb_refl, Ec. ring.
    + intros k Hk N. unfold dprod. cbn [fst snd]. rewrite Up by auto. rewrite (proj2 (Nat.eqb_neq k j) N). ring.
  - set (Lam := lebesgue dim X (val s)) in *. set (e := INR (dim + 1) * uu) in *. assert (E1 : 0 < e) by (unfold e; apply Rmult_lt_0_compat; [apply lt_0_INR; lia|lra]).
    assert (HL1 : 1 <= L) by lra. assert (EL : 6 * e * L <= / 2) by (unfold e; rewrite <- Rmult_assoc; exact Ls). assert (E12 : e <= / 12) by nra.
    pose proof hh_pos as HP. pose proof hh_uu as HU. assert (ue : uu <= e). { unfold e. rewrite <- (Rmult_1_l uu) at 1. apply Rmult_le_compat_r; [lra|]. apply (le_INR 1). lia. }
    assert (lagL : forall k, (k < dim)%nat -> Rabs (lagr dim X k (val s)) <= L).
    { intros k Hk. eapply Rle_trans; [|exact Lb]. unfold Lam, lebesgue. apply (Rsum_term dim (fun j => Rabs (lagr dim X j (val s))) k); auto. intros; apply Rabs_pos. }
    assert (LE : lag_error dim Lam <= 12 * e * (1 + L)). { unfold lag_error. replace (12 * INR (dim + 1) * uu) with (12 * e) by (unfold e; ring). apply Rmult_le_compat_l; lra. }
    assert (Erk : forall k, (k < dim)%nat -> Rabs (val (p k) - lagr dim X k (val s)) <= 12 * e * (1 + L) * L + hh).
    { intros k Hk. eapply Rle_trans; [apply (Er k Hk)|]. apply Rplus_le_compat_r. apply Rmult_le_compat; [| |exact LE|apply lagL; auto]; [|apply Rabs_pos].
      unfold lag_error. replace (12 * INR (dim + 1) * uu) with (12 * e) by (unfold e; ring). apply Rmult_le_pos; lra. }
    assert (PB : forall k, (k < dim)%nat -> fin (c k) /\ fin (p k) /\ Rabs (val (p k)) <= 4 * L).
    { intros k Hk. split; [auto|]. split; [auto|]. pose proof (Erk k Hk) as B. apply abs_of_near in B. specialize (lagL k Hk). assert (12 * e * (1 + L) * L <= 2 * L); [|lra]. apply Rmult_le_compat_r; [lra|]. nra. }
    assert (DU : INR (S dim) * uu <= / 12) by (replace (S dim) with (dim + 1)%nat by lia; exact E12).
    pose proof (pow_1u_lin (S dim) ltac:(lra)) as PL. pose proof (pow_1u_le dim (S dim) ltac:(lia)) as PM. pose proof (pow_1u_ge1 dim) as P1.
    assert (dh : INR dim * hh <= 1). { apply Rle_trans with (INR (S dim) * uu); [|lra]. apply Rmult_le_compat; [apply pos_INR|lra|apply le_INR; lia|lra]. }
    assert (L53 : L <= 2 ^ 53). { assert (uu * L <= e * L) by (apply Rmult_le_compat_r; lra). assert (X1 : uu * L <= 1) by lra. unfold uu in X1. apply Rmult_le_reg_l with (/ 2 ^ 53); [exact U|]. rewrite Rinv_l by lra. exact X1. }
    destruct (dot_ok c p dim (4 * L) v PB) as (Fv & Bv); [lra| |exact Hv|].
    { rewrite EC. specialize (Sz iv cc Hiv Hcc). assert (A1 : C iv cc * (4 * L) + INR dim * hh <= 2 ^ 900 * 2 ^ 55 + 1).
      { apply Rplus_le_compat; [|exact dh]. apply Rmult_le_compat; auto; lra. }
      assert (A2 : 2 ^ 900 * 2 ^ 55 + 1 <= 2 ^ 956). { rewrite <- pow_add. replace (2 ^ 956) with (2 * 2 ^ (900 + 55)) by reflexivity. assert (1 <= 2 ^ (900 + 55)) by (apply pow_R1_Rle; lra). set (zz := 2 ^ (900 + 55)) in *. lra. }
      apply Rle_trans with (2 * 2 ^ 956).
      - assert (0 <= INR dim * hh) by (apply Rmult_le_pos; [apply pos_INR|lra]). assert (0 <= C iv cc * (4 * L)) by (apply Rmult_le_pos; lra). pose proof (pow_1u_ge1 (S dim)). set (zz := 2 ^ 956) in *. set (yy := 2 ^ 900 * 2 ^ 55 + 1) in *. apply Rmult_le_compat; lra.
      - rewrite tech_pow_Rmult. unfold big. apply pow_lit. lia. }
    rewrite EC in Bv. split; [exact Fv|]. right. unfold piece. cbn [d_dim]. unfold tphi. rewrite Ew. cbn [phi].
    set (V := val v) in *. set (Y := Rsum dim (fun k => val (c k) * val (p k))) in *.
    set (Z := Rsum dim (fun bb => val (cf ((iv * codom + cc) * dim + bb)%nat) * lagr dim X bb (val s))).
    assert (YZ : Rabs (Y - Z) <= (12 * e * (1 + L) * L + hh) * C iv cc).
    { unfold Y, Z. rewrite <- Rsum_minus. eapply Rle_trans; [apply InterpMath2.Rsum_abs|]. unfold C. rewrite <- Rsum_scal. apply Rsum_le. intros k Hk.
      rewrite Ec. rewrite <- Rmult_minus_distr_l, Rabs_mult. rewrite Rmult_comm. apply Rmult_le_compat_r; [apply Rabs_pos|]. apply Erk; auto. }
    assert (BX : Rabs (V - Y) <= ((1 + uu) ^ S dim - 1) * (C iv cc * (4 * L)) + (1 + uu) ^ dim * (INR dim * hh)) by exact Bv.
    replace (V - Z) with ((V - Y) + (Y - Z)) by ring. eapply Rle_trans; [apply Rabs_triang|].
    assert (H1074 : / 2 ^ 1074 = 2 * hh). { unfold hh. replace (2 ^ 1075) with (2 * 2 ^ 1074) by reflexivity. rewrite Rinv_mult. field. }
    rewrite H1074. unfold lag_value_error. replace (33 * INR (dim + 1) * uu * L * L) with (33 * e * L * L) by (unfold e; ring).
    assert (A1 : ((1 + uu) ^ S dim - 1) * (C iv cc * (4 * L)) <= 8 * e * L * C iv cc).
    { apply Rle_trans with (2 * e * (C iv cc * (4 * L))); [|right; ring]. apply Rmult_le_compat_r; [apply Rmult_le_pos; lra|]. replace (S dim) with (dim + 1)%nat in * by lia. unfold e. lra. }
    assert (A2 : (1 + uu) ^ dim * (INR dim * hh) <= 2 * (INR dim * hh)) by (apply Rmult_le_compat_r; [apply Rmult_le_pos; [apply pos_INR|lra]|lra]).
    assert (A3 : (12 * e * (1 + L) * L + hh) + 8 * e * L <= 33 * e * L * L).
    { assert (hh <= e * L) by nra. assert (e * L <= e * L * L) by nra. lra. }
    assert (A4 : ((12 * e * (1 + L) * L + hh) + 8 * e * L) * C iv cc <= 33 * e * L * L * C iv cc) by (apply Rmult_le_compat_r; auto).
    lra.
Qed.
(** at a time whose window coordinate falls on a node the stored coefficient is returned exactly; elsewhere the value of the exact piece
    at a time nearby, up to the square of the Lebesgue function *)
Theorem C64_spline ts pf np : vec_is ts np pf -> (forall i, (i < np)%nat -> fin (pf i) /\ T0 <= val (pf i) <= bp T0 tau n + dl) ->
  exists M, gs_value g ts = Ok M /\ mrows M = np /\ mcols M = codom /\
  forall i cc, (i < np)%nat -> (cc < codom)%nat -> exists v iv t', mget M i cc = Some v /\ fin v /\ (iv < n)%nat /\ Rabs (t' - val (pf i)) <= 3 * dl + 3 * uu * tau iv /\
    ((exists j, (j < dim)%nat /\ Rabs (window (bp T0 tau iv) (tau iv) t' - X j) <= 11 / 10000000000 /\ val v = val (cf ((iv * codom + cc) * dim + j)%nat)) \/
     Rabs (val v - piece (DLag dim X) codom T0 tau (fun k => val (cf k)) iv cc t') <= lag_value_error dim L * C iv cc + INR dim * / 2 ^ 1074).
Proof.
  intros V Hp. destruct Fin as (W & Hn & E0 & _). destruct (value_gen g n codom tf cf ts pf np W Hn V) as (M & E & R1 & R2 & Gt). rewrite E0 in Gt.
  exists M. split; [exact E|]. split; [exact R1|]. split; [exact R2|]. intros i cc Hi Hcc. destruct (Hp i Hi) as (Ft & Ht).
  destruct (lvalue64 (pf i) cc Ft Ht Hcc) as (H1 & p & t' & Pv & Ht' & Hv). set (iv := gint t0 tf n (pf i)) in *.
  eexists. exists iv, t'. split; [apply Gt; auto|]. rewrite Lag. unfold gpt. assert (Dm : b_dim (BLagrange pts bw gram) = dim) by (cbn [b_dim]; apply Pts). rewrite Dm. fold iv.
  destruct (Hv (nsum dim (fun k => nmul (cf (iv * dim * codom + dim * cc + k)%nat) (p k)))) as (Fv & Bv); [apply (nsum_dot m)|].
  match goal with |- fin ?v /\ _ => replace v with (nsum dim (fun k => nmul (cf (iv * dim * codom + dim * cc + k)%nat) (p k))) end; [auto|].
  apply nsum_ext. intros k Hk. f_equal. symmetry. apply Pv; auto.
Qed.
End Value.
End L.

(** ** A case: the nodes -1, 0, 1 on an interval of length 2 from 0, coefficients 1, 2, 4, at 3/2 and at the exact middle *)
Definition xn64 (i : nat) : b64 := nth i [z64 (-1); z64 0; z64 1] (z64 0).
Definition pt64 : vec b64 := vec_of_list [z64 (-1); z64 0; z64 1].
Lemma xn64_ok : nodes64 3 xn64 2.
Proof.
  split; [lia|]. split; [|split; [|split; [lra|]]].
  - intros j Hj. destruct j as [|[|[|j]]]; [| | |lia]; unfold xn64; cbn [nth]; (split; [reflexivity|rewrite z64v by (cbn; lia); unfold Rabs; destruct Rcase_abs; lra]).
  - intros j k Hj Hk N. destruct j as [|[|[|j]]]; [| | |lia]; (destruct k as [|[|[|k]]]; [| | |lia]); try congruence; unfold xn64; cbn [nth]; rewrite !z64v by (cbn; lia); unfold Rabs; destruct Rcase_abs; lra.
  - replace (2 * 2) with (2 ^ 2) by (cbn; ring). rewrite <- pow_mult. apply pow_lit. cbn. lia.
Qed.
Lemma xn64_leb s : Rabs s <= 9 / 8 -> lebesgue 3 (fun j => val (xn64 j)) s <= 4.
Proof.
  intros H. unfold lebesgue. cbn [Rsum]. unfold lagr. cbn [Rprod Nat.eqb]. unfold xn64. cbn [nth]. rewrite !z64v by (cbn; lia).
  assert (B : forall a b y z, -9/4 <= a <= 9/4 -> -9/4 <= b <= 9/4 -> y = a * b -> z = Rabs y -> z <= 81 / 16).
  { intros a b y z Ha Hb -> ->. rewrite Rabs_mult. apply Rle_trans with (9 / 4 * (9 / 4)); [|lra]. apply Rmult_le_compat; auto using Rabs_pos; apply Rabs_le; lra. }
  apply Rabs_le_between in H.
  assert (A0 : Rabs (1 * 1 * ((s - 0) / (-1 - 0)) * ((s - 1) / (-1 - 1))) <= 5 / 4).
  { replace (1 * 1 * ((s - 0) / (-1 - 0)) * ((s - 1) / (-1 - 1))) with (s * (s - 1) / 2) by field. apply Rabs_le. split; nra. }
  assert (A1 : Rabs (1 * ((s - -1) / (0 - -1)) * 1 * ((s - 1) / (0 - 1))) <= 1).
  { replace (1 * ((s - -1) / (0 - -1)) * 1 * ((s - 1) / (0 - 1))) with (1 - s * s) by field. apply Rabs_le. split; nra. }
  assert (A2 : Rabs (1 * ((s - -1) / (1 - -1)) * ((s - 0) / (1 - 0)) * 1) <= 5 / 4).
  { replace (1 * ((s - -1) / (1 - -1)) * ((s - 0) / (1 - 0)) * 1) with (s * (s + 1) / 2) by field. apply Rabs_le. split; nra. }
  lra.
Qed.
Definition lag64_spline (m : libm) : gspline b64 :=
  let b := BLagrange pt64 (match bary_weights (H := B64num m) pt64 with Ok w => w | _ => vnew 0 end) [] in
  mkgs (z64 0, z64 2) 1 (vec_of_list [z64 1; z64 2; z64 4]) (vec_of_list [z64 2]) b (bs_init (H := B64num m) b) (vnew 3).
Definition lcf64 (i : nat) : b64 := nth i [z64 1; z64 2; z64 4] (z64 0).
Definition three_halves : b64 := Bdiv mode_NE (z64 3) (z64 2).
Lemma lag64_ok m : finite_spline (lag64_spline m) 1 1 (z64 0) (fun i => nth i [z64 2] (z64 0)) lcf64.
Proof.
  split; [|split; [lia|split; [reflexivity|split; [reflexivity|split]]]].
  - destruct (bary_weights_gen (H := B64num m) pt64 3 xn64) as (w & E & W); [apply (vec_of_list_is [z64 (-1); z64 0; z64 1] (z64 0))|].
    unfold lag64_spline. rewrite E. split; [|split; [reflexivity|split; [apply (vec_of_list_is [z64 2] (z64 0))|split; [apply (vec_of_list_is [z64 1; z64 2; z64 4] (z64 0))|reflexivity]]]].
    cbn [gs_basis bok]. exists xn64, (gw (H := B64num m) xn64 3). split; [apply (vec_of_list_is [z64 (-1); z64 0; z64 1] (z64 0))|exact W].
  - intros i Hi. replace i with 0%nat by lia. cbn [nth]. split; [reflexivity|rewrite z64v by (cbn; lia); lra].
  - cbn [Rsum nth]. rewrite !z64v by (cbn; lia). rewrite !Rabs_pos_eq by lra. pose proof (pow_1u_lin 2) as P. cbn [INR] in P. pose proof uu_small. specialize (P ltac:(lra)). pose proof uu_pos.
    apply Rle_trans with (2 ^ 3); [lra|]. apply pow_lit. lia.
Qed.
Example C64_case m : exists M v t', gs_value (H := B64num m) (lag64_spline m) (vec_of_list [three_halves]) = Ok M /\ mget M 0 0 = Some v /\ fin v /\
  Rabs (t' - 3 / 2) <= 100 * uu /\ Rabs (val v - (1 + t' / 2 + t' * t' / 2)) <= 20000 * uu.
Proof.
  pose proof uu_small as US. pose proof uu_pos as UP. pose proof hh_pos as HP. pose proof hh_uu as HU.
  destruct (bary_weights_gen (H := B64num m) pt64 3 xn64) as (w & Ew & Ww); [apply (vec_of_list_is [z64 (-1); z64 0; z64 1] (z64 0))|].
  assert (B : gs_basis (lag64_spline m) = BLagrange pt64 w []) by (unfold lag64_spline; rewrite Ew; reflexivity).
  set (tf := fun i => nth i [z64 2] (z64 0)).
  assert (V32 : val three_halves = 3 / 2). { rewrite (val_sf three_halves false 6755399441055744 (-52)) by (vm_compute; reflexivity). cbn [cond_Zopp]. change (-52)%Z with (- (Z.of_nat 52))%Z. rewrite bpow_opp, bpow_pow. field. }
  assert (DL : time_error (val (z64 0)) (fun i => val (tf i)) 1 <= 8 * uu /\ 0 <= time_error (val (z64 0)) (fun i => val (tf i)) 1).
  { split; [|apply (delta_pos (z64 0) tf 1)]. unfold time_error, tf. cbn [Rsum nth]. rewrite !z64v by (cbn; lia). rewrite !Rabs_pos_eq by lra. pose proof (pow_1u_lin 2) as P. cbn [INR] in P. specialize (P ltac:(lra)). lra. }
  destruct (C64_spline m (lag64_spline m) 3 1 1 (z64 0) tf lcf64 [] pt64 w xn64 2 4 (lag64_ok m) B Ew) with (ts := vec_of_list [three_halves]) (pf := fun i => nth i [three_halves] three_halves) (np := 1%nat) as (M & E & _ & _ & G).
  - apply (vec_of_list_is [z64 (-1); z64 0; z64 1] (z64 0)).
  - apply xn64_ok.
  - intros i Hi. do 3 (destruct i as [|i]; [reflexivity|]). lia.
  - intros iv cc Hi Hc. replace iv with 0%nat by lia. replace cc with 0%nat by lia. cbn [Rsum Nat.add Nat.mul]. unfold lcf64. cbn [nth]. rewrite !z64v by (cbn; lia). rewrite !Rabs_pos_eq by lra. apply Rle_trans with (2 ^ 3); [lra|apply pow_lit; lia].
  - intros iv Hi. replace iv with 0%nat by lia. unfold tf at 2. cbn [nth]. rewrite (z64v 2) by (cbn; lia). lra.
  - apply xn64_leb.
  - cbn [INR Nat.add]. lra.
  - apply (vec_of_list_is [three_halves] three_halves).
  - intros i Hi. replace i with 0%nat by lia. cbn [nth]. split; [reflexivity|]. rewrite V32. set (d := time_error _ _ _) in *. unfold bp. cbn [Rsum]. unfold tf. cbn [nth]. rewrite !z64v by (cbn; lia). lra.
  - destruct (G 0%nat 0%nat ltac:(lia) ltac:(lia)) as (v & iv & t' & Gv & Fv & Hiv & Ht & Cs). replace iv with 0%nat in * by lia. clear G. cbn [nth] in Ht. rewrite V32 in Ht.
    assert (T2 : val (tf 0%nat) = 2) by (unfold tf; cbn [nth]; apply z64v; cbn; lia). rewrite T2 in *.
    assert (Ht2 : Rabs (t' - 3 / 2) <= 100 * uu) by lra. exists M, v, t'. split; [exact E|]. split; [exact Gv|]. split; [exact Fv|]. split; [exact Ht2|].
    assert (B0 : bp (val (z64 0)) (fun i => val (tf i)) 0 = 0) by (unfold bp; cbn [Rsum]; rewrite z64v by (cbn; lia); lra).
    apply Rabs_le_between in Ht2. destruct Cs as [(j & Hj & Hd & _)|Hv].
    + exfalso. rewrite B0 in Hd. unfold window in Hd. apply Rabs_le_between in Hd. destruct j as [|[|[|j]]]; [| | |lia]; unfold xn64 in Hd; cbn [nth] in Hd; rewrite z64v in Hd by (cbn; lia); lra.
    + unfold piece in Hv. cbn [d_dim] in Hv. unfold tphi in Hv. rewrite T2 in Hv. rewrite B0 in Hv. cbn [phi Rsum Nat.add Nat.mul] in Hv. unfold lagr, window in Hv. cbn [Rprod Nat.eqb] in Hv. unfold lcf64, xn64 in Hv. cbn [nth] in Hv. rewrite !z64v in Hv by (cbn; lia).
      rewrite (Rabs_pos_eq 1), (Rabs_pos_eq 2), (Rabs_pos_eq 4) in Hv by lra.
      match type of Hv with Rabs (_ - ?y) <= _ => replace y with (1 + t' / 2 + t' * t' / 2) in Hv by field end.
      eapply Rle_trans; [exact Hv|]. unfold lag_value_error. cbn [INR Nat.add]. assert (H1074 : / 2 ^ 1074 = 2 * hh). { unfold hh. replace (2 ^ 1075) with (2 * 2 ^ 1074) by reflexivity. rewrite Rinv_mult. field. } rewrite H1074. lra.
Qed.
