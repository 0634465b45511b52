(** Property C66: rounding in the evaluation of function expressions. *)
From Coquelicot Require Import Coquelicot.
From Coq Require Import ZArith Reals List Bool Lra Lia Arith.
From Flocq Require Import Core BinarySingleNaN.
From Verif Require Import Num Outcome FunModel FunSpec FunProofs IEEEModel IEEESpec IEEEProofs IEEEHorner IEEELagrange IEEEFunSpec IEEEFunProofs IEEEFunProofs2 IEEEFunProofs3.
Import ListNotations.
Local Open Scope R_scope.

(** ** The balls contain the computed components, their centres are the exact ones *)
Theorem C66_enclosure m eps dbg f pts ps : accurate m eps -> ps <> [] -> Forall2 within pts ps -> (forall p, In p ps -> beval eps f p <> None) ->
  exists rows, eval (H := B64num m) dbg f pts (fcod f) = Ok rows /\
    Forall2 (fun row p => exists l, beval eps f p = Some l /\ Forall2 within row l) rows ps.
Proof. intros HM N F Z. apply eval64; auto. apply Forall_forall. exact Z. Qed.
Theorem C66_centres eps dbg f ps : 0 <= eps -> ps <> [] -> (forall p, In p ps -> 0 <= snd p /\ beval eps f p <> None) ->
  exists ls, Forall2 (fun p l => beval eps f p = Some l) ps ls /\ eval dbg (exact_fn f) (map fst ps) (fcod f) = Ok (map (map fst) ls).
Proof.
  intros He N Z. destruct (evalR eps He dbg f (map fst ps) ps N) as (rows & E & F).
  - assert (Z' : forall p, In p ps -> 0 <= snd p) by (intros p Hp; apply Z; auto). clear -Z'. induction ps as [|p ps IH]; cbn; constructor; [split; [reflexivity|apply Z'; left; reflexivity]|]. apply IH. intros q Hq. apply Z'. right. exact Hq.
  - apply Forall_forall. intros p Hp. apply Z. exact Hp.
  - assert (K : exists ls, Forall2 (fun p l => beval eps f p = Some l) ps ls /\ rows = map (map fst) ls).
    { clear -F. induction F as [|row p rows ps (l & E & Fl) F (ls & F' & ->)]; [exists []; split; [constructor|reflexivity]|].
      exists (l :: ls). split; [constructor; auto|]. cbn. f_equal. clear -Fl. induction Fl as [|x q row l (-> & _) Fl IH]; cbn; congruence. }
    destruct K as (ls & F' & ->). exists ls. auto.
Qed.

(** a bound known before any evaluation: N roundings on the way to a component change it by at most (1+u)^N - 1 of the same expression
    with absolute values *)
Lemma nth_close n rows xs sz : length rows = length xs -> length sz = length xs -> forall bl : list ball, Forall2 within rows bl -> Forall2 at_centre xs bl -> Forall2 (under n) sz bl ->
  close_rows (map (fun A => (gr n - 1) * A) sz) rows xs.
Proof.
  intros L1 L2 bl F1 F2 F3. split; [exact L1|]. split; [rewrite map_length; exact L2|]. clear L1 L2. revert rows sz F1 F3.
  induction F2 as [|x q xs bl (-> & _) F2 IH]; intros rows sz F1 F3 j Hj; [cbn in Hj; lia|]. inversion F1 as [|v ? rows' ? (Fv & Bv) F1']; subst. inversion F3 as [|A ? sz' ? (_ & U) F3']; subst.
  destruct j as [|j]; cbn [nth map].
  - split; [exact Fv|lra].
  - apply IH; auto. cbn in Hj. lia.
Qed.
Theorem C66_error m eps dbg f pts : accurate m eps -> eps <= 2 * uu -> Forall fin pts -> pts <> [] -> (forall t, In t pts -> fits f (Rabs (val t))) -> INR (ops f 0) * uu <= / 2 ->
  exists rows xs, eval (H := B64num m) dbg f pts (fcod f) = Ok rows /\ eval dbg (exact_fn f) (map val pts) (fcod f) = Ok xs /\ length rows = length pts /\ length xs = length pts /\
    forall i, (i < length pts)%nat ->
      close_rows (map (fun A => ((1 + uu) ^ ops f 0 - 1) * A) (sizes f (Rabs (val (nth i pts (B754_zero false)))))) (nth i rows []) (nth i xs []).
Proof.
  intros HM He Fp N FT F. pose proof (eps_nonneg m eps HM) as He0. set (ps := map (fun t => (val t, 0)) pts).
  assert (K : forall t, In t pts -> exists l, beval eps f (val t, 0) = Some l /\ Forall2 (under (ops f 0)) (sizes f (Rabs (val t))) l /\ length l = fcod f).
  { intros t Ht. apply (apriori eps (conj He0 He) f (Rabs (val t)) 0%nat (val t, 0) (FT t Ht)); [|exact F]. split; cbn [fst snd]; [lra|]. unfold gr. cbn. pose proof (Rabs_pos (val t)). lra. }
  assert (Np : ps <> []) by (destruct pts; [contradiction|discriminate]).
  assert (Z : forall p, In p ps -> beval eps f p <> None) by (intros p Hp; apply in_map_iff in Hp as (t & <- & Ht); destruct (K t Ht) as (l & -> & _); discriminate).
  destruct (C66_enclosure m eps dbg f pts ps HM Np) as (rows & E & FR); auto.
  { subst ps. clear -Fp. induction Fp; cbn; constructor; auto. split; [assumption|]. cbn. rewrite Rminus_eq_0, Rabs_R0. lra. }
  destruct (evalR eps He0 dbg f (map val pts) ps Np) as (xs & E' & FX).
  { subst ps. clear. induction pts; cbn; constructor; auto. split; cbn; [reflexivity|lra]. }
  { apply Forall_forall. exact Z. }
  exists rows, xs. split; [exact E|]. split; [exact E'|]. assert (Lp : length ps = length pts) by apply map_length.
  split; [rewrite <- Lp; eapply Forall2_len; exact FR|]. split; [rewrite <- Lp; eapply Forall2_len; exact FX|].
  clear -FR FX K. subst ps. revert rows xs FR FX. induction pts as [|t pts IH]; intros rows xs FR FX i Hi; [cbn in Hi; lia|]. cbn [map] in *.
  inversion FR as [|row ? rows' ? (l & El & Fl) FR']; subst. inversion FX as [|x ? xs' ? (l' & El' & Fl') FX']; subst. destruct i as [|i]; cbn [nth].
  - destruct (K t ltac:(left; reflexivity)) as (l0 & E0 & U0 & _). rewrite E0 in El, El'. injection El as <-. injection El' as <-. apply (nth_close (ops f 0) row x _) with (bl := l0); auto.
    + rewrite (Forall2_len _ _ _ Fl), (Forall2_len _ _ _ Fl'). reflexivity.
    + rewrite (Forall2_len _ _ _ U0), (Forall2_len _ _ _ Fl'). reflexivity.
  - apply IH; auto; [|cbn in Hi; lia]. intros s Hs. apply K. right. exact Hs.
Qed.

(** ** A library within these bounds: results rounded to nearest *)
Definition of_R (x : R) : b64 :=
  binary_normalize 53 1024 _ _ mode_NE (Ztrunc (scaled_mantissa radix2 (SpecFloat.fexp 53 1024) (rnd x))) (cexp radix2 (SpecFloat.fexp 53 1024) (rnd x)) false.
Lemma of_R_ok x : Rabs (rnd x) < omax -> fin (of_R x) /\ val (of_R x) = rnd x.
Proof.
  intros B. set (mx := Ztrunc (scaled_mantissa radix2 (SpecFloat.fexp 53 1024) (rnd x))). set (ex := cexp radix2 (SpecFloat.fexp 53 1024) (rnd x)).
  pose proof (binary_normalize_correct 53 1024 _ _ mode_NE mx ex false) as C. cbv zeta in C.
  assert (G : F2R (Float radix2 mx ex) = rnd x) by (symmetry; exact (fmt_rnd x)). rewrite G in C.
  change (round radix2 (SpecFloat.fexp 53 1024) (round_mode mode_NE) (rnd x)) with (rnd (rnd x)) in C. rewrite (rnd_fmt _ (fmt_rnd x)) in C.
  rewrite Rlt_bool_true in C by exact B. destruct C as (C1 & C2 & _). split; [exact C2|exact C1].
Qed.
Definition nearest : libm := {|
  m_exp := fun t => of_R (exp (val t)); m_cos := fun t => of_R (cos (val t)); m_sin := fun t => of_R (sin (val t));
  m_pow := fun x y => of_R (Rpower (val x) (val y)); m_pi := of_R PI |}.
Lemma tiny_1 : tiny <= 1.
Proof. unfold tiny. rewrite <- Rinv_1. apply Rinv_le_contravar; [lra|]. apply pow_R1_Rle. lra. Qed.
Theorem C66_nearest : accurate nearest (2 * uu).
Proof.
  pose proof uu_pos. pose proof hh_pos. pose proof tiny_pos. pose proof tiny_1. pose proof tiny_hh as T. assert (hu : hh <= uu) by (rewrite <- T; rewrite <- (Rmult_1_r uu) at 2; apply Rmult_le_compat_l; lra).
  split; [|split]; intros t Ft.
  - intros B. pose proof (exp_pos (val t)) as P. assert (A : Rabs (exp (val t)) <= exp (val t)) by (rewrite Rabs_pos_eq; lra). destruct (of_R_ok (exp (val t))) as (F & V); [apply rnd_small; lra|].
    split; [exact F|]. cbn [m_exp nearest]. rewrite V. pose proof (rnd_bd _ _ A). pose proof (Rmult_lt_0_compat uu _ H P). rewrite <- T in *. pose proof (Rmult_lt_0_compat uu tiny H H1). lra.
  - pose proof (COS_bound (val t)) as P. assert (A : Rabs (cos (val t)) <= 1) by (apply Rabs_le; lra). pose proof big_ge1. destruct (of_R_ok (cos (val t))) as (F & V); [apply rnd_small; lra|].
    split; [exact F|]. cbn [m_cos nearest]. rewrite V. pose proof (rnd_bd _ _ A). lra.
  - pose proof (SIN_bound (val t)) as P. assert (A : Rabs (sin (val t)) <= 1) by (apply Rabs_le; lra). pose proof big_ge1. destruct (of_R_ok (sin (val t))) as (F & V); [apply rnd_small; lra|].
    split; [exact F|]. cbn [m_sin nearest]. rewrite V. pose proof (rnd_bd _ _ A). lra.
Qed.

(** sin(2t) + exp(t) (1 + 3t) at t = 1/3 rounded: 6 roundings *)
Definition dom64 : dom b64 := (b64_of_Z 0, b64_of_Z 1).
Definition expr64 : fn b64 :=
  FExpr SUM dom64 1 [FExpr COMPOSITION dom64 1 [FDil dom64 (b64_of_Z 2); FSin dom64];
                     FExpr MULTIPLICATION dom64 1 [FExp dom64; FPoly dom64 [b64_of_Z 1; b64_of_Z 3]]].
Definition third : b64 := Bdiv mode_NE (b64_of_Z 1) (b64_of_Z 3).
Lemma third_val : fin third /\ 0 <= val third <= 1.
Proof.
  split; [reflexivity|]. unfold val. replace (B2R third) with (F2R (Float radix2 6004799503160661 (-54))) by (vm_compute; reflexivity). unfold F2R. cbn [Fnum Fexp].
  change (bpow radix2 (-54)) with (/ 18014398509481984). lra.
Qed.
Lemma big_200 : 2 ^ 10 <= big.
Proof. unfold big. apply Rle_pow; [lra|lia]. Qed.
Lemma exp_2_8 : exp 2 <= 9.
Proof. replace 2 with (1 + 1) by ring. rewrite exp_plus. pose proof exp_le_3. pose proof (exp_pos 1). nra. Qed.
Lemma expr64_fits : fits expr64 (Rabs (val third)).
Proof.
  destruct third_val as (_ & T). rewrite Rabs_pos_eq by lra. set (t := val third) in *. pose proof tiny_pos. pose proof tiny_1. pose proof big_200 as B. cbn [pow] in B.
  assert (L1 : val (b64_of_Z 1) = 1) by (apply (ofZ_ok 1); cbn; lia). assert (L2 : val (b64_of_Z 2) = 2) by (apply (ofZ_ok 2); cbn; lia). assert (L3 : val (b64_of_Z 3) = 3) by (apply (ofZ_ok 3); cbn; lia).
  assert (E : exp (2 * t) <= 9) by (eapply Rle_trans; [apply exp_le|apply exp_2_8]; lra). pose proof (exp_pos (2 * t)).
  assert (E1 : exp (2 * t) * (1 + t) <= 9 * 2) by (apply Rmult_le_compat; lra). assert (E0 : 0 <= exp (2 * t) * (1 + t)) by (apply Rmult_le_pos; lra).
  cbn [expr64 fits sizes fcod fold_left fold_right map map2 hd repeat power_sum length]. rewrite L1, L2, L3. rewrite (Rabs_pos_eq 1), (Rabs_pos_eq 2), (Rabs_pos_eq 3) by lra. rewrite (Rmax_left 1 t) by lra.
  set (e := exp (2 * t) * (1 + t)) in *. assert (Q : (e + tiny) * (1 + tiny + t * (3 + tiny + t * 0)) <= (18 + 1) * (2 + 4)) by (apply Rmult_le_compat; [lra| |lra|]; rewrite Rmult_0_r, Rplus_0_r; nra).
  assert (Q0 : t * (3 + tiny + t * 0) <= 4) by (rewrite Rmult_0_r, Rplus_0_r; nra).
  unfold fit. repeat split; try discriminate; try reflexivity; try (repeat constructor; fail); try lra; try (constructor; [|constructor]; lra).
Qed.
Definition exprR (d : dom R) (a b c : R) : fn R :=
  FExpr SUM d 1 [FExpr COMPOSITION d 1 [FDil d a; FSin d]; FExpr MULTIPLICATION d 1 [FExp d; FPoly d [b; c]]].
Lemma exprR_eval dbg d a b c t : eval dbg (exprR d a b c) [t] 1 = Ok [[0 + sin (a * t) + exp t * (c * t + b)]].
Proof. reflexivity. Qed.
Example C66_case dbg : exists v, eval (H := B64num nearest) dbg expr64 [third] 1 = Ok [[v]] /\ fin v /\
  exists A, sizes expr64 (Rabs (val third)) = [A] /\ ops expr64 0 = 6%nat /\
    Rabs (val v - (sin (2 * val third) + exp (val third) * (1 + 3 * val third))) <= ((1 + uu) ^ 6 - 1) * A.
Proof.
  destruct (C66_error nearest (2 * uu) dbg expr64 [third] C66_nearest) as (rows & xs & E & E' & L & L' & K); try lra; try discriminate.
  - repeat constructor.
  - intros t [<-|[]]. apply expr64_fits.
  - replace (ops expr64 0) with 6%nat by reflexivity. pose proof uu_lt_1. unfold uu. cbn [INR pow]. lra.
  - specialize (K 0%nat ltac:(cbn; lia)). cbn [nth] in K. destruct rows as [|row [|]]; try discriminate. destruct xs as [|x [|]]; try discriminate. cbn [nth] in K.
    assert (X : x = [sin (2 * val third) + exp (val third) * (1 + 3 * val third)]).
    { change (exact_fn expr64) with (exprR (val (b64_of_Z 0), val (b64_of_Z 1)) (val (b64_of_Z 2)) (val (b64_of_Z 1)) (val (b64_of_Z 3))) in E'. change (map val [third]) with [val third] in E'. change (fcod expr64) with 1%nat in E'.
      rewrite exprR_eval in E'. replace (val (b64_of_Z 2)) with 2 in E' by (symmetry; apply (ofZ_ok 2); cbn; lia). replace (val (b64_of_Z 3)) with 3 in E' by (symmetry; apply (ofZ_ok 3); cbn; lia).
      replace (val (b64_of_Z 1)) with 1 in E' by (symmetry; apply (ofZ_ok 1); cbn; lia). assert (J : forall a b : list R, Ok [a] = Ok [b] -> a = b) by (intros a b Q; injection Q; auto). apply J in E'. rewrite <- E'. generalize (val third). intros t. f_equal. ring. }
    subst x. destruct K as (K1 & K2 & K3). cbn [length] in K1. destruct row as [|v [|]]; try discriminate. specialize (K3 0%nat ltac:(cbn; lia)). cbn [nth] in K3. destruct K3 as (Fv & Bv).
    exists v. split; [exact E|]. split; [exact Fv|]. rewrite map_length in K2. destruct (sizes expr64 (Rabs (val third))) as [|A [|]]; try discriminate. exists A. split; [reflexivity|]. split; [reflexivity|]. exact Bv.
Qed.

(** a concatenation, the constant 2 on [0,1] and 3t on [1,2], at arguments within 1/4 of 3/2 *)
Definition unit64 (a b : Z) : dom b64 := (b64_of_Z a, b64_of_Z b).
Definition pieces64 : fn b64 := FExpr CONCATENATION (unit64 0 2) 1 [FConst (unit64 0 1) [b64_of_Z 2]; FDil (unit64 1 2) (b64_of_Z 3)].
Example C66_concat_case : exists r, beval (2 * uu) pieces64 (3 / 2, / 4) = Some [(3 * (3 / 2), r)] /\ 3 / 4 <= r <= 1.
Proof.
  assert (V : forall z, (Z.abs z <= 2 ^ 53)%Z -> val (b64_of_Z z) = IZR z) by (intros z Hz; apply (ofZ_ok z); exact Hz).
  pose proof uu_pos. pose proof hh_pos. assert (uu <= / 1000) by (unfold uu; apply Rinv_le_contravar; [lra|]; cbn; lra). assert (hh <= uu) by (rewrite <- tiny_hh; rewrite <- (Rmult_1_r uu) at 2; apply Rmult_le_compat_l; [lra|apply tiny_1]).
  unfold pieces64. rewrite beval_concat. cbn [fcod length Nat.eqb]. unfold gfind, surely_ge, surely_lt, dec. cbn [fdom fst snd unit64].
  change (is_finite (b64_of_Z 0)) with true. change (is_finite (b64_of_Z 1)) with true. change (is_finite (b64_of_Z 2)) with true. rewrite !V by (cbn; lia).
  destruct (Rle_dec 0 (3 / 2 - / 4)) as [_|X]; [|lra]. destruct (Rlt_dec (3 / 2 + / 4) 1) as [X|_]; [lra|]. destruct (Rle_dec 1 (3 / 2 - / 4)) as [_|X]; [|lra]. destruct (Rlt_dec (3 / 2 + / 4) 2) as [_|X]; [|lra].
  cbn [andb orb]. destruct (Rlt_dec (3 / 2 + / 4) 0) as [X|_]; [lra|]. cbn [orb beval Nat.eqb fcod].
  change (b_cst (b64_of_Z 3)) with (Some (val (b64_of_Z 3), 0)). rewrite V by (cbn; lia). cbn [obind]. unfold b_mul, mag. cbn [fst snd]. rewrite (Rabs_pos_eq 3), (Rabs_pos_eq (3 / 2)) by lra.
  pose proof big_200 as B. cbn [pow] in B. rewrite guard_ok by lra. cbn [obind]. eexists. split; [reflexivity|]. lra.
Qed.

(** ** No such bound holds where an argument with an error chooses the piece of a concatenation: 3 * (1/3 rounded) is 1, its exact value is less *)
Definition jump64 : fn b64 :=
  FExpr COMPOSITION dom64 1 [FDil dom64 (b64_of_Z 3);
    FExpr CONCATENATION (unit64 0 2) 1 [FConst (unit64 0 1) [b64_of_Z 0]; FConst (unit64 1 2) [b64_of_Z 1]]].
Definition jumpR (d d2 : dom R) (a l u l' u' x y : R) : fn R :=
  FExpr COMPOSITION d 1 [FDil d a; FExpr CONCATENATION d2 1 [FConst (l, u) [x]; FConst (l', u') [y]]].
Lemma jumpR_eval dbg d d2 a l u l' u' x y t : l <= a * t < u -> eval dbg (jumpR d d2 a l u l' u' x y) [t] 1 = Ok [[1 * x]].
Proof.
  intros (L & U). unfold jumpR. rewrite eval_comp_loop. cbn [ecomp eval col_result Nat.eqb map bind concat app mapM]. unfold is_point_in_domain. cbn [fdom fst snd].
  change (nleb l (nmul a t)) with (Rleb l (a * t)). change (nltb (nmul a t) u) with (Rltb (a * t) u). rewrite (Rleb_true l (a * t) L), (Rltb_true (a * t) u U). reflexivity.
Qed.
Lemma jump_second {T} {HN : Num T} dbg (d d2 d3 d4 : dom T) a x y t : nleb (fst d3) (nmul a t) && nltb (nmul a t) (snd d3) = false -> nleb (fst d4) (nmul a t) && nltb (nmul a t) (snd d4) = true ->
  eval dbg (FExpr COMPOSITION d 1 [FDil d a; FExpr CONCATENATION d2 1 [FConst d3 [x]; FConst d4 [y]]]) [t] 1 = Ok [[nmul n1 y]].
Proof.
  intros L U. rewrite eval_comp_loop. cbn [ecomp eval col_result Nat.eqb map bind concat app mapM]. unfold is_point_in_domain. cbn [fdom]. rewrite L, U. reflexivity.
Qed.
Theorem C66_choice_refuted m dbg : exists v, eval (H := B64num m) dbg jump64 [third] 1 = Ok [[v]] /\ fin v /\ val v = 1 /\
  eval dbg (exact_fn jump64) [val third] 1 = Ok [[0]].
Proof.
  exists (Bmult mode_NE (b64_of_Z 1) (b64_of_Z 1)). split; [apply (jump_second (HN := B64num m)); vm_compute; reflexivity|]. split; [vm_compute; reflexivity|].
  split. { destruct (f_one m (b64_of_Z 1) (val (b64_of_Z 1), 0) eq_refl) as (_ & B). change (nmul n1 (b64_of_Z 1)) with (Bmult mode_NE (b64_of_Z 1) (b64_of_Z 1)) in B.
    replace (fst (val (b64_of_Z 1), 0)) with 1 in B by (symmetry; apply (ofZ_ok 1); cbn; lia). apply Rabs_le_between in B. cbn [snd] in B. lra. }
  change (exact_fn jump64) with (jumpR (val (b64_of_Z 0), val (b64_of_Z 1)) (val (b64_of_Z 0), val (b64_of_Z 2)) (val (b64_of_Z 3)) (val (b64_of_Z 0)) (val (b64_of_Z 1)) (val (b64_of_Z 1)) (val (b64_of_Z 2)) (val (b64_of_Z 0)) (val (b64_of_Z 1))).
  rewrite jumpR_eval.
  - replace (val (b64_of_Z 0)) with 0 by (symmetry; apply (ofZ_ok 0); cbn; lia). rewrite Rmult_0_r. reflexivity.
  - replace (val (b64_of_Z 0)) with 0 by (symmetry; apply (ofZ_ok 0); cbn; lia). replace (val (b64_of_Z 3)) with 3 by (symmetry; apply (ofZ_ok 3); cbn; lia). replace (val (b64_of_Z 1)) with 1 by (symmetry; apply (ofZ_ok 1); cbn; lia).
    unfold val. replace (B2R third) with (F2R (Float radix2 6004799503160661 (-54))) by (vm_compute; reflexivity). unfold F2R. cbn [Fnum Fexp]. change (bpow radix2 (-54)) with (/ 18014398509481984). lra.
Qed.
