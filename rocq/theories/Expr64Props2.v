(** C86, continued: the inner product of two expressions in binary64. *)
From Coquelicot Require Import Coquelicot.
From Coq Require Import List Arith Lia Bool ZArith Reals Lra Psatz.
From Flocq Require Import Core Relative BinarySingleNaN.
From Verif Require Import Num Outcome LinAlg FunProofs2 RSum RDeriv RPoly IEEEModel IEEESpec IEEEProofs IEEEHorner IEEELegendre IEEEFunSpec IEEEFunProofs IEEEFunProofs2 IEEEFunProofs3 IEEEFunProps
  GSplineModel FunModel FunSpec FunProofs ToolsModel GLModel GLSpec GLProofs GLProofs2 GLLModel GLLProofs IntegralModel QuadSpec QuadMath IntegralProps GL64 GL64Spec GL64Props Int64 Int64Sum Int64Spec Int64Props Expr64Spec Expr64Proofs Expr64Proofs2 Expr64Props Expr64L2.
Import ListNotations.
Local Open Scope R_scope.
Local Opaque gl_iters.

(** the text of the integrand: 0 + 1 * <g, f> *)
Definition product_text (f g : fn b64) : fn b64 :=
  FExpr SUM (fdom f) 1 [FConst (fdom f) [b64_of_Z 0]; FExpr MULTIPLICATION (fdom g) 1 [FConst (fdom g) [b64_of_Z 1]; FDot (fdom g) g f]].
(** exact components on |t| <= a *)
Definition exact_rows (f : fn b64) (a : R) (X : R -> list R) : Prop := forall dbg t, Rabs t <= a -> eval dbg (exact_fn f) [t] (fcod f) = Ok [X t].

Lemma same_consts d d' v v' : map val v = map val v' -> Forall fin v' -> same (FConst d v) (FConst d' v').
Proof.
  intros E F. assert (L : length v' = length v) by (rewrite <- (map_length val v'), <- E; apply map_length).
  split; [exact L|]. split; [reflexivity|]. split; [intros a; cbn [sizes]; rewrite <- !(map_map val Rabs), E; reflexivity|]. split; [intros a; cbn [rates]; rewrite <- !(map_map val (fun _ => 0)), E; reflexivity|].
  split; [intros a _; exact F|]. intros dbg pts. unfold exact_fn. cbn [fn_map eval fcod]. rewrite E. unfold eval_const. rewrite !map_length, L. reflexivity.
Qed.
Lemma same_product d d' c0 c1 f g : fcod c0 = 1%nat -> same c0 c1 -> same f g -> fcod f = 1%nat -> same (FExpr MULTIPLICATION d 1 [c0; f]) (FExpr MULTIPLICATION d' 1 [c1; g]).
Proof.
  intros C0 (A1 & A2 & A3 & A4 & A5 & A6) (B1 & B2 & B3 & B4 & B5 & B6) C. split; [reflexivity|]. split; [intros n; cbn [ops fold_left]; rewrite A2, B2; reflexivity|].
  split; [intros a; cbn [sizes fold_left]; rewrite A3, B3; reflexivity|]. split; [intros a; cbn [rates fold_left fst snd]; rewrite A3, B3, A4, B4; reflexivity|].
  split. { intros a; cbn [fits]. rewrite A3, B3, A1, B1. intros (X1 & X2 & X3 & X4 & X5 & _). auto 8. }
  intros dbg pts. change (exact_fn (FExpr MULTIPLICATION d 1 [c0; f])) with (FExpr MULTIPLICATION (val (fst d), val (snd d)) 1 [exact_fn c0; exact_fn f]). change (exact_fn (FExpr MULTIPLICATION d' 1 [c1; g])) with (FExpr MULTIPLICATION (val (fst d'), val (snd d')) 1 [exact_fn c1; exact_fn g]).
  cbn [fcod]. rewrite !eval_mul_loop. rewrite C0 in A6. rewrite C in B6. rewrite A6. destruct (eval dbg (exact_fn c0) pts 1); cbn [bind emul]; try reflexivity. rewrite B6. reflexivity.
Qed.

Section L2.
Variable m : libm.
Local Instance BN : Num b64 := B64num m.

Lemma one_times (x : b64) : fin x -> Rabs (val x) <= 1 -> fin (nmul n1 x) /\ val (nmul n1 x) = val x.
Proof.
  intros Fx Bx. destruct (one_v m) as (F1 & V1). cbn [nmul B64num]. change (@n1 b64 (GL64.BN m)) with (@n1 b64 BN) in *. cbn [nmul BN B64num]. set (o := @n1 b64 BN) in *. clearbody o.
  destruct (mul_ok o x F1 Fx) as (Fm & Vm). { apply no_over4. rewrite V1, Rmult_1_l. pose proof p400. lra. } split; [exact Fm|]. rewrite Vm, V1, Rmult_1_l. apply rnd_fmt. apply val_fmt.
Qed.
Lemma domain_self (d : dom b64) : fin (fst d) -> fin (snd d) -> same_domain d d = true.
Proof.
  intros Fa Fb. unfold same_domain. assert (Fd : fin (dom_tol : b64)) by (vm_compute; reflexivity). assert (Pd : 0 < val (dom_tol : b64)).
  { assert (L : Bltb (B754_zero false : b64) (dom_tol : b64) = true) by (vm_compute; reflexivity). rewrite ltb_val in L by (exact Fd || reflexivity). destruct (Rlt_dec 0 (val (dom_tol : b64))) as [P|P]; [exact P|]. rewrite Rltb_false in L; [discriminate|]. change (val (B754_zero false : b64)) with 0. apply Rnot_lt_le. exact P. }
  set (t := dom_tol : b64) in *. clearbody t. assert (K : forall x : b64, fin x -> nltb (nabs (nsub x x)) t = true); [|rewrite !K by assumption; reflexivity].
  intros x Fx. cbn [nltb nabs nsub BN B64num]. destruct (sub_ok x x Fx Fx) as (F & V). { rewrite Rminus_eq_0. apply no_over4. rewrite Rabs_R0. apply Rmult_le_pos; [lra|apply pow_le; lra]. } rewrite Rminus_eq_0, rnd_0 in V.
  rewrite ltb_val; [|unfold fin in *; rewrite is_finite_Babs; exact F|exact Fd]. apply Rltb_true. unfold val in *. rewrite B2R_Babs, V, Rabs_R0. exact Pd.
Qed.

(** the expression that is integrated *)
Lemma built dbg f g : shaped f -> shaped g -> fcod f = fcod g -> fin (fst (fdom g)) -> fin (snd (fdom g)) ->
  exists e, semi_terms dbg f g (zero_expression (fdom f) 1) (unit_terms 0) = Ok e /\ fdom (fe e) = fdom f /\ same (product_text f g) (fe e).
Proof.
  intros Sf Sg C Fa Fb. destruct (deriv_zero m dbg f Sf) as (f0 & Ef & Mf & Cf). destruct (deriv_zero m dbg g Sg) as (g0 & Eg & Mg & Cg).
  cbn [unit_terms Nat.add seq map semi_terms semi_term fst snd]. unfold semi_term, derivate. cbn [fst snd]. change (@deriv b64 (Expr64L2.BN m)) with (@deriv b64 BN) in Ef, Eg. rewrite Ef, Eg. cbn [bind ecod]. rewrite C, Nat.eqb_refl. cbn [negb]. rewrite andb_false_r.
  unfold scal, mul, compatibility_mul. cbn [to_expression edom ecod dot fdom fe]. rewrite domain_self by assumption. cbn [Nat.ltb Nat.leb andb bind negb ecod fcod].
  eexists. split; [reflexivity|]. split; [reflexivity|].
  assert (G2 : same g (FExpr UNIQUE (fdom g) (fcod g) [FExpr UNIQUE (fdom g) (fcod g) [g0]])).
  { eapply same_trans; [apply (same_wrap (fdom g))|]. eapply same_trans; [apply (same_unique _ (fdom g)); exact Mg|]. apply (same_wrap (fdom g) (FExpr UNIQUE (fdom g) (fcod g) [g0])). }
  assert (F2 : same f (FExpr UNIQUE (fdom f) (fcod f) [FExpr UNIQUE (fdom f) (fcod f) [f0]])).
  { eapply same_trans; [apply (same_wrap (fdom f))|]. eapply same_trans; [apply (same_unique _ (fdom f)); exact Mf|]. apply (same_wrap (fdom f) (FExpr UNIQUE (fdom f) (fcod f) [f0])). }
  destruct (ofZ_ok 0 ltac:(lia)) as (Fz & Vz). destruct (ofZ_ok 1 ltac:(lia)) as (Fo & Vo). destruct (one_v m) as (Fone & Vone). change (@n1 b64 (GL64.BN m)) with (@n1 b64 BN) in *.
  destruct (one_times (n1 : b64) Fone) as (F11 & V11). { rewrite Vone, Rabs_R1. lra. }
  assert (Fn0 : fin (n0 : b64) /\ val (n0 : b64) = 0) by (split; reflexivity). destruct (one_times (n0 : b64) (proj1 Fn0)) as (F10 & V10). { rewrite (proj2 Fn0), Rabs_R0. lra. }
  apply same_sum; [|repeat constructor]. constructor; [|constructor; [|constructor]].
  - apply same_consts; [cbn [repeat map]; rewrite V10, (proj2 Fn0), Vz; reflexivity|repeat constructor; exact F10].
  - apply same_product; [reflexivity| | |reflexivity].
    + apply same_consts; [cbn [repeat map]; rewrite V11, Vone, Vo; reflexivity|repeat constructor; exact F11].
    + apply same_dot; [exact G2|]. rewrite <- C. exact F2.
Qed.

(** everything C86_integral asks of the text of the integrand, and exact components of both factors *)
Theorem C86_inner_product dbg f g X Y np n D eps : accurate_pi m -> accurate m eps -> eps <= 2 * uu -> integrable64 (product_text f g) np n D ->
  fin (fst (fdom g)) -> fin (snd (fdom g)) -> exact_rows f (reach D) X -> exact_rows g (reach D) Y ->
  let a := val (fst (fdom f)) in let b := val (snd (fdom f)) in
  exists r v, l2_inner_product dbg f g np n = Ok r /\ fin r /\ is_RInt (fun t => inner (X t) (Y t)) a b v /\
    Rabs (val r - v) <= slope_bound (product_text f g) D * (b - a) ^ 2 / INR n + integral_error (product_text f g) np n a b D.
Proof.
  intros HP HM He HI Ga Gb EX EY a b. pose proof HI as (I1 & I2 & I3 & I4 & I5 & I6 & I7 & I8 & I9 & I10 & Ft & I12 & I13). cbn [product_text fits fold_right] in Ft. destruct Ft as (_ & (_ & _ & (_ & (_ & _ & (_ & (Cfg & Fg & Ff & _) & _)) & _)) & _).
  destruct (built dbg f g (fits_shaped f _ Ff) (fits_shaped g _ Fg) (eq_sym Cfg) Ga Gb) as (e & Ee & De & (M1 & M2 & M3 & M4 & M5 & M6)).
  assert (VB : value_bound (fe e) D = value_bound (product_text f g) D) by (unfold value_bound; rewrite M3; reflexivity). assert (SB : slope_bound (fe e) D = slope_bound (product_text f g) D) by (unfold slope_bound; rewrite M4; reflexivity).
  assert (RB : round_bound (fe e) D = round_bound (product_text f g) D) by (unfold round_bound; rewrite VB, SB, M2; reflexivity).
  assert (IE : forall x y, integral_error (fe e) np n x y D = integral_error (product_text f g) np n x y D) by (intros x y; unfold integral_error; rewrite VB, SB, RB; reflexivity).
  assert (HI' : integrable64 (fe e) np n D). { unfold integrable64 in *. rewrite De, M1, M2, VB, RB. cbn [product_text fdom] in *. repeat (split; [assumption|]). split; [|auto]. apply M5. apply HI. }
  destruct (C86_integral m dbg (fe e) (fun t => inner (X t) (Y t)) np n D eps HP HM He HI') as (r & v & E & Fr & Iv & Er).
  { intros d t Ht. rewrite M6. 
    change (exact_fn (product_text f g)) with (FExpr SUM (val (fst (fdom f)), val (snd (fdom f))) 1 [FConst (val (fst (fdom f)), val (snd (fdom f))) [val (b64_of_Z 0)]; FExpr MULTIPLICATION (val (fst (fdom g)), val (snd (fdom g))) 1 [FConst (val (fst (fdom g)), val (snd (fdom g))) [val (b64_of_Z 1)]; FDot (val (fst (fdom g)), val (snd (fdom g))) (exact_fn g) (exact_fn f)]]).
    change (fcod (product_text f g)) with 1%nat. destruct (ofZ_ok 0 ltac:(lia)) as (_ & ->). destruct (ofZ_ok 1 ltac:(lia)) as (_ & ->). rewrite eval_sum_loop. cbn [length rows_zero repeat esum fcod]. change (eval d (FConst ?dd [0]) [t] 1) with (Ok [[1 * 0]]). cbn [bind Nat.eqb]. rewrite eval_mul_loop. change (eval d (FConst ?dd [1]) [t] 1) with (Ok [[1 * 1]]). cbn [bind emul fcod].
    assert (DV : eval d (FDot (val (fst (fdom g)), val (snd (fdom g))) (exact_fn g) (exact_fn f)) [t] 1 = Ok [[row_dot (Y t) (X t)]]).
    { cbn [eval]. rewrite !fcod_exact, (EX d t Ht), (EY d t Ht). cbn [bind]. rewrite Cfg, Nat.eqb_refl. reflexivity. }
    rewrite DV. rewrite row_dot_inner, inner_comm. cbn. f_equal. f_equal. f_equal. ring. }
  rewrite De in *. exists r, v. split; [|split; [exact Fr|split; [exact Iv|rewrite <- SB, <- IE; exact Er]]].
  unfold l2_inner_product, sobolev_inner_product, sobolev_semi_inner_product. rewrite Ee. exact E.
Qed.
(** the norm is the integral of the sum of squares, without a root *)
Theorem C86_norm dbg f X np n D eps : accurate_pi m -> accurate m eps -> eps <= 2 * uu -> integrable64 (product_text f f) np n D -> exact_rows f (reach D) X ->
  let a := val (fst (fdom f)) in let b := val (snd (fdom f)) in
  exists r v, l2_norm dbg f np n = Ok r /\ fin r /\ is_RInt (fun t => inner (X t) (X t)) a b v /\
    Rabs (val r - v) <= slope_bound (product_text f f) D * (b - a) ^ 2 / INR n + integral_error (product_text f f) np n a b D.
Proof. intros HP HM He HI EX. exact (C86_inner_product dbg f f X X np n D eps HP HM He HI (proj1 HI) (proj1 (proj2 HI)) EX EX). Qed.
End L2.

(** the sine from 0 to 1 with itself, ten points in each of n parts *)
Definition sine64 : fn b64 := FSin dom64.
Lemma sine_ops : ops (product_text sine64 sine64) 0 = 8%nat.
Proof. reflexivity. Qed.
Lemma pow9 : (1 + uu) ^ 8 - 1 <= 9 * uu.
Proof.
  pose proof u1 as U. assert (U2 : 0 <= uu * uu <= / 1000 * uu) by (split; [apply Rmult_le_pos; lra|apply Rmult_le_compat_r; lra]). replace ((1 + uu) ^ 8) with (((1 + uu) ^ 2) ^ 4) by (rewrite <- pow_mult; reflexivity).
  assert (A : 1 <= (1 + uu) ^ 2 <= 1 + 2001 / 1000 * uu) by (split; simpl; lra). assert (B : ((1 + uu) ^ 2) ^ 4 <= (1 + 2001 / 1000 * uu) ^ 4) by (apply pow_incr; lra). eapply Rle_trans; [apply Rplus_le_compat_r; exact B|].
  assert (U3 : uu * uu * uu <= / 1000 * uu) by (apply Rle_trans with (/ 1000 * uu * 1); [apply Rmult_le_compat; lra|lra]). assert (U4 : uu * uu * uu * uu <= / 1000 * uu) by (apply Rle_trans with (/ 1000 * uu * 1); [apply Rmult_le_compat; try lra; apply Rmult_le_pos; lra|lra]).
  replace ((1 + 2001 / 1000 * uu) ^ 4 + - (1)) with (4 * (2001 / 1000) * uu + 6 * (2001 / 1000) ^ 2 * (uu * uu) + 4 * (2001 / 1000) ^ 3 * (uu * uu * uu) + (2001 / 1000) ^ 4 * (uu * uu * uu * uu)) by ring. lra.
Qed.
Example C86_norm_case dbg n : (1 <= n)%nat -> INR n * uu <= / 1000 ->
  exists r, l2_norm (H := B64num nearest) dbg sine64 10 n = Ok r /\ fin r /\ Rabs (val r - (1 / 2 - sin 2 / 4)) <= 5 / INR n + (41000 + 6 * INR n) * uu.
Proof.
  intros Hn Hn2. pose proof u1 as U. destruct C78_nearest as (HP & HC & He). destruct (ofZ_ok 0 ltac:(lia)) as (F0 & V0). destruct (ofZ_ok 1 ltac:(lia)) as (F1 & V1). pose proof (n_1 n Hn) as N1. pose proof tiny_pos.
  assert (ts : tiny <= / 1000) by (apply Rle_trans with (/ 2 ^ 10); [unfold tiny; apply Rinv_le_contravar; [apply pow_lt; lra|apply Rle_pow; [lra|lia]]|simpl; lra]). pose proof big_200 as B. cbn [pow] in B.
  assert (RE : reach 1 = 1 + 20 * uu) by (unfold reach, shift; change (/ 2 ^ 53) with uu; ring). assert (S1 : shift 1 = 20 * uu) by (unfold shift; change (/ 2 ^ 53) with uu; ring).
  assert (I5 : 0 < / 2 ^ 500 <= / 1000). { split; [apply Rinv_0_lt_compat, pow_lt; lra|]. apply Rle_trans with (/ 2 ^ 10); [apply Rinv_le_contravar; [apply pow_lt; lra|apply Rle_pow; [lra|lia]]|simpl; lra]. }
  set (T := product_text sine64 sine64).
  assert (Q : 0 <= (reach 1 + 1) * (reach 1 + 1) <= 201 / 100 * (201 / 100)) by (split; [apply Rmult_le_pos; lra|apply Rmult_le_compat; lra]).
  assert (VB : 0 <= value_bound T 1 <= 5). { unfold value_bound, T. cbn [product_text sine64 sizes map map2 fold_left hd repeat]. rewrite V0, V1, Rabs_R0, Rabs_R1. lra. }
  assert (SB : 0 <= slope_bound T 1 <= 5). { unfold slope_bound, T. cbn [product_text sine64 sizes rates map map2 fold_left hd repeat combine fst snd]. rewrite V1, Rabs_R1. lra. }
  assert (RB : 0 <= round_bound T 1 <= 146 * uu).
  { unfold round_bound. unfold T at 1 4. rewrite sine_ops, S1. pose proof pow9 as P9. pose proof (pow_1u_ge1 8) as P8. set (v := value_bound T 1) in *. set (s := slope_bound T 1) in *. assert (0 <= ((1 + uu) ^ 8 - 1) * v <= 9 * uu * 5) by (split; [apply Rmult_le_pos; lra|apply Rmult_le_compat; lra]). assert (0 <= s * (20 * uu) <= 5 * (20 * uu)) by (split; [apply Rmult_le_pos; lra|apply Rmult_le_compat_r; lra]). lra. }
  assert (HI : integrable64 T 10 n 1).
  { unfold integrable64. change (fdom T) with dom64. cbn [dom64 fst snd]. rewrite V0, V1. assert (P4 : 2 ^ 10 <= 2 ^ 400) by (apply Rle_pow; [lra|lia]). assert (P10 : 2 ^ 10 = 1024) by (simpl; lra).
    split; [exact F0|]. split; [exact F1|]. split. { apply Rle_trans with (/ 1); [apply Rinv_le_contravar; [lra|apply pow_R1_Rle; lra]|lra]. } split; [rewrite Rabs_R0; lra|]. split; [rewrite Rabs_R1; lra|]. split; [lra|]. split; [lia|]. split; [exact Hn|]. split; [exact Hn2|].
    split; [reflexivity|]. split; [|split; [unfold T; rewrite sine_ops; simpl INR; lra|lra]]. unfold T. cbn [product_text sine64 fits sizes map map2 fold_left fold_right hd repeat fcod length]. rewrite V0, V1, Rabs_R0, Rabs_R1. unfold fit.
    split; [discriminate|]. split; [|constructor; [lra|constructor]]. split; [reflexivity|]. split; [repeat constructor; exact F0|]. split; [reflexivity|]. split; [|exact Logic.I]. split; [reflexivity|]. split; [repeat constructor; exact F1|]. split; [reflexivity|]. split; [|split; [constructor; [lra|constructor]|exact Logic.I]].
    split; [reflexivity|]. split; [exact Logic.I|]. split; [exact Logic.I|]. constructor; [lra|constructor]. }
  destruct (C86_norm nearest dbg sine64 (fun t => [sin t]) 10 n 1 (2 * uu) HP C66_nearest ltac:(lra) HI) as (r & v & E & Fr & Iv & Er). { intros d t _. reflexivity. }
  exists r. split; [exact E|]. split; [exact Fr|]. change (fdom sine64) with dom64 in *. cbn [dom64 fst snd] in Iv, Er. fold T in Er. rewrite V0, V1 in *.
  assert (Ev : v = 1 / 2 - sin 2 / 4).
  { rewrite <- (is_RInt_unique _ _ _ _ Iv). apply is_RInt_unique. replace (1 / 2 - sin 2 / 4) with ((1 / 2 - sin (2 * 1) / 4) - (0 / 2 - sin (2 * 0) / 4)) by (rewrite Rmult_0_r, sin_0, Rmult_1_r; field).
    apply (i_ftc (fun t => t / 2 - sin (2 * t) / 4) (fun t => inner [sin t] [sin t])); [intros t; unfold inner; cbn [zip_with fold_right]; auto_derive; auto; rewrite cos_2a_sin; field|]. intros t. apply (ex_derive_continuous (fun t => inner [sin t] [sin t])). unfold inner. cbn [zip_with fold_right]. auto_derive; auto. }
  rewrite <- Ev. eapply Rle_trans; [exact Er|]. unfold integral_error, sum_error, rule_error, node_error, weight_error. change (/ 2 ^ 53) with uu. replace (10 - 1)%nat with 9%nat by reflexivity.
  assert (S9 : sqrt (INR 9) = 3) by (replace (INR 9) with (3 * 3) by (simpl; lra); apply sqrt_square; lra). rewrite S9. replace (INR 9) with 9 by (simpl; lra). replace (INR 10) with 10 by (simpl; lra). replace (1 - 0) with 1 by ring.
  assert (I1 : 0 < / INR n <= 1) by (split; [apply Rinv_0_lt_compat; lra|rewrite <- Rinv_1; apply Rinv_le_contravar; lra]). unfold Rdiv. set (j := / INR n) in *. set (s := slope_bound T 1) in *. set (w := value_bound T 1) in *. set (q := round_bound T 1) in *.
  assert (A1 : s * j <= 5 * j) by (apply Rmult_le_compat_r; lra). assert (A2 : 0 <= s * j <= 5) by (split; [apply Rmult_le_pos; lra|apply Rle_trans with (5 * 1); [apply Rmult_le_compat; lra|lra]]).
  assert (A4 : (15 + INR n) * uu * (w + q) <= (15 + INR n) * uu * (501 / 100)) by (apply Rmult_le_compat_l; [apply Rmult_le_pos; lra|lra]). assert (A5 : uu * w <= uu * 5) by (apply Rmult_le_compat_l; lra). assert (A6 : uu * (s * j) <= uu * 5) by (apply Rmult_le_compat_l; lra).
  set (Z1 := (15 + INR n) * uu * (w + q)) in *. set (Y := uu * (s * j)) in *. set (Z := uu * w) in *. set (N := INR n * uu) in *. clearbody q.
  match goal with |- ?l <= _ => replace l with (s * j + (1001 / 1000 * q + 102 / 100 * Z1 + (7776 * Z + 216 * Y))) by (unfold Z1, Y, Z; field) end. replace ((15 + INR n) * uu * (501 / 100)) with (7515 / 100 * uu + 501 / 100 * N) in A4 by (unfold N; field). replace ((41000 + 6 * INR n) * uu) with (41000 * uu + 6 * N) by (unfold N; ring).
  assert (0 <= N) by (apply Rmult_le_pos; lra). lra.
Qed.
