(** C86: numerical integrals of function expressions in binary64, with bounds read off the text of the expression. *)
From Coquelicot Require Import Coquelicot.
From Coq Require Import List Arith Lia Bool ZArith Reals Lra Psatz.
From Flocq Require Import Core Relative BinarySingleNaN.
From Verif Require Import Num Outcome LinAlg RSum RDeriv RPoly IEEEModel IEEESpec IEEEProofs IEEEHorner IEEELegendre IEEEFunSpec IEEEFunProofs IEEEFunProofs2 IEEEFunProofs3 IEEEFunProps
  GSplineModel FunModel FunSpec ToolsModel GLModel GLSpec GLProofs GLProofs2 GLLModel GLLProofs IntegralModel QuadSpec QuadMath IntegralProps GL64 GL64Spec GL64Props Int64 Int64Sum Int64Spec Int64Props Expr64Spec Expr64Proofs Expr64Proofs2.
Import ListNotations.
Local Open Scope R_scope.
Local Opaque gl_iters.

(** the exact values of a scalar expression on |t| <= a *)
Definition exact_on (f : fn b64) (a : R) (F : R -> R) : Prop := forall dbg t, Rabs t <= a -> eval dbg (exact_fn f) [t] 1 = Ok [[F t]].

Lemma okj {A} (a b : A) : Ok a = Ok b -> b = a.
Proof. intros E. injection E. auto. Qed.
Lemma two_points f a F s t : fcod f = 1%nat -> fits f a -> exact_on f a F -> Rabs s <= a -> Rabs t <= a ->
  exists z k, sizes f a = [z] /\ rates f a = [k] /\ pair_ok (Rabs (s - t)) z k (F s) (F t).
Proof.
  intros C Ft EF Hs Ht. destruct (rates_sound true f a s t Ft Hs Ht) as (x & y & E & P & L). rewrite C in *. destruct (pairs_one _ _ _ _ _ P L) as (z & k & x0 & y0 & E1 & E2 & -> & -> & O).
  destruct (shaped_points true (exact_fn f) (shaped_map _ _ _ (fits_shaped f a Ft))) as (h & Hh). rewrite fcod_exact, C in Hh.
  pose proof (proj1 (Hh [s; t])) as A. rewrite E in A. cbn [map] in A. pose proof (proj1 (Hh [s])) as B. rewrite (EF true s Hs) in B. pose proof (proj1 (Hh [t])) as D. rewrite (EF true t Ht) in D. cbn [map] in B, D.
  apply okj in A. apply okj in B. apply okj in D. assert (x0 = F s) by congruence. assert (y0 = F t) by congruence. subst. exists z, k. auto.
Qed.
Lemma two_lists f a s : fits f a -> Rabs s <= a -> length (sizes f a) = fcod f /\ length (rates f a) = fcod f.
Proof. intros Ft Hs. destruct (rates_sound true f a s s Ft Hs Hs) as (x & y & E & P & L). destruct (pairs_len _ _ _ _ _ P). lia. Qed.

(** the text bounds the components of any expression and how fast they change *)
Theorem C86_slopes dbg f a s t : fits f a -> Rabs s <= a -> Rabs t <= a ->
  exists x y, eval dbg (exact_fn f) [s; t] (fcod f) = Ok [x; y] /\ length x = fcod f /\ length y = fcod f /\
    forall i, (i < fcod f)%nat -> Rabs (nth i x 0) <= nth i (sizes f a) 0 /\ Rabs (nth i x 0 - nth i y 0) <= nth i (rates f a) 0 * Rabs (s - t).
Proof.
  intros Ft Hs Ht. destruct (rates_sound dbg f a s t Ft Hs Ht) as (x & y & E & P & L). exists x, y. destruct (pairs_len _ _ _ _ _ P) as (_ & _ & Ly). split; [exact E|]. split; [exact L|]. split; [lia|].
  rewrite <- L. clear - P. induction P as [|z k x y Z K X Y (A & B & C & D) P IH]; cbn [length]; intros i Hi; [lia|]. destruct i as [|i]; cbn [nth]; [auto|]. apply IH. lia.
Qed.

Section C86.
Variable m : libm.
Local Instance BN : Num b64 := B64num m.

(** what an expression provides to the integral *)
Lemma expr_ready dbg f F eps D lo hi : accurate m eps -> eps <= 2 * uu -> fcod f = 1%nat -> fits f (reach D) -> INR (ops f 0) * uu <= / 2 -> exact_on f (reach D) F -> - reach D <= lo -> lo <= hi -> hi <= reach D ->
  exists Fb : nat -> b64 -> b64, pointwise (fo_of_fn dbg f) Fb /\
    near_on (Fb 0%nat) F lo hi (((1 + uu) ^ ops f 0 - 1) * value_bound f D) /\ lipschitz F (slope_bound f D) lo hi /\ (forall t, lo <= t <= hi -> Rabs (F t) <= value_bound f D) /\
    / 2 ^ 500 <= value_bound f D /\ 0 <= slope_bound f D.
Proof.
  intros HM He C Ft Hf EF Hlo Hlh Hhi. pose proof (eps_nonneg m eps HM) as He0. set (a := reach D) in *.
  assert (In : forall t, lo <= t <= hi -> Rabs t <= a) by (intros t Ht; apply Rabs_le; lra).
  destruct (two_points f a F lo lo C Ft EF (In lo ltac:(lra)) (In lo ltac:(lra))) as (z & k & Ez & Ek & (K0 & Z1 & _)).
  assert (I5 : 0 < / 2 ^ 500) by (apply Rinv_0_lt_compat, pow_lt; lra). pose proof (Rabs_pos (F lo)) as Pz.
  assert (VB : value_bound f D = z + / 2 ^ 500) by (unfold value_bound; fold a; rewrite Ez; reflexivity). assert (SB : slope_bound f D = k) by (unfold slope_bound; fold a; rewrite Ek; reflexivity). rewrite VB, SB.
  destruct (shaped_points dbg f (fits_shaped f a Ft)) as (h & Hh). rewrite C in Hh. exists (fun _ t => hd n0 (h t)).
  assert (G1 : 0 <= (1 + uu) ^ ops f 0 - 1) by (pose proof (pow_1u_ge1 (ops f 0)); lra).
  split; [|split; [|split; [|split; [|split; [lra|exact K0]]]]].
  - apply fn_pointwise. intros l. rewrite C. destruct (Hh l) as (E & L). rewrite E. f_equal. apply map_ext. intros t. specialize (L t). cbn [seq map]. destruct (h t) as [|x [|]]; try discriminate. reflexivity.
  - intros t Fn Ht. pose proof (In _ Ht) as Ha.
    destruct (apriori eps (conj He0 He) f a 0%nat (val t, 0) Ft) as (l & El & Ul & Ll); [split; cbn [fst snd]; [exact Ha|unfold gr; cbn; pose proof (Rabs_pos (val t)); lra]|exact Hf|].
    destruct (C66_enclosure m eps dbg f [t] [(val t, 0)] HM ltac:(discriminate)) as (rows & E & FR).
    { constructor; [|constructor]. split; [exact Fn|]. cbn. rewrite Rminus_eq_0, Rabs_R0. lra. } { intros p [<-|[]]. rewrite El. discriminate. }
    destruct (evalR eps He0 dbg f [val t] [(val t, 0)] ltac:(discriminate)) as (xs & E' & FX).
    { constructor; [|constructor]. split; cbn; [reflexivity|lra]. } { constructor; [|constructor]. rewrite El. discriminate. }
    rewrite C in *. rewrite (EF dbg (val t) Ha) in E'. apply okj in E'. subst xs. destruct (Hh [t]) as (Eh & Lh). change (@eval b64 (B64num m)) with (@eval b64 BN) in E. rewrite Eh in E. apply okj in E. subst rows. cbn [map] in FR.
    inversion FR as [|? ? ? ? (l1 & El1 & Fl1) _]; subst. inversion FX as [|? ? ? ? (l2 & El2 & Fl2) _]; subst. assert (l1 = l) by congruence. assert (l2 = l) by congruence. subst l1 l2.
    inversion Fl2 as [|? p ? ? Ac F0]; subst. inversion F0; subst. rewrite Ez in Ul. inversion Ul as [|? ? ? ? Up _]; subst. inversion Fl1 as [|b ? hb ? W F1 E1]; subst. inversion F1; subst. cbn [hd].
    destruct W as (Fb & Wb). destruct Ac as (Ac & _). destruct Up as (_ & Up). split; [exact Fb|]. rewrite Ac. eapply Rle_trans; [exact Wb|]. unfold gr in Up. eapply Rle_trans; [apply Up|]. apply Rmult_le_compat_l; lra.
  - intros s t Hs Ht. destruct (two_points f a F s t C Ft EF (In s Hs) (In t Ht)) as (z' & k' & _ & Ek' & (_ & _ & _ & O)). assert (k' = k) by congruence. subst. exact O.
  - intros t Ht. destruct (two_points f a F t t C Ft EF (In t Ht) (In t Ht)) as (z' & k' & Ez' & _ & (_ & O & _)). assert (z' = z) by congruence. subst. lra.
Qed.
Lemma lipschitz_int F K a b : a <= b -> lipschitz F K a b -> 0 <= K -> exists v, is_RInt F a b v.
Proof.
  intros Hab L K0. assert (Ex : ex_RInt F a b); [|destruct Ex as (v & Hv); exists v; exact Hv].
  (* outside the interval the function does not matter *)
  set (clip := fun t => Rmax a (Rmin b t)). apply (ex_RInt_ext (fun t => F (clip t))).
  { intros t Ht. rewrite Rmin_left, Rmax_right in Ht by lra. unfold clip. rewrite Rmin_right, Rmax_right by lra. reflexivity. }
  assert (Cl : forall s t, Rabs (clip s - clip t) <= Rabs (s - t)). { intros s t. unfold clip, Rmax, Rmin. repeat destruct Rle_dec; unfold Rabs; repeat destruct Rcase_abs; lra. }
  assert (Ci : forall t, a <= clip t <= b). { intros t. unfold clip, Rmax, Rmin. repeat destruct Rle_dec; lra. }
  apply (ex_RInt_continuous (V := R_CompleteNormedModule)). intros t _. apply continuity_pt_filterlim. intros e He. exists (e / (K + 1)). split; [apply Rdiv_lt_0_compat; lra|]. intros s (_ & Hs). cbn in *. unfold R_dist in *.
  eapply Rle_lt_trans; [apply L; apply Ci|]. apply Rle_lt_trans with (K * Rabs (s - t)); [apply Rmult_le_compat_l; [exact K0|apply Cl]|].
  assert (Hs' : Rabs (s - t) * (K + 1) < e). { apply Rmult_lt_reg_r with (/ (K + 1)); [apply Rinv_0_lt_compat; lra|]. rewrite Rmult_assoc, Rinv_r, Rmult_1_r by lra. exact Hs. }
  pose proof (Rabs_pos (s - t)). lra.
Qed.

(** the conditions under which an expression is integrated from a to b: everything stays far from overflow *)
Definition integrable64 (f : fn b64) (np n : nat) (D : R) : Prop :=
  let a := val (fst (fdom f)) in let b := val (snd (fdom f)) in
  fin (fst (fdom f)) /\ fin (snd (fdom f)) /\ / 2 ^ 400 <= b - a /\ Rabs a <= D /\ Rabs b <= D /\ D <= 2 ^ 400 /\
  (2 <= np <= 1001)%nat /\ (1 <= n)%nat /\ INR n * uu <= / 1000 /\
  fcod f = 1%nat /\ fits f (reach D) /\ INR (ops f 0) * uu <= / 2 /\ value_bound f D + round_bound f D <= 2 ^ 400.

Lemma D_reach f np n D : integrable64 f np n D -> 0 <= shift D /\ - reach D <= val (fst (fdom f)) - shift D /\ val (fst (fdom f)) < val (snd (fdom f)) /\ val (snd (fdom f)) + shift D <= reach D.
Proof.
  intros (_ & _ & Hab & DA & DB & _). assert (I4 : 0 < / 2 ^ 400) by (apply Rinv_0_lt_compat, pow_lt; lra). unfold reach. apply Rabs_le_between in DA. apply Rabs_le_between in DB.
  assert (0 <= shift D) by (unfold shift; change (/ 2 ^ 53) with uu; pose proof u1; apply Rmult_le_pos; lra). lra.
Qed.

Theorem C86_integral dbg f F np n D eps : accurate_pi m -> accurate m eps -> eps <= 2 * uu -> integrable64 f np n D -> exact_on f (reach D) F ->
  let a := val (fst (fdom f)) in let b := val (snd (fdom f)) in
  exists r v, integral dbg (fo_of_fn dbg f) np n = Ok r /\ fin r /\ is_RInt F a b v /\
    Rabs (val r - v) <= slope_bound f D * (b - a) ^ 2 / INR n + integral_error f np n a b D.
Proof.
  intros HP HM He HI EF a b. destruct (D_reach f np n D HI) as (Sp & R1 & R2 & R3). destruct HI as (FA & FB & Hab & DA & DB & HD & Hnp & Hn & Hn2 & C & Ft & Hf & Bd). fold a b in R1, R2, R3, Hab, DA, DB. pose proof u1 as U.
  destruct (expr_ready dbg f F eps D (a - shift D) (b + shift D) HM He C Ft Hf EF ltac:(lra) ltac:(lra) ltac:(lra)) as (Fb & Pw & Ng & Lip & HB & B1 & K0).
  destruct (lipschitz_int F (slope_bound f D) a b ltac:(lra) ltac:(intros s t Hs Ht; apply Lip; lra) K0) as (v & Hv).
  destruct (C79_lipschitz m dbg (fo_of_fn dbg f) Fb F np n eps (((1 + uu) ^ ops f 0 - 1) * value_bound f D) (slope_bound f D) (value_bound f D) D v C Pw Hnp Hn Hn2 HP (proj1 (proj2 HM)) ltac:(lra) FA FB Hab DA DB HD Ng Lip HB B1 Bd Hv) as (r & E & Fr & Er).
  exists r, v. auto.
Qed.
Theorem C86_polynomials dbg f F np n D eps : accurate_pi m -> accurate m eps -> eps <= 2 * uu -> integrable64 f np n D -> exact_on f (reach D) F -> poly (2 * np - 3) F ->
  let a := val (fst (fdom f)) in let b := val (snd (fdom f)) in
  exists r v, integral dbg (fo_of_fn dbg f) np n = Ok r /\ fin r /\ is_RInt F a b v /\ Rabs (val r - v) <= integral_error f np n a b D.
Proof.
  intros HP HM He HI EF PF a b. destruct (D_reach f np n D HI) as (Sp & R1 & R2 & R3). destruct HI as (FA & FB & Hab & DA & DB & HD & Hnp & Hn & Hn2 & C & Ft & Hf & Bd). fold a b in R1, R2, R3, Hab, DA, DB. pose proof u1 as U.
  destruct (expr_ready dbg f F eps D (a - shift D) (b + shift D) HM He C Ft Hf EF ltac:(lra) ltac:(lra) ltac:(lra)) as (Fb & Pw & Ng & Lip & HB & B1 & K0).
  exact (C79_polynomials m dbg (fo_of_fn dbg f) Fb F np n eps (((1 + uu) ^ ops f 0 - 1) * value_bound f D) (slope_bound f D) (value_bound f D) D C Pw Hnp Hn Hn2 HP (proj1 (proj2 HM)) ltac:(lra) FA FB Hab DA DB HD Ng Lip HB B1 Bd PF).
Qed.
End C86.

(** sin(2t) + exp(t) (1 + 3t) from 0 to 1, ten points in each of n parts *)
Lemma exp_ub x : 0 <= x < 1 -> exp x <= / (1 - x).
Proof.
  intros Hx. pose proof (exp_ineq1_le (- x)) as E. rewrite exp_Ropp in E. pose proof (exp_pos x). apply Rmult_le_reg_r with (1 - x); [lra|]. rewrite Rinv_l by lra.
  assert (exp x * (1 - x) <= exp x * / exp x) by (apply Rmult_le_compat_l; lra). rewrite Rinv_r in H0 by lra. exact H0.
Qed.
Lemma expr64_bounds t : 0 <= t <= 1001 / 1000 -> fits expr64 t /\ (exists z k, sizes expr64 t = [z] /\ 0 <= z <= 90 /\ rates expr64 t = [k] /\ 0 <= k <= 110).
Proof.
  intros T. pose proof tiny_pos. pose proof tiny_1. assert (ts : tiny <= / 1000) by (apply Rle_trans with (/ 2 ^ 10); [unfold tiny; apply Rinv_le_contravar; [apply pow_lt; lra|apply Rle_pow; [lra|lia]]|simpl; lra]). pose proof big_200 as B. cbn [pow] in B.
  assert (L1 : val (b64_of_Z 1) = 1) by (apply (ofZ_ok 1); cbn; lia). assert (L2 : val (b64_of_Z 2) = 2) by (apply (ofZ_ok 2); cbn; lia). assert (L3 : val (b64_of_Z 3) = 3) by (apply (ofZ_ok 3); cbn; lia).
  assert (E : exp (2 * t) <= 10). { eapply Rle_trans; [apply (exp_le _ (2 + 2 / 1000)); lra|]. rewrite exp_plus. pose proof exp_2_8. pose proof (exp_pos 2). pose proof (exp_pos (2 / 1000)). pose proof (exp_ub (2 / 1000) ltac:(lra)) as Eu. assert (exp 2 * exp (2 / 1000) <= 9 * / (1 - 2 / 1000)) by (apply Rmult_le_compat; lra). lra. }
  assert (Et : 0 < exp t <= 10) by (split; [apply exp_pos|eapply Rle_trans; [apply (exp_le _ (2 * t)); lra|exact E]]).
  pose proof (exp_pos (2 * t)). assert (E1 : exp (2 * t) * (1 + t) <= 10 * (2001 / 1000)) by (apply Rmult_le_compat; lra). assert (E0 : 0 <= exp (2 * t) * (1 + t)) by (apply Rmult_le_pos; lra).
  assert (M : 1 <= Rmax 1 t <= 1001 / 1000) by (split; [apply Rmax_l|apply Rmax_lub; lra]). set (e := exp (2 * t) * (1 + t)) in *. set (M1 := Rmax 1 t) in *.
  assert (P3 : forall w, 0 <= w <= 1001 / 1000 -> 0 <= w * (3 + tiny + w * 0) <= 301 / 100). { intros w Hw. rewrite Rmult_0_r, Rplus_0_r. split; [apply Rmult_le_pos; lra|]. apply Rle_trans with (1001 / 1000 * (3 + / 1000)); [apply Rmult_le_compat; lra|lra]. }
  pose proof (P3 t ltac:(lra)) as Q0. pose proof (P3 M1 ltac:(lra)) as QM.
  assert (Q : 0 <= (e + tiny) * (1 + tiny + t * (3 + tiny + t * 0)) <= (2011 / 100) * (402 / 100)) by (split; [apply Rmult_le_pos; lra|apply Rmult_le_compat; lra]).
  assert (K1 : 0 <= exp t * (1 + tiny + t * (3 + tiny + t * 0)) <= 10 * (402 / 100)) by (split; [apply Rmult_le_pos; lra|apply Rmult_le_compat; lra]).
  assert (K2 : (e + tiny) * (3 + t * 0 + t * 0) = 3 * (e + tiny)) by ring.
  split.
  - cbn [expr64 fits sizes fcod fold_left fold_right map map2 hd repeat power_sum length]. rewrite L1, L2, L3. rewrite (Rabs_pos_eq 1), (Rabs_pos_eq 2), (Rabs_pos_eq 3) by lra. fold M1 e.
    unfold fit. repeat split; try discriminate; try reflexivity; try (repeat constructor; fail); try lra; try (constructor; [|constructor]; lra).
  - eexists. eexists. cbn [expr64 sizes rates fold_left map map2 hd repeat power_sum poly_rate fst snd]. rewrite L1, L2, L3. rewrite (Rabs_pos_eq 1), (Rabs_pos_eq 2), (Rabs_pos_eq 3) by lra. fold e. split; [reflexivity|]. split; [lra|]. split; [reflexivity|].
    replace (3 + t * 0 + t * (0 + t * 0)) with 3 by ring. lra.
Qed.
Definition exprF (t : R) : R := 0 + sin (2 * t) + exp t * (3 * t + 1).
Lemma expr64_exact a : exact_on expr64 a exprF.
Proof.
  intros dbg t _. change (exact_fn expr64) with (exprR (val (b64_of_Z 0), val (b64_of_Z 1)) (val (b64_of_Z 2)) (val (b64_of_Z 1)) (val (b64_of_Z 3))). rewrite exprR_eval.
  assert (L1 : val (b64_of_Z 1) = 1) by (apply (ofZ_ok 1); cbn; lia). assert (L2 : val (b64_of_Z 2) = 2) by (apply (ofZ_ok 2); cbn; lia). assert (L3 : val (b64_of_Z 3) = 3) by (apply (ofZ_ok 3); cbn; lia). rewrite L1, L2, L3. reflexivity.
Qed.
Lemma pow7 : (1 + uu) ^ 6 - 1 <= 7 * uu.
Proof. pose proof u1 as U. assert (A : 1 + uu <= 1 + uu) by lra. cbn [pow]. nra. Qed.
Example C86_slopes_case dbg : exists x y, eval dbg (exact_fn expr64) [1 / 3; 1 / 2] 1 = Ok [[x]; [y]] /\ Rabs (x - y) <= 110 * Rabs (1 / 3 - 1 / 2).
Proof.
  destruct (expr64_bounds 1 ltac:(lra)) as (Ft & z & k & _ & _ & Ek & Hk). destruct (C86_slopes dbg expr64 1 (1 / 3) (1 / 2) Ft) as (x & y & E & Lx & Ly & K); try (rewrite Rabs_pos_eq; lra).
  cbn [fcod expr64] in *. destruct x as [|x [|]]; try discriminate. destruct y as [|y [|]]; try discriminate. exists x, y. split; [exact E|]. destruct (K 0%nat ltac:(lia)) as (_ & A). fold expr64 in A. rewrite Ek in A. cbn [nth] in A. eapply Rle_trans; [exact A|]. apply Rmult_le_compat_r; [apply Rabs_pos|lra].
Qed.
Lemma expr64_ready n : (1 <= n)%nat -> INR n * uu <= / 1000 -> integrable64 expr64 10 n 1 /\ 0 <= slope_bound expr64 1 <= 110 /\ 0 <= value_bound expr64 1 <= 91 /\ 0 <= round_bound expr64 1 <= 2900 * uu.
Proof.
  intros Hn Hn2. pose proof u1 as U. destruct (ofZ_ok 0 ltac:(lia)) as (F0 & V0). destruct (ofZ_ok 1 ltac:(lia)) as (F1 & V1).
  assert (RE : reach 1 = 1 + 20 * uu) by (unfold reach, shift; change (/ 2 ^ 53) with uu; ring). destruct (expr64_bounds (reach 1) ltac:(lra)) as (Ft & z & k & Ez & Hz & Ek & Hk).
  assert (I5 : 0 < / 2 ^ 500 <= 1). { split; [apply Rinv_0_lt_compat, pow_lt; lra|]. rewrite <- Rinv_1. apply Rinv_le_contravar; [lra|apply pow_R1_Rle; lra]. }
  assert (VB : 0 <= value_bound expr64 1 <= 91) by (unfold value_bound; rewrite Ez; cbn [hd]; lra). assert (SB : 0 <= slope_bound expr64 1 <= 110) by (unfold slope_bound; rewrite Ek; cbn [hd]; lra).
  assert (RB : 0 <= round_bound expr64 1 <= 2900 * uu).
  { unfold round_bound. replace (ops expr64 0) with 6%nat by reflexivity. pose proof pow7 as P7. pose proof (pow_1u_ge1 6) as P6. replace (shift 1) with (20 * uu) by (unfold shift; change (/ 2 ^ 53) with uu; ring).
    set (v := value_bound expr64 1) in *. set (s := slope_bound expr64 1) in *. assert (0 <= ((1 + uu) ^ 6 - 1) * v <= 7 * uu * 91) by (split; [apply Rmult_le_pos; lra|apply Rmult_le_compat; lra]). assert (0 <= s * (20 * uu) <= 110 * (20 * uu)) by (split; [apply Rmult_le_pos; lra|apply Rmult_le_compat_r; lra]). lra. }
  split; [|auto]. unfold integrable64. cbn [fdom expr64 dom64 fst snd]. fold expr64. rewrite V0, V1. assert (P4 : 2 ^ 10 <= 2 ^ 400) by (apply Rle_pow; [lra|lia]). assert (P10 : 2 ^ 10 = 1024) by (simpl; lra).
  split; [exact F0|]. split; [exact F1|]. split. { apply Rle_trans with (/ 1); [apply Rinv_le_contravar; [lra|apply pow_R1_Rle; lra]|lra]. } split; [rewrite Rabs_R0; lra|]. split; [rewrite Rabs_R1; lra|]. split; [lra|]. split; [lia|]. split; [exact Hn|]. split; [exact Hn2|].
  split; [reflexivity|]. split; [exact Ft|]. split; [replace (ops expr64 0) with 6%nat by reflexivity; replace (INR 6) with 6 by (simpl; lra); lra|lra].
Qed.
Example C86_integral_case dbg n : (1 <= n)%nat -> INR n * uu <= / 1000 ->
  exists r, integral (H := B64num nearest) dbg (fo_of_fn (H := B64num nearest) dbg expr64) 10 n = Ok r /\ fin r /\
    Rabs (val r - ((1 - cos 2) / 2 + exp 1 + 2)) <= 110 / INR n + (800000 + 100 * INR n) * uu.
Proof.
  intros Hn Hn2. pose proof u1 as U. destruct C78_nearest as (HP & HC & He). destruct (ofZ_ok 0 ltac:(lia)) as (F0 & V0). destruct (ofZ_ok 1 ltac:(lia)) as (F1 & V1). pose proof (n_1 n Hn) as N1.
  destruct (expr64_ready n Hn Hn2) as (HI & SB & VB & RB).
  destruct (C86_integral nearest dbg expr64 exprF 10 n 1 (2 * uu) HP C66_nearest ltac:(lra) HI (expr64_exact _)) as (r & v & E & Fr & Iv & Er). exists r. split; [exact E|]. split; [exact Fr|].
  cbn [fdom expr64 dom64 fst snd] in Iv, Er. fold expr64 in Er. rewrite V0, V1 in *.
  assert (Ev : v = (1 - cos 2) / 2 + exp 1 + 2).
  { rewrite <- (is_RInt_unique _ _ _ _ Iv). apply is_RInt_unique. replace ((1 - cos 2) / 2 + exp 1 + 2) with ((- cos (2 * 1) / 2 + exp 1 * (3 * 1 - 2)) - (- cos (2 * 0) / 2 + exp 0 * (3 * 0 - 2))) by (rewrite Rmult_0_r, cos_0, exp_0, Rmult_1_r; field).
    apply (i_ftc (fun t => - cos (2 * t) / 2 + exp t * (3 * t - 2)) exprF); [intros t; unfold exprF; auto_derive; auto; field|]. intros t. apply (ex_derive_continuous exprF). unfold exprF. auto_derive; auto. }
  rewrite <- Ev. eapply Rle_trans; [exact Er|]. unfold integral_error, sum_error, rule_error, node_error, weight_error. change (/ 2 ^ 53) with uu. replace (10 - 1)%nat with 9%nat by reflexivity.
  assert (S9 : sqrt (INR 9) = 3) by (replace (INR 9) with (3 * 3) by (simpl; lra); apply sqrt_square; lra). rewrite S9. replace (INR 9) with 9 by (simpl; lra). replace (INR 10) with 10 by (simpl; lra). replace (1 - 0) with 1 by ring.
  assert (I1 : 0 < / INR n <= 1) by (split; [apply Rinv_0_lt_compat; lra|rewrite <- Rinv_1; apply Rinv_le_contravar; lra]). unfold Rdiv. set (j := / INR n) in *. set (s := slope_bound expr64 1) in *. set (w := value_bound expr64 1) in *. set (q := round_bound expr64 1) in *.
  assert (A1 : s * j <= 110 * j) by (apply Rmult_le_compat_r; lra). assert (A2 : 0 <= s * j <= 110) by (split; [apply Rmult_le_pos; lra|apply Rle_trans with (110 * 1); [apply Rmult_le_compat; lra|lra]]).
  assert (A3 : 0 <= (w + q) <= 92) by lra. assert (A4 : (15 + INR n) * uu * (w + q) <= (15 + INR n) * uu * 92) by (apply Rmult_le_compat_l; [apply Rmult_le_pos; lra|lra]). assert (A5 : uu * w <= uu * 91) by (apply Rmult_le_compat_l; lra). assert (A6 : uu * (s * j) <= uu * 110) by (apply Rmult_le_compat_l; lra).
  replace (s * (1 * 1 ^ 2) * j) with (s * j) by ring. set (X := (15 + INR n) * uu * (w + q)) in *. set (Y := uu * (s * j)) in *. set (Z := uu * w) in *. set (N := INR n * uu) in *. clearbody q.
  match goal with |- ?l <= _ => replace l with (s * j + (1001 / 1000 * q + 102 / 100 * X + (7776 * Z + 216 * Y))) by (unfold X, Y, Z; field) end. replace ((15 + INR n) * uu * 92) with (1380 * uu + 92 * N) in A4 by (unfold N; ring). replace ((800000 + 100 * INR n) * uu) with (800000 * uu + 100 * N) by (unfold N; ring).
  assert (0 <= N) by (apply Rmult_le_pos; lra). lra.
Qed.
(** 1 + 3t from 0 to 1, two points in each of seven parts *)
Definition line64 : fn b64 := FPoly dom64 [b64_of_Z 1; b64_of_Z 3].
Lemma line64_ops : ops line64 0 = 2%nat.
Proof. reflexivity. Qed.
Example C86_polynomials_case dbg : exists r, integral (H := B64num nearest) dbg (fo_of_fn (H := B64num nearest) dbg line64) 2 7 = Ok r /\ fin r /\ Rabs (val r - 5 / 2) <= 500 * uu.
Proof.
  pose proof u1 as U. destruct C78_nearest as (HP & HC & He). destruct (ofZ_ok 0 ltac:(lia)) as (F0 & V0). destruct (ofZ_ok 1 ltac:(lia)) as (F1 & V1). destruct (ofZ_ok 3 ltac:(lia)) as (F3 & V3). assert (E7 : INR 7 = 7) by (simpl; lra).
  pose proof tiny_pos. assert (ts : tiny <= / 1000) by (apply Rle_trans with (/ 2 ^ 10); [unfold tiny; apply Rinv_le_contravar; [apply pow_lt; lra|apply Rle_pow; [lra|lia]]|simpl; lra]). pose proof big_200 as B. cbn [pow] in B.
  assert (RE : reach 1 = 1 + 20 * uu) by (unfold reach, shift; change (/ 2 ^ 53) with uu; ring). assert (S1 : shift 1 = 20 * uu) by (unfold shift; change (/ 2 ^ 53) with uu; ring).
  assert (P3 : forall w, 0 <= w <= 1001 / 1000 -> 0 <= w * (3 + tiny + w * 0) <= 301 / 100). { intros w Hw. rewrite Rmult_0_r, Rplus_0_r. split; [apply Rmult_le_pos; lra|]. apply Rle_trans with (1001 / 1000 * (3 + / 1000)); [apply Rmult_le_compat; lra|lra]. }
  assert (I5 : 0 < / 2 ^ 500 <= / 1000). { split; [apply Rinv_0_lt_compat, pow_lt; lra|]. apply Rle_trans with (/ 2 ^ 10); [apply Rinv_le_contravar; [apply pow_lt; lra|apply Rle_pow; [lra|lia]]|simpl; lra]. }
  assert (VB : 0 <= value_bound line64 1 <= 403 / 100). { unfold value_bound. cbn [line64 sizes map hd power_sum]. rewrite V1, V3, (Rabs_pos_eq 1), (Rabs_pos_eq 3) by lra. pose proof (P3 (reach 1) ltac:(lra)). lra. }
  assert (SB : slope_bound line64 1 = 3). { unfold slope_bound. cbn [line64 rates map hd power_sum poly_rate]. rewrite V3, (Rabs_pos_eq 3) by lra. ring. }
  assert (RB : 0 <= round_bound line64 1 <= 75 * uu).
  { unfold round_bound. rewrite line64_ops, SB, S1. assert (U2 : 0 <= uu * uu <= / 1000 * uu) by (split; [apply Rmult_le_pos; lra|apply Rmult_le_compat_r; lra]). replace ((1 + uu) ^ 2 - 1) with (2 * uu + uu * uu) by ring. set (v := value_bound line64 1) in *.
    assert (0 <= (2 * uu + uu * uu) * v <= 3 * uu * (403 / 100)) by (split; [apply Rmult_le_pos; lra|apply Rmult_le_compat; lra]). lra. }
  assert (HI : integrable64 line64 2 7 1).
  { unfold integrable64. cbn [fdom line64 dom64 fst snd]. fold line64. rewrite V0, V1. assert (P4 : 2 ^ 10 <= 2 ^ 400) by (apply Rle_pow; [lra|lia]). assert (P10 : 2 ^ 10 = 1024) by (simpl; lra).
    split; [exact F0|]. split; [exact F1|]. split. { apply Rle_trans with (/ 1); [apply Rinv_le_contravar; [lra|apply pow_R1_Rle; lra]|lra]. } split; [rewrite Rabs_R0; lra|]. split; [rewrite Rabs_R1; lra|]. split; [lra|]. split; [lia|]. split; [lia|]. split; [rewrite E7; lra|].
    split; [reflexivity|]. split; [|split; [rewrite line64_ops; simpl INR; lra|lra]]. cbn [line64 fits sizes map power_sum]. split; [discriminate|]. split; [repeat constructor; assumption|].
    rewrite V1, V3, (Rabs_pos_eq 1), (Rabs_pos_eq 3) by lra. assert (M : 1 <= Rmax 1 (reach 1) <= 1001 / 1000) by (split; [apply Rmax_l|apply Rmax_lub; lra]). pose proof (P3 _ ltac:(split; [|apply M]; lra)). unfold fit. lra. }
  assert (EF : exact_on line64 (reach 1) (fun t => 3 * t + 1)). { intros d t _. change (eval d (exact_fn line64) [t] 1) with (Ok [[val (b64_of_Z 3) * t + val (b64_of_Z 1)]]). rewrite V1, V3. reflexivity. }
  destruct (C86_polynomials nearest dbg line64 (fun t => 3 * t + 1) 2 7 1 (2 * uu) HP C66_nearest ltac:(lra) HI EF) as (r & v & E & Fr & Iv & Er).
  { exists (fun k => nth k [1; 3] 0). intros t. change (S (2 * 2 - 3)) with 2%nat. cbn [Rsum nth pow]. ring. }
  exists r. split; [exact E|]. split; [exact Fr|]. cbn [fdom line64 dom64 fst snd] in Iv, Er. fold line64 in Er. rewrite V0, V1 in *.
  assert (Ev : v = 5 / 2). { rewrite <- (is_RInt_unique _ _ _ _ Iv). apply is_RInt_unique. replace (5 / 2) with ((3 * 1 ^ 2 / 2 + 1) - (3 * 0 ^ 2 / 2 + 0)) by field. apply (i_ftc (fun t => 3 * t ^ 2 / 2 + t) (fun t => 3 * t + 1)); [intros t; auto_derive; auto; field|]. intros t. apply (ex_derive_continuous (fun t => 3 * t + 1)). auto_derive; auto. }
  rewrite <- Ev. eapply Rle_trans; [exact Er|]. unfold integral_error, sum_error, rule_error, node_error, weight_error. change (/ 2 ^ 53) with uu. replace (2 - 1)%nat with 1%nat by reflexivity. rewrite E7, SB. replace (INR 1) with 1 by reflexivity. rewrite sqrt_1. replace (INR 2) with 2 by (simpl; lra).
  set (w := value_bound line64 1) in *. set (q := round_bound line64 1) in *. assert (A4 : uu * (w + q) <= uu * 5) by (apply Rmult_le_compat_l; lra). assert (A5 : uu * w <= uu * 5) by (apply Rmult_le_compat_l; lra). lra.
Qed.
