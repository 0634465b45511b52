(** Properties C59-C60: rounding in the evaluation of polynomials and of the Legendre basis. *)
From Coquelicot Require Import Coquelicot.
From Coq Require Import ZArith Reals Lra Lia List Arith Bool.
From Flocq Require Import Core BinarySingleNaN.
From Verif Require Import Num Outcome LinAlg FunModel FunSpec FunProofs LegendreModel LegendreSpec LegendreMath LegendreProofs StabMath
  IEEEModel IEEESpec IEEEProofs IEEEHorner IEEELegendre.
Import ListNotations.
Local Open Scope R_scope.

(** ** C59 *)
Lemma eval_poly64 m (c pts : list b64) cl rest : rev c = cl :: rest ->
  eval_poly (H := B64num m) c pts 1 = Ok (map (fun t => [fold_left (step64 t) rest cl]) pts).
Proof.
  intros E. unfold eval_poly. rewrite E. destruct rest as [|x rest]; cbn [Nat.eqb]; f_equal.
Qed.
Lemma rev_map_cons {A B} (f : A -> B) c cl rest : rev c = cl :: rest -> rev (map f c) = f cl :: map f rest.
Proof. intros E. rewrite <- map_rev, E. reflexivity. Qed.
Lemma rev_len {A} (c : list A) cl rest : rev c = cl :: rest -> length rest = (length c - 1)%nat.
Proof. intros E. apply (f_equal (@length A)) in E. rewrite rev_length in E. cbn in E. lia. Qed.
Lemma not_nil_rev {A} (c : list A) : c <> [] -> exists cl rest, rev c = cl :: rest.
Proof. intros H. destruct (rev c) as [|a l] eqn:E; [|eauto]. apply (f_equal (@rev A)) in E. rewrite rev_involutive in E. contradiction. Qed.

Theorem C59_error m (c pts : list b64) : c <> [] ->
  exists v, eval_poly (H := B64num m) c pts 1 = Ok (map (fun t => [v t]) pts) /\
    forall t, fin (v t) -> Rabs (val (v t) - power_sum (map val c) (val t)) <= poly_error (map val c) (val t).
Proof.
  intros Hc. destruct (not_nil_rev c Hc) as (cl & rest & E). exists (fun t => fold_left (step64 t) rest cl).
  split; [apply eval_poly64; auto|]. intros t F. destruct (horner_error t rest cl F) as (_ & _ & _ & B).
  unfold poly_error. rewrite map_length, map_map. rewrite (hfold_power_sum (map val c) (val cl) (map val rest)) in B by (apply rev_map_cons; auto).
  rewrite (hfold_power_sum (map (fun x => Rabs (val x)) c) (Rabs (val cl))) in B by (apply (rev_map_cons (fun x => Rabs (val x))); auto).
  rewrite (rev_len c cl rest E) in B. exact B.
Qed.
(** no overflow, no NaN: coefficients and time of moderate size *)
Theorem C59_finite m (c pts : list b64) T : c <> [] -> Forall fin c -> Forall fin pts ->
  1 <= T -> Forall (fun t => Rabs (val t) <= T) pts -> poly_size (map val c) T < omax ->
  exists rows, eval_poly (H := B64num m) c pts 1 = Ok rows /\ Forall (Forall fin) rows.
Proof.
  intros Hc Fc Fp HT BT HS. destruct (not_nil_rev c Hc) as (cl & rest & E). eexists. split; [apply eval_poly64; eauto|].
  apply Forall_forall. intros r Hr. apply in_map_iff in Hr as (t & <- & Ht). constructor; [|constructor].
  assert (Fr : Forall fin (cl :: rest)) by (rewrite <- E; apply Forall_rev; auto). inversion Fr as [|? ? Fcl Frest]; subst.
  eapply (horner_finite t rest cl T _); auto.
  - rewrite Forall_forall in Fp. auto.
  - rewrite Forall_forall in BT. auto.
  - unfold poly_size in HS. rewrite map_length, map_map in HS. rewrite (rev_len c cl rest E).
    replace (fold_right Rplus 0 (map (fun x => Rabs (val x)) c)) with (Rabs (val cl) + fold_right Rplus 0 (map (fun x => Rabs (val x)) rest)) in HS; [exact HS|].
    assert (FA : forall l a, fold_right Rplus a l = fold_right Rplus 0 l + a) by (induction l; intros; cbn; [ring|rewrite IHl; ring]).
    assert (FR : forall l, fold_right Rplus 0 (rev l) = fold_right Rplus 0 l) by (induction l; cbn; [reflexivity|rewrite fold_right_app, FA, IHl; cbn; ring]).
    rewrite <- (FR (map _ c)), <- map_rev, E. reflexivity.
Qed.

(** -1 + 3 t at the number nearest to 1/3: the computed value is 0, the exact one -2^-54, the bound is larger *)
Definition third64 : b64 := Bdiv mode_NE (b64_of_Z 1) (b64_of_Z 3).
Definition line64 : list b64 := [b64_of_Z (-1); b64_of_Z 3].
Example C59_case m : exists v, eval_poly (H := B64num m) line64 [third64] 1 = Ok [[v]] /\ fin v /\ val v = 0 /\
  power_sum (map val line64) (val third64) = - / 2 ^ 54 /\ / 2 ^ 54 <= poly_error (map val line64) (val third64).
Proof.
  assert (T3 : val third64 = 6004799503160661 * / 2 ^ 54).
  { unfold val. replace (B2R third64) with (F2R (Float radix2 6004799503160661 (-54))) by (vm_compute; reflexivity). unfold F2R. cbn [Fnum Fexp]. f_equal. change (-54)%Z with (- Z.of_nat 54)%Z. rewrite bpow_opp, bpow_pow. reflexivity. }
  assert (L1 : val (b64_of_Z (-1)) = -1) by (apply (ofZ_ok (-1)); cbn; lia). assert (L2 : val (b64_of_Z 3) = 3) by (apply (ofZ_ok 3); cbn; lia).
  assert (P : power_sum (map val line64) (val third64) = - / 2 ^ 54).
  { cbn [line64 map power_sum]. rewrite L1, L2, T3. apply (Rmult_eq_reg_r (2 ^ 54)); [|apply pow_nonzero; lra]. replace ((-1 + 6004799503160661 * / 2 ^ 54 * (3 + 6004799503160661 * / 2 ^ 54 * 0)) * 2 ^ 54) with (- 2 ^ 54 + 18014398509481983) by (field; apply pow_nonzero; lra).
    rewrite <- Ropp_mult_distr_l, Rinv_l by (apply pow_nonzero; lra). cbn. lra. }
  destruct (C59_error m line64 [third64]) as (v & E & B); [discriminate|].
  assert (V : v third64 = B754_zero false). { unfold eval_poly in E. cbn [line64 rev app map Nat.eqb] in E. injection E as E. rewrite <- E. vm_compute. reflexivity. }
  exists (v third64). split; [exact E|]. rewrite V. split; [reflexivity|]. split; [reflexivity|]. split; [exact P|].
  specialize (B third64). rewrite V in B. specialize (B eq_refl). rewrite P in B. cbn [val] in B.
  replace (Rabs (val (B754_zero false) - - / 2 ^ 54)) with (/ 2 ^ 54) in B; [exact B|]. change (val (B754_zero false)) with 0. rewrite Rminus_0_l, Ropp_involutive, Rabs_pos_eq; [reflexivity|]. apply Rlt_le, Rinv_0_lt_compat, pow_lt. lra.
Qed.
(** the hypotheses of C59_finite for it *)
Example C59_finite_case : Forall fin line64 /\ fin third64 /\ Rabs (val third64) <= 1 /\ poly_size (map val line64) 1 < omax.
Proof.
  assert (L1 : val (b64_of_Z (-1)) = -1) by (apply (ofZ_ok (-1)); cbn; lia). assert (L2 : val (b64_of_Z 3) = 3) by (apply (ofZ_ok 3); cbn; lia).
  repeat split; try (repeat constructor; reflexivity).
  - unfold val. replace (B2R third64) with (F2R (Float radix2 6004799503160661 (-54))) by (vm_compute; reflexivity). unfold F2R. cbn [Fnum Fexp].
    change (bpow radix2 (-54)) with (/ 18014398509481984). rewrite Rabs_pos_eq; lra.
  - unfold poly_size. cbn [line64 map length fold_right]. rewrite L1, L2. pose proof uu_small. pose proof uu_pos. pose proof hh_uu. pose proof hh_pos.
    replace (Rabs (-1)) with 1 by (rewrite Rabs_left; lra). replace (Rabs 3) with 3 by (rewrite Rabs_pos_eq; lra). cbn [Nat.sub Nat.mul Nat.add pow INR].
    apply Rlt_le_trans with (2 ^ 10); [cbn; nra|]. unfold omax. change 1024%Z with (Z.of_nat 1024). rewrite bpow_pow. apply Rle_pow; [lra|lia].
Qed.

(** ** C60 *)
Theorem C60_values m dim (s : b64) (buff : vec b64) x sg : (2 <= dim)%nat -> vlen buff = dim -> fin s -> -1 <= x <= 1 -> Rabs (val s - x) <= sg ->
  leg_error sg (dim - 1) <= / 16 ->
  exists b, leg_eval (H := B64num m) dim s buff = Ok b /\ vlen b = dim /\
    forall k, (k < dim)%nat -> exists p, vget b k = Some p /\ fin p /\ Rabs (val p - legP k x) <= leg_error sg k.
Proof.
  intros Hd L Fs Hx Hs Sm. destruct (leg_eval_gen (H := B64num m) dim s buff Hd L) as (b & E & Lb & G). exists b. split; [exact E|]. split; [exact Lb|].
  intros k Hk. exists (gleg (H := B64num m) s k). split; [apply G; auto|]. apply (leg64 m s x sg (dim - 1)); auto; lia.
Qed.
(** at the computed argument itself *)
Theorem C60_at m dim (s : b64) (buff : vec b64) : (2 <= dim)%nat -> vlen buff = dim -> fin s -> -1 <= val s <= 1 ->
  INR (dim - 1) * (INR (dim - 1) + 1) * 21 * uu <= / 8 ->
  exists b, leg_eval (H := B64num m) dim s buff = Ok b /\ vlen b = dim /\
    forall k, (k < dim)%nat -> exists p, vget b k = Some p /\ fin p /\ Rabs (val p - legP k (val s)) <= INR k * (INR k + 1) / 2 * (21 * uu).
Proof.
  intros Hd L Fs Hx Sm. destruct (C60_values m dim s buff (val s) 0) as (b & E & Lb & G); auto.
  - rewrite Rminus_eq_0, Rabs_R0. lra.
  - unfold leg_error. lra.
  - exists b. split; [exact E|]. split; [exact Lb|]. intros k Hk. destruct (G k Hk) as (p & Gp & Fp & B). exists p. split; [exact Gp|]. split; [exact Fp|].
    unfold leg_error in B. rewrite Rmult_0_r, Rplus_0_l in B. exact B.
Qed.
(** six polynomials at the number nearest to 1/3 *)
Example C60_case m : exists b, leg_eval (H := B64num m) 6 third64 (vnew 6) = Ok b /\
  forall k, (k < 6)%nat -> exists p, vget b k = Some p /\ fin p /\ Rabs (val p - legP k (val third64)) <= 315 * uu.
Proof.
  assert (T3 : -1 <= val third64 <= 1) by (apply Rabs_le_between; apply C59_finite_case).
  destruct (C60_at m 6 third64 (vnew 6)) as (b & E & _ & G); auto; try lia; try reflexivity.
  { pose proof uu_small. cbn [Nat.sub INR]. lra. }
  exists b. split; [exact E|]. intros k Hk. destruct (G k Hk) as (p & Gp & Fp & B). exists p. split; [exact Gp|]. split; [exact Fp|].
  eapply Rle_trans; [exact B|]. pose proof uu_pos. do 6 (destruct k as [|k]; [cbn [INR]; lra|]). lia.
Qed.
