(** What the operations of binary64 return, in terms of real numbers. *)
From Coq Require Import ZArith Reals Lra Lia Bool.
From Flocq Require Import Core BinarySingleNaN Relative Plus_error.
From Verif Require Import Num IEEEModel IEEESpec.
Local Open Scope R_scope.

Definition rnd (x : R) : R := round radix2 (FLT_exp (-1074) 53) ZnearestE x.
Definition fmt (x : R) : Prop := generic_format radix2 (FLT_exp (-1074) 53) x.

Lemma rnd_lib x : round radix2 (SpecFloat.fexp 53 1024) (round_mode mode_NE) x = rnd x.
Proof. reflexivity. Qed.
Lemma val_fmt x : fmt (val x).
Proof. apply (generic_format_B2R 53 1024 x). Qed.
Lemma rnd_fmt x : fmt x -> rnd x = x.
Proof. intros F. apply round_generic; auto with typeclass_instances. Qed.
Lemma fmt_rnd x : fmt (rnd x).
Proof. apply generic_format_round; auto with typeclass_instances. Qed.
Lemma rnd_le x y : x <= y -> rnd x <= rnd y.
Proof. intros L. apply round_le; auto with typeclass_instances. Qed.
Lemma rnd_0 : rnd 0 = 0.
Proof. apply round_0; auto with typeclass_instances. Qed.
Lemma rnd_opp x : rnd (- x) = - rnd x.
Proof. apply round_NE_opp. Qed.
Lemma bpow_pow n : bpow radix2 (Z.of_nat n) = 2 ^ n.
Proof. rewrite <- IZR_Zpower by lia. rewrite pow_IZR. reflexivity. Qed.
Lemma uu_bpow : / 2 * bpow radix2 (- (53) + 1) = uu.
Proof. unfold uu. change (- (53) + 1)%Z with (- (Z.of_nat 52))%Z. rewrite bpow_opp, bpow_pow. rewrite <- Rinv_mult. reflexivity. Qed.
Lemma hh_bpow : / 2 * bpow radix2 (-1074) = hh.
Proof. unfold hh. replace (-1074)%Z with (- (Z.of_nat 1074))%Z by reflexivity. rewrite bpow_opp, bpow_pow. rewrite <- Rinv_mult. rewrite <- tech_pow_Rmult. reflexivity. Qed.
Lemma uu_pos : 0 < uu.
Proof. apply Rinv_0_lt_compat, pow_lt. lra. Qed.
Lemma hh_pos : 0 < hh.
Proof. apply Rinv_0_lt_compat, pow_lt. lra. Qed.

(** every rounding: a relative error, or an absolute one below the least positive numbers *)
Lemma rnd_err x : exists d e, Rabs d <= uu /\ Rabs e <= hh /\ rnd x = x * (1 + d) + e.
Proof.
  destruct (error_N_FLT radix2 (-1074) 53 eq_refl (fun x => negb (Z.even x)) x) as (d & e & D & E & _ & Q). exists d, e.
  rewrite uu_bpow in D. rewrite hh_bpow in E. auto.
Qed.
(** a sum or a difference: relative only *)
Lemma rnd_err_plus x y : fmt x -> fmt y -> exists d, Rabs d <= uu /\ rnd (x + y) = (x + y) * (1 + d).
Proof.
  intros Fx Fy. destruct (FLT_plus_error_N_ex radix2 (-1074) 53 (fun x => negb (Z.even x)) x y Fx Fy) as (d & D & Q). exists d. split; [|exact Q].
  eapply Rle_trans; [exact D|]. unfold u_ro. rewrite uu_bpow. pose proof uu_pos. apply (Rmult_le_reg_r (1 + uu)); [lra|]. unfold Rdiv. rewrite Rmult_assoc, Rinv_l by lra. nra.
Qed.
Lemma rnd_err_minus x y : fmt x -> fmt y -> exists d, Rabs d <= uu /\ rnd (x - y) = (x - y) * (1 + d).
Proof. intros Fx Fy. apply rnd_err_plus; auto. now apply generic_format_opp. Qed.

(** ** Operations: a finite result has finite operands and is the rounded exact result *)
Lemma overflow_infinite (z : b64) s : B2SF z = binary_overflow 53 1024 mode_NE s -> ~ fin z.
Proof. unfold fin. destruct z; cbn; intros E F; try discriminate. Qed.
Lemma add_fin x y : fin (Bplus mode_NE x y) -> fin x /\ fin y /\ val (Bplus mode_NE x y) = rnd (val x + val y).
Proof.
  intros F. assert (fin x /\ fin y) as (Fx & Fy). { unfold fin in *. destruct x as [a|a| |a m e H], y as [b|b| |b m' e' H']; cbn in *; auto; try discriminate. destruct (Bool.eqb a b); discriminate. }
  split; auto. split; auto. pose proof (Bplus_correct 53 1024 _ _ mode_NE x y Fx Fy) as C. destruct Rlt_bool; [apply C|]. destruct C as (C & _). exfalso. exact (overflow_infinite _ _ C F).
Qed.
Lemma sub_fin x y : fin (Bminus mode_NE x y) -> fin x /\ fin y /\ val (Bminus mode_NE x y) = rnd (val x - val y).
Proof.
  intros F. assert (fin x /\ fin y) as (Fx & Fy). { unfold fin in *. destruct x as [a|a| |a m e H], y as [b|b| |b m' e' H']; cbn in *; auto; try discriminate. destruct (Bool.eqb a (negb b)); discriminate. }
  split; auto. split; auto. pose proof (Bminus_correct 53 1024 _ _ mode_NE x y Fx Fy) as C. destruct Rlt_bool; [apply C|]. destruct C as (C & _). exfalso. exact (overflow_infinite _ _ C F).
Qed.
Lemma mul_fin x y : fin (Bmult mode_NE x y) -> fin x /\ fin y /\ val (Bmult mode_NE x y) = rnd (val x * val y).
Proof.
  intros F. pose proof (Bmult_correct 53 1024 _ _ mode_NE x y) as C. destruct Rlt_bool.
  - destruct C as (E & Ef & _). unfold fin in *. rewrite Ef in F. apply andb_true_iff in F. destruct F. auto.
  - exfalso. exact (overflow_infinite _ _ C F).
Qed.
(** a quotient: the divisor may be infinite *)
Lemma div_fin x y : fin (Bdiv mode_NE x y) -> fin y -> fin x /\ val y <> 0 /\ val (Bdiv mode_NE x y) = rnd (val x / val y).
Proof.
  intros F Fy. assert (Ny : val y <> 0). { unfold fin, val in *. intros Z. destruct y as [b|b| |b m e H]; try discriminate; [destruct x; cbn in F; discriminate|].
    cbn in Z. apply eq_0_F2R in Z. destruct b; discriminate. }
  pose proof (Bdiv_correct 53 1024 _ _ mode_NE x y Ny) as C. destruct Rlt_bool.
  - destruct C as (E & Ef & _). unfold fin in *. rewrite Ef in F. auto.
  - exfalso. exact (overflow_infinite _ _ C F).
Qed.

(** and the other way round: below the overflow threshold the result is finite *)
Lemma add_ok x y : fin x -> fin y -> Rabs (rnd (val x + val y)) < omax -> fin (Bplus mode_NE x y) /\ val (Bplus mode_NE x y) = rnd (val x + val y).
Proof. intros Fx Fy L. pose proof (Bplus_correct 53 1024 _ _ mode_NE x y Fx Fy) as C. rewrite Rlt_bool_true in C by exact L. split; apply C. Qed.
Lemma sub_ok x y : fin x -> fin y -> Rabs (rnd (val x - val y)) < omax -> fin (Bminus mode_NE x y) /\ val (Bminus mode_NE x y) = rnd (val x - val y).
Proof. intros Fx Fy L. pose proof (Bminus_correct 53 1024 _ _ mode_NE x y Fx Fy) as C. rewrite Rlt_bool_true in C by exact L. split; apply C. Qed.
Lemma mul_ok x y : fin x -> fin y -> Rabs (rnd (val x * val y)) < omax -> fin (Bmult mode_NE x y) /\ val (Bmult mode_NE x y) = rnd (val x * val y).
Proof. intros Fx Fy L. pose proof (Bmult_correct 53 1024 _ _ mode_NE x y) as C. rewrite Rlt_bool_true in C by exact L. destruct C as (E & Ef & _). unfold fin in *. rewrite Ef, Fx, Fy. auto. Qed.
Lemma div_ok x y : fin x -> val y <> 0 -> Rabs (rnd (val x / val y)) < omax -> fin (Bdiv mode_NE x y) /\ val (Bdiv mode_NE x y) = rnd (val x / val y).
Proof. intros Fx Ny L. pose proof (Bdiv_correct 53 1024 _ _ mode_NE x y Ny) as C. rewrite Rlt_bool_true in C by exact L. destruct C as (E & Ef & _). unfold fin in *. rewrite Ef, Fx. auto. Qed.

(** integers up to 2^53 are exact *)
Lemma fmt_Z z : (Z.abs z <= 2 ^ 53)%Z -> fmt (IZR z).
Proof.
  intros Hz. destruct (Z.eq_dec (Z.abs z) (2 ^ 53)) as [E|N].
  - apply generic_format_FLT. assert (z = 2 ^ 53 \/ z = - 2 ^ 53)%Z as [->| ->] by lia.
    + exists (Float radix2 1 53); [|cbn; lia|cbn; lia]. unfold F2R. cbn. lra.
    + exists (Float radix2 (-1) 53); [|cbn; lia|cbn; lia]. unfold F2R. cbn. lra.
  - apply generic_format_FLT. exists (Float radix2 z 0); [|cbn; lia|cbn; lia]. unfold F2R. cbn. lra.
Qed.
Lemma ofZ_ok z : (Z.abs z <= 2 ^ 53)%Z -> fin (b64_of_Z z) /\ val (b64_of_Z z) = IZR z.
Proof.
  intros Hz. pose proof (binary_normalize_correct 53 1024 _ _ mode_NE z 0 false) as C. cbv zeta in C.
  assert (E : F2R (Float radix2 z 0) = IZR z) by (unfold F2R; cbn; lra). rewrite E in C.
  rewrite (rnd_lib (IZR z)), (rnd_fmt _ (fmt_Z z Hz)) in C. rewrite Rlt_bool_true in C.
  - split; apply C.
  - rewrite <- abs_IZR. eapply Rle_lt_trans; [apply IZR_le; exact Hz|]. change (2 ^ 53)%Z with (Zpower radix2 53). rewrite IZR_Zpower by lia. apply bpow_lt. lia.
Qed.

(** comparisons of finite numbers *)
Lemma ltb_val x y : fin x -> fin y -> Bltb x y = Rltb (val x) (val y).
Proof. intros Fx Fy. rewrite (Bltb_correct 53 1024 x y Fx Fy). fold (val x) (val y). unfold Rltb. destruct (Rlt_bool_spec (val x) (val y)); destruct (Rlt_dec (val x) (val y)); auto; lra. Qed.
Lemma leb_val x y : fin x -> fin y -> Bleb x y = Rleb (val x) (val y).
Proof. intros Fx Fy. rewrite (Bleb_correct 53 1024 x y Fx Fy). fold (val x) (val y). unfold Rleb. destruct (Rle_bool_spec (val x) (val y)); destruct (Rle_dec (val x) (val y)); auto; lra. Qed.
