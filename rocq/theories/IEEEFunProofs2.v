(** The two arithmetics: binary64 numbers within their balls, real numbers at the centres. *)
From Coquelicot Require Import Coquelicot.
From Coq Require Import ZArith Reals List Bool Lra Lia Arith.
From Flocq Require Import Core BinarySingleNaN.
From Verif Require Import Num Outcome FunModel FunProofs IEEEModel IEEESpec IEEEProofs IEEEHorner IEEELagrange IEEEFunSpec IEEEFunProofs.
Import ListNotations.
Local Open Scope R_scope.

Lemma guard_some m p q : guard m p = Some q -> m <= big /\ q = p.
Proof. unfold guard. destruct (Rle_dec m big); [|discriminate]. intros E. injection E as <-. auto. Qed.
Lemma big_omax : 4 * big < omax.
Proof. unfold big, omax. change 1024%Z with (Z.of_nat 1024). rewrite bpow_pow. replace 4 with (2 ^ 2) by (cbn; lra). rewrite <- pow_add. apply Rlt_pow; [lra|lia]. Qed.
Lemma big_ge1 : 1 <= big.
Proof. unfold big. apply pow_R1_Rle. lra. Qed.
Lemma rnd_bd x M : Rabs x <= M -> Rabs (rnd x - x) <= uu * M + hh.
Proof.
  intros B. destruct (rnd_err x) as (d & e & Hd & He & ->). replace (x * (1 + d) + e - x) with (x * d + e) by ring.
  eapply Rle_trans; [apply Rabs_triang|]. rewrite Rabs_mult. pose proof (Rabs_pos x). pose proof (Rabs_pos d). pose proof uu_pos.
  apply Rplus_le_compat; [|exact He]. rewrite (Rmult_comm uu). apply Rmult_le_compat; auto.
Qed.
Lemma rnd_add_bd x y M : fmt x -> fmt y -> Rabs (x + y) <= M -> Rabs (rnd (x + y) - (x + y)) <= uu * M.
Proof.
  intros Fx Fy B. destruct (rnd_err_plus x y Fx Fy) as (d & Hd & ->). replace ((x + y) * (1 + d) - (x + y)) with ((x + y) * d) by ring.
  rewrite Rabs_mult, (Rmult_comm uu). apply Rmult_le_compat; auto using Rabs_pos.
Qed.
Lemma rnd_small x : Rabs x <= big -> Rabs (rnd x) < omax.
Proof.
  intros B. pose proof (rnd_bd x big B). pose proof big_omax. pose proof big_ge1. pose proof uu_lt_1. pose proof hh_lt_1. pose proof uu_pos. pose proof hh_pos.
  assert (uu * big <= 1 * big) by (apply Rmult_le_compat_r; lra). replace (rnd x) with ((rnd x - x) + x) by ring. eapply Rle_lt_trans; [apply Rabs_triang|]. lra.
Qed.
Lemma rnd_val_small (x : b64) : Rabs (rnd (val x)) < omax.
Proof. rewrite (rnd_fmt _ (val_fmt x)). apply abs_B2R_lt_emax. Qed.
Lemma within_mag t p : within t p -> fin t /\ Rabs (val t) <= mag p /\ 0 <= snd p.
Proof.
  intros (F & B). pose proof (Rabs_pos (val t - fst p)). split; [exact F|]. split; [|lra]. unfold mag. replace (val t) with (fst p + (val t - fst p)) by ring.
  eapply Rle_trans; [apply Rabs_triang|]. lra.
Qed.
Lemma eps_nonneg m eps : accurate m eps -> 0 <= eps.
Proof. intros (_ & C & _). destruct (C (B754_zero false) eq_refl) as (_ & B). pose proof (Rabs_pos (val (m_cos m (B754_zero false)) - cos (val (B754_zero false)))). lra. Qed.
Lemma cos_lip a b : Rabs (cos a - cos b) <= Rabs (a - b).
Proof.
  destruct (MVT_gen cos b a (fun x => - sin x)) as (c & _ & E).
  - intros x _. auto_derive; [exact I|ring].
  - intros x _. apply continuity_cos.
  - rewrite E, Rabs_mult. pose proof (SIN_bound c). rewrite Rabs_Ropp. rewrite <- (Rmult_1_l (Rabs (a - b))) at 2. apply Rmult_le_compat_r; [apply Rabs_pos|]. apply Rabs_le. lra.
Qed.
Lemma sin_lip a b : Rabs (sin a - sin b) <= Rabs (a - b).
Proof.
  destruct (MVT_gen sin b a cos) as (c & _ & E).
  - intros x _. auto_derive; [exact I|ring].
  - intros x _. apply continuity_sin.
  - rewrite E, Rabs_mult. pose proof (COS_bound c). rewrite <- (Rmult_1_l (Rabs (a - b))) at 2. apply Rmult_le_compat_r; [apply Rabs_pos|]. apply Rabs_le. lra.
Qed.
(** exp is convex: a step down changes it by no more than a step up *)
Lemma exp_near c d t : Rabs (t - c) <= d -> Rabs (exp t - exp c) <= exp (c + d) - exp c /\ exp t <= exp (c + d).
Proof.
  intros B. apply Rabs_le_between in B. assert (Et : exp t <= exp (c + d)) by (destruct (Req_dec t (c + d)) as [->|]; [lra|left; apply exp_increasing; lra]).
  split; [|exact Et]. apply Rabs_le. split; [|lra]. assert (El : exp (c - d) <= exp t) by (destruct (Req_dec t (c - d)) as [->|]; [lra|left; apply exp_increasing; lra]).
  unfold Rminus in El. rewrite exp_plus in *. rewrite exp_Ropp in El. pose proof (exp_pos c). pose proof (exp_pos d).
  assert (K : 2 <= exp d + / exp d).
  { assert (Q : 0 <= (exp d - 1) * (exp d - 1) * / exp d) by (apply Rmult_le_pos; [apply Rle_0_sqr|left; apply Rinv_0_lt_compat; assumption]).
    replace ((exp d - 1) * (exp d - 1) * / exp d) with (exp d + / exp d - 2) in Q by (field; lra). lra. }
  assert (exp c * 2 <= exp c * (exp d + / exp d)) by (apply Rmult_le_compat_l; lra). lra.
Qed.

Section Fl.
Variables (m : libm) (eps : R).
Hypothesis HM : accurate m eps.
Local Instance BNf : Num b64 := B64num m.
Lemma f_cst c q : b_cst c = Some q -> within c q.
Proof. unfold b_cst. destruct (is_finite c) eqn:E; [|discriminate]. intros K. injection K as <-. split; [exact E|]. cbn [fst snd]. rewrite Rminus_eq_0, Rabs_R0. lra. Qed.
Lemma one64 : fin (b64_of_Z 1) /\ val (b64_of_Z 1) = 1.
Proof. apply (ofZ_ok 1). cbn. lia. Qed.
Lemma f_one c q : b_cst c = Some q -> within (nmul n1 c) q.
Proof.
  intros E. destruct (f_cst c q E) as (Fc & B). destruct one64 as (F1 & V1).
  destruct (mul_ok (b64_of_Z 1) c F1 Fc) as (Fm & Vm); [rewrite V1, Rmult_1_l; apply rnd_val_small|]. rewrite V1, Rmult_1_l, (rnd_fmt _ (val_fmt c)) in Vm.
  split; [exact Fm|]. change (nmul n1 c) with (Bmult mode_NE (b64_of_Z 1) c). rewrite Vm. exact B.
Qed.
Lemma f_zero : within n0 (0, 0).
Proof. split; [reflexivity|]. change (val n0) with 0. cbn [fst snd]. rewrite Rminus_eq_0, Rabs_R0. lra. Qed.
Lemma f_add a b p q r : within a p -> within b q -> b_add p q = Some r -> within (nadd a b) r.
Proof.
  intros Wa Wb E. destruct (within_mag a p Wa) as (Fa & Ma & Pa). destruct (within_mag b q Wb) as (Fb & Mb & Pb). destruct Wa as (_ & Ba), Wb as (_ & Bb).
  unfold b_add in E. apply guard_some in E as (G & ->).
  assert (S1 : Rabs (val a + val b) <= mag p + mag q) by (eapply Rle_trans; [apply Rabs_triang|]; lra).
  destruct (add_ok a b Fa Fb) as (Fs & Vs); [apply rnd_small; lra|]. split; [exact Fs|]. change (nadd a b) with (Bplus mode_NE a b). rewrite Vs. cbn [fst snd].
  pose proof (rnd_add_bd (val a) (val b) _ (val_fmt a) (val_fmt b) S1) as R1.
  replace (rnd (val a + val b) - (fst p + fst q)) with ((rnd (val a + val b) - (val a + val b)) + ((val a - fst p) + (val b - fst q))) by ring.
  eapply Rle_trans; [apply Rabs_triang|]. pose proof (Rabs_triang (val a - fst p) (val b - fst q)). lra.
Qed.
Lemma f_mul a b p q r : within a p -> within b q -> b_mul p q = Some r -> within (nmul a b) r.
Proof.
  intros Wa Wb E. destruct (within_mag a p Wa) as (Fa & Ma & Pa). destruct (within_mag b q Wb) as (Fb & Mb & Pb). destruct Wa as (_ & Ba), Wb as (_ & Bb).
  unfold b_mul in E. apply guard_some in E as (G & ->).
  assert (S1 : Rabs (val a * val b) <= mag p * mag q) by (rewrite Rabs_mult; apply Rmult_le_compat; auto using Rabs_pos).
  destruct (mul_ok a b Fa Fb) as (Fs & Vs); [apply rnd_small; lra|]. split; [exact Fs|]. change (nmul a b) with (Bmult mode_NE a b). rewrite Vs. cbn [fst snd].
  pose proof (rnd_bd (val a * val b) _ S1) as R1. set (x := val a - fst p) in *. set (y := val b - fst q) in *.
  assert (R2 : Rabs (val a * val b - fst p * fst q) <= Rabs (fst p) * snd q + snd p * Rabs (fst q) + snd p * snd q).
  { replace (val a * val b - fst p * fst q) with (fst p * y + (x * fst q + x * y)) by (unfold x, y; ring).
    eapply Rle_trans; [apply Rabs_triang|]. pose proof (Rabs_triang (x * fst q) (x * y)). rewrite !Rabs_mult in *.
    assert (Rabs (fst p) * Rabs y <= Rabs (fst p) * snd q) by (apply Rmult_le_compat_l; auto using Rabs_pos).
    assert (Rabs x * Rabs (fst q) <= snd p * Rabs (fst q)) by (apply Rmult_le_compat_r; auto using Rabs_pos).
    assert (Rabs x * Rabs y <= snd p * snd q) by (apply Rmult_le_compat; auto using Rabs_pos). lra. }
  replace (rnd (val a * val b) - fst p * fst q) with ((rnd (val a * val b) - val a * val b) + (val a * val b - fst p * fst q)) by ring.
  eapply Rle_trans; [apply Rabs_triang|]. lra.
Qed.
Lemma f_neg a p : within a p -> within (nmul a (nopp n1)) (b_neg p).
Proof.
  intros (Fa & B). destruct one64 as (F1 & V1). assert (F2 : fin (Bopp (b64_of_Z 1))) by reflexivity. assert (V2 : val (Bopp (b64_of_Z 1)) = -1) by (unfold val; rewrite B2R_Bopp; fold (val (b64_of_Z 1)); rewrite V1; reflexivity).
  assert (E : val a * val (Bopp (b64_of_Z 1)) = - val a) by (rewrite V2; ring).
  destruct (mul_ok a (Bopp (b64_of_Z 1)) Fa F2) as (Fm & Vm); [rewrite E, rnd_opp, Rabs_Ropp; apply rnd_val_small|].
  split; [exact Fm|]. change (nmul a (nopp n1)) with (Bmult mode_NE a (Bopp (b64_of_Z 1))). rewrite Vm, E, rnd_opp, (rnd_fmt _ (val_fmt a)). cbn [b_neg fst snd].
  replace (- val a - - fst p) with (- (val a - fst p)) by ring. rewrite Rabs_Ropp. exact B.
Qed.
Lemma f_exp a p r : within a p -> b_exp eps p = Some r -> within (nexp a) r.
Proof.
  intros (Fa & B) E. unfold b_exp in E. apply guard_some in E as (G & ->). destruct (exp_near _ _ _ B) as (N & L). pose proof (eps_nonneg m eps HM) as He.
  destruct HM as (HE & _). destruct (HE a Fa ltac:(lra)) as (Fe & Be). split; [exact Fe|]. cbn [fst snd]. change (nexp a) with (m_exp m a).
  replace (val (m_exp m a) - exp (fst p)) with ((val (m_exp m a) - exp (val a)) + (exp (val a) - exp (fst p))) by ring. eapply Rle_trans; [apply Rabs_triang|].
  assert (eps * (exp (val a) + tiny) <= eps * (exp (fst p + snd p) + tiny)) by (apply Rmult_le_compat_l; lra). lra.
Qed.
Lemma f_cos a p : within a p -> within (ncos a) (b_cos eps p).
Proof.
  intros (Fa & B). destruct HM as (_ & HC & _). destruct (HC a Fa) as (Fe & Be). split; [exact Fe|]. cbn [b_cos fst snd]. change (ncos a) with (m_cos m a).
  replace (val (m_cos m a) - cos (fst p)) with ((val (m_cos m a) - cos (val a)) + (cos (val a) - cos (fst p))) by ring. eapply Rle_trans; [apply Rabs_triang|].
  pose proof (cos_lip (val a) (fst p)). lra.
Qed.
Lemma f_sin a p : within a p -> within (nsin a) (b_sin eps p).
Proof.
  intros (Fa & B). destruct HM as (_ & _ & HC). destruct (HC a Fa) as (Fe & Be). split; [exact Fe|]. cbn [b_sin fst snd]. change (nsin a) with (m_sin m a).
  replace (val (m_sin m a) - sin (fst p)) with ((val (m_sin m a) - sin (val a)) + (sin (val a) - sin (fst p))) by ring. eapply Rle_trans; [apply Rabs_triang|].
  pose proof (sin_lip (val a) (fst p)). lra.
Qed.
Lemma dec_t {P : Prop} (d : {P} + {~ P}) : dec d = true -> P.
Proof. destruct d; [auto|discriminate]. Qed.
Lemma Rltb_true x y : x < y -> Rltb x y = true.
Proof. intros K. unfold Rltb. destruct (Rlt_dec x y); [reflexivity|contradiction]. Qed.
Lemma Rltb_false x y : y <= x -> Rltb x y = false.
Proof. intros K. unfold Rltb. destruct (Rlt_dec x y); [lra|reflexivity]. Qed.
Lemma Rleb_true x y : x <= y -> Rleb x y = true.
Proof. intros K. unfold Rleb. destruct (Rle_dec x y); [reflexivity|contradiction]. Qed.
Lemma Rleb_false x y : y < x -> Rleb x y = false.
Proof. intros K. unfold Rleb. destruct (Rle_dec x y); [lra|reflexivity]. Qed.
Lemma f_ge c a p : within a p -> surely_ge c p = true -> nleb c a = true /\ nltb a c = false.
Proof.
  intros (Fa & B) K. unfold surely_ge in K. apply andb_prop in K as [Fc K]. apply dec_t in K. apply Rabs_le_between in B. change (nleb c a) with (Bleb c a). change (nltb a c) with (Bltb a c).
  rewrite (leb_val c a Fc Fa), (ltb_val a c Fa Fc). split; [apply Rleb_true; lra|apply Rltb_false; lra].
Qed.
Lemma f_lt c a p : within a p -> surely_lt c p = true -> nltb a c = true /\ nleb c a = false.
Proof.
  intros (Fa & B) K. unfold surely_lt in K. apply andb_prop in K as [Fc K]. apply dec_t in K. apply Rabs_le_between in B. change (nleb c a) with (Bleb c a). change (nltb a c) with (Bltb a c).
  rewrite (leb_val c a Fc Fa), (ltb_val a c Fa Fc). split; [apply Rltb_true; lra|apply Rleb_false; lra].
Qed.
Lemma f_le c a p : within a p -> surely_le c p = true -> nleb a c = true.
Proof.
  intros (Fa & B) K. unfold surely_le in K. apply andb_prop in K as [Fc K]. apply dec_t in K. apply Rabs_le_between in B. change (nleb a c) with (Bleb a c).
  rewrite (leb_val a c Fa Fc). apply Rleb_true; lra.
Qed.
Lemma f_gt c a p : within a p -> surely_gt c p = true -> nleb a c = false.
Proof.
  intros (Fa & B) K. unfold surely_gt in K. apply andb_prop in K as [Fc K]. apply dec_t in K. apply Rabs_le_between in B. change (nleb a c) with (Bleb a c).
  rewrite (leb_val a c Fa Fc). apply Rleb_false; lra.
Qed.
Lemma fn_map_id {A} (f : fn A) : fn_map (fun x => x) (fun s => s) f = f.
Proof.
  induction f as [d v|d a|d|d|d|d c|d f1 f2 IH1 IH2|d c s k|d c s k|ty d c args IH] using fn_ind'; cbn [fn_map]; rewrite <- ?surjective_pairing; try reflexivity.
  - now rewrite map_id.
  - now rewrite map_id.
  - now rewrite IH1, IH2.
  - f_equal. induction IH; cbn; congruence.
Qed.
Theorem eval64 dbg f pts ps : ps <> [] -> Forall2 within pts ps -> Forall (fun p => beval eps f p <> None) ps ->
  exists rows, eval dbg f pts (fcod f) = Ok rows /\ Forall2 (fun row p => exists l, beval eps f p = Some l /\ Forall2 within row l) rows ps.
Proof.
  intros N F Z. pose proof (eval_sound dbg eps (fun x : b64 => x) (fun s => s) within f_cst f_one f_zero f_add f_mul f_neg f_exp f_cos f_sin f_ge f_lt f_le f_gt f pts ps N F Z) as K.
  rewrite fn_map_id in K. exact K.
Qed.
End Fl.

Section Re.
Variable eps : R.
Hypothesis He : 0 <= eps.
Definition at_centre (x : R) (p : ball) : Prop := x = fst p /\ 0 <= snd p.
Lemma r_cst c q : b_cst c = Some q -> at_centre (val c) q.
Proof. unfold b_cst. destruct (is_finite c); [|discriminate]. intros K. injection K as <-. split; cbn; [reflexivity|lra]. Qed.
Lemma mag_pos x p : at_centre x p -> 0 <= mag p.
Proof. intros (_ & B). unfold mag. pose proof (Rabs_pos (fst p)). lra. Qed.
Lemma r_add a b p q r : at_centre a p -> at_centre b q -> b_add p q = Some r -> at_centre (a + b) r.
Proof.
  intros A B E. pose proof (mag_pos _ _ A). pose proof (mag_pos _ _ B). destruct A as (-> & A), B as (-> & B). unfold b_add in E. apply guard_some in E as (_ & ->). split; cbn [fst snd]; [reflexivity|].
  pose proof uu_pos. assert (0 <= uu * (mag p + mag q)) by (apply Rmult_le_pos; lra). lra.
Qed.
Lemma r_mul a b p q r : at_centre a p -> at_centre b q -> b_mul p q = Some r -> at_centre (a * b) r.
Proof.
  intros A B E. pose proof (mag_pos _ _ A). pose proof (mag_pos _ _ B). destruct A as (-> & A), B as (-> & B). unfold b_mul in E. apply guard_some in E as (_ & ->). split; cbn [fst snd]; [reflexivity|].
  pose proof uu_pos. pose proof hh_pos. assert (0 <= uu * (mag p * mag q)) by (apply Rmult_le_pos; [lra|apply Rmult_le_pos; lra]).
  pose proof (Rmult_le_pos _ _ (Rabs_pos (fst p)) B). pose proof (Rmult_le_pos _ _ A (Rabs_pos (fst q))). pose proof (Rmult_le_pos _ _ A B). lra.
Qed.
Lemma r_exp a p r : at_centre a p -> b_exp eps p = Some r -> at_centre (exp a) r.
Proof.
  intros (-> & A) E. unfold b_exp in E. apply guard_some in E as (_ & ->). split; cbn [fst snd]; [reflexivity|].
  assert (L : exp (fst p) <= exp (fst p + snd p)) by (destruct (Req_dec (snd p) 0) as [->|]; [rewrite Rplus_0_r; lra|left; apply exp_increasing; lra]).
  pose proof (exp_pos (fst p + snd p)). assert (0 < tiny) by (apply Rinv_0_lt_compat, pow_lt; lra). assert (0 <= eps * (exp (fst p + snd p) + tiny)) by (apply Rmult_le_pos; lra). lra.
Qed.
Theorem evalR dbg f xs ps : ps <> [] -> Forall2 at_centre xs ps -> Forall (fun p => beval eps f p <> None) ps ->
  exists rows, eval dbg (exact_fn f) xs (fcod f) = Ok rows /\ Forall2 (fun row p => exists l, beval eps f p = Some l /\ Forall2 at_centre row l) rows ps.
Proof.
  intros N F Z. unfold exact_fn. apply (eval_sound dbg eps val (fun _ _ _ => []) at_centre); auto.
  - apply r_cst.
  - intros c q E. change (at_centre (1 * val c) q). rewrite Rmult_1_l. now apply r_cst.
  - split; cbn; [reflexivity|lra].
  - apply r_add.
  - apply r_mul.
  - intros a p (-> & B). split; cbn [b_neg fst snd nmul nopp n1 Rnum]; [ring|exact B].
  - apply r_exp.
  - intros a p (-> & B). split; cbn [b_cos fst snd]; [reflexivity|lra].
  - intros a p (-> & B). split; cbn [b_sin fst snd]; [reflexivity|lra].
  - intros c a p (-> & B) K. unfold surely_ge in K. apply andb_prop in K as [_ K]. apply dec_t in K. split; [apply Rleb_true; lra|apply Rltb_false; lra].
  - intros c a p (-> & B) K. unfold surely_lt in K. apply andb_prop in K as [_ K]. apply dec_t in K. split; [apply Rltb_true; lra|apply Rleb_false; lra].
  - intros c a p (-> & B) K. unfold surely_le in K. apply andb_prop in K as [_ K]. apply dec_t in K. apply Rleb_true; lra.
  - intros c a p (-> & B) K. unfold surely_gt in K. apply andb_prop in K as [_ K]. apply dec_t in K. apply Rleb_false; lra.
Qed.
End Re.
