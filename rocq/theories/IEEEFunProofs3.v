(** Bounds of the balls before any evaluation: counted roundings times the expression of absolute values. *)
From Coquelicot Require Import Coquelicot.
From Coq Require Import ZArith Reals List Bool Lra Lia Arith.
From Flocq Require Import Core BinarySingleNaN.
From Verif Require Import Num Outcome FunModel FunSpec FunProofs IEEEModel IEEESpec IEEEProofs IEEEHorner IEEELagrange IEEEFunSpec IEEEFunProofs IEEEFunProofs2.
Import ListNotations.
Local Open Scope R_scope.

Definition gr (n : nat) : R := (1 + uu) ^ n.
Definition few (n : nat) : Prop := INR n * uu <= / 2.
Definition under (n : nat) (A : R) (p : ball) : Prop := Rabs (fst p) <= A /\ 0 <= snd p <= (gr n - 1) * A.
Lemma gr_ge1 n : 1 <= gr n.
Proof. apply pow_1u_ge1. Qed.
Lemma gr_le n k : (n <= k)%nat -> gr n <= gr k.
Proof. apply pow_1u_le. Qed.
Lemma gr_add n k : gr (n + k) = gr n * gr k.
Proof. apply pow_add. Qed.
Lemma gr_1 : gr 1 = 1 + uu.
Proof. unfold gr. cbn. ring. Qed.
Lemma few_le n k : (n <= k)%nat -> few k -> few n.
Proof. unfold few. intros L F. eapply Rle_trans; [|exact F]. apply Rmult_le_compat_r; [left; apply uu_pos|]. apply le_INR. exact L. Qed.
Lemma few_lin n : few n -> gr n - 1 <= 2 * INR n * uu.
Proof. intros F. pose proof (bt_lin n F). pose proof (pow1u_bt n). unfold gr. lra. Qed.
Lemma few_2 n : few n -> gr n <= 2.
Proof. intros F. pose proof (few_lin n F). unfold few in F. lra. Qed.
Lemma tiny_pos : 0 < tiny.
Proof. apply Rinv_0_lt_compat, pow_lt. lra. Qed.
Lemma tiny_hh : uu * tiny = hh.
Proof. unfold uu, tiny, hh. rewrite <- Rinv_mult, <- pow_add. reflexivity. Qed.
Lemma under_pos n A p : under n A p -> 0 <= A.
Proof. intros (B & _). pose proof (Rabs_pos (fst p)). lra. Qed.
Lemma under_mag n A p : under n A p -> mag p <= gr n * A.
Proof. intros (B & C). unfold mag. lra. Qed.
Lemma under_mono n k A B p : (n <= k)%nat -> A <= B -> under n A p -> under k B p.
Proof.
  intros L LA U. pose proof (under_pos _ _ _ U). destruct U as (U1 & U2). split; [lra|]. split; [lra|]. eapply Rle_trans; [apply U2|]. pose proof (gr_le n k L). pose proof (gr_ge1 n).
  apply Rmult_le_compat; lra.
Qed.
Lemma under_cst n c q : b_cst c = Some q -> under n (Rabs (val c)) q.
Proof.
  unfold b_cst. destruct (is_finite c); [|discriminate]. intros E. injection E as <-. pose proof (gr_ge1 n). pose proof (Rabs_pos (val c)). split; cbn [fst snd]; [lra|]. split; [lra|]. apply Rmult_le_pos; lra.
Qed.
Lemma cst_ok c : fin c -> exists q, b_cst c = Some q.
Proof. unfold fin, b_cst. intros ->. eauto. Qed.
Lemma guard_ok m p : m <= big -> guard m p = Some p.
Proof. unfold guard. intros L. destruct (Rle_dec m big); [reflexivity|contradiction]. Qed.
Lemma u_mul n k A B p q : under n A p -> under k B q -> few (n + k) -> 2 * (A * B) <= big -> exists r, b_mul p q = Some r /\ under (n + k + 1) (A * B + tiny) r.
Proof.
  intros U V F G. pose proof (under_pos _ _ _ U) as PA. pose proof (under_pos _ _ _ V) as PB. pose proof (under_mag _ _ _ U) as MU. pose proof (under_mag _ _ _ V) as MV.
  destruct U as (U1 & U0 & U2), V as (V1 & V0 & V2). pose proof (gr_ge1 n) as g1. pose proof (gr_ge1 k) as g2. pose proof (few_2 _ F) as g3. rewrite gr_add in g3.
  pose proof (Rabs_pos (fst p)) as a1. pose proof (Rabs_pos (fst q)) as a2. pose proof (Rmult_le_pos A B PA PB) as PAB.
  assert (M : mag p * mag q <= gr n * gr k * (A * B)).
  { replace (gr n * gr k * (A * B)) with (gr n * A * (gr k * B)) by ring. apply Rmult_le_compat; auto; unfold mag; lra. }
  assert (M2 : mag p * mag q <= big).
  { eapply Rle_trans; [exact M|]. eapply Rle_trans; [|exact G]. apply Rmult_le_compat_r; lra. }
  eexists. split; [unfold b_mul; apply guard_ok; exact M2|]. pose proof uu_pos. pose proof hh_pos. pose proof tiny_pos.
  split; cbn [fst snd].
  - rewrite Rabs_mult. assert (Rabs (fst p) * Rabs (fst q) <= A * B) by (apply Rmult_le_compat; lra). lra.
  - assert (P1 : 0 <= mag p * mag q) by (apply Rmult_le_pos; unfold mag; lra).
    pose proof (Rmult_le_pos _ _ a1 V0). pose proof (Rmult_le_pos _ _ U0 a2). pose proof (Rmult_le_pos _ _ U0 V0). pose proof (Rmult_le_pos uu _ ltac:(lra) P1).
    split; [lra|].
    assert (Q1 : Rabs (fst p) * snd q <= A * ((gr k - 1) * B)) by (apply Rmult_le_compat; lra).
    assert (Q2 : snd p * Rabs (fst q) <= (gr n - 1) * A * B) by (apply Rmult_le_compat; lra).
    assert (Q3 : snd p * snd q <= (gr n - 1) * A * ((gr k - 1) * B)) by (apply Rmult_le_compat; lra).
    assert (Q4 : uu * (mag p * mag q) <= uu * (gr n * gr k * (A * B))) by (apply Rmult_le_compat_l; lra).
    rewrite !gr_add, gr_1, <- tiny_hh. assert (Q5 : 1 <= gr n * gr k) by (rewrite <- (Rmult_1_l 1); apply Rmult_le_compat; lra).
    assert (Q6 : uu * tiny <= (gr n * gr k * (1 + uu) - 1) * tiny).
    { apply Rmult_le_compat_r; [lra|]. assert (1 * (1 + uu) <= gr n * gr k * (1 + uu)) by (apply Rmult_le_compat_r; lra). lra. }
    replace ((gr n * gr k * (1 + uu) - 1) * (A * B + tiny)) with (A * ((gr k - 1) * B) + (gr n - 1) * A * B + (gr n - 1) * A * ((gr k - 1) * B) + uu * (gr n * gr k * (A * B)) + (gr n * gr k * (1 + uu) - 1) * tiny) by ring.
    lra.
Qed.
Lemma u_add n k A B p q : under n A p -> under k B q -> few (Nat.max n k) -> 2 * (A + B) <= big -> exists r, b_add p q = Some r /\ under (S (Nat.max n k)) (A + B) r.
Proof.
  intros U V F G. apply (under_mono n (Nat.max n k) A A) in U; [|lia|lra]. apply (under_mono k (Nat.max n k) B B) in V; [|lia|lra]. set (j := Nat.max n k) in *.
  pose proof (under_pos _ _ _ U) as PA. pose proof (under_pos _ _ _ V) as PB. pose proof (under_mag _ _ _ U) as MU. pose proof (under_mag _ _ _ V) as MV.
  destruct U as (U1 & U0 & U2), V as (V1 & V0 & V2). pose proof (gr_ge1 j) as g1. pose proof (few_2 _ F) as g2. pose proof (Rabs_pos (fst p)) as a1. pose proof (Rabs_pos (fst q)) as a2.
  assert (M : mag p + mag q <= gr j * (A + B)) by lra.
  assert (M2 : mag p + mag q <= big) by (eapply Rle_trans; [exact M|]; eapply Rle_trans; [|exact G]; apply Rmult_le_compat_r; lra).
  eexists. split; [unfold b_add; apply guard_ok; exact M2|]. pose proof uu_pos. split; cbn [fst snd].
  - eapply Rle_trans; [apply Rabs_triang|]. lra.
  - assert (0 <= uu * (mag p + mag q)) by (apply Rmult_le_pos; unfold mag; lra). split; [lra|].
    assert (uu * (mag p + mag q) <= uu * (gr j * (A + B))) by (apply Rmult_le_compat_l; lra).
    replace (gr (S j)) with (gr j * (1 + uu)) by (unfold gr; cbn [pow]; ring). lra.
Qed.
Lemma u_neg n A p : under n A p -> under n A (b_neg p).
Proof. intros (U & V). split; cbn [b_neg fst snd]; [rewrite Rabs_Ropp; exact U|exact V]. Qed.
Lemma gr_2 n : gr n - 1 + 2 * uu <= gr (n + 2) - 1.
Proof. rewrite gr_add. unfold gr at 3. cbn [pow]. pose proof (gr_ge1 n). pose proof uu_pos. assert (1 * ((1 + uu) * ((1 + uu) * 1) - 1) <= gr n * ((1 + uu) * ((1 + uu) * 1) - 1)) by (apply Rmult_le_compat_r; nra). nra. Qed.
Lemma u_cos eps n A p : 0 <= eps <= 2 * uu -> under n A p -> under (n + 2) (A + 1) (b_cos eps p) /\ under (n + 2) (A + 1) (b_sin eps p).
Proof.
  intros E U. pose proof (under_pos _ _ _ U). destruct U as (U1 & U0 & U2). pose proof (gr_2 n) as G. pose proof (gr_ge1 n). pose proof uu_pos.
  assert (K : snd p + eps <= (gr (n + 2) - 1) * (A + 1)).
  { assert ((gr n - 1) * A <= (gr (n + 2) - 1) * A) by (apply Rmult_le_compat_r; lra). lra. }
  split; split; cbn [b_cos b_sin fst snd]; try (split; lra).
  - pose proof (COS_bound (fst p)). apply Rabs_le. lra.
  - pose proof (SIN_bound (fst p)). apply Rabs_le. lra.
Qed.
Lemma exp_le x y : x <= y -> exp x <= exp y.
Proof. intros L. destruct (Req_dec x y) as [->|]; [lra|left; apply exp_increasing; lra]. Qed.
Lemma u_exp eps n A p : 0 <= eps <= 2 * uu -> under n A p -> few n -> exp (2 * A) <= big -> exists r, b_exp eps p = Some r /\ under (n + 2) (exp (2 * A) * (1 + A) + tiny) r.
Proof.
  intros E U F G. pose proof (under_pos _ _ _ U) as PA. destruct U as (U1 & U0 & U2). pose proof (few_2 _ F) as g2. pose proof (gr_ge1 n) as g1.
  assert (rA : snd p <= A) by (eapply Rle_trans; [exact U2|]; rewrite <- (Rmult_1_l A) at 2; apply Rmult_le_compat_r; lra).
  apply Rabs_le_between in U1. assert (M : exp (fst p + snd p) <= exp (2 * A)) by (apply exp_le; lra).
  eexists. split; [unfold b_exp; apply guard_ok; lra|]. pose proof tiny_pos. pose proof uu_pos. pose proof (exp_pos (2 * A)) as P2. pose proof (exp_pos (fst p)) as P0. pose proof (exp_pos (fst p + snd p)) as P3.
  assert (L0 : exp (fst p) <= exp (2 * A)) by (apply exp_le; lra).
  assert (PA2 : 0 <= exp (2 * A) * A) by (apply Rmult_le_pos; lra).
  assert (D : exp (fst p + snd p) - exp (fst p) <= (gr n - 1) * A * exp (2 * A)).
  { assert (K : exp (fst p + snd p) - exp (fst p) <= snd p * exp (fst p + snd p)).
    { replace (fst p) with (fst p + snd p + - snd p) at 2 by ring. rewrite (exp_plus (fst p + snd p) (- snd p)). pose proof (exp_ineq1_le (- snd p)). assert (exp (fst p + snd p) * (1 + - snd p) <= exp (fst p + snd p) * exp (- snd p)) by (apply Rmult_le_compat_l; lra). lra. }
    eapply Rle_trans; [exact K|]. apply Rmult_le_compat; lra. }
  assert (E2 : eps * (exp (fst p + snd p) + tiny) <= 2 * uu * (exp (2 * A) + tiny)) by (apply Rmult_le_compat; lra).
  assert (E3 : 0 <= eps * (exp (fst p + snd p) + tiny)) by (apply Rmult_le_pos; lra).
  assert (L1 : exp (fst p) <= exp (fst p + snd p)) by (apply exp_le; lra).
  split; cbn [fst snd].
  - rewrite Rabs_pos_eq by lra. lra.
  - split; [lra|]. pose proof (gr_2 n) as G2. set (h := gr (n + 2) - 1) in *.
    assert (H1 : (gr n - 1) * A * exp (2 * A) <= h * (A * exp (2 * A))) by (rewrite Rmult_assoc; apply Rmult_le_compat_r; lra).
    assert (H2 : 2 * uu * (exp (2 * A) + tiny) <= h * (exp (2 * A) + tiny)) by (apply Rmult_le_compat_r; lra).
    replace (h * (exp (2 * A) * (1 + A) + tiny)) with (h * (A * exp (2 * A)) + h * (exp (2 * A) + tiny)) by ring. lra.
Qed.

(** lists *)
Lemma mapO_cst n v : Forall fin v -> exists l, mapO b_cst v = Some l /\ Forall2 (under n) (map (fun x => Rabs (val x)) v) l /\ length l = length v.
Proof.
  induction v as [|c v IH]; intros F; [exists []; repeat split; constructor|]. apply Forall_cons_iff in F as [Fc F]. destruct (IH F) as (l & E & U & L). destruct (cst_ok c Fc) as (q & Eq).
  exists (q :: l). cbn [mapO]. rewrite Eq. cbn [obind]. rewrite E. cbn [obind]. split; [reflexivity|]. split; [|cbn; congruence]. cbn [map]. constructor; [eapply under_cst; eauto|exact U].
Qed.
Lemma map2_add n k : few (Nat.max n k) -> forall A p B q, Forall2 (under n) A p -> Forall2 (under k) B q -> length p = length q -> Forall fit (map2 Rplus A B) ->
  exists r, map2O b_add p q = Some r /\ Forall2 (under (S (Nat.max n k))) (map2 Rplus A B) r /\ length r = length q.
Proof.
  intros F A p B q FA. revert B q. induction FA as [|a x A p Ua FA IH]; intros B q FB L T; inversion FB as [|b y B' q' Ub FB']; subst; cbn in L; try discriminate.
  - exists []. repeat split; constructor.
  - cbn [map2] in *. apply Forall_cons_iff in T as [T1 T]. destruct (IH B' q' FB' ltac:(lia) T) as (r & E & U & Lr). destruct (u_add n k a b x y Ua Ub F T1) as (z & Ez & Uz).
    exists (z :: r). cbn [map2O]. rewrite Ez. cbn [obind]. rewrite E. cbn [obind]. split; [reflexivity|]. split; [constructor; auto|cbn; lia].
Qed.
Lemma Forall_fold_pos l : Forall (fun x => 0 <= x) l -> forall a, a <= fold_left Rplus l a.
Proof. induction l as [|x l IH]; intros F a; cbn; [lra|]. apply Forall_cons_iff in F as [Fx F]. specialize (IH F (a + x)). lra. Qed.
Lemma fold_left_plus l a : fold_left Rplus l a = a + fold_left Rplus l 0.
Proof. revert a. induction l as [|x l IH]; intros a; cbn; [ring|]. rewrite IH, (IH (0 + x)). ring. Qed.
Lemma map2_mul n k : few (n + k) -> forall A p B q, Forall2 (under n) A p -> Forall2 (under k) B q -> length p = length q -> fit (fold_left Rplus (map2 (fun x y => x * y + tiny) A B) 0) ->
  exists r, map2O b_mul p q = Some r /\ Forall2 (under (n + k + 1)) (map2 (fun x y => x * y + tiny) A B) r /\ length r = length q.
Proof.
  intros F A p B q FA. revert B q. induction FA as [|a x A p Ua FA IH]; intros B q FB L T; inversion FB as [|b y B' q' Ub FB']; subst; cbn in L; try discriminate.
  - exists []. repeat split; constructor.
  - cbn [map2 fold_left] in *. rewrite fold_left_plus in T. unfold fit in T. pose proof (under_pos _ _ _ Ua). pose proof (under_pos _ _ _ Ub). pose proof (Rmult_le_pos a b ltac:(lra) ltac:(lra)). pose proof tiny_pos.
    assert (P : 0 <= fold_left Rplus (map2 (fun x y => x * y + tiny) A B') 0).
    { apply Forall_fold_pos. clear -FA FB' H2. revert B' q' FB'. induction FA as [|? ? ? ? U1 ? IH]; intros B' q' FB'; inversion FB' as [|? ? ? ? U2]; subst; cbn; constructor; eauto.
      pose proof (under_pos _ _ _ U1). pose proof (under_pos _ _ _ U2). pose proof (Rmult_le_pos _ _ H0 H1). lra. }
    destruct (IH B' q' FB' ltac:(lia)) as (r & E & U & Lr); [unfold fit; lra|]. destruct (u_mul n k a b x y Ua Ub F ltac:(lra)) as (z & Ez & Uz).
    exists (z :: r). cbn [map2O]. rewrite Ez. cbn [obind]. rewrite E. cbn [obind]. split; [reflexivity|]. split; [constructor; auto|cbn; lia].
Qed.
Lemma fold_add n l : forall A p a q j, Forall2 (under n) A l -> under j a q -> p = length l -> (n <= j)%nat -> few (j + p) -> fit (fold_left Rplus A a) ->
  exists r, foldO b_add l q = Some r /\ under (j + p) (fold_left Rplus A a) r.
Proof.
  induction l as [|x l IH]; intros A p a q j FA U -> L F T; inversion FA as [|b ? A' ? Ub FA']; subst; cbn [foldO fold_left length] in *.
  - exists q. split; [reflexivity|]. rewrite Nat.add_0_r. exact U.
  - assert (PA : Forall (fun x => 0 <= x) A') by (clear -FA'; induction FA'; constructor; auto; eapply under_pos; eauto). pose proof (Forall_fold_pos _ PA (a + b)).
    destruct (u_add j n a b q x U Ub) as (r & E & Ur); [eapply few_le; [|exact F]; lia|unfold fit in T; lra|]. replace (Nat.max j n) with j in Ur by lia. rewrite E. cbn [obind].
    destruct (IH A' (length l) (a + b) r (S j) FA' Ur eq_refl) as (z & Ez & Uz); [lia|eapply few_le; [|exact F]; lia|exact T|]. exists z. split; [exact Ez|]. replace (j + S (length l))%nat with (S j + length l)%nat by lia. exact Uz.
Qed.
Lemma map_mul n k b s : under k b s -> few (n + k) -> forall A p, Forall2 (under n) A p -> Forall fit (map (fun x => x * b + tiny) A) ->
  exists r, mapO (fun x => b_mul x s) p = Some r /\ Forall2 (under (n + k + 1)) (map (fun x => x * b + tiny) A) r /\ length r = length p.
Proof.
  intros Us F A p FA. induction FA as [|a x A p Ua FA IH]; intros T; cbn [map] in *; [exists []; repeat split; constructor|].
  apply Forall_cons_iff in T as [T1 T]. unfold fit in T1. pose proof tiny_pos. destruct (IH T) as (r & E & U & L). destruct (u_mul n k a b x s Ua Us F ltac:(lra)) as (z & Ez & Uz).
  exists (z :: r). cbn [mapO]. rewrite Ez. cbn [obind]. rewrite E. cbn [obind]. split; [reflexivity|]. split; [constructor; auto|cbn; lia].
Qed.
(** Horner's rule on magnitudes *)
Definition hz (a : R) (c : list b64) (r : R) : R := hfold a (map (fun x => Rabs (val x) + tiny) c) r.
Lemma hfold_ge a c r : 1 <= a -> 0 <= r -> Forall (fun x => 0 <= x) c -> r <= hfold a c r.
Proof.
  intros Ha. revert r. induction c as [|x c IH]; intros r Hr F; cbn; [lra|]. apply Forall_cons_iff in F as [Fx F]. assert (r * 1 <= r * a) by (apply Rmult_le_compat_l; lra). specialize (IH (r * a + x) ltac:(lra) F). unfold hfold in IH. lra.
Qed.
Lemma hfold_mono a b c r s : 0 <= a <= b -> 0 <= r <= s -> Forall (fun x => 0 <= x) c -> hfold a c r <= hfold b c s.
Proof.
  intros Ha. revert r s. induction c as [|x c IH]; intros r s Hr F; cbn; [lra|]. apply Forall_cons_iff in F as [Fx F]. apply IH; auto.
  assert (r * a <= s * b) by (apply Rmult_le_compat; lra). assert (0 <= r * a) by (apply Rmult_le_pos; lra). lra.
Qed.
Lemma mags_pos c : Forall (fun x => 0 <= x) (map (fun x : b64 => Rabs (val x) + tiny) c).
Proof. apply Forall_map, Forall_forall. intros x _. pose proof (Rabs_pos (val x)). pose proof tiny_pos. lra. Qed.
Lemma u_horner n a p c : under n a p -> Forall fin c -> forall j A q, (n <= j)%nat -> under j A q -> few (j + length c * (n + 2)) -> fit (hz (Rmax 1 a) c A) ->
  exists r, foldO (fun r c => obind (b_mul r p) (fun r => obind (b_cst c) (b_add r))) c q = Some r /\ under (j + length c * (n + 2)) (hz a c A) r.
Proof.
  intros U. pose proof (under_pos _ _ _ U) as PA. induction c as [|x c IH]; intros Fc j A q L Uq F T; cbn [foldO length] in *.
  - exists q. split; [reflexivity|]. rewrite Nat.add_0_r. exact Uq.
  - apply Forall_cons_iff in Fc as [Fx Fc]. pose proof (under_pos _ _ _ Uq) as PQ. pose proof tiny_pos. pose proof (Rabs_pos (val x)). pose proof (Rmult_le_pos A a PQ PA) as PAa.
    unfold hz in T. cbn [map hfold fold_left] in T. fold (hfold (Rmax 1 a) (map (fun x => Rabs (val x) + tiny) c) (A * Rmax 1 a + (Rabs (val x) + tiny))) in T.
    pose proof (Rmax_l 1 a) as M1. pose proof (Rmax_r 1 a) as M2.
    assert (S1 : A * a <= A * Rmax 1 a) by (apply Rmult_le_compat_l; lra).
    pose proof (hfold_ge (Rmax 1 a) (map (fun x => Rabs (val x) + tiny) c) (A * Rmax 1 a + (Rabs (val x) + tiny)) M1 ltac:(lra) (mags_pos c)) as S2. unfold fit in T.
    destruct (u_mul j n A a q p Uq U) as (r1 & E1 & U1); [eapply few_le; [|exact F]; lia|lra|]. rewrite E1. cbn [obind].
    destruct (cst_ok x Fx) as (qx & Ex). rewrite Ex. cbn [obind]. pose proof (under_cst 0 x qx Ex) as Ux.
    destruct (u_add (j + n + 1) 0 (A * a + tiny) (Rabs (val x)) r1 qx U1 Ux) as (r2 & E2 & U2); [eapply few_le; [|exact F]; lia|lra|]. rewrite E2. cbn [obind].
    replace (S (Nat.max (j + n + 1) 0)) with (j + (n + 2))%nat in U2 by lia.
    destruct (IH Fc (j + (n + 2))%nat (A * a + tiny + Rabs (val x)) r2) as (r & E & Ur); [lia|exact U2|eapply few_le; [|exact F]; lia| |].
    + unfold fit. eapply Rle_trans; [|exact T]. apply Rmult_le_compat_l; [lra|]. unfold hz. apply hfold_mono; [lra|lra|apply mags_pos].
    + exists r. split; [exact E|]. replace (j + S (length c) * (n + 2))%nat with (j + (n + 2) + length c * (n + 2))%nat by lia.
      replace (hz a (x :: c) A) with (hz a c (A * a + tiny + Rabs (val x))); [exact Ur|]. unfold hz. cbn [map hfold fold_left]. unfold hfold. f_equal. ring.
Qed.

(** counts grow *)
Lemma ops_ge f : forall n, (n <= ops f n)%nat.
Proof.
  induction f as [d v|d a|d|d|d|d c|d f1 f2 IH1 IH2|d c s k|d c s k|ty d c args IH] using fn_ind'; intros n; cbn [ops]; try apply Nat.le_add_r; try lia.
  - specialize (IH1 n). lia.
  - destruct ty.
    + assert (G : forall l k, (k <= fold_left (fun k g => S (Nat.max k (ops g n))) l k)%nat) by (induction l as [|g l IHl]; intros k; cbn; [lia|]; specialize (IHl (S (Nat.max k (ops g n)))); lia). apply G.
    + destruct args as [|g0 args]; [lia|]. apply Forall_cons_iff in IH as [I0 _]. specialize (I0 n).
      assert (G : forall l k, (k <= fold_left (fun k g => k + ops g n + 1) l k)%nat) by (induction l as [|g l IHl]; intros k; cbn; [lia|]; specialize (IHl (k + ops g n + 1)%nat); lia). specialize (G args (ops g0 n)). lia.
    + revert n. induction IH as [|g l Hg IH IHl]; intros n; cbn; [lia|]. specialize (IHl (ops g n)). specialize (Hg n). lia.
    + lia.
    + destruct args as [|g [|]]; try lia. apply Forall_cons_iff in IH as [I0 _]. apply I0.
    + destruct args as [|g [|]]; try lia. apply Forall_cons_iff in IH as [I0 _]. apply I0.
Qed.
Lemma ops_sum_ge n l k : (k <= fold_left (fun k g => S (Nat.max k (ops g n))) l k)%nat.
Proof. revert k. induction l as [|g l IHl]; intros k; cbn; [lia|]. specialize (IHl (S (Nat.max k (ops g n)))). lia. Qed.
Lemma ops_mul_ge n l k : (k <= fold_left (fun k g => k + ops g n + 1) l k)%nat.
Proof. revert k. induction l as [|g l IHl]; intros k; cbn; [lia|]. specialize (IHl (k + ops g n + 1)%nat). lia. Qed.
Lemma ops_comp_ge l k : (k <= fold_left (fun k g => ops g k) l k)%nat.
Proof. revert k. induction l as [|g l IHl]; intros k; cbn; [lia|]. specialize (IHl (ops g k)). pose proof (ops_ge g k). lia. Qed.

Section Ap.
Variable eps : R.
Hypothesis He : 0 <= eps <= 2 * uu.
Definition good (f : fn b64) : Prop := forall a n p, fits f a -> under n a p -> few (ops f n) ->
  exists l, beval eps f p = Some l /\ Forall2 (under (ops f n)) (sizes f a) l /\ length l = fcod f.
Lemma under_all n k A l : (n <= k)%nat -> Forall2 (under n) A l -> Forall2 (under k) A l.
Proof. intros L F. eapply Forall2_impl; [|exact F]. intros x p U. eapply under_mono; eauto. lra. Qed.
Lemma sum_mono A B l l' n : Forall2 (under n) A l -> Forall2 (under n) B l' -> length A = length B -> Forall fit (map2 Rplus A B) -> Forall fit A.
Proof.
  intros FA. revert B l'. induction FA as [|a x A l Ua FA IH]; intros B l' FB L T; [constructor|]. inversion FB as [|b y B' q' Ub FB']; subst; [discriminate|]. cbn in *.
  apply Forall_cons_iff in T as [T1 T]. pose proof (under_pos _ _ _ Ub). constructor; [unfold fit in *; lra|]. eapply IH; eauto.
Qed.
Lemma sum_good c a n p : under n a p -> forall l acc A k, Forall good l -> (n <= k)%nat -> Forall2 (under k) A acc -> length acc = c ->
  fold_right (fun g P => fcod g = c /\ fits g a /\ P) True l -> few (fold_left (fun k g => S (Nat.max k (ops g n))) l k) ->
  (l = [] \/ Forall fit (fold_left (fun acc g => map2 Rplus acc (sizes g a)) l A)) ->
  exists r, gsum eps c p l acc = Some r /\ Forall2 (under (fold_left (fun k g => S (Nat.max k (ops g n))) l k)) (fold_left (fun acc g => map2 Rplus acc (sizes g a)) l A) r /\ length r = c.
Proof.
  intros U l. induction l as [|g l IH]; intros acc A k HG L FA Lc FT F T; cbn [fold_left fold_right] in *; [exists acc; auto|].
  apply Forall_cons_iff in HG as [Gg HG]. destruct FT as (Ec & Fg & FT). destruct T as [T|T]; [discriminate|].
  assert (Fop : few (S (Nat.max k (ops g n)))) by (eapply few_le; [apply (ops_sum_ge n l)|exact F]).
  destruct (Gg a n p Fg U) as (r1 & E1 & F1 & L1); [eapply few_le; [|exact Fop]; lia|].
  assert (S1 : Forall fit (map2 Rplus A (sizes g a))).
  { assert (Lz : length (sizes g a) = c) by (rewrite (Forall2_len _ _ _ F1); congruence). assert (LA : length A = c) by (rewrite (Forall2_len _ _ _ FA); exact Lc).
    assert (PA : Forall (fun x => 0 <= x) (map2 Rplus A (sizes g a))).
    { assert (QA : Forall (fun x => 0 <= x) A) by (clear -FA; induction FA; constructor; auto; eapply under_pos; eauto).
      assert (QB : Forall (fun x => 0 <= x) (sizes g a)) by (clear -F1; induction F1; constructor; auto; eapply under_pos; eauto).
      clear -QA QB. revert QB. generalize (sizes g a). induction QA; intros B QB; cbn; [constructor|]. destruct QB; constructor; auto. lra. }
    assert (LB : length (map2 Rplus A (sizes g a)) = c) by (clear -LA Lz; revert LA Lz; generalize (sizes g a); revert c; induction A; intros c [|] ? ?; cbn in *; try congruence; destruct c; [discriminate|]; f_equal; apply IHA; lia).
    revert T PA LB. generalize (map2 Rplus A (sizes g a)). clear -HG FT U F He. 
    assert (QQ : Forall (fun g => Forall (fun x => 0 <= x) (sizes g a) /\ length (sizes g a) = c) l).
    { clear -HG FT U F He. revert F. generalize (S (Nat.max k (ops g n))). induction HG as [|g' l Gg' HG IH]; intros j F; constructor.
      - cbn [fold_right fold_left] in *. destruct FT as (Ec & Fg & FT). destruct (Gg' a n p Fg U) as (r1 & E1 & F1 & L1); [eapply few_le; [|exact F]; eapply Nat.le_trans; [|apply ops_sum_ge]; lia|].
        split; [clear -F1; induction F1; constructor; auto; eapply under_pos; eauto|]. rewrite (Forall2_len _ _ _ F1). congruence.
      - cbn [fold_right fold_left] in *. destruct FT as (Ec & Fg & FT). eapply IH; eauto. }
    clear HG FT F. induction QQ as [|g' l (Q1 & Q2) QQ IH]; intros A T PA LB; cbn [fold_left] in T; [exact T|].
    assert (X : Forall fit (map2 Rplus A (sizes g' a))).
    { apply IH; auto.
      - clear -PA Q1. revert Q1. generalize (sizes g' a). induction PA; intros B QB; cbn; [constructor|]. destruct QB; constructor; auto. lra.
      - revert LB Q2. generalize (sizes g' a). clear. revert c. induction A; intros c [|] ? ?; cbn in *; try congruence. destruct c; [discriminate|]. f_equal. apply IHA; lia. }
    clear -X Q1 Q2 LB. revert c X Q1 Q2 LB. generalize (sizes g' a). induction A as [|x A IH]; intros [|y B] c X Q1 Q2 LB; cbn in *; try constructor; try congruence.
    + apply Forall_cons_iff in X as [X _]. apply Forall_cons_iff in Q1 as [Q1 _]. unfold fit in *. lra.
    + apply Forall_cons_iff in X as [_ X]. apply Forall_cons_iff in Q1 as [_ Q1]. destruct c; [discriminate|]. eapply (IH B c); auto; lia. }
  destruct (map2_add k (ops g n) ltac:(eapply few_le; [|exact Fop]; lia) A acc (sizes g a) r1 FA F1 ltac:(congruence) S1) as (r2 & E2 & F2 & L2).
  destruct (IH r2 (map2 Rplus A (sizes g a)) (S (Nat.max k (ops g n))) HG ltac:(lia) F2 ltac:(congruence) FT F) as (r & E & Fr & Lr); [right; exact T|].
  exists r. split; [|auto]. unfold gsum. rewrite Ec, Nat.eqb_refl, E1. cbn [obind]. rewrite E2. cbn [obind]. exact E.
Qed.
Definition mfits (a : R) : list (fn b64) -> list R -> Prop :=
  fix go l acc := match l with
             | [] => True
             | g :: l' => fcod g = 1%nat /\ fits g a /\
                          let acc' := map (fun x => x * hd 0 (sizes g a) + tiny) acc in Forall fit acc' /\ go l' acc'
             end.
Lemma mul_good a n p : under n a p -> forall l acc A k, Forall good l -> Forall2 (under k) A acc -> mfits a l A ->
  few (fold_left (fun k g => k + ops g n + 1)%nat l k) ->
  exists r, gmul eps p l acc = Some r /\ Forall2 (under (fold_left (fun k g => k + ops g n + 1)%nat l k)) (fold_left (fun acc g => map (fun x => x * hd 0 (sizes g a) + tiny) acc) l A) r /\ length r = length acc.
Proof.
  intros U l. induction l as [|g l IH]; intros acc A k HG FA FT F; cbn [fold_left] in *; [exists acc; auto|].
  apply Forall_cons_iff in HG as [Gg HG]. destruct FT as (Ec & Fg & Ft & FT).
  assert (Fop : few (k + ops g n + 1)) by (eapply few_le; [apply (ops_mul_ge n l)|exact F]).
  destruct (Gg a n p Fg U) as (r1 & E1 & F1 & L1); [eapply few_le; [|exact Fop]; lia|].
  rewrite Ec in L1. destruct r1 as [|s [|]]; try discriminate. inversion F1 as [|b ? B ? Ub Fn Eb Es]; subst. inversion Fn; subst. rewrite <- Eb in *. cbn [hd] in *.
  destruct (map_mul k (ops g n) b s Ub ltac:(eapply few_le; [|exact Fop]; lia) A acc FA Ft) as (r2 & E2 & F2 & L2).
  destruct (IH r2 (map (fun x => x * b + tiny) A) (k + ops g n + 1)%nat HG F2 FT F) as (r & E & Fr & Lr).
  exists r. split; [|split; [exact Fr|congruence]]. unfold gmul. rewrite Ec, Nat.eqb_refl, E1. cbn [obind]. rewrite E2. cbn [obind]. exact E.
Qed.
Definition cfits (c : nat) : list (fn b64) -> R -> Prop :=
  fix go l s := match l with
         | [] => True
         | g :: l' => fits g s /\ fcod g = match l' with [] => c | _ => 1%nat end /\ go l' (hd 0 (sizes g s))
         end.
Lemma comp_good c : forall l a n p, l <> [] -> Forall good l -> under n a p -> cfits c l a -> few (fold_left (fun k g => ops g k) l n) ->
  exists r, gcomp eps c l p = Some r /\ Forall2 (under (fold_left (fun k g => ops g k) l n)) (fold_left (fun s g => sizes g (hd 0 s)) l [a]) r /\ length r = c.
Proof.
  induction l as [|g l IH]; intros a n p NE HG U FT F; [contradiction|]. apply Forall_cons_iff in HG as [Gg HG]. cbn [fold_left hd] in *. destruct FT as (Fg & Ec & FT). fold (cfits c) in FT.
  destruct (Gg a n p Fg U) as (r1 & E1 & F1 & L1); [eapply few_le; [apply ops_comp_ge|exact F]|]. destruct l as [|g' l].
  - cbn [fold_left]. exists r1. unfold gcomp. rewrite Ec, Nat.eqb_refl. split; [exact E1|]. split; [exact F1|congruence].
  - rewrite Ec in L1. destruct r1 as [|s [|]]; try discriminate. inversion F1 as [|b ? B ? Ub Fn Eb Es]; subst. inversion Fn; subst. rewrite <- Eb in *. cbn [hd] in FT.
    destruct (IH b (ops g n) s ltac:(discriminate) HG Ub FT F) as (r & E & Fr & Lr). exists r. split; [|split; [exact Fr|exact Lr]].
    change (gcomp eps c (g :: g' :: l) p) with (if Nat.eqb (fcod g) 1 then obind (beval eps g p) (fun r => match r with [s] => gcomp eps c (g' :: l) s | _ => None end) else None).
    rewrite Ec, Nat.eqb_refl, E1. cbn [obind]. exact E.
Qed.
Theorem apriori f : good f.
Proof.
  induction f as [d v|d c|d|d|d|d c|d f1 f2 IH1 IH2|d c s k|d c s k|ty d c args IH] using fn_ind'; intros a n p FT U F.
  - cbn [fits] in FT. destruct (mapO_cst n v FT) as (l & E & Ul & L). exists l. auto.
  - cbn [fits sizes] in FT. destruct FT as (Fc & T). apply Forall_cons_iff in T as [T _]. unfold fit in T. pose proof tiny_pos. destruct (cst_ok c Fc) as (q & Eq).
    destruct (u_mul 0 n (Rabs (val c)) a q p (under_cst 0 c q Eq) U) as (r & E & Ur); [eapply few_le; [|exact F]; cbn; lia|lra|].
    exists [r]. cbn [beval ops sizes]. rewrite Eq. cbn [obind]. rewrite E. cbn [obind]. split; [reflexivity|]. split; [constructor; [exact Ur|constructor]|reflexivity].
  - cbn [fits] in FT. destruct (u_exp eps n a p He U) as (r & E & Ur); [eapply few_le; [|exact F]; cbn; lia|exact FT|].
    exists [r]. cbn [beval ops sizes]. rewrite E. cbn [obind]. split; [reflexivity|]. split; [constructor; [exact Ur|constructor]|reflexivity].
  - exists [b_cos eps p]. cbn [beval ops sizes]. split; [reflexivity|]. split; [|reflexivity]. constructor; [|constructor]. apply u_cos; auto.
  - exists [b_sin eps p]. cbn [beval ops sizes]. split; [reflexivity|]. split; [|reflexivity]. constructor; [|constructor]. apply u_cos; auto.
  - cbn [fits] in FT. destruct FT as (Nc & Fc & T). cbn [beval]. destruct (rev c) as [|cl rest] eqn:Er.
    { exfalso. apply Nc. rewrite <- (rev_involutive c), Er. reflexivity. }
    assert (Fr : Forall fin (cl :: rest)) by (rewrite <- Er; apply Forall_rev; exact Fc). apply Forall_cons_iff in Fr as [Fl Fr]. destruct (cst_ok cl Fl) as (q & Eq). rewrite Eq. cbn [obind].
    assert (Lr : length rest = (length c - 1)%nat) by (rewrite <- (rev_length c), Er; cbn; lia).
    assert (Em : rev (map (fun x => Rabs (val x) + tiny) c) = (Rabs (val cl) + tiny) :: map (fun x => Rabs (val x) + tiny) rest) by (rewrite <- map_rev, Er; reflexivity).
    assert (H1 : forall b, power_sum (map (fun x => Rabs (val x) + tiny) c) b = hz b rest (Rabs (val cl) + tiny)) by (intros b; unfold hz; symmetry; apply hfold_power_sum; exact Em).
    rewrite H1 in T. cbn [ops] in F. rewrite <- Lr in F. pose proof tiny_pos.
    destruct (u_horner n a p rest U Fr n (Rabs (val cl) + tiny) q (le_n n)) as (r & E & Ur).
    { eapply under_mono; [apply (Nat.le_0_l n)| |apply under_cst; exact Eq]. lra. }
    { exact F. } { exact T. }
    rewrite E. cbn [obind]. exists [r]. split; [reflexivity|]. split; [|reflexivity]. cbn [ops sizes]. rewrite H1, <- Lr. constructor; [exact Ur|constructor].
  - cbn [fits sizes] in FT. destruct FT as (Ec & FT1 & FT2 & T). apply Forall_cons_iff in T as [T _]. cbn [ops] in F. cbn [beval]. rewrite Ec, Nat.eqb_refl.
    destruct (IH1 a n p FT1 U) as (r1 & E1 & F1 & L1); [eapply few_le; [|exact F]; lia|]. destruct (IH2 a n p FT2 U) as (r2 & E2 & F2 & L2); [eapply few_le; [|exact F]; lia|].
    rewrite E1, E2. cbn [obind]. destruct (map2_mul (ops f1 n) (ops f2 n) ltac:(eapply few_le; [|exact F]; lia) _ _ _ _ F1 F2 ltac:(congruence) T) as (r3 & E3 & F3 & L3). rewrite E3. cbn [obind].
    destruct (fold_add (ops f1 n + ops f2 n + 1) r3 _ (fcod f1) 0 (0, 0) (ops f1 n + ops f2 n + 1)%nat F3) as (r & E & Ur).
    { split; cbn [fst snd]; [rewrite Rabs_R0; lra|]. pose proof (gr_ge1 (ops f1 n + ops f2 n + 1)). rewrite Rmult_0_r. lra. }
    { congruence. } { lia. } { exact F. } { exact T. }
    rewrite E. cbn [obind]. exists [r]. split; [reflexivity|]. split; [|reflexivity]. cbn [ops sizes]. constructor; [exact Ur|constructor].
  - destruct FT.
  - destruct FT.
  - destruct ty.
    + cbn [fits] in FT. destruct FT as (Na & FT & T). destruct args as [|g0 args]; [contradiction|]. rewrite beval_sum. cbn [ops] in F. cbn [ops sizes fcod].
      apply (sum_good c a n p U (g0 :: args) (repeat (0, 0) c) (repeat 0 c) n IH (le_n n)); auto.
      * clear. pose proof (gr_ge1 n). induction c; cbn; constructor; auto. split; cbn [fst snd]; [rewrite Rabs_R0; lra|]. rewrite Rmult_0_r. lra.
      * apply repeat_length.
    + cbn [fits] in FT. destruct args as [|g0 args]; [destruct FT|]. destruct FT as (Ec & F0 & FT). rewrite beval_mul, Ec, Nat.eqb_refl. cbn [ops] in F. cbn [ops sizes fcod].
      apply Forall_cons_iff in IH as [I0 IH]. destruct (I0 a n p F0 U) as (r0 & E0 & U0 & L0); [eapply few_le; [apply ops_mul_ge|exact F]|]. rewrite E0. cbn [obind].
      destruct (mul_good a n p U args r0 (sizes g0 a) (ops g0 n) IH U0 FT F) as (r & E & Fr & Lr). exists r. split; [exact E|]. split; [exact Fr|congruence].
    + cbn [fits] in FT. destruct FT as (Na & FT). rewrite beval_comp. cbn [ops] in F. cbn [ops sizes fcod]. apply comp_good; auto.
    + destruct FT.
    + cbn [fits] in FT. destruct args as [|g [|]]; try (destruct FT; fail). destruct FT as (Ec & Fg). apply Forall_cons_iff in IH as [I0 _]. cbn [ops] in F. destruct (I0 a n p Fg U F) as (l & E & Ul & L).
      exists l. cbn [beval ops sizes fcod]. rewrite Ec, Nat.eqb_refl. split; [exact E|]. split; [exact Ul|congruence].
    + cbn [fits] in FT. destruct args as [|g [|]]; try (destruct FT; fail). destruct FT as (Ec & Fg). apply Forall_cons_iff in IH as [I0 _]. cbn [ops] in F. destruct (I0 a n p Fg U F) as (l & E & Ul & L).
      exists (map b_neg l). cbn [beval ops sizes fcod]. rewrite Ec, Nat.eqb_refl, E. cbn [obind]. split; [reflexivity|]. split; [|rewrite map_length; congruence].
      clear -Ul. induction Ul; cbn; constructor; auto using u_neg.
Qed.
End Ap.
