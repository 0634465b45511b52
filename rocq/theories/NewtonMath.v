(** One step of Newton's method at a point near a simple zero z of a function with f'' = - K f, K >= 0: the iterates alternate
    around z and the distance shrinks.  Real analysis only, nothing about the code. *)
From Coquelicot Require Import Coquelicot.
From Coq Require Import Reals Lra Psatz.
From Verif Require Import RDeriv LobattoRoots.
Local Open Scope R_scope.

Lemma mvt_in (f df : R -> R) a b : a < b -> (forall t, a < t < b -> is_derive f t (df t)) -> (forall t, a <= t <= b -> continuous f t) ->
  exists c, a < c < b /\ f b - f a = df c * (b - a).
Proof.
  intros Hab D C.
  set (pr1 := fun c (P : a < c < b) => exist (fun l => derivable_pt_lim f c l) (df c) (proj1 (is_derive_Reals f c (df c)) (D c P)) : derivable_pt f c).
  destruct (MVT f id a b pr1 (fun c _ => derivable_pt_id c) Hab) as (c & P & E).
  - intros t Ht. apply continuity_pt_filterlim. exact (C t Ht).
  - intros t Ht. apply derivable_continuous_pt, derivable_pt_id.
  - exists c. split; [exact P|]. rewrite derive_pt_id in E. unfold id in E. change (derive_pt f c (pr1 c P)) with (df c) in E. lra.
Qed.
Lemma mono_in (f df : R -> R) a b : a <= b -> (forall t, a < t < b -> is_derive f t (df t)) -> (forall t, a <= t <= b -> continuous f t) ->
  (forall t, a < t < b -> 0 <= df t) -> f a <= f b.
Proof.
  intros Hab D C P. destruct Hab as [Hab| ->]; [|lra]. destruct (mvt_in f df a b Hab D C) as (c & Hc & E). specialize (P c Hc).
  assert (0 <= df c * (b - a)) by (apply Rmult_le_pos; lra). lra.
Qed.
Lemma mono_strict (f df : R -> R) a b : a < b -> (forall t, a < t < b -> is_derive f t (df t)) -> (forall t, a <= t <= b -> continuous f t) ->
  (forall t, a < t < b -> 0 < df t) -> f a < f b.
Proof.
  intros Hab D C P. destruct (mvt_in f df a b Hab D C) as (c & Hc & E). specialize (P c Hc).
  assert (0 < df c * (b - a)) by (apply Rmult_lt_0_compat; lra). lra.
Qed.

Section Half.
Variables (f f1 K : R -> R) (z x k : R).
Hypothesis Hzx : z < x.
Hypothesis D0 : forall t, z <= t <= x -> is_derive f t (f1 t).
Hypothesis D1 : forall t, z <= t <= x -> is_derive f1 t (- (K t * f t)).
Hypothesis HK : forall t, z <= t <= x -> 0 <= K t <= k.
Hypothesis Hz : f z = 0.
Hypothesis Hp : forall t, z < t <= x -> 0 < f t.

Lemma half_f_nonneg t : z <= t <= x -> 0 <= f t.
Proof. intros Ht. destruct (Req_dec t z) as [->|Ne]; [lra|]. apply Rlt_le, Hp. lra. Qed.
Lemma half_c0 t : z <= t <= x -> continuous f t.
Proof. intros Ht. exact (derive_continuous _ _ _ (D0 t Ht)). Qed.
Lemma half_c1 t : z <= t <= x -> continuous f1 t.
Proof. intros Ht. exact (derive_continuous _ _ _ (D1 t Ht)). Qed.
(** f1 decreases *)
Lemma half_decr s t : z <= s -> s <= t -> t <= x -> f1 t <= f1 s.
Proof.
  intros Hs Hst Ht. assert (L : - f1 s <= - f1 t); [|lra].
  apply (mono_in (fun u => - f1 u) (fun u => - - (K u * f u))); auto.
  - intros u Hu. apply d_opp, D1. lra.
  - intros u Hu. apply (continuous_opp f1), half_c1. lra.
  - intros u Hu. rewrite Ropp_involutive. apply Rmult_le_pos; [apply HK; lra|apply half_f_nonneg; lra].
Qed.
Lemma half_slope : 0 < f1 z.
Proof.
  destruct (mvt_in f f1 z x Hzx) as (c & Hc & E); [intros; apply D0; lra|intros; apply half_c0; lra|].
  rewrite Hz in E. pose proof (Hp x ltac:(lra)) as P. assert (0 < f1 c).
  { apply Rnot_le_lt. intros L. assert (0 <= (- f1 c) * (x - z)) by (apply Rmult_le_pos; lra). lra. }
  pose proof (half_decr z c ltac:(lra) ltac:(lra) ltac:(lra)). lra.
Qed.
Lemma half_upper t : z <= t <= x -> f t <= f1 z * (t - z).
Proof.
  intros Ht. assert (L : f1 z * (z - z) - f z <= f1 z * (t - z) - f t); [|rewrite Hz in L; lra].
  apply (mono_in (fun u => f1 z * (u - z) - f u) (fun u => f1 z * (1 - 0) - f1 u)); try lra.
  - intros u Hu. apply d_minus; [apply d_scal, d_minus; [apply d_id|apply d_const]|apply D0; lra].
  - intros u Hu. apply c_minus; [|apply half_c0; lra]. apply (derive_continuous _ _ (f1 z * (1 - 0))). apply d_scal, d_minus; [apply d_id|apply d_const].
  - intros u Hu. pose proof (half_decr z u ltac:(lra) ltac:(lra) ltac:(lra)). lra.
Qed.
Lemma half_k : 0 <= k.
Proof. pose proof (HK z ltac:(lra)). lra. Qed.
(** f1 t >= f1 z (1 - k (t-z)^2 / 2) *)
Lemma half_lower t : z <= t <= x -> f1 z * (1 - k * (t - z) ^ 2 / 2) <= f1 t.
Proof.
  intros Ht. pose proof half_slope as Sl. pose proof half_k as Kp.
  set (B := fun u => f1 u - f1 z * (1 - k * (u - z) ^ 2 / 2)).
  assert (DB : forall u, z <= u <= x -> is_derive B u (- (K u * f u) + f1 z * (k * (u - z)))).
  { intros u Hu. eapply is_derive_eq; [apply d_minus; [apply D1; lra|]|].
    - apply d_scal, d_minus; [apply d_const|apply d_divc, d_scal, d_pow, d_minus; [apply d_id|apply d_const]].
    - simpl. field. }
  assert (L : B z <= B t); [|unfold B in L; replace ((z - z) ^ 2) with 0 in L by ring; lra].
  apply (mono_in B (fun u => - (K u * f u) + f1 z * (k * (u - z)))); try lra.
  - intros u Hu. apply DB. lra.
  - intros u Hu. apply (derive_continuous _ _ _ (DB u ltac:(lra))).
  - intros u Hu. pose proof (half_upper u ltac:(lra)). pose proof (HK u ltac:(lra)). pose proof (half_f_nonneg u ltac:(lra)).
    assert (K u * f u <= k * (f1 z * (u - z))) by (apply Rmult_le_compat; lra). lra.
Qed.
(** 0 <= f - (t-z) f1 <= k f1(z) (t-z)^3/3 *)
Lemma half_gap : 0 <= f x - (x - z) * f1 x <= k * f1 z * (x - z) ^ 3 / 3.
Proof.
  pose proof half_slope as Sl. pose proof half_k as Kp.
  set (A := fun u => f u - (u - z) * f1 u).
  assert (DA : forall u, z <= u <= x -> is_derive A u ((u - z) * (K u * f u))).
  { intros u Hu. eapply is_derive_eq; [apply d_minus; [apply D0; lra|apply d_mult; [apply d_minus; [apply d_id|apply d_const]|apply D1; lra]]|]. cbv beta. ring. }
  assert (P : forall u, z < u < x -> 0 <= (u - z) * (K u * f u) <= k * f1 z * (u - z) ^ 2).
  { intros u Hu. pose proof (half_upper u ltac:(lra)). pose proof (HK u ltac:(lra)). pose proof (half_f_nonneg u ltac:(lra)). split.
    - apply Rmult_le_pos; [lra|apply Rmult_le_pos; lra].
    - replace (k * f1 z * (u - z) ^ 2) with ((u - z) * (k * (f1 z * (u - z)))) by ring. apply Rmult_le_compat_l; [lra|]. apply Rmult_le_compat; lra. }
  split.
  - assert (L : A z <= A x); [|unfold A in L; rewrite Hz in L; lra].
    apply (mono_in A (fun u => (u - z) * (K u * f u))); try lra; [intros; apply DA; lra|intros u Hu; exact (derive_continuous _ _ _ (DA u Hu))|].
    intros u Hu. apply P; auto.
  - set (C := fun u => k * f1 z * ((u - z) ^ 3 / 3) - A u).
    assert (DC : forall u, z <= u <= x -> is_derive C u (k * f1 z * (u - z) ^ 2 - (u - z) * (K u * f u))).
    { intros u Hu. apply d_minus; [|apply DA; auto]. eapply is_derive_eq; [apply d_scal, d_divc, d_pow, d_minus; [apply d_id|apply d_const]|]. simpl. field. }
    assert (L : C z <= C x).
    { apply (mono_in C (fun u => k * f1 z * (u - z) ^ 2 - (u - z) * (K u * f u))); try lra; [intros; apply DC; lra|intros u Hu; exact (derive_continuous _ _ _ (DC u Hu))|].
      intros u Hu. specialize (P u Hu). lra. }
    unfold C, A in L. rewrite Hz in L. replace ((z - z) ^ 3) with 0 in L by ring. lra.
Qed.
Lemma newton_half : k * (x - z) ^ 2 < 2 ->
  let h := x - z in let x' := x - f x / f1 x in
  f1 x <> 0 /\ x' <= z /\ z - x' <= h * (k * h ^ 2 / 3 / (1 - k * h ^ 2 / 2)) /\ f1 z * (1 - k * h ^ 2 / 2) <= f1 x <= f1 z.
Proof.
  intros Hk h x'. fold h in Hk. pose proof half_slope as Sl. pose proof (half_lower x ltac:(lra)) as Lo. pose proof (half_decr z x ltac:(lra) ltac:(lra) ltac:(lra)) as Up. fold h in Lo.
  assert (Pf : 0 < f1 z * (1 - k * h ^ 2 / 2)) by (apply Rmult_lt_0_compat; lra).
  assert (P1 : 0 < f1 x) by lra. destruct half_gap as (G1 & G2). fold h in G1, G2.
  split; [lra|].
  assert (E : z - x' = (f x - h * f1 x) / f1 x) by (unfold x', h; field; lra).
  split; [|split; [|lra]].
  - assert (0 <= z - x'); [|lra]. rewrite E. apply Rdiv_le_0_compat; lra.
  - rewrite E. apply (Rmult_le_reg_r (f1 x)); auto. unfold Rdiv at 1. rewrite Rmult_assoc, Rinv_l, Rmult_1_r by lra.
    apply (Rle_trans _ _ _ G2).
    assert (Hh : 0 <= h) by (unfold h; lra). pose proof half_k as Kp.
    assert (X : 0 <= h * (k * h ^ 2 / 3 / (1 - k * h ^ 2 / 2))).
    { apply Rmult_le_pos; auto. apply Rdiv_le_0_compat; [|lra]. assert (0 <= k * h ^ 2) by (apply Rmult_le_pos; auto; apply pow2_ge_0). lra. }
    apply (Rle_trans _ (h * (k * h ^ 2 / 3 / (1 - k * h ^ 2 / 2)) * (f1 z * (1 - k * h ^ 2 / 2)))).
    + apply Req_le. field. lra.
    + apply Rmult_le_compat_l; auto.
Qed.
End Half.

(** The same without a sign, to the right and to the left of the zero. *)
Lemma no_zero_sign (f : R -> R) z x : z < x -> (forall t, continuous f t) -> (forall t, z < t <= x -> f t <> 0) ->
  (forall t, z < t <= x -> 0 < f t) \/ (forall t, z < t <= x -> f t < 0).
Proof.
  intros H C N. pose proof (N x ltac:(lra)) as Nx.
  assert (Z : forall t, z < t <= x -> f t * f x < 0 -> False).
  { intros t Ht S0. destruct (Req_dec t x) as [->|Ne]; [pose proof (Rle_0_sqr (f x)) as Q; unfold Rsqr in Q; lra|].
    destruct (ivt f t x C ltac:(lra) S0) as (c & Hc & Ec). apply (N c); [lra|exact Ec]. }
  destruct (Rtotal_order (f x) 0) as [L|[L|L]]; [right|contradiction|left]; intros t Ht; specialize (N t Ht); specialize (Z t Ht);
    destruct (Rtotal_order (f t) 0) as [M|[M|M]]; try contradiction; auto; exfalso; apply Z.
  - assert (0 < f t * - f x) by (apply Rmult_lt_0_compat; lra). lra.
  - assert (0 < - f t * f x) by (apply Rmult_lt_0_compat; lra). lra.
Qed.
(** what a step gives: [h] the old distance, [h'] the new one *)
Definition shrink (k h h' : R) : Prop := 0 <= h' <= h * (k * h ^ 2 / 3 / (1 - k * h ^ 2 / 2)).
Lemma newton_right (f f1 K : R -> R) z x k : z < x -> (forall t, continuous f t) ->
  (forall t, z <= t <= x -> is_derive f t (f1 t)) -> (forall t, z <= t <= x -> is_derive f1 t (- (K t * f t))) ->
  (forall t, z <= t <= x -> 0 <= K t <= k) -> f z = 0 -> (forall t, z < t <= x -> f t <> 0) -> k * (x - z) ^ 2 < 2 ->
  f1 x <> 0 /\ shrink k (x - z) (z - (x - f x / f1 x)) /\ Rabs (f1 z) * (1 - k * (x - z) ^ 2 / 2) <= Rabs (f1 x) <= Rabs (f1 z) /\ 0 < f1 x * f1 z.
Proof.
  intros Hzx C D0 D1 HK Hz Nz Hk. destruct (no_zero_sign f z x Hzx C Nz) as [P|P].
  - destruct (newton_half f f1 K z x k Hzx D0 D1 HK Hz P Hk) as (A & B & G & L). pose proof (half_slope f f1 K z x k Hzx D0 D1 HK Hz P) as Sl.
    assert (P1 : 0 < f1 x) by (assert (0 < f1 z * (1 - k * (x - z) ^ 2 / 2)) by (apply Rmult_lt_0_compat; lra); lra).
    split; [exact A|]. split; [split; lra|]. rewrite !Rabs_pos_eq by lra. split; [exact L|]. apply Rmult_lt_0_compat; auto.
  - assert (E0 : forall t, z <= t <= x -> is_derive (fun u => - f u) t (- f1 t)) by (intros; apply d_opp, D0; auto).
    assert (E1 : forall t, z <= t <= x -> is_derive (fun u => - f1 u) t (- (K t * - f t))) by (intros; eapply is_derive_eq; [apply d_opp, D1; auto|ring]).
    assert (Q : forall t, z < t <= x -> 0 < - f t) by (intros t Ht; specialize (P t Ht); lra).
    destruct (newton_half (fun u => - f u) (fun u => - f1 u) K z x k Hzx E0 E1 HK ltac:(lra) Q Hk) as (A & B & G & L).
    pose proof (half_slope (fun u => - f u) (fun u => - f1 u) K z x k Hzx E0 E1 HK ltac:(lra) Q) as Sl. cbv beta in *.
    assert (P1 : 0 < - f1 x) by (assert (0 < - f1 z * (1 - k * (x - z) ^ 2 / 2)) by (apply Rmult_lt_0_compat; lra); lra).
    assert (Eq : - f x / - f1 x = f x / f1 x) by (field; lra). rewrite Eq in *.
    split; [lra|]. split; [split; lra|]. rewrite <- (Rabs_Ropp (f1 x)), <- (Rabs_Ropp (f1 z)), !Rabs_pos_eq by lra. split; [exact L|].
    replace (f1 x * f1 z) with (- f1 x * - f1 z) by ring. apply Rmult_lt_0_compat; auto.
Qed.
Lemma newton_left (f f1 K : R -> R) z x k : x < z -> (forall t, continuous f t) ->
  (forall t, x <= t <= z -> is_derive f t (f1 t)) -> (forall t, x <= t <= z -> is_derive f1 t (- (K t * f t))) ->
  (forall t, x <= t <= z -> 0 <= K t <= k) -> f z = 0 -> (forall t, x <= t < z -> f t <> 0) -> k * (z - x) ^ 2 < 2 ->
  f1 x <> 0 /\ shrink k (z - x) ((x - f x / f1 x) - z) /\ Rabs (f1 z) * (1 - k * (z - x) ^ 2 / 2) <= Rabs (f1 x) <= Rabs (f1 z) /\ 0 < f1 x * f1 z.
Proof.
  intros Hzx C D0 D1 HK Hz Nz Hk.
  destruct (newton_right (fun t => f (- t)) (fun t => - f1 (- t)) (fun t => K (- t)) (- z) (- x) k) as (A & B & G & Sg); try lra.
  - intros t. apply (c_comp f (fun t => - t)); [apply (derive_continuous _ _ (- 1)), d_opp, d_id|apply C].
  - intros t Ht. eapply is_derive_eq; [apply (d_comp f (fun y => - y)); [apply D0; lra|apply d_opp, d_id]|ring].
  - intros t Ht. eapply is_derive_eq; [apply d_opp, (d_comp f1 (fun y => - y)); [apply D1; lra|apply d_opp, d_id]|ring].
  - intros t Ht. apply HK. lra.
  - rewrite Ropp_involutive. exact Hz.
  - intros t Ht. apply Nz. lra.
  - cbv beta in *. rewrite !Ropp_involutive in *. replace (- x - - z) with (z - x) in * by ring.
    assert (N0 : f1 x <> 0) by lra. split; [exact N0|].
    replace (- z - (- x - f x / - f1 x)) with (x - f x / f1 x - z) in B by (field; lra). split; [exact B|].
    rewrite !Rabs_Ropp in G. split; [exact G|]. lra.
Qed.
