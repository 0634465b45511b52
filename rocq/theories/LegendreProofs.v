(** Proofs about the Legendre model. *)
From Coquelicot Require Import Coquelicot.
From Coq Require Import Reals Lra Lia Arith List ZArith.
From Verif Require Import Num Outcome LinAlg RSum RMat RDeriv LegendreModel LegendreSpec LegendreMath.
Import ListNotations.

(** ** Loops, for any arithmetic *)
Section Generic.
Context {T : Type} `{Num T}.
Local Open Scope num_scope.

Fixpoint gleg2 (s : T) (n : nat) : T * T :=
  match n with
  | O => (n1, s)
  | S m => let '(a, b) := gleg2 s m in
     (b, n1 / (nofnat (S m) + n1) * ((c2 * nofnat (S m) + n1) * s * b - nofnat (S m) * a))
  end.
Definition gleg s n := fst (gleg2 s n).
Lemma gleg2_snd s n : snd (gleg2 s n) = gleg s (S n).
Proof. unfold gleg. simpl. destruct (gleg2 s n). reflexivity. Qed.
Lemma gleg_SS s m : gleg s (S (S m)) =
  n1 / (nofnat (S m) + n1) * ((c2 * nofnat (S m) + n1) * s * gleg s (S m) - nofnat (S m) * gleg s m).
Proof.
  rewrite <- (gleg2_snd s (S m)), <- (gleg2_snd s m). unfold gleg. simpl. destruct (gleg2 s m). reflexivity.
Qed.

Lemma leg_loop dm1 s (b : vec T) : (1 <= dm1)%nat -> vlen b = S dm1 ->
  vget b 0 = Some n1 -> vget b 1 = Some s ->
  exists b', for_ 1 dm1 (leg_step s) b = Ok b' /\ vec_is b' (S dm1) (gleg s).
Proof.
  intros Hd L G0 G1.
  destruct (for_ok (fun i (v : vec T) => vlen v = S dm1 /\ forall j, (j <= i)%nat -> vget v j = Some (gleg s j))
     (leg_step s) 1 dm1 b) as (b' & E & L' & G'); auto.
  - split; auto. intros j Hj. destruct j as [|[|]]; [exact G0|exact G1|lia].
  - intros i v Hi [Lv Gv]. unfold leg_step.
    rewrite (vread_get v i (gleg s i)) by (rewrite ?Lv; try lia; apply Gv; lia). simpl.
    rewrite (vread_get v (i - 1) (gleg s (i - 1))) by (rewrite ?Lv; try lia; apply Gv; lia). simpl.
    rewrite vwrite_lt by lia. eexists. split; [reflexivity|]. split; [exact Lv|].
    intros j Hj. simpl. destruct (Nat.eqb_spec j (i + 1)) as [->|Hne].
    + destruct i as [|i]; [lia|]. replace (S i + 1)%nat with (S (S i)) by lia.
      replace (S i - 1)%nat with i by lia. rewrite gleg_SS. reflexivity.
    + apply Gv. lia.
  - exists b'. split; auto. split; auto. intros i Hi. apply G'. lia.
Qed.

Lemma leg_eval_gen dim s (b : vec T) : (2 <= dim)%nat -> vlen b = dim ->
  exists b', leg_eval dim s b = Ok b' /\ vec_is b' dim (gleg s).
Proof.
  intros Hd L. unfold leg_eval, vsetzero.
  rewrite vwrite_lt by (simpl; lia). cbn [bind]. rewrite vwrite_lt by (simpl; lia). cbn [bind].
  destruct dim as [|dm1]; [lia|]. simpl usub1. cbv iota.
  apply leg_loop; [lia|simpl; auto|reflexivity|reflexivity].
Qed.

(** derivative values *)
Fixpoint gaux (e : nat) : T :=
  match e with
  | O => n1
  | S e' => (c2 * nofnat e + n1) / (nofnat e + n1) * (nofnat e + n1) * gaux e'
  end.
Fixpoint gmult (tau : T) (d : nat) : T :=
  match d with O => n1 | S e => gmult tau e * (c2 / tau) end.
(** (entry d+m-1, entry d+m) *)
Fixpoint gnext (s : T) (prev : nat -> T) (d : nat) (aux : T) (m : nat) : T * T :=
  match m with
  | O => (n0, aux)
  | S p => let '(a, b) := gnext s prev d aux p in
     let i := (d + p)%nat in
     (b, n1 / (nofnat i + n1) * ((c2 * nofnat i + n1) * (nofnat d * prev i + s * b) - nofnat i * a))
  end.
Fixpoint gld (s : T) (d : nat) : nat -> T :=
  match d with
  | O => gleg s
  | S e => fun j => if Nat.ltb j e then n0 else fst (gnext s (gld s e) (S e) (gaux e) (j - e))
  end.
Lemma gnext_snd s prev d aux m : snd (gnext s prev d aux m) = fst (gnext s prev d aux (S m)).
Proof. simpl. destruct (gnext s prev d aux m). reflexivity. Qed.
Lemma gld_low s e j : (j < S e)%nat -> gld s (S e) j = n0.
Proof.
  intros Hj. cbn [gld]. destruct (Nat.ltb_spec j e); auto. replace (j - e)%nat with 0%nat by lia. reflexivity.
Qed.
Lemma gld_diag s e : gld s (S e) (S e) = gaux e.
Proof.
  cbn [gld]. destruct (Nat.ltb_spec (S e) e); [lia|]. replace (S e - e)%nat with 1%nat by lia. reflexivity.
Qed.
Lemma gld_rec s e i : (S e <= i)%nat -> gld s (S e) (S i) =
  n1 / (nofnat i + n1) * ((c2 * nofnat i + n1) * (nofnat (S e) * gld s e i + s * gld s (S e) i)
                            - nofnat i * gld s (S e) (i - 1)).
Proof.
  intros Hi. cbn [gld]. destruct (Nat.ltb_spec (S i) e); [lia|]. destruct (Nat.ltb_spec i e); [lia|].
  destruct (Nat.ltb_spec (i - 1) e); [lia|].
  replace (S i - e)%nat with (S (S (i - S e))) by lia. replace (i - e)%nat with (S (i - S e)) by lia.
  replace (i - 1 - e)%nat with (i - S e)%nat by lia.
  rewrite <- (gnext_snd _ _ _ _ (S (i - S e))), <- (gnext_snd _ _ _ _ (i - S e)). cbn [gnext].
  destruct (gnext s (gld s e) (S e) (gaux e) (i - S e)). simpl.
  replace (S (e + (i - S e)))%nat with i by lia. reflexivity.
Qed.

Definition dinv (dim : nat) (s tau : T) (d : nat) (st : T * T * vec T * vec T) : Prop :=
  let '(aux, mult, buff, next) := st in
  aux = gaux (d - 1) /\ mult = gmult tau (d - 1) /\ vec_is buff dim (gld s (d - 1)) /\
  vlen next = dim /\ (forall j, (j < d - 1)%nat -> (j < dim)%nat -> vget next j = Some n0).

Lemma legd_outer_ok dm1 s tau d st : (1 <= d <= dm1)%nat -> dinv (S dm1) s tau d st ->
  exists st', legd_outer dm1 s tau d st = Ok st' /\ dinv (S dm1) s tau (S d) st'.
Proof.
  intros Hd. destruct st as [[[aux mult] buff] next]. simpl. intros (Ha & Hm & Hb & Ln & Zn).
  rewrite vwrite_lt by lia. cbn [bind]. rewrite vwrite_lt by (simpl; lia). cbn [bind].
  destruct d as [|e]; [lia|]. replace (S e - 1)%nat with e in * by lia.
  match goal with |- context [for_ (S e) dm1 ?f ?v] =>
    destruct (for_ok (fun i (w : vec T) => vlen w = S dm1 /\ forall j, (j <= i)%nat -> vget w j = Some (gld s (S e) j)) f (S e) dm1 v)
      as (nx & E & L' & G') end.
  - lia.
  - split; [exact Ln|]. intros j Hj. cbn [vget]. destruct (Nat.eqb_spec j (S e)) as [->|Hne].
    + rewrite Ha, (gld_diag s e). reflexivity.
    + rewrite (gld_low s e j) by lia. destruct (Nat.eqb_spec j e) as [->|Hne2]; [reflexivity|].
      apply Zn; lia.
  - intros i v Hi [Lv Gv]. unfold legd_step.
    rewrite (vread_ok buff (S dm1) (gld s e)) by (auto; lia). cbn [bind].
    rewrite (vread_get v i (gld s (S e) i)) by (rewrite ?Lv; try lia; apply Gv; lia). cbn [bind].
    rewrite (vread_get v (i - 1) (gld s (S e) (i - 1))) by (rewrite ?Lv; try lia; apply Gv; lia). cbn [bind].
    rewrite vwrite_lt by lia. eexists. split; [reflexivity|]. split; [exact Lv|].
    intros j Hj. simpl vget. destruct (Nat.eqb_spec j (i + 1)) as [->|Hne].
    + replace (i + 1)%nat with (S i) by lia. rewrite gld_rec by lia. reflexivity.
    + apply Gv. lia.
  - rewrite E. cbn [bind]. unfold vassign. destruct Hb as [Lb Gb]. rewrite Lb, L', Nat.eqb_refl. cbn [bind].
    eexists. split; [reflexivity|]. unfold dinv. replace (S (S e) - 1)%nat with (S e) by lia.
    split; [rewrite Ha; reflexivity|]. split; [rewrite Hm; reflexivity|].
    split; [split; auto; intros; apply G'; lia|]. split; auto.
    intros j Hj Hj2. rewrite G' by lia. f_equal. apply gld_low. lia.
Qed.

Lemma leg_eval_deriv_loop dm1 s tau deg (b : vec T) : (1 <= dm1)%nat -> (deg <= dm1)%nat -> vec_is b (S dm1) (gleg s) ->
  exists st, for_ 1 (S deg) (legd_outer dm1 s tau) (n1, n1, b, vconst (S dm1) n0) = Ok st
   /\ dinv (S dm1) s tau (S deg) st.
Proof.
  intros Hd Hk Hb.
  apply (for_ok (dinv (S dm1) s tau)).
  - lia.
  - unfold dinv. simpl. split; [reflexivity|]. split; [reflexivity|]. split; [exact Hb|].
    split; [reflexivity|]. intros; lia.
  - intros d st Hi HI. apply legd_outer_ok; auto. lia.
Qed.

Lemma leg_eval_deriv_gen dim s tau deg (b : vec T) : (2 <= dim)%nat -> (deg < dim)%nat -> vlen b = dim ->
  exists b', leg_eval_deriv dim s tau deg b = Ok b' /\ vec_is b' dim (fun i => gld s deg i * gmult tau deg).
Proof.
  intros Hd Hk L. unfold leg_eval_deriv, vsetzero.
  rewrite vwrite_lt by (simpl; lia). cbn [bind]. rewrite vwrite_lt by (simpl; lia). cbn [bind].
  destruct dim as [|dm1]; [lia|]. cbv iota beta delta [usub1].
  match goal with |- context [for_ 1 dm1 ?f ?v] => destruct (leg_loop dm1 s v) as (b1 & E1 & V1) end;
   [lia|simpl; auto|reflexivity|reflexivity|].
  rewrite E1. cbn [bind].
  destruct (leg_eval_deriv_loop dm1 s tau deg b1) as (st & E2 & I2); [lia|lia|auto|].
  rewrite E2. cbn [bind]. destruct st as [[[aux mult] buff] next]. destruct I2 as (_ & Hm & Hb & _).
  replace (S deg - 1)%nat with deg in * by lia. subst mult.
  eexists. split; [reflexivity|]. apply vscale_is. exact Hb.
Qed.

Lemma for_split {S'} lo mid hi body (st : S') : (lo <= mid <= hi)%nat ->
  for_ lo hi body st = bind (for_ lo mid body st) (for_ mid hi body).
Proof.
  intros. unfold for_. replace (hi - lo)%nat with ((mid - lo) + (hi - mid))%nat by lia.
  rewrite for_n_app. replace (lo + (mid - lo))%nat with mid by lia. reflexivity.
Qed.

Lemma leg_eval_deriv_oob dim s tau deg (b : vec T) : (2 <= dim)%nat -> (dim <= deg)%nat -> vlen b = dim ->
  leg_eval_deriv dim s tau deg b = UB.
Proof.
  intros Hd Hk L. unfold leg_eval_deriv, vsetzero.
  rewrite vwrite_lt by (simpl; lia). cbn [bind]. rewrite vwrite_lt by (simpl; lia). cbn [bind].
  destruct dim as [|dm1]; [lia|]. cbv iota beta delta [usub1].
  match goal with |- context [for_ 1 dm1 ?f ?v] => destruct (leg_loop dm1 s v) as (b1 & E1 & V1) end;
   [lia|simpl; auto|reflexivity|reflexivity|].
  rewrite E1. cbn [bind].
  destruct (leg_eval_deriv_loop dm1 s tau dm1 b1) as (st & E2 & I2); [lia|lia|auto|].
  rewrite (for_split 1 (S dm1)) by lia. rewrite E2. cbn [bind].
  unfold for_. replace (S deg - S dm1)%nat with (S (deg - S dm1)) by lia. cbn [for_n].
  destruct st as [[[aux mult] buff] next]. destruct I2 as (_ & _ & _ & Ln & _). unfold legd_outer.
  rewrite vwrite_lt by lia. cbn [bind]. rewrite vwrite_oob by (simpl; lia). reflexivity.
Qed.

Lemma leg_eval_small dim s (b : vec T) : (dim < 2)%nat -> vlen b = dim -> leg_eval dim s b = UB.
Proof.
  intros Hd L. unfold leg_eval, vsetzero. destruct dim as [|[|]]; [| |lia].
  - rewrite vwrite_oob by (simpl; lia). reflexivity.
  - rewrite vwrite_lt by (simpl; lia). cbn [bind]. rewrite vwrite_oob by (simpl; lia). reflexivity.
Qed.
Lemma leg_eval_deriv_small dim s tau deg (b : vec T) : (dim < 2)%nat -> vlen b = dim ->
  leg_eval_deriv dim s tau deg b = UB.
Proof.
  intros Hd L. unfold leg_eval_deriv, vsetzero. destruct dim as [|[|]]; [| |lia].
  - rewrite vwrite_oob by (simpl; lia). reflexivity.
  - rewrite vwrite_lt by (simpl; lia). cbn [bind]. rewrite vwrite_oob by (simpl; lia). reflexivity.
Qed.
End Generic.

(** ** Values at R *)
Local Open Scope R_scope.
Lemma gleg_legP s n : gleg s n = legP n s.
Proof.
  induction n as [| |m IH0 IH1] using two_ind; [reflexivity|reflexivity|].
  rewrite gleg_SS, IH0, IH1, legP_SS, !nofnat_INR, S_INR. unfold c2. simpl.
  field. apply INR_pos2.
Qed.
Lemma gaux_dfact e : gaux e = dfact (S e).
Proof.
  induction e; [simpl; ring|]. cbn [gaux]. rewrite IHe, !nofnat_INR. change (dfact (S (S e))) with ((2 * INR (S e) + 1) * dfact (S e)).
  unfold c2; rnum. field. apply INR_pos1.
Qed.
Lemma gmult_pow tau d : gmult tau d = (2 / tau) ^ d.
Proof. induction d; simpl; [reflexivity|]. rewrite IHd. unfold c2; simpl. ring. Qed.
Lemma gld_LD s d : forall n, gld s d n = LD d n s.
Proof.
  induction d as [|e IHe]; intros n.
  - apply gleg_legP.
  - destruct (Nat.lt_trichotomy n (S e)) as [Hn|[->|Hn]].
    + rewrite gld_low, LD_low by lia. reflexivity.
    + rewrite gld_diag, LD_diag, gaux_dfact. reflexivity.
    + assert (K : forall m, gld s (S e) (S e + m) = LD (S e) (S e + m) s /\ gld s (S e) (S e + m - 1) = LD (S e) (S e + m - 1) s).
      { induction m as [|m [K1 K2]].
        - rewrite Nat.add_0_r. rewrite gld_diag, LD_diag, gaux_dfact. split; auto.
          rewrite gld_low, LD_low by lia. reflexivity.
        - replace (S e + S m)%nat with (S (S e + m)) by lia. replace (S (S e + m) - 1)%nat with (S e + m)%nat by lia.
          split; auto. rewrite gld_rec by lia. rewrite K1, K2, IHe.
          replace (S e + m)%nat with (S (e + m)) by lia. rewrite LD_rec, !nofnat_INR. unfold c2; rnum.
          replace (S (e + m) - 1)%nat with (e + m)%nat by lia. rewrite !S_INR.
          field. apply INR_pos2. }
      destruct (K (n - S e)%nat) as [K1 _]. replace (S e + (n - S e))%nat with n in K1 by lia. exact K1.
Qed.

Lemma leg_eval_R dim s b : (2 <= dim)%nat -> vlen b = dim ->
  exists b', leg_eval dim s b = Ok b' /\ vec_is b' dim (fun i => legP i s).
Proof.
  intros Hd L. destruct (leg_eval_gen dim s b Hd L) as (b' & E & V). exists b'. split; auto.
  eapply vec_is_ext; [exact V|]. intros. apply gleg_legP.
Qed.
Lemma leg_eval_deriv_R dim s tau deg b : (2 <= dim)%nat -> (deg < dim)%nat -> vlen b = dim ->
  exists b', leg_eval_deriv dim s tau deg b = Ok b' /\ vec_is b' dim (fun i => (2 / tau) ^ deg * LD deg i s).
Proof.
  intros Hd Hk L. destruct (leg_eval_deriv_gen dim s tau deg b Hd Hk L) as (b' & E & V). exists b'. split; auto.
  eapply vec_is_ext; [exact V|]. intros; cbv beta; rewrite gld_LD, gmult_pow. apply Rmult_comm.
Qed.
Lemma leg_eval_deriv_tau_R dim s tau deg b : (2 <= dim)%nat -> (deg < dim)%nat -> vlen b = dim ->
  exists b', leg_eval_deriv_tau dim s tau deg b = Ok b' /\
    vec_is b' dim (fun i => (2 / tau) ^ deg * LD deg i s * (- (1 / 2) * INR deg * (2 / tau))).
Proof.
  intros Hd Hk L. destruct (leg_eval_deriv_R dim s tau deg b Hd Hk L) as (b' & E & V).
  unfold leg_eval_deriv_tau. rewrite E. cbn [bind]. eexists. split; [reflexivity|].
  eapply vec_is_ext; [apply vscale_is; exact V|]. intros i Hi. unfold nhalf, c2; rnum.
  rewrite nofnat_INR. reflexivity.
Qed.

(** time derivative of the basis function on an interval *)
Lemma window_derive t0 tau t : is_derive (window t0 tau) t (2 / tau).
Proof.
  unfold window. eapply is_derive_eq.
  - apply d_minus; [|apply d_const]. apply d_divc, d_scal, d_minus; [apply d_id|apply d_const].
  - unfold Rdiv. ring.
Qed.
Lemma legP_time_derive k i t0 tau t :
  is_derive_n (fun u => legP i (window t0 tau u)) k t ((2 / tau) ^ k * LD k i (window t0 tau t)).
Proof.
  assert (H := is_derive_n_chain (fun j u => (2 / tau) ^ j * LD j i (window t0 tau u)) k t).
  cbv beta in H.
  assert (E : forall f g : R -> R, (forall u, f u = g u) -> forall l, is_derive_n f k t l -> is_derive_n g k t l).
  { intros f g Efg l. apply is_derive_n_ext. auto. }
  eapply E; [|apply H].
  - intros u. simpl. ring.
  - intros j y. eapply is_derive_eq.
    + apply d_scal. apply (d_comp (LD j i) (window t0 tau)); [apply LD_derive|apply window_derive].
    + simpl; ring.
Qed.
Lemma leg_tau_derive k s i tau : tau <> 0 ->
  is_derive (fun th => (2 / th) ^ k * LD k i s) tau ((2 / tau) ^ k * LD k i s * (- (1 / 2) * INR k * (2 / tau))).
Proof.
  intros Ht. eapply is_derive_eq.
  - apply d_scalr. apply (d_pow (fun th => 2 / th)). unfold Rdiv. apply d_scal. apply (d_inv (fun y => y)); [apply d_id|auto].
  - destruct k; [simpl; ring|]. simpl pred. simpl pow. field. auto.
Qed.

(** ** Differentiation matrix *)
Lemma leg_alpha_R i : @leg_alpha R Rnum i = (INR i + 1) / (2 * INR i + 1).
Proof. unfold leg_alpha, c2. simpl. now rewrite nofnat_INR. Qed.
Lemma leg_gamma_R i : @leg_gamma R Rnum i = INR i / (2 * INR i + 1).
Proof. unfold leg_gamma, c2. simpl. now rewrite nofnat_INR. Qed.

Lemma Dent_hi i j : (i <= j)%nat -> Dent i j = 0.
Proof. intros. unfold Dent, lodd. destruct (Nat.ltb_spec j i); [lia|reflexivity]. Qed.
Lemma Dent_diff i j p : i = (j + p)%nat -> Dent i j = if Nat.odd p then 2 * INR j + 1 else 0.
Proof.
  intros ->. unfold Dent, lodd. replace (j + p - j)%nat with p by lia.
  destruct (Nat.ltb_spec j (j + p)); [reflexivity|]. replace p with 0%nat by lia. reflexivity.
Qed.

Lemma Dent_rec p j :
  1 / leg_alpha (j + p + 1) *
   (0 + (if Nat.leb 1 j then leg_alpha (j - 1) * Dent (j + p + 1) (j - 1) else 0)
      + leg_gamma (j + 1) * Dent (j + p + 1) (j + 1) - leg_gamma (j + p + 1) * Dent (j + p) j)
  = Dent (j + p + 2) j.
Proof.
  rewrite (Dent_diff (j + p + 2) j (S (S p))) by lia.
  rewrite (Dent_diff (j + p + 1) (j + 1) p) by lia.
  rewrite (Dent_diff (j + p) j p) by lia. rewrite Nat.odd_succ_succ.
  assert (E2 : (if Nat.leb 1 j then leg_alpha (j - 1) * Dent (j + p + 1) (j - 1) else 0)
     = if Nat.odd p then INR j else 0).
  { destruct j as [|j]; [simpl; destruct (Nat.odd p); reflexivity|].
    simpl Nat.leb. cbv iota. replace (S j - 1)%nat with j by lia.
    rewrite (Dent_diff (S j + p + 1) j (S (S p))) by lia. rewrite Nat.odd_succ_succ, leg_alpha_R.
    destruct (Nat.odd p); [|ring]. rewrite S_INR. field. apply INR_odd. }
  rewrite E2, leg_alpha_R, !leg_gamma_R. destruct (Nat.odd p).
  - rewrite !plus_INR. simpl (INR 1). pose proof (pos_INR j). pose proof (pos_INR p). field. repeat split; lra.
  - ring.
Qed.

Lemma mat_is_write (m : mat R) r c f g i j x : mat_is m r c f -> (i < r)%nat -> (j < c)%nat ->
  (forall a b, (a < r)%nat -> (b < c)%nat -> g a b = if (Nat.eqb a i && Nat.eqb b j)%bool then x else f a b) ->
  exists m', mwrite m i j x = Ok m' /\ mat_is m' r c g.
Proof.
  intros (R & C & G) Hi Hj E. rewrite mwrite_lt by lia. eexists. split; [reflexivity|].
  split; [exact R|]. split; [exact C|]. intros a b Ha Hb. simpl. rewrite E by auto.
  destruct (Nat.eqb a i && Nat.eqb b j)%bool; auto.
Qed.

Lemma leg_dmat_R dim : exists m, leg_dmat dim = Ok m /\ mat_is m dim dim Dent.
Proof.
  unfold leg_dmat. destruct dim as [|dm1].
  { eexists. split; [reflexivity|]. repeat split; auto. intros; lia. }
  destruct (for_ok (fun i (m : mat R) => mat_is m (S dm1) (S dm1) (fun a b => if Nat.ltb a i then Dent a b else 0))
     (fun i m => for_ 0 (S dm1 - 1) (fun j m => leg_dmat_cell i j m) m) 1 (S dm1) (mzero (S dm1) (S dm1)))
    as (m & E & M).
  - lia.
  - eapply mat_is_ext; [apply mzero_is|]. intros a b _ _. cbv beta. destruct (Nat.ltb_spec a 1); auto.
    rewrite Dent_hi by lia. reflexivity.
  - intros i m Hi M.
    destruct (for_ok (fun j (m : mat R) => mat_is m (S dm1) (S dm1)
        (fun a b => if Nat.ltb a i then Dent a b else if (Nat.eqb a i && Nat.ltb b j)%bool then Dent a b else 0))
      (fun j m => leg_dmat_cell i j m) 0 (S dm1 - 1) m) as (m' & E' & M').
    + lia.
    + eapply mat_is_ext; [exact M|]. intros a b _ _. simpl. destruct (Nat.ltb a i); auto.
      destruct (Nat.eqb a i); auto.
    + clear m M. intros j m Hj M. unfold leg_dmat_cell.
      assert (W : forall x, x = Dent i j -> exists s', mwrite m i j x = Ok s' /\
         mat_is s' (S dm1) (S dm1) (fun a b => if Nat.ltb a i then Dent a b else if (Nat.eqb a i && Nat.ltb b (S j))%bool then Dent a b else 0)).
      { intros x Hx. eapply mat_is_write; [exact M|lia|lia|]. intros a b Ha Hb. subst x.
        destruct (Nat.eqb_spec a i) as [->|Hne]; simpl.
        - destruct (Nat.ltb_spec i i); [lia|]. destruct (Nat.eqb_spec b j) as [->|Hnb].
          + destruct (Nat.ltb_spec j (S j)); [reflexivity|lia].
          + destruct (Nat.ltb_spec b (S j)); destruct (Nat.ltb_spec b j); try lia; reflexivity.
        - reflexivity. }
      destruct (Nat.eqb_spec i (j + 1)) as [Hij|Hij].
      * apply W. rewrite nofnat_INR, leg_alpha_R. rewrite (Dent_diff i j 1) by lia. subst i.
        replace (j + 1 - 1)%nat with j by lia. rewrite plus_INR. simpl. field.
        split; [apply INR_odd|apply INR_pos1].
      * destruct (Nat.ltb_spec (j + 1) i) as [Hlt|Hge].
        -- assert (Hp : exists p, i = (j + p + 2)%nat) by (exists (i - j - 2)%nat; lia). destruct Hp as [p ->].
           replace (j + p + 2 - 1)%nat with (j + p + 1)%nat by lia.
           replace (j + p + 2 - 2)%nat with (j + p)%nat by lia.
           assert (RD : forall a b, (a < j + p + 2)%nat -> (b <= dm1)%nat -> mread m a b = Ok (Dent a b)).
           { intros a b Ha Hb. rewrite (mread_ok _ _ _ _ a b M) by lia. cbv beta.
             destruct (Nat.ltb_spec a (j + p + 2)); [reflexivity|lia]. }
           rewrite (RD (j + p + 1)%nat (j + 1)%nat) by lia. rewrite (RD (j + p)%nat j) by lia.
           assert (B : (if Nat.leb 1 j then bind (mread m (j + p + 1) (j - 1)) (fun x => Ok (nmul (leg_alpha (j - 1)) x)) else Ok n0)
              = Ok (if Nat.leb 1 j then leg_alpha (j - 1) * Dent (j + p + 1) (j - 1) else 0)).
           { destruct (Nat.leb_spec 1 j); [|reflexivity]. rewrite RD by lia. reflexivity. }
           rewrite B. cbn [bind].
           replace (Nat.leb 1 (j + p + 2)) with true by (symmetry; apply Nat.leb_le; lia).
           replace (Nat.leb 2 (j + p + 2)) with true by (symmetry; apply Nat.leb_le; lia).
           cbn [bind]. apply W. rewrite <- Dent_rec. reflexivity.
        -- apply W. rewrite Dent_hi by lia. reflexivity.
    + exists m'. split; [exact E'|]. eapply mat_is_ext; [exact M'|]. intros a b Ha Hb. simpl.
      destruct (Nat.ltb_spec a i); destruct (Nat.ltb_spec a (S i)); try lia; auto.
      * assert (a = i) by lia. subst a. rewrite Nat.eqb_refl. simpl.
        destruct (Nat.ltb_spec b (dm1 - 0)); auto. rewrite Dent_hi by lia. reflexivity.
      * destruct (Nat.eqb_spec a i); [lia|reflexivity].
  - exists m. split; [exact E|]. eapply mat_is_ext; [exact M|]. intros a b Ha Hb. cbv beta.
    destruct (Nat.ltb_spec a (S dm1)); [reflexivity|lia].
Qed.

Lemma mmul_isR (a b : mat R) n f g : mat_is a n n f -> mat_is b n n g ->
  exists m, mmul a b = Ok m /\ mat_is m n n (mprod n f g).
Proof.
  intros A B. destruct (mmul_is a b n n n f g A B) as (m & E & M). exists m. split; [exact E|].
  eapply mat_is_ext; [exact M|]. intros. simpl. rewrite nsum_R. reflexivity.
Qed.

Definition legT : fmat := mT Dent.
Lemma leg_impl_R dim k : exists m, leg_derivative_matrix_impl dim k = Ok m /\ mat_is m dim dim (mpow dim legT k).
Proof.
  destruct k as [|k].
  - eexists. split; [reflexivity|]. exact (mident_is dim).
  - destruct (leg_dmat_R dim) as (m0 & E0 & M0). unfold leg_derivative_matrix_impl. rewrite E0. cbn [bind].
    pose proof (mtrans_is _ _ _ _ M0) as MT.
    destruct (for_ok (fun i (m : mat R) => mat_is m dim dim (mpow dim legT (i - 1)))
      (fun _ r => mmul r (mtrans m0)) 2 (S (S k)) (mtrans m0)) as (m & E & M).
    + lia.
    + eapply mat_is_ext; [exact MT|]. intros i j Hi Hj. replace (2 - 1)%nat with 1%nat by lia.
      rewrite mpow_1 by auto. reflexivity.
    + intros i r Hi Mr. destruct (mmul_isR _ _ _ _ _ Mr MT) as (m' & E' & M'). exists m'. split; auto.
      destruct i as [|i]; [lia|]. replace (S (S i) - 1)%nat with (S i) by lia.
      replace (S i - 1)%nat with i in M' by lia. exact M'.
    + exists m. split; [exact E|]. replace (S (S k) - 1)%nat with (S k) in M by lia. exact M.
Qed.

Lemma leg_series_derive dim c x : is_derive (leg_series dim c) x (leg_series dim (mvec dim legT c) x).
Proof.
  unfold leg_series. eapply is_derive_eq.
  - apply (is_derive_Rsum dim (fun i y => c i * legP i y) (fun i => c i * LD 1 i x)).
    intros i Hi. apply d_scal, legP_derive.
  - transitivity (Rsum dim (fun i => Rsum dim (fun j => c i * (Dent i j * legP j x)))).
    + apply Rsum_ext. intros i Hi. rewrite (LD1_series i dim) by lia. symmetry. apply Rsum_scal.
    + rewrite Rsum_swap. apply Rsum_ext. intros j Hj. unfold mvec, legT, mT. rewrite <- Rsum_scal_r.
      apply Rsum_ext. intros; ring.
Qed.
Lemma leg_series_derive_n dim c k x :
  is_derive_n (leg_series dim c) k x (leg_series dim (mvec dim (mpow dim legT k) c) x).
Proof.
  eapply is_derive_n_ext; [|apply (is_derive_n_chain (fun j => leg_series dim (mvec dim (mpow dim legT j) c)))].
  - intros t. simpl. unfold leg_series. apply Rsum_ext. intros i Hi. rewrite mvec_I by auto. reflexivity.
  - intros j y. eapply is_derive_eq; [apply leg_series_derive|]. unfold leg_series. apply Rsum_ext. intros i Hi.
    apply (f_equal (fun v => v * legP i y)). rewrite <- mvec_mprod. apply mvec_ext; auto.
    intros l Hl. symmetry. apply mpow_comm; auto.
Qed.

(** ** Gram matrices *)
Definition legL : fmat := fun i j => if Nat.eqb i j then 2 / (2 * INR i + 1) else 0.
Definition legG (dim k : nat) : fmat :=
  match k with O => legL | _ => mprod dim (mprod dim (mpow dim legT k) legL) (mT (mpow dim legT k)) end.

Lemma leg_l2_R dim : exists m, leg_l2 dim = Ok m /\ mat_is m dim dim legL.
Proof.
  unfold leg_l2.
  destruct (for_ok (fun i (m : mat R) => mat_is m dim dim (fun a b => if Nat.ltb a i then legL a b else 0))
     (fun i (m : mat R) => mwrite m i i (ndiv c2 (nadd (nmul c2 (nofnat i)) n1))) 0 dim (mzero dim dim)) as (m & E & M).
  - lia.
  - exact (mzero_is dim dim).
  - intros i m Hi M. eapply mat_is_write; [exact M|lia|lia|]. intros a b Ha Hb. cbv beta.
    unfold legL, c2. simpl. rewrite nofnat_INR.
    destruct (Nat.eqb_spec a i) as [->|Hne]; simpl.
    + destruct (Nat.ltb_spec i (S i)); [|lia]. destruct (Nat.eqb_spec i b) as [->|Hnb].
      * rewrite Nat.eqb_refl. reflexivity.
      * destruct (Nat.eqb_spec b i); [congruence|]. destruct (Nat.ltb_spec i i); [lia|reflexivity].
    + destruct (Nat.ltb_spec a (S i)); destruct (Nat.ltb_spec a i); try lia; reflexivity.
  - exists m. split; [exact E|]. eapply mat_is_ext; [exact M|]. intros a b Ha Hb. simpl.
    destruct (Nat.ltb_spec a dim); [reflexivity|lia].
Qed.

Lemma leg_ctor_R dim : exists buf, leg_ctor_buffer dim = Ok buf /\ length buf = S dim /\
  forall k, (k <= dim)%nat -> exists b, nth_error buf k = Some b /\ mat_is b dim dim (legG dim k).
Proof.
  unfold leg_ctor_buffer. destruct (leg_dmat_R dim) as (m0 & E0 & M0). rewrite E0. cbn [bind].
  pose proof (mtrans_is _ _ _ _ M0) as MT. destruct (leg_l2_R dim) as (l2 & El & Ml). rewrite El. cbn [bind].
  match goal with |- context [for_ 1 (dim + 1) ?f ?s] =>
  destruct (for_ok (fun i (st : mat R * list (mat R)) => mat_is (fst st) dim dim (mpow dim legT i) /\ length (snd st) = i /\
     forall k, (k < i)%nat -> exists b, nth_error (snd st) k = Some b /\ mat_is b dim dim (legG dim k)) f 1 (dim + 1)%nat s)
    as (st & E & M & L & G) end.
  - lia.
  - simpl. split; [|split; auto].
    + eapply mat_is_ext; [exact MT|]. intros i j Hi Hj. change (legT i j = mpow dim legT 1 i j); rewrite mpow_1 by auto; reflexivity.
    + intros k Hk. replace k with 0%nat by lia. exists l2. split; auto.
  - intros i [d buf] Hi (Md & L & G). cbn [fst snd] in *.
    destruct (mmul_isR _ _ _ _ _ Md Ml) as (a & Ea & Ma). rewrite Ea. cbn [bind].
    destruct (mmul_isR _ _ _ _ _ Ma (mtrans_is _ _ _ _ Md)) as (b & Eb & Mb). rewrite Eb. cbn [bind].
    destruct (mmul_isR _ _ _ _ _ Md MT) as (d' & Ed & Md'). rewrite Ed. cbn [bind].
    eexists. split; [reflexivity|]. cbn [fst snd]. split; [exact Md'|]. split.
    + rewrite app_length. simpl. lia.
    + intros k Hk. destruct (Nat.eq_dec k i) as [->|Hne].
      * exists b. rewrite nth_error_app2 by lia. rewrite L, Nat.sub_diag. split; [reflexivity|].
        destruct i as [|i]; [lia|]. exact Mb.
      * rewrite nth_error_app1 by lia. apply G. lia.
  - rewrite E. cbn [bind]. exists (snd st). split; [reflexivity|]. split; [lia|].
    intros k Hk. apply G. lia.
Qed.

Definition leg_scale (tau : R) (k : nat) : R := match k with O => tau / 2 | S j => (2 / tau) ^ (2 * j + 1) end.
Definition leg_scale_tau (tau : R) (k : nat) : R :=
  match k with O => 1 / 2 | S j => - (1 / 2) * (2 * INR k - 1) * (2 / tau) ^ (2 * k) end.
Definition leg_added (dim k : nat) : fmat := if Nat.leb k dim then legG dim k else fun _ _ => 0.

Lemma leg_add_gram_R dim buf tau k m M : leg_ctor_buffer dim = Ok buf -> mat_is m dim dim M ->
  exists m', leg_add_gram dim buf tau k m = Ok m' /\ mat_is m' dim dim (fun i j => M i j + leg_added dim k i j * leg_scale tau k).
Proof.
  intros Eb Mm. destruct (leg_ctor_R dim) as (buf' & E & L & G). rewrite E in Eb. inversion Eb; subst buf'.
  unfold leg_add_gram, leg_added. replace (dim + 1)%nat with (S dim) by lia.
  destruct (Nat.ltb_spec k (S dim)).
  - destruct (G k ltac:(lia)) as (b & Ek & Mb). rewrite Ek. destruct (Nat.leb_spec k dim); [|lia].
    destruct (madd_scaled_is m b dim dim M (legG dim k) (if Nat.ltb 0 k then npown (ndiv c2 tau) (2 * k - 1) else ndiv tau c2) Mm Mb)
      as (m' & E' & M'). exists m'. split; [exact E'|].
    eapply mat_is_ext; [exact M'|]. intros i j Hi Hj. rnum. f_equal. f_equal. unfold leg_scale.
    destruct k as [|k]; [reflexivity|]. replace (Nat.ltb 0 (S k)) with true by reflexivity.
    rewrite npown_pow. replace (2 * S k - 1)%nat with (2 * k + 1)%nat by lia. reflexivity.
  - exists m. split; [reflexivity|]. destruct (Nat.leb_spec k dim); [lia|].
    eapply mat_is_ext; [exact Mm|]. intros. simpl. ring.
Qed.
Lemma leg_add_gram_tau_R dim buf tau k m M : leg_ctor_buffer dim = Ok buf -> mat_is m dim dim M ->
  exists m', leg_add_gram_tau dim buf tau k m = Ok m' /\ mat_is m' dim dim (fun i j => M i j + leg_added dim k i j * leg_scale_tau tau k).
Proof.
  intros Eb Mm. destruct (leg_ctor_R dim) as (buf' & E & L & G). rewrite E in Eb. inversion Eb; subst buf'.
  unfold leg_add_gram_tau, leg_added. replace (dim + 1)%nat with (S dim) by lia.
  destruct (Nat.ltb_spec k (S dim)).
  - destruct (G k ltac:(lia)) as (b & Ek & Mb). rewrite Ek. destruct (Nat.leb_spec k dim); [|lia].
    match goal with |- context [madd_scaled m b ?x] =>
    destruct (madd_scaled_is m b dim dim M (legG dim k) x Mm Mb)
      as (m' & E' & M') end. exists m'. split; [exact E'|].
    eapply mat_is_ext; [exact M'|]. intros i j Hi Hj. simpl nadd. simpl nmul. f_equal. f_equal. unfold leg_scale_tau.
    destruct k as [|k]; [reflexivity|]. replace (Nat.ltb 0 (S k)) with true by reflexivity.
    rewrite npown_pow, nofnat_INR. reflexivity.
  - exists m. split; [reflexivity|]. destruct (Nat.leb_spec k dim); [lia|].
    eapply mat_is_ext; [exact Mm|]. intros. simpl. ring.
Qed.
Lemma leg_scale_derive tau k : tau <> 0 -> is_derive (fun th => leg_scale th k) tau (leg_scale_tau tau k).
Proof.
  intros Ht. destruct k as [|k].
  - unfold leg_scale, leg_scale_tau. apply d_divc, d_id.
  - unfold leg_scale. eapply is_derive_eq.
    + apply (d_pow (fun th => 2 / th)). unfold Rdiv. apply d_scal. apply (d_inv (fun y => y)); [apply d_id|auto].
    + unfold leg_scale_tau. replace (2 * S k)%nat with (S (S (2 * k)))%nat by lia.
      replace (2 * k + 1)%nat with (S (2 * k)) by lia. simpl pred.
      rewrite !S_INR, mult_INR. simpl (INR 2).
      rewrite <- !tech_pow_Rmult. change (k + (k + 0))%nat with (2 * k)%nat. generalize ((2 / tau) ^ (2 * k)); intros z. simpl. field. auto.
Qed.

(** integrals over an interval of length tau *)
Lemma window_RInt (f : R -> R) tau v : 0 < tau -> is_RInt f (-1) 1 v ->
  is_RInt (fun t => f (window 0 tau t)) 0 tau (tau / 2 * v).
Proof.
  intros Ht H.
  assert (K := is_RInt_comp_lin f (2 / tau) (-1) 0 tau v).
  replace (2 / tau * 0 + -1) with (-1) in K by ring.
  replace (2 / tau * tau + -1) with 1 in K by (field; lra). specialize (K H).
  apply (i_scal (tau / 2)) in K. eapply i_ext; [|exact K].
  intros x. unfold scal; simpl; unfold mult; simpl. unfold window.
  replace (2 * (x - 0) / tau - 1) with (2 / tau * x + -1) by (field; lra). field. lra.
Qed.
Definition leg_dprod tau k i j t :=
  Derive_n (fun u => legP i (window 0 tau u)) k t * Derive_n (fun u => legP j (window 0 tau u)) k t.
Lemma leg_dprod_eq tau k i j t : leg_dprod tau k i j t =
  (2 / tau) ^ (2 * k) * (LD k i (window 0 tau t) * LD k j (window 0 tau t)).
Proof.
  unfold leg_dprod. rewrite !(is_derive_n_unique _ _ _ _ (legP_time_derive k _ 0 tau t)).
  replace (2 * k)%nat with (k + k)%nat by lia. rewrite pow_add. ring.
Qed.
Lemma leg_gram_RInt tau k i j v : 0 < tau -> is_RInt (fun x => LD k i x * LD k j x) (-1) 1 v ->
  is_RInt (leg_dprod tau k i j) 0 tau ((2 / tau) ^ (2 * k) * (tau / 2 * v)).
Proof.
  intros Ht H. apply (i_ext (fun t => (2 / tau) ^ (2 * k) * (LD k i (window 0 tau t) * LD k j (window 0 tau t)))).
  - intros; symmetry; apply leg_dprod_eq.
  - apply i_scal. apply (window_RInt (fun x => LD k i x * LD k j x)); auto.
Qed.

Lemma legT_upper i j : (j <= i)%nat -> legT i j = 0.
Proof. intros. unfold legT, mT. apply Dent_hi. auto. Qed.
Lemma legG_high dim k i j : (1 <= k)%nat -> (dim <= k)%nat -> (i < dim)%nat -> (j < dim)%nat -> legG dim k i j = 0.
Proof.
  intros Hk Hd Hi Hj. destruct k as [|k]; [lia|]. unfold legG. apply Rsum_zero. intros l Hl.
  unfold mT. rewrite (mpow_upper dim legT legT_upper (S k) j l) by lia. ring.
Qed.
Lemma legG_last dim k : (1 <= k)%nat -> legG (S dim) k dim dim = 0.
Proof.
  intros Hk. destruct k as [|k]; [lia|]. unfold legG. apply Rsum_zero. intros l Hl.
  unfold mT. rewrite (mpow_upper (S dim) legT legT_upper (S k) dim l) by lia. ring.
Qed.

Lemma leg_gram_iff dim tau k : (1 <= dim)%nat -> 0 < tau ->
  ((forall i j, (i < dim)%nat -> (j < dim)%nat ->
     is_RInt (leg_dprod tau k i j) 0 tau (leg_added dim k i j * leg_scale tau k))
   <-> k = 0%nat \/ (dim <= k)%nat).
Proof.
  intros Hd Ht. split.
  - intros HI. destruct k as [|k]; [auto|]. right. destruct (Nat.le_gt_cases dim (S k)); auto. exfalso.
    destruct dim as [|dm1]; [lia|].
    specialize (HI dm1 dm1 ltac:(lia) ltac:(lia)).
    unfold leg_added in HI. destruct (Nat.leb_spec (S k) (S dm1)); [|lia]. rewrite legG_last in HI by lia.
    assert (P : is_RInt (fun x => LD (S k) dm1 x * LD (S k) dm1 x) (-1) 1 (RInt (fun x => LD (S k) dm1 x * LD (S k) dm1 x) (-1) 1)).
    { apply i_exists. intros x. apply c_mult; apply LD_continuous. }
    apply (leg_gram_RInt tau) in P; auto.
    pose proof (i_unique _ _ _ _ _ HI P) as E.
    assert (0 < (2 / tau) ^ (2 * S k) * (tau / 2 * RInt (fun x => LD (S k) dm1 x * LD (S k) dm1 x) (-1) 1)).
    { apply Rmult_lt_0_compat; [apply pow_lt, Rdiv_lt_0_compat; lra|].
      apply Rmult_lt_0_compat; [lra|]. apply LD_norm_pos. lia. }
    lra.
  - intros HK i j Hi Hj. destruct (Nat.eq_dec k 0) as [->|Hk].
    + unfold leg_added, leg_scale. destruct (Nat.leb_spec 0 dim); [|lia]. simpl legG.
      replace (legL i j * (tau / 2)) with ((2 / tau) ^ (2 * 0) * (tau / 2 * legL i j)) by (simpl; ring).
      apply leg_gram_RInt; auto. unfold legL. destruct (Nat.eqb_spec i j) as [->|Hne].
      * apply leg_norm.
      * apply leg_orth. auto.
    + destruct HK as [HK|HK]; [lia|].
      replace (leg_added dim k i j * leg_scale tau k) with ((2 / tau) ^ (2 * k) * (tau / 2 * 0)).
      * apply leg_gram_RInt; auto. pose proof (i_exists (fun _ => 0) (-1) 1 (fun x => c_const 0 x)) as Z.
        rewrite RInt_const in Z. unfold scal in Z; simpl in Z; unfold mult in Z; simpl in Z. rewrite Rmult_0_r in Z.
        apply (i_ext (fun _ => 0)); auto. intros x. rewrite LD_low by lia. ring.
      * unfold leg_added. destruct (Nat.leb k dim); [rewrite legG_high by lia|]; ring.
Qed.
