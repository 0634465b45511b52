(** Gauss-Lobatto points and weights for any arithmetic: which cells are written, symmetry. *)
From Coq Require Import List Arith Lia Bool ZArith.
From Verif Require Import Num Outcome LinAlg LegendreModel ToolsModel GSplineModel GLModel.
Import ListNotations.
Local Open Scope nat_scope.
Local Open Scope num_scope.

Section G.
Context {T : Type} `{HN : Num T}.

(** (l_m, l_{m+1}, l'_m, l'_{m+1}) as computed *)
Fixpoint ql2 (t : T) (m : nat) : T * T * T * T :=
  match m with
  | O => (n1, t, n0, n1)
  | S m' => let '(a, b, c, d) := ql2 t m' in
            (b, q_rec t (m' + 2) b a, d, c + q_odd (m' + 2) * b)
  end.
Definition qe (t : T) (n : nat) : T * T * T :=
  let '(a, b, c, d) := ql2 t (n - 1) in
  (q_rec t (n + 1) b a - a, c + q_odd (n + 1) * b - c, b).

Lemma q_loop t n : (1 <= n)%nat -> exists s, for_ 2 (n + 1) (q_step t) (mkq n1 t n0 n1 None) = Ok s /\
  ql2 t (n - 1) = (q_m2 s, q_m1 s, q_pm2 s, q_pm1 s) /\ q_ln s = if Nat.ltb n 2 then None else Some (q_m1 s).
Proof.
  intros Hn.
  destruct (for_ok (fun k s => ql2 t (k - 2) = (q_m2 s, q_m1 s, q_pm2 s, q_pm1 s) /\
      q_ln s = if Nat.ltb (k - 1) 2 then None else Some (q_m1 s)) (q_step t) 2 (n + 1) (mkq n1 t n0 n1 None)) as (s & E & I1 & I2); try lia.
  - split; reflexivity.
  - intros i s Hi [I1 I2]. eexists. split; [reflexivity|]. split.
    + replace (S i - 2)%nat with (S (i - 2)) by lia. cbn [ql2]. rewrite I1. cbn [q_m2 q_m1 q_pm2 q_pm1].
      replace (i - 2 + 2)%nat with i by lia. reflexivity.
    + cbn [q_ln q_m1]. destruct (Nat.ltb_spec (S i - 1) 2); [lia|reflexivity].
  - exists s. split; [exact E|]. replace (n + 1 - 2)%nat with (n - 1)%nat in I1 by lia. replace (n + 1 - 1)%nat with n in I2 by lia. auto.
Qed.
Lemma qe_ok t n : (2 <= n)%nat -> q_and_evaluation t n = Ok (qe t n).
Proof.
  intros Hn. unfold q_and_evaluation. destruct (q_loop t n) as (s & E & I1 & I2); [lia|].
  rewrite E. cbn [bind]. destruct (Nat.ltb_spec n 2); [lia|]. rewrite I2. cbn [of_option bind].
  unfold qe. rewrite I1. rewrite Nat.max_r by lia. reflexivity.
Qed.
Lemma qe_ub t n : (n < 2)%nat -> q_and_evaluation t n = UB.
Proof.
  intros Hn. unfold q_and_evaluation.
  assert (E : for_ 2 (n + 1) (q_step t) (mkq n1 t n0 n1 None) = Ok (mkq n1 t n0 n1 None)) by (apply for_empty; lia).
  rewrite E. reflexivity.
Qed.

(** Newton steps *)
Definition nstep (N : nat) (x : T) : T := let '(q, qp, _) := qe x N in (- q) / qp.
Fixpoint gn (fuel N : nat) (x : T) : T :=
  match fuel with
  | O => x
  | S f => let x' := x + nstep N x in
           if nabs (nstep N x) <? ten_m 9 * nabs x' then x' else gn f N x'
  end.
Lemma gn_ok fuel N : (2 <= N)%nat -> forall x, gl_newton fuel N x = Ok (gn fuel N x).
Proof.
  intros HN'. induction fuel as [|f IH]; intros x; [reflexivity|].
  cbn [gl_newton gn]. rewrite qe_ok by auto. cbn [bind]. unfold nstep.
  destruct (qe x N) as [[q qp] l]. destruct (_ <? _); [reflexivity|apply IH].
Qed.

(** value of point i, 0 <= i <= N *)
Definition gX (N j : nat) : T := gn gl_iters N (gl_guess N j).
Local Opaque gl_iters.
Definition gpoint (N i : nat) : T :=
  if Nat.eqb i 0 then - n1 else if Nat.eqb i N then n1 else
  if Nat.ltb (2 * i) N then gX N i else if Nat.eqb (2 * i) N then n0 else - gX N (N - i).
Definition gweight (N i : nat) : T :=
  if Nat.eqb i 0 then gl_w0 N else if Nat.eqb i N then gl_w0 N else
  if Nat.ltb (2 * i) N then gl_w N (snd (qe (gX N i) N)) else
  if Nat.eqb (2 * i) N then gl_w N (snd (qe n0 N)) else gl_w N (snd (qe (gX N (N - i)) N)).

Definition filled (v : vec T) (N k : nat) (f : nat -> T) : Prop :=
  vlen v = S N /\ forall i, (i <= N)%nat -> (i < k \/ N - k < i)%nat -> vget v i = Some (f i).

Ltac nb := repeat match goal with
  | |- context [Nat.eqb ?a ?b] => destruct (Nat.eqb_spec a b); try lia
  | |- context [Nat.ltb ?a ?b] => destruct (Nat.ltb_spec a b); try lia end.

Lemma filled_two v N k f x y v1 v2 : filled v N k f -> (2 * k < N)%nat -> (1 <= k)%nat -> x = f k -> y = f (N - k)%nat ->
  vwrite v k x = Ok v1 -> vwrite v1 (N - k) y = Ok v2 -> filled v2 N (S k) f.
Proof.
  intros [L F] Hk H1 -> -> E1 E2. rewrite vwrite_lt in E1 by lia. injection E1 as <-.
  rewrite vwrite_lt in E2 by (cbn [vlen]; lia). injection E2 as <-. split; [exact L|].
  intros i Hi C. cbn [vget]. nb; subst; try reflexivity. apply F; auto. lia.
Qed.

Lemma gl_body_ok N k p w : (2 <= N)%nat -> (1 <= k)%nat -> (2 * k < N)%nat -> filled p N k (gpoint N) -> filled w N k (gweight N) ->
  exists p' w', gl_body N k (p, w) = Ok (p', w') /\ filled p' N (S k) (gpoint N) /\ filled w' N (S k) (gweight N).
Proof.
  intros HN' Hk1 Hk Fp Fw. unfold gl_body. rewrite gn_ok by auto. cbn [bind]. fold (gX N k).
  destruct Fp as [Lp Gp]. destruct Fw as [Lw Gw].
  rewrite vwrite_lt by lia. cbn [bind].
  rewrite (vread_get _ k (gX N k)) by (cbn [vlen vget]; try rewrite Nat.eqb_refl; auto; lia). cbn [bind].
  rewrite vwrite_lt by (cbn [vlen]; lia). cbn [bind vlen].
  rewrite (vread_get _ k (gX N k)) by (cbn [vlen vget]; nb; auto; try lia). cbn [bind].
  rewrite qe_ok by auto. cbn [bind]. destruct (qe (gX N k) N) as [[q qp] l] eqn:Q.
  rewrite vwrite_lt by lia. cbn [bind].
  rewrite (vread_get _ k (gl_w N l)) by (cbn [vlen vget]; try rewrite Nat.eqb_refl; auto; lia). cbn [bind].
  rewrite vwrite_lt by (cbn [vlen]; lia). cbn [bind vlen]. do 2 eexists. split; [reflexivity|]. split.
  - eapply (filled_two p N k (gpoint N) (gX N k) (- gX N k)); [split; eauto|lia|lia| | |rewrite vwrite_lt by lia; reflexivity|rewrite vwrite_lt by (cbn [vlen]; lia); reflexivity].
    + unfold gpoint. nb. reflexivity.
    + unfold gpoint. nb. replace (N - (N - k))%nat with k by lia. reflexivity.
  - eapply (filled_two w N k (gweight N) (gl_w N l) (gl_w N l)); [split; eauto|lia|lia| | |rewrite vwrite_lt by lia; reflexivity|rewrite vwrite_lt by (cbn [vlen]; lia); reflexivity].
    + unfold gweight. nb. rewrite Q. reflexivity.
    + unfold gweight. nb. replace (N - (N - k))%nat with k by lia. rewrite Q. reflexivity.
Qed.

(** the weights of the two-point rule are literals *)
Definition gwf2 (N i : nat) : T := if Nat.eqb N 1 then n1 else gweight N i.

Lemma gl_ok n : (2 <= n)%nat -> exists p w, gl_points_weights n = Ok (p, w) /\
  vec_is p n (gpoint (n - 1)) /\ vec_is w n (gwf2 (n - 1)).
Proof.
  intros Hn. destruct n as [|N]; [lia|]. unfold gl_points_weights. replace (S N - 1)%nat with N by lia.
  destruct (Nat.eqb_spec (S N) 2) as [E2|N2].
  - assert (N = 1)%nat by lia. subst N. cbn [vwrite vnew vlen Nat.ltb Nat.leb bind]. do 2 eexists. split; [reflexivity|].
    split; (split; [reflexivity|]); intros i Hi; destruct i as [|[|i]]; try lia; reflexivity.
  - rewrite vwrite_lt by (cbn [vnew vlen]; lia). cbn [bind].
    rewrite vwrite_lt by (cbn [vnew vlen]; lia). cbn [bind].
    rewrite vwrite_lt by (cbn [vnew vlen]; lia). cbn [bind].
    rewrite (vread_get _ 0%nat (gl_w0 N)) by (cbn [vlen vnew vget]; auto; lia). cbn [bind].
    rewrite vwrite_lt by (cbn [vnew vlen]; lia). cbn [bind]. cbn [vnew vlen vget].
    assert (B : (N + 1 = 2 * ((N + 1) / 2) + (N + 1) mod 2)%nat) by (apply Nat.div_mod; lia).
    assert (B2 : ((N + 1) mod 2 < 2)%nat) by (apply Nat.mod_upper_bound; lia).
    match goal with |- context [for_ ?lo ?hi ?f ?v] =>
      destruct (for_ok (fun k (st : vec T * vec T) => filled (fst st) N k (gpoint N) /\ filled (snd st) N k (gweight N)) f lo hi v) as ([p w] & E & Fp & Fw) end.
    + lia.
    + cbn [fst snd]. split; (split; [reflexivity|]); intros i Hi C; cbn [vget]; unfold gpoint, gweight; nb; reflexivity.
    + intros i [p w] Hi [Fp Fw]. cbn [fst snd] in *.
      destruct (gl_body_ok N i p w) as (p' & w' & Eb & F1 & F2); auto; try lia. exists (p', w'). auto.
    + rewrite E. cbn [bind]. cbn [fst snd] in Fp, Fw. destruct Fp as [Lp Gp]. destruct Fw as [Lw Gw].
      assert (D : (N = 2 * (N / 2) + N mod 2)%nat) by (apply Nat.div_mod; lia).
      assert (D2 : (N mod 2 < 2)%nat) by (apply Nat.mod_upper_bound; lia).
      assert (HW : forall i, gwf2 N i = gweight N i) by (intros i; unfold gwf2; nb; reflexivity).
      destruct (Nat.eqb_spec (N mod 2) 0) as [Ev|Od].
      * rewrite qe_ok by lia. cbn [bind]. destruct (qe n0 N) as [[q qp] l] eqn:Q.
        rewrite vwrite_lt by lia. cbn [bind]. rewrite vwrite_lt by lia. cbn [bind].
        do 2 eexists. split; [reflexivity|]. split; (split; [assumption|]); intros i Hi; cbn [vget]; try rewrite HW.
        -- destruct (Nat.eqb_spec i (N / 2)); [subst; unfold gpoint; nb; reflexivity|]. apply Gp; lia.
        -- destruct (Nat.eqb_spec i (N / 2)); [subst; unfold gweight; nb; rewrite Q; reflexivity|]. apply Gw; lia.
      * do 2 eexists. split; [reflexivity|]. split; (split; [assumption|]); intros i Hi; try rewrite HW.
        -- apply Gp; lia.
        -- apply Gw; lia.
Qed.
Lemma gl_ub n : (n < 2)%nat -> gl_points_weights (T := T) n = UB.
Proof.
  intros Hn. destruct n as [|[|n]]; try lia; [reflexivity|].
  cbn [gl_points_weights Nat.eqb]. cbn [vwrite vnew vlen Nat.ltb Nat.leb bind vread vget Nat.eqb of_option].
  rewrite for_empty by (cbn; lia). cbn [bind]. change (Nat.eqb (0 mod 2) 0) with true. cbn iota.
  rewrite qe_ub by lia. reflexivity.
Qed.

(** ** Composite grids *)
(** a loop that fills consecutive segments *)
Lemma seg_loop d n (body : nat -> vec T -> outcome (vec T)) (f : nat -> nat -> T) :
  (forall iv r, (iv < n)%nat -> vlen r = (d * n)%nat -> exists w, vec_is w d (f iv) /\ body iv r = vset_segment r (iv * d) w) ->
  exists r, for_ 0 n body (vnew (d * n)) = Ok r /\ vlen r = (d * n)%nat /\
    forall iv j, (iv < n)%nat -> (j < d)%nat -> vget r (iv * d + j) = Some (f iv j).
Proof.
  intros HB.
  destruct (for_ok (fun k (r : vec T) => vlen r = (d * n)%nat /\ forall iv j, (iv < k)%nat -> (j < d)%nat -> vget r (iv * d + j) = Some (f iv j)) body 0 n (vnew (d * n))) as (r & E & L & G).
  - lia.
  - split; [reflexivity|]. intros; lia.
  - intros k r Hk [L G]. destruct (HB k r) as (w & W & Eb); [lia|exact L|]. destruct W as [Wl Wg].
    rewrite Eb. unfold vset_segment. rewrite Wl, L.
    assert (k * d + d <= d * n)%nat by nia. destruct (Nat.leb_spec (k * d + d) (d * n)); [|lia].
    eexists. split; [reflexivity|]. split; [reflexivity|]. intros iv j Hiv Hj. cbn [vget].
    destruct (Nat.eq_dec iv k) as [->|Ne].
    + destruct (Nat.leb_spec (k * d) (k * d + j)); [|lia]. destruct (Nat.ltb_spec (k * d + j) (k * d + d)); [|lia].
      cbn [andb]. replace (k * d + j - k * d)%nat with j by lia. apply Wg; auto.
    + assert (iv * d + j < k * d)%nat by nia. destruct (Nat.leb_spec (k * d) (iv * d + j)); [lia|]. cbn [andb]. apply G; auto; lia.
  - exists r. auto.
Qed.
Lemma vmap1_is f (v : vec T) n g : vec_is v n g -> vec_is (vmap1 f v) n (fun i => f (g i)).
Proof. intros [L G]. split; [exact L|]. intros i Hi. cbn [vmap1 vget]. rewrite G by auto. reflexivity. Qed.
Lemma gl_points_ok n : (2 <= n)%nat -> exists p, gl_points n = Ok p /\ vec_is p n (gpoint (n - 1)).
Proof. intros Hn. destruct (gl_ok n Hn) as (p & w & E & P & W). exists p. unfold gl_points. rewrite E. auto. Qed.
Lemma gl_weights_ok n : (2 <= n)%nat -> exists w, gl_weights n = Ok w /\ vec_is w n (gwf2 (n - 1)).
Proof. intros Hn. destruct (gl_ok n Hn) as (p & w & E & P & W). exists w. unfold gl_weights. rewrite E. auto. Qed.

Lemma grid_points_ok a b d n : (2 <= d)%nat -> exists r, gl_grid_points a b d n = Ok r /\ vlen r = (d * n)%nat /\
  forall iv j, (iv < n)%nat -> (j < d)%nat -> vget r (iv * d + j) =
    Some ((gpoint (d - 1) j + n1) * ((b - a) / nofnat n) / c2 + (a + nofnat iv * ((b - a) / nofnat n))).
Proof.
  intros Hd. unfold gl_grid_points. destruct (gl_points_ok d Hd) as (p & -> & P). cbn [bind].
  apply seg_loop. intros iv r Hiv L. eexists. split; [|reflexivity]. unfold gl_affine. exact (vmap1_is _ p d _ P).
Qed.
Lemma grid_weights_ok a b d n : (2 <= d)%nat -> exists r, gl_grid_weights a b d n = Ok r /\ vlen r = (d * n)%nat /\
  forall iv j, (iv < n)%nat -> (j < d)%nat -> vget r (iv * d + j) =
    Some (gwf2 (d - 1) j * ((b - a) / nofnat n) / c2).
Proof.
  intros Hd. unfold gl_grid_weights. destruct (gl_weights_ok d Hd) as (p & -> & P). cbn [bind].
  apply seg_loop. intros iv r Hiv L. eexists. split; [|reflexivity]. unfold gl_wscale. exact (vmap1_is _ p d _ P).
Qed.
Lemma lens_points_ok a d taus n tf : (2 <= d)%nat -> vec_is taus n tf -> exists r, gl_lens_points a d taus = Ok r /\ vlen r = (d * n)%nat /\
  forall iv j, (iv < n)%nat -> (j < d)%nat -> vget r (iv * d + j) =
    Some ((gpoint (d - 1) j + n1) * tf iv / c2 + (a + nofnat iv * tf iv)).
Proof.
  intros Hd V. unfold gl_lens_points. destruct (gl_points_ok d Hd) as (p & -> & P). cbn [bind].
  replace (vlen taus) with n by (symmetry; apply V).
  apply seg_loop. intros iv r Hiv L. eexists. split; [|rewrite (vread_ok _ n tf) by auto; reflexivity]. unfold gl_affine. exact (vmap1_is _ p d _ P).
Qed.
Lemma lens_weights_ok d taus n tf : (2 <= d)%nat -> vec_is taus n tf -> exists r, gl_lens_weights d taus = Ok r /\ vlen r = (d * n)%nat /\
  forall iv j, (iv < n)%nat -> (j < d)%nat -> vget r (iv * d + j) = Some (gwf2 (d - 1) j * tf iv / c2).
Proof.
  intros Hd V. unfold gl_lens_weights. destruct (gl_weights_ok d Hd) as (p & -> & P). cbn [bind].
  replace (vlen taus) with n by (symmetry; apply V).
  apply seg_loop. intros iv r Hiv L. eexists. split; [|rewrite (vread_ok _ n tf) by auto; reflexivity]. unfold gl_wscale. exact (vmap1_is _ p d _ P).
Qed.
End G.
