(** Proofs about the Lagrange model. *)
From Coquelicot Require Import Coquelicot.
From Coq Require Import Reals Lra Lia Arith List ZArith Bool.
From Verif Require Import Num Outcome LinAlg RSum RMat RDeriv RPoly LegendreModel LegendreSpec LegendreProofs
  LagrangeSpec LagrangeMath LagrangeModel.
Import ListNotations.

(** ** Loops, for any arithmetic *)
Section Generic.
Context {T : Type} `{Num T}.
Local Open Scope num_scope.

(** prod_{m<n, m<>k} (x_k - x_m), left to right *)
Fixpoint gskip (x : nat -> T) (k n : nat) : T :=
  match n with
  | O => n1
  | S m => if Nat.eqb m k then gskip x k m else gskip x k m * (x k - x m)
  end.
Lemma gskip_high x k n : (n <= k)%nat -> gskip x k (S k) = gskip x k k.
Proof. intros. simpl. rewrite Nat.eqb_refl. auto. Qed.

Lemma bary_loop (pts : vec T) n x : vec_is pts n x ->
  exists r, for_ 1 n (fun j r => for_ 0 j (fun k r => bary_step pts j k r) r) (vconst n n1) = Ok r /\
    vec_is r n (fun k => gskip x k n).
Proof.
  intros P. destruct (Nat.eq_dec n 0) as [->|Hn].
  { exists (vconst 0 n1). split; [reflexivity|]. split; [reflexivity|]. intros; lia. }
  destruct (for_ok (fun j (v : vec T) => vec_is v n (fun k => if Nat.ltb k j then gskip x k j else n1))
     (fun j r => for_ 0 j (fun k r => bary_step pts j k r) r) 1 n (vconst n n1)) as (r & E & V); [lia| | |].
  - split; auto. intros i Hi. simpl. destruct (Nat.ltb_spec i 1); auto. replace i with 0%nat by lia. reflexivity.
  - intros j v Hj V.
    destruct (for_ok (fun k (v : vec T) => vec_is v n (fun i =>
        if Nat.ltb i k then gskip x i (S j) else if Nat.ltb i j then gskip x i j
        else if Nat.eqb i j then gskip x j k else n1))
      (fun k r => bary_step pts j k r) 0 j v) as (r & E & V'); [lia| | |].
    + eapply vec_is_ext; [exact V|]. intros i Hi. cbv beta.
      destruct (Nat.ltb_spec i j); auto. destruct (Nat.eqb_spec i j); auto.
    + intros k w Hk W. unfold bary_step.
      rewrite (vread_ok _ _ _ k W) by lia. cbn [bind]. cbv beta.
      rewrite (vread_ok _ _ _ k P) by lia. cbn [bind].
      rewrite (vread_ok _ _ _ j P) by lia. cbn [bind].
      destruct W as [Lw Gw].
      rewrite vwrite_lt by lia. cbn [bind].
      rewrite (vread_get _ j (gskip x j k)).
      2: { simpl; lia. }
      2: { simpl. destruct (Nat.eqb_spec j k); [lia|]. rewrite Gw by lia.
           destruct (Nat.ltb_spec j k); [lia|]. destruct (Nat.ltb_spec j j); [lia|]. rewrite Nat.eqb_refl. auto. }
      cbn [bind]. rewrite vwrite_lt by (simpl; lia). eexists. split; [reflexivity|].
      split; [exact Lw|]. intros i Hi. cbn [vget].
      destruct (Nat.eqb_spec i j) as [->|Hij].
      * destruct (Nat.ltb_spec j (S k)); [lia|]. destruct (Nat.ltb_spec j j); [lia|].
        simpl. destruct (Nat.eqb_spec k j); [lia|]. auto.
      * destruct (Nat.eqb_spec i k) as [->|Hik].
        -- destruct (Nat.ltb_spec k (S k)); [|lia]. destruct (Nat.ltb_spec k k); [lia|].
           destruct (Nat.ltb_spec k j); [|lia]. simpl. destruct (Nat.eqb_spec j k); [lia|]. auto.
        -- rewrite Gw by lia. destruct (Nat.ltb_spec i k); destruct (Nat.ltb_spec i (S k)); try lia; auto.
           destruct (Nat.ltb i j); auto. destruct (Nat.eqb_spec i j); [contradiction|auto].
    + exists r. split; auto. eapply vec_is_ext; [exact V'|]. intros i Hi. cbv beta.
      destruct (Nat.ltb_spec i j); destruct (Nat.ltb_spec i (S j)); try lia; auto.
      * destruct (Nat.eqb_spec i j); [|lia]. subst. simpl. rewrite Nat.eqb_refl. auto.
      * destruct (Nat.eqb_spec i j); [lia|auto].
  - exists r. split; auto. eapply vec_is_ext; [exact V|]. intros i Hi. cbv beta.
    destruct (Nat.ltb_spec i n); [auto|lia].
Qed.
Definition gw (x : nat -> T) (n k : nat) : T := n1 / gskip x k n.
Lemma bary_weights_gen (pts : vec T) n x : vec_is pts n x ->
  exists w, bary_weights pts = Ok w /\ vec_is w n (gw x n).
Proof.
  intros P. unfold bary_weights. destruct P as [L G]. rewrite L.
  destruct (bary_loop pts n x (conj L G)) as (r & E & Lr & Gr). rewrite E. cbn [bind].
  eexists. split; [reflexivity|]. split; [exact Lr|]. intros i Hi. simpl. rewrite Gr by auto. reflexivity.
Qed.

(** first matching node *)
Definition first_match (x : nat -> T) (s : T) (n : nat) (m : option nat) : Prop :=
  match m with
  | Some j => (j < n)%nat /\ almost_equal s (x j) tol9 = true /\
              forall i, (i < j)%nat -> almost_equal s (x i) tol9 = false
  | None => forall i, (i < n)%nat -> almost_equal s (x i) tol9 = false
  end.
Lemma lag_match_gen (pts : vec T) n x s : vec_is pts n x ->
  exists m, lag_match pts s 0 n = Ok m /\ first_match x s n m.
Proof.
  intros P.
  assert (A : forall k j, (j + k = n)%nat -> (forall i, (i < j)%nat -> almost_equal s (x i) tol9 = false) ->
     exists m, lag_match pts s j k = Ok m /\ first_match x s n m).
  { induction k as [|k IH]; intros j Hj Hb; simpl.
    - exists None. split; auto. simpl. intros i Hi. apply Hb. lia.
    - rewrite (vread_ok _ _ _ j P) by lia. cbn [bind]. destruct (almost_equal s (x j) tol9) eqn:Ea.
      + exists (Some j). split; auto. simpl. split; [lia|]. auto.
      + apply IH; [lia|]. intros i Hi. destruct (Nat.eq_dec i j) as [->|]; auto. apply Hb. lia. }
  apply A; auto. intros; lia.
Qed.
Definition gterm (x w : nat -> T) (s : T) (j : nat) : T := w j / (s - x j).
Lemma vdivs_is (v : vec T) n f x : vec_is v n f -> vec_is (vdivs v x) n (fun i => f i / x).
Proof. intros [L G]. split; auto. intros i Hi. simpl. rewrite G; auto. Qed.
Lemma lag_eval_gen (pts bw b : vec T) n x w s : vec_is pts n x -> vec_is bw n w -> vlen b = n ->
  exists b' m, first_match x s n m /\ lag_eval pts bw s b = Ok b' /\
    vec_is b' n (fun i => match m with
                          | Some j => if Nat.eqb i j then n1 else n0
                          | None => gterm x w s i / nsum n (gterm x w s)
                          end).
Proof.
  intros P W L. unfold lag_eval. rewrite L.
  assert (Lp : vlen pts = n) by apply P. rewrite Lp.
  destruct (lag_match_gen pts n x s P) as ([j|] & E & M); rewrite E; cbn [bind].
  - rewrite vwrite_lt by (simpl; apply M). eexists _, (Some j). split; auto. split; [reflexivity|].
    split; [reflexivity|]. intros i Hi. simpl. destruct (Nat.eqb i j); auto.
  - match goal with |- context [for_ 0 n ?f ?v] =>
      destruct (for_ok (fun j (st : vec T * T) => vlen (fst st) = n /\
         (forall i, (i < j)%nat -> vget (fst st) i = Some (gterm x w s i)) /\
         snd st = nsum j (gterm x w s)) f 0%nat n v) as ((b' & sum) & E' & Lb & Gb & Es) end.
    + lia.
    + simpl. repeat split; auto. intros; lia.
    + intros j (v & sm) Hj (Lv & Gv & Sv). simpl in *.
      rewrite (vread_ok _ _ _ j W) by lia. cbn [bind]. rewrite (vread_ok _ _ _ j P) by lia. cbn [bind].
      rewrite vwrite_lt by lia. cbn [bind]. eexists. split; [reflexivity|]. cbn [fst snd vlen vget].
      split; [exact Lv|]. split.
      * intros i Hi. destruct (Nat.eqb_spec i j) as [->|]; [reflexivity|]. apply Gv. lia.
      * subst. reflexivity.
    + rewrite E'. cbn [bind]. simpl in Lb, Gb, Es. eexists _, None. split; auto. split; [reflexivity|].
      subst sum. apply vdivs_is. split; auto.
Qed.

(** the row loop *)
Fixpoint gneg (h : nat -> T) (i n : nat) : T :=
  match n with O => n0 | S m => if Nat.eqb m i then gneg h i m else gneg h i m + - h m end.
Lemma lag_fill_gen n compute (h : nat -> nat -> T) (m : mat T) : mrows m = n -> mcols m = n ->
  (forall i j, (i < n)%nat -> (j < n)%nat -> i <> j -> compute i j = Ok (h i j)) ->
  exists m', lag_fill n compute m = Ok m' /\
    mat_is m' n n (fun i j => if Nat.eqb i j then gneg (h i) i n else h i j).
Proof.
  intros R C Hc. unfold lag_fill.
  match goal with |- context [for_ 0 n ?f m] =>
    destruct (for_ok (fun i (m : mat T) => mrows m = n /\ mcols m = n /\ forall a b, (a < i)%nat -> (b < n)%nat ->
       mget m a b = Some (if Nat.eqb a b then gneg (h a) a n else h a b)) f 0%nat n m) as (m' & E & R' & C' & G') end.
  - lia.
  - repeat split; auto. intros; lia.
  - intros i m1 Hi (R1 & C1 & G1). rewrite mwrite_lt by lia. cbn [bind].
    match goal with |- context [for_ 0 n ?f ?v] =>
    destruct (for_ok (fun j (m : mat T) => mrows m = n /\ mcols m = n /\
       (forall a b, (a < i)%nat -> (b < n)%nat -> mget m a b = Some (if Nat.eqb a b then gneg (h a) a n else h a b)) /\
       (forall b, (b < j)%nat -> b <> i -> mget m i b = Some (h i b)) /\
       mget m i i = Some (gneg (h i) i j)) f 0%nat n v) as (m2 & E2 & R2 & C2 & G2 & H2 & D2) end.
    + lia.
    + cbn [mrows mcols mget]. repeat split; auto.
      * intros a b Ha Hb. destruct (Nat.eqb_spec a i); [lia|]. simpl. auto.
      * intros; lia.
      * rewrite !Nat.eqb_refl. reflexivity.
    + intros j m3 Hj (R3 & C3 & G3 & H3 & D3). destruct (Nat.eqb_spec i j) as [->|Hij].
      * exists m3. split; auto. split; [auto|]. split; [auto|]. split; [auto|]. split.
        -- intros b Hb Hne. apply H3; auto. lia.
        -- simpl. rewrite Nat.eqb_refl. auto.
      * rewrite Hc by (auto; lia). cbn [bind]. rewrite mwrite_lt by lia. cbn [bind].
        rewrite (mread_get _ i i (gneg (h i) i j)).
        2-3: simpl; lia.
        2: { cbn [mget]. destruct (Nat.eqb_spec i j); [contradiction|]. rewrite Nat.eqb_refl. auto. }
        cbn [bind]. rewrite (mread_get _ i j (h i j)).
        2-3: simpl; lia.
        2: { cbn [mget]. rewrite !Nat.eqb_refl. auto. }
        cbn [bind]. rewrite mwrite_lt by (simpl; lia). eexists. split; [reflexivity|].
        cbn [mrows mcols mget]. repeat split; auto.
        -- intros a b Ha Hb. destruct (Nat.eqb_spec a i); [lia|]. cbn [andb]. auto.
        -- intros b Hb Hne. rewrite Nat.eqb_refl. cbn [andb]. destruct (Nat.eqb_spec b i); [contradiction|].
           destruct (Nat.eqb_spec b j) as [->|]; auto. apply H3; auto. lia.
        -- rewrite !Nat.eqb_refl. cbn [andb]. simpl. destruct (Nat.eqb_spec j i); [congruence|]. reflexivity.
    + exists m2. split; auto. split; [auto|]. split; [auto|]. intros a b Ha Hb.
      destruct (Nat.eq_dec a i) as [->|]; [|apply G2; auto; lia].
      destruct (Nat.eqb_spec i b) as [<-|]; auto.
  - exists m'. split; auto. split; [auto|]. split; [auto|]. intros a b Ha Hb. apply G'; auto.
Qed.

Definition gD1 (x w : nat -> T) (n i j : nat) : T :=
  if Nat.eqb i j then gneg (fun j => w j / w i * n1 / (x i - x j)) i n
  else w j / w i * n1 / (x i - x j).
Fixpoint gD (x w : nat -> T) (n k i j : nat) : T :=
  match k with
  | O => if Nat.eqb i j then n1 else n0
  | S O => gD1 x w n i j
  | S k' =>
      if Nat.eqb i j
      then gneg (fun j => nofnat k / (x i - x j) * (w j / w i * gD x w n k' i i - gD x w n k' i j)) i n
      else nofnat k / (x i - x j) * (w j / w i * gD x w n k' i i - gD x w n k' i j)
  end.
Lemma lag_dmat_gen (pts : vec T) n x : vec_is pts n x ->
  exists m, lag_dmat pts = Ok m /\ mat_is m n n (gD x (gw x n) n 1).
Proof.
  intros P. unfold lag_dmat. destruct (bary_weights_gen pts n x P) as (w & E & W). rewrite E. cbn [bind].
  assert (Lp : vlen pts = n) by apply P. rewrite Lp.
  match goal with |- context [lag_fill n ?c ?m] =>
    destruct (lag_fill_gen n c (fun i j => gw x n j / gw x n i * n1 / (x i - x j)) m) as (m' & E' & M) end; auto.
  - intros i j Hi Hj Hne. rewrite (vread_ok _ _ _ j W), (vread_ok _ _ _ i W), (vread_ok _ _ _ i P), (vread_ok _ _ _ j P) by auto.
    reflexivity.
  - exists m'. split; auto.
Qed.
Lemma lag_dmat_deg_gen (pts : vec T) n x k : vec_is pts n x ->
  exists m, lag_dmat_deg pts k = Ok m /\ mat_is m n n (gD x (gw x n) n k).
Proof.
  intros P. assert (Lp : vlen pts = n) by apply P. destruct k as [|[|k]]; unfold lag_dmat_deg.
  - rewrite Lp. exists (mident n). split; auto. apply mident_is.
  - apply lag_dmat_gen; auto.
  - destruct (lag_dmat_gen pts n x P) as (m & E & M). rewrite E. cbn [bind].
    destruct (bary_weights_gen pts n x P) as (w & Ew & W). rewrite Ew. cbn [bind].
    match goal with |- context [for_ ?lo ?hi ?f ?v] =>
      destruct (for_ok (fun k (st : mat T * mat T) => mat_is (fst st) n n (gD x (gw x n) n (k - 1)) /\ snd st = fst st)
        f lo hi v) as ((r & b) & E' & Mr & _) end.
    + lia.
    + simpl. auto.
    + intros i (r & b) Hi (Mr & Eb). simpl in Mr, Eb. subst b. rewrite Lp.
      match goal with |- context [lag_fill n ?c r] =>
        destruct (lag_fill_gen n c (fun a b => nofnat i / (x a - x b) *
            (gw x n b / gw x n a * gD x (gw x n) n (i - 1) a a - gD x (gw x n) n (i - 1) a b)) r) as (m' & E2 & M2) end.
      * apply Mr.
      * apply Mr.
      * intros a c Ha Hc Hne. rewrite (vread_ok _ _ _ a P), (vread_ok _ _ _ c P), (vread_ok _ _ _ c W), (vread_ok _ _ _ a W) by auto.
        cbn [bind]. rewrite (mread_ok _ _ _ _ a a Mr), (mread_ok _ _ _ _ a c Mr) by auto. reflexivity.
      * rewrite E2. cbn [bind]. eexists. split; [reflexivity|]. cbn [fst snd]. split; [|reflexivity].
        destruct i as [|[|i]]; [lia|lia|]. replace (S (S (S i)) - 1)%nat with (S (S i)) by lia.
        replace (S (S i) - 1)%nat with (S i) in M2 by lia. exact M2.
    + rewrite E'. cbn [bind fst]. exists r. split; [reflexivity|]. cbn [fst] in Mr.
      replace (S (S (S k)) - 1)%nat with (S (S k)) in Mr by lia. exact Mr.
Qed.
Lemma lag_impl_gen (pts : vec T) n x k : vec_is pts n x ->
  exists m, lag_derivative_matrix_impl pts k = Ok m /\ mat_is m n n (gD x (gw x n) n k).
Proof.
  intros P. assert (Lp : vlen pts = n) by apply P. unfold lag_derivative_matrix_impl. destruct k.
  - rewrite Lp. exists (mident n). split; auto. apply mident_is.
  - apply lag_dmat_deg_gen; auto.
Qed.
Lemma lag_eval_deriv_gen (pts bw b : vec T) n x w s tau k : vec_is pts n x -> vec_is bw n w -> vlen b = n ->
  exists b' b0 V, lag_eval pts bw s b = Ok b0 /\ vec_is b0 n V /\ lag_eval_deriv pts bw s tau k b = Ok b' /\
    vec_is b' n (fun j => match k with
                          | O => V j
                          | _ => nsum n (fun i => gD x (gw x n) n k i j * V i) * npown (c2 / tau) k
                          end).
Proof.
  intros P W L. destruct (lag_eval_gen pts bw b n x w s P W L) as (b0 & m & _ & E & V).
  unfold lag_eval_deriv. rewrite E. cbn [bind]. destruct k as [|k].
  - eexists b0, b0, _. split; [reflexivity|]. split; [exact V|]. split; [reflexivity|]. exact V.
  - destruct (lag_impl_gen pts n x (S k) P) as (d & Ed & D). rewrite Ed. cbn [bind].
    destruct (mvmul_is (mtrans d) b0 n n _ _ (mtrans_is _ _ _ _ D) V) as (p & Ep & Vp). rewrite Ep. cbn [bind].
    unfold vassign. replace (vlen b0) with n by (symmetry; apply V).
    pose proof (vscale_is _ _ _ (npown (c2 / tau) (S k)) Vp) as Vs.
    replace (vlen (vscale p (npown (c2 / tau) (S k)))) with n by (symmetry; apply Vs). rewrite Nat.eqb_refl.
    eexists _, b0, _. split; [reflexivity|]. split; [exact V|]. split; [reflexivity|]. exact Vs.
Qed.

(** ** change_interpolation_points *)
Fixpoint anym (y : T) (x : nat -> T) (n : nat) : bool :=
  match n with O => false | S m => anym y x m || almost_equal y (x m) tol9 end.
Fixpoint flagged (y x : nat -> T) (n k : nat) : bool :=
  match k with O => false | S m => flagged y x n m || anym (y m) x n end.
Definition gchange (x y : nat -> T) (n k j : nat) : T :=
  if flagged y x n (S k) then if almost_equal (y k) (x j) tol9 then n1 else n0
  else gterm x (gw x n) (y k) j / nsum n (gterm x (gw x n) (y k)).
Lemma lag_change_gen (old new : vec T) n r x y : vec_is old n x -> vec_is new r y ->
  exists m, lag_change old new = Ok m /\ mat_is m r n (gchange x y n).
Proof.
  intros P Q. assert (Lp : vlen old = n) by apply P. assert (Lq : vlen new = r) by apply Q.
  unfold lag_change. rewrite Lp, Lq.
  destruct (bary_weights_gen old n x P) as (w & Ew & W). rewrite Ew. cbn [bind].
  match goal with |- context [for_ 0 r ?f ?v] =>
    destruct (for_ok (fun k (st : bool * mat T) => fst st = flagged y x n k /\ mrows (snd st) = r /\ mcols (snd st) = n /\
       forall a b, (a < k)%nat -> (b < n)%nat -> mget (snd st) a b = Some (gchange x y n a b)) f 0%nat r v)
     as ((fl & m) & E & F & R & C & G) end.
  - lia.
  - simpl. repeat split; auto. intros; lia.
  - intros k (fl & m) Hk (F & R & C & G). simpl in F, R, C, G.
    match goal with |- context [for_ 0 n ?f ?v] =>
    destruct (for_ok (fun j (st : bool * mat T) => fst st = flagged y x n k || anym (y k) x j /\ mrows (snd st) = r /\ mcols (snd st) = n /\
       (forall a b, (a < k)%nat -> (b < n)%nat -> mget (snd st) a b = Some (gchange x y n a b)) /\
       (forall b, (b < j)%nat -> mget (snd st) k b = Some (if almost_equal (y k) (x b) tol9 then n1 else n0))) f 0%nat n v)
     as ((fl1 & m1) & E1 & F1 & R1 & C1 & G1 & K1) end.
    + lia.
    + simpl. rewrite orb_false_r. repeat split; auto. intros; lia.
    + intros j (f2 & m2) Hj (F2 & R2 & C2 & G2 & K2). cbn [fst snd] in F2, R2, C2, G2, K2.
      rewrite mwrite_lt by lia. cbn [bind]. rewrite (vread_ok _ _ _ k Q), (vread_ok _ _ _ j P) by lia. cbn [bind].
      destruct (almost_equal (y k) (x j) tol9) eqn:Ea.
      * rewrite mwrite_lt by (simpl; lia). cbn [bind]. eexists. split; [reflexivity|]. cbn [fst snd mrows mcols mget].
        split; [simpl; rewrite Ea, !orb_true_r; auto|]. split; [auto|]. split; [auto|]. split.
        -- intros a b Ha Hb. destruct (Nat.eqb_spec a k); [lia|]. simpl. auto.
        -- intros b Hb. rewrite Nat.eqb_refl. cbn [andb]. destruct (Nat.eqb_spec b j) as [->|]; [rewrite Ea; auto|].
           apply K2. lia.
      * eexists. split; [reflexivity|]. cbn [fst snd mrows mcols mget].
        split; [simpl; rewrite Ea, orb_false_r; auto|]. split; [auto|]. split; [auto|]. split.
        -- intros a b Ha Hb. destruct (Nat.eqb_spec a k); [lia|]. simpl. auto.
        -- intros b Hb. rewrite Nat.eqb_refl. cbn [andb]. destruct (Nat.eqb_spec b j) as [->|]; [rewrite Ea; auto|].
           apply K2. lia.
    + rewrite E1. cbn [bind]. cbn [fst snd] in F1, R1, C1, G1, K1.
      assert (FF : fl1 = flagged y x n (S k)) by exact F1.
      destruct fl1.
      * eexists. split; [reflexivity|]. cbn [fst snd]. split; [auto|]. split; [auto|]. split; [auto|].
        intros a b Ha Hb. destruct (Nat.eq_dec a k) as [->|]; [|apply G1; auto; lia].
        rewrite K1 by auto. unfold gchange. rewrite <- FF. auto.
      * match goal with |- context [for_ 0 n ?f ?v] =>
        destruct (for_ok (fun j (st : T * mat T) => fst st = nsum j (gterm x (gw x n) (y k)) /\ mrows (snd st) = r /\ mcols (snd st) = n /\
           (forall a b, (a < k)%nat -> (b < n)%nat -> mget (snd st) a b = Some (gchange x y n a b)) /\
           (forall b, (b < j)%nat -> mget (snd st) k b = Some (gterm x (gw x n) (y k) b))) f 0%nat n v)
         as ((s3 & m3) & E3 & S3 & R3 & C3 & G3 & K3) end.
        -- lia.
        -- simpl. repeat split; auto. intros; lia.
        -- intros j (s2 & m2) Hj (S2 & R2 & C2 & G2 & K2). cbn [fst snd] in S2, R2, C2, G2, K2.
           rewrite (vread_ok _ _ _ j W), (vread_ok _ _ _ k Q), (vread_ok _ _ _ j P) by lia. cbn [bind].
           rewrite mwrite_lt by lia. cbn [bind]. eexists. split; [reflexivity|]. cbn [fst snd mrows mcols mget].
           split; [subst; reflexivity|]. split; [auto|]. split; [auto|]. split.
           ++ intros a b Ha Hb. destruct (Nat.eqb_spec a k); [lia|]. simpl. auto.
           ++ intros b Hb. rewrite Nat.eqb_refl. cbn [andb]. destruct (Nat.eqb_spec b j) as [->|]; [reflexivity|].
              apply K2. lia.
        -- rewrite E3. cbn [bind]. cbn [fst snd] in S3, R3, C3, G3, K3. eexists. split; [reflexivity|].
           cbn [fst snd mrows mcols mget]. split; [auto|]. split; [auto|]. split; [auto|].
           intros a b Ha Hb. destruct (Nat.eqb_spec a k) as [->|]; [|apply G3; auto; lia].
           rewrite K3 by auto. simpl. unfold gchange. rewrite <- FF, S3. reflexivity.
  - rewrite E. cbn [bind snd]. exists m. split; auto. split; auto.
Qed.
End Generic.

(** ** constructor *)
Section Ctor.
Context {T : Type} `{Num T}.
Local Open Scope num_scope.
Lemma lag_ctor_gen (pts glp glw : vec T) n x y fresh : vec_is pts n x -> vec_is glp n y -> vlen glw = n ->
  let l2 := mkmat n n (fun i j => if Nat.eqb i j then vget glw i else fresh i j) in
  exists buf, lag_ctor_buffer pts glp glw fresh = Ok buf /\ length buf = S n /\ nth_error buf 0 = Some l2 /\
    forall k, (1 <= k <= n)%nat -> exists d a b, mat_is d n n (gD x (gw x n) n k) /\
      mmul d l2 = Ok a /\ mmul a (mtrans d) = Ok b /\ nth_error buf k = Some b.
Proof.
  intros P Q Lw l2. assert (Lp : vlen pts = n) by apply P. unfold lag_ctor_buffer.
  destruct (lag_dmat_gen pts n x P) as (d & Ed & D). rewrite Ed. cbn [bind].
  destruct (lag_change_gen pts glp n n x y P Q) as (cm & Ec & _). rewrite Ec. cbn [bind].
  unfold lag_l2. rewrite Lw, Lp, Nat.eqb_refl. cbn [bind]. fold l2.
  match goal with |- context [for_ ?lo ?hi ?f ?v] =>
    destruct (for_ok (fun i (st : mat T * list (mat T)) => mat_is (fst st) n n (gD x (gw x n) n i) /\
       length (snd st) = i /\ nth_error (snd st) 0 = Some l2 /\
       forall k, (1 <= k < i)%nat -> exists d a b, mat_is d n n (gD x (gw x n) n k) /\
         mmul d l2 = Ok a /\ mmul a (mtrans d) = Ok b /\ nth_error (snd st) k = Some b) f lo hi v)
      as ((dd & buf) & E & _ & Lb & G0 & G) end.
  - lia.
  - cbn [fst snd]. split; [exact D|]. split; [reflexivity|]. split; [reflexivity|]. intros; lia.
  - intros i (dd & buf) Hi (Dd & Lb & G0 & G). cbn [fst snd] in Dd, Lb, G0, G.
    assert (M : exists a, mmul dd l2 = Ok a /\ mrows a = n /\ mcols a = n).
    { destruct Dd as (R & C & _). unfold mmul. rewrite C. unfold l2 at 1. cbn [mrows]. rewrite Nat.eqb_refl.
      eexists. split; [reflexivity|]. cbn [mrows mcols]. auto. }
    destruct M as (a & Ea & Ra & Ca). rewrite Ea. cbn [bind].
    assert (M : exists b, mmul a (mtrans dd) = Ok b).
    { destruct Dd as (R & C & _). unfold mmul, mtrans. cbn [mrows]. rewrite Ca, C, Nat.eqb_refl. eauto. }
    destruct M as (b & Eb). rewrite Eb. cbn [bind].
    destruct (lag_dmat_deg_gen pts n x (i + 1) P) as (d2 & Ed2 & D2). rewrite Ed2. cbn [bind].
    eexists. split; [reflexivity|]. cbn [fst snd]. split; [|split; [|split]].
    + replace (S i) with (i + 1)%nat by lia. auto.
    + rewrite app_length. simpl. lia.
    + rewrite nth_error_app1 by lia. auto.
    + intros k Hk. destruct (Nat.eq_dec k i) as [->|].
      * exists dd, a, b. split; auto. split; auto. split; auto.
        rewrite nth_error_app2 by lia. rewrite Lb, Nat.sub_diag. reflexivity.
      * destruct (G k) as (d3 & a3 & b3 & A1 & A2 & A3 & A4); [lia|].
        exists d3, a3, b3. repeat split; auto; try apply A1. rewrite nth_error_app1 by lia. auto.
  - rewrite E. cbn [bind snd]. cbn [snd] in Lb, G0, G. exists buf. split; auto. split; [lia|]. split; auto.
    intros k Hk. apply G. lia.
Qed.
Lemma osum_none n (h : nat -> option T) k : (k < n)%nat -> h k = None -> osum n h = None.
Proof.
  induction n; intros Hk E; [lia|]. simpl. destruct (Nat.eq_dec k n) as [->|].
  - rewrite E. destruct (osum n h); reflexivity.
  - rewrite IHn by (auto; lia). reflexivity.
Qed.
(** reading the Gram matrix reads memory nobody wrote *)
Lemma lag_ctor_uninit (pts glp glw : vec T) n x y : vec_is pts n x -> vec_is glp n y -> vlen glw = n -> (2 <= n)%nat ->
  exists buf, lag_ctor_buffer pts glp glw (fun _ _ => None) = Ok buf /\
    forall k, (k <= n)%nat -> exists m, nth_error buf k = Some m /\ mrows m = n /\ mcols m = n /\
      forall i j, (i < n)%nat -> (j < n)%nat -> i <> j \/ (1 <= k)%nat -> mget m i j = None.
Proof.
  intros P Q L Hn. destruct (lag_ctor_gen pts glp glw n x y (fun _ _ => None) P Q L) as (buf & E & Lb & G0 & G).
  exists buf. split; auto. intros k Hk. destruct k as [|k].
  - eexists. split; [exact G0|]. cbn [mrows mcols mget]. split; auto. split; auto.
    intros i j Hi Hj [Hne|]; [|lia]. destruct (Nat.eqb_spec i j); [contradiction|auto].
  - destruct (G (S k)) as (d & a & b & D & Ea & Eb & En); [lia|]. exists b. split; auto.
    destruct D as (R & C & D). unfold mmul in Ea, Eb. rewrite C in Ea. cbn [mrows mcols] in Ea.
    rewrite Nat.eqb_refl in Ea. injection Ea as <-. cbn [mrows mcols] in Eb. unfold mtrans in Eb. cbn [mrows mcols] in Eb.
    rewrite C, Nat.eqb_refl in Eb. injection Eb as <-. cbn [mrows mcols mget].
    split; auto. split; auto. intros i j Hi Hj _.
    apply (osum_none n _ 0%nat); [lia|]. rewrite (osum_none n _ 1%nat); [reflexivity|lia|].
    simpl. destruct (mget d i 1%nat); reflexivity.
Qed.
Lemma lag_ctor_init (pts glp glw : vec T) n x y w g : vec_is pts n x -> vec_is glp n y -> vec_is glw n w ->
  exists buf, lag_ctor_buffer pts glp glw (fun i j => Some (g i j)) = Ok buf /\
    forall k, (k <= n)%nat -> exists m A, nth_error buf k = Some m /\ mat_is m n n A.
Proof.
  intros P Q W.
  destruct (lag_ctor_gen pts glp glw n x y (fun i j => Some (g i j)) P Q) as (buf & E & Lb & G0 & G); [apply W|].
  exists buf. split; auto.
  assert (M2 : mat_is (mkmat n n (fun i j => if Nat.eqb i j then vget glw i else Some (g i j))) n n
                 (fun i j => if Nat.eqb i j then w i else g i j)).
  { split; [reflexivity|]. split; [reflexivity|]. intros i j Hi Hj. cbn [mget].
    destruct (Nat.eqb i j); auto. apply W. auto. }
  intros k Hk. destruct k as [|k].
  - eexists _, _. split; [exact G0|]. exact M2.
  - destruct (G (S k)) as (d & a & b & D & Ea & Eb & En); [lia|].
    destruct (mmul_is _ _ n n n _ _ D M2) as (a' & Ea' & A). rewrite Ea in Ea'. injection Ea' as <-.
    destruct (mmul_is _ _ n n n _ _ A (mtrans_is _ _ _ _ D)) as (b' & Eb' & B). rewrite Eb in Eb'. injection Eb' as <-.
    eexists b, _. split; auto. exact B.
Qed.
End Ctor.

(** ** Over the reals *)
Local Open Scope R_scope.
Lemma tol9_R : tol9 = / 1000000000.
Proof. unfold tol9. rnum. unfold Rdiv. ring. Qed.
Lemma almost_near a b : almost_equal a b tol9 = true <-> near a b.
Proof.
  unfold almost_equal, near. rewrite tol9_R. rnum. cbv zeta.
  destruct (Rltb_spec (Rabs a) (/ 1000000000)); destruct (Rltb_spec (Rabs b) (/ 1000000000)); cbn [orb].
  - rewrite Rltb_true. tauto.
  - rewrite Rltb_true. tauto.
  - rewrite Rltb_true. tauto.
  - rewrite andb_true_iff, !Rltb_true. tauto.
Qed.
Lemma almost_near_f a b : almost_equal a b tol9 = false <-> ~ near a b.
Proof. rewrite <- almost_near. destruct (almost_equal a b tol9); split; intros; congruence. Qed.
Lemma near_refl a : near a a.
Proof.
  unfold near. cbv zeta. rewrite Rminus_eq_0, Rabs_R0. destruct (Rlt_dec (Rabs a) (/ 1000000000)).
  - left. split; auto. lra.
  - right. pose proof (Rabs_pos a). split; [tauto|]. split; lra.
Qed.
Lemma separated_distinct n x : separated n x -> distinct n x.
Proof. intros S i j Hi Hj Hne E. apply (S i j Hi Hj Hne). rewrite E. apply near_refl. Qed.
Lemma near_dec a b : near a b \/ ~ near a b.
Proof. rewrite <- almost_near. destruct (almost_equal a b tol9); [left|right]; congruence. Qed.

Lemma gskip_R x k n : gskip x k n = Rprod n (fun m => if Nat.eqb m k then 1 else x k - x m).
Proof.
  induction n; simpl; auto. destruct (Nat.eqb n k); rewrite IHn; rnum; ring.
Qed.
Lemma gw_R x n k : gw x n k = / wprod n x k.
Proof. unfold gw, wprod. rewrite gskip_R. rnum. unfold Rdiv. ring. Qed.
Lemma gneg_R h i n : gneg h i n = - Rsum n (fun j => if Nat.eqb j i then 0 else h j).
Proof. induction n; simpl; [rnum; ring|]. destruct (Nat.eqb n i); rewrite IHn; rnum; ring. Qed.
Lemma gD_R n x k i j : distinct n x -> (i < n)%nat -> (j < n)%nat -> gD x (gw x n) n k i j = lagD n x k i j.
Proof.
  intros D. revert i j. induction k as [|k IH]; intros i j Hi Hj.
  - rewrite lagD_0 by auto. simpl. reflexivity.
  - assert (Off : forall b, (b < n)%nat -> i <> b ->
       nofnat (S k) / (x i - x b) * (gw x n b / gw x n i * gD x (gw x n) n k i i - gD x (gw x n) n k i b) = lagD n x (S k) i b).
    { intros b Hb Hne. rewrite lagD_offdiag by auto. rewrite !gw_R, !IH by auto. rewrite nofnat_INR. reflexivity. }
    destruct k as [|k].
    + change (gD x (gw x n) n 1 i j) with (gD1 x (gw x n) n i j). unfold gD1.
      assert (Off1 : forall b, (b < n)%nat -> i <> b -> gw x n b / gw x n i * 1 / (x i - x b) = lagD n x 1 i b).
      { intros b Hb Hne. rewrite <- Off by auto. rewrite !IH, !lagD_0 by auto. rewrite Nat.eqb_refl.
        destruct (Nat.eqb_spec i b); [contradiction|]. rewrite nofnat_INR, !gw_R. rnum. change (INR 1) with 1.
        pose proof (wprod_neq0 n x i D Hi). pose proof (wprod_neq0 n x b D Hb). specialize (D i b Hi Hb Hne).
        field. repeat split; auto. lra. }
      destruct (Nat.eqb_spec i j) as [<-|Hne]; rnum; [|apply Off1; auto].
      rewrite gneg_R, lagD_diag by auto. f_equal. apply Rsum_ext. intros b Hb.
      destruct (Nat.eqb_spec b i); auto.
    + change (gD x (gw x n) n (S (S k)) i j) with
        (if Nat.eqb i j
      then gneg (fun j => nofnat (S (S k)) / (x i - x j) * (gw x n j / gw x n i * gD x (gw x n) n (S k) i i - gD x (gw x n) n (S k) i j)) i n
      else nofnat (S (S k)) / (x i - x j) * (gw x n j / gw x n i * gD x (gw x n) n (S k) i i - gD x (gw x n) n (S k) i j)).
      destruct (Nat.eqb_spec i j) as [<-|Hne]; [|apply Off; auto].
      rewrite gneg_R, lagD_diag by auto. f_equal. apply Rsum_ext. intros b Hb.
      destruct (Nat.eqb_spec b i); auto.
Qed.
Lemma gterm_R n x s j : distinct n x -> (j < n)%nat -> (forall i, (i < n)%nat -> s <> x i) ->
  gterm x (gw x n) s j / nsum n (gterm x (gw x n) s) = lagr n x j s.
Proof.
  intros D Hj Hs. rewrite nsum_R. rewrite lagr_off by auto.
  rewrite (Rsum_ext n _ (fun j => / wprod n x j / (s - x j))) by (intros; unfold gterm; rewrite gw_R; reflexivity).
  pose proof (bary_den n x s D ltac:(lia) Hs) as B.
  assert (S0 : Rsum n (fun j => / wprod n x j / (s - x j)) <> 0) by (intros E; rewrite E in B; lra).
  unfold gterm. rewrite gw_R. rnum.
  replace (Rprod n (fun m => s - x m)) with (/ Rsum n (fun j => / wprod n x j / (s - x j))); [reflexivity|].
  apply (Rmult_eq_reg_l (Rsum n (fun j => / wprod n x j / (s - x j)))); auto. rewrite B. field. auto.
Qed.

Definition unitv (j i : nat) : R := if Nat.eqb i j then 1 else 0.
(** what evaluation returns, in all cases *)
Lemma lag_eval_R (pts b : vec R) n x s : vec_is pts n x -> distinct n x -> vlen b = n ->
  exists bw b', bary_weights pts = Ok bw /\ vec_is bw n (gw x n) /\ lag_eval pts bw s b = Ok b' /\
    (((forall j, (j < n)%nat -> ~ near s (x j)) /\ vec_is b' n (fun j => lagr n x j s)) \/
     exists j, (j < n)%nat /\ near s (x j) /\ (forall i, (i < j)%nat -> ~ near s (x i)) /\ vec_is b' n (unitv j)).
Proof.
  intros P D L. destruct (bary_weights_gen pts n x P) as (bw & E & W).
  destruct (lag_eval_gen pts bw b n x (gw x n) s P W L) as (b' & m & M & E' & V).
  exists bw, b'. split; auto. split; auto. split; auto. destruct m as [j|]; simpl in M.
  - right. exists j. destruct M as (Hj & Ma & Mf). split; auto. split; [apply almost_near; auto|].
    split; [intros i Hi; apply almost_near_f; auto|]. exact V.
  - left. split; [intros j Hj; apply almost_near_f; auto|].
    eapply vec_is_ext; [exact V|]. intros i Hi. cbv beta. apply gterm_R; auto.
    intros j Hj Ej. apply M in Hj. rewrite <- Ej in Hj. apply almost_near_f in Hj. apply Hj. apply near_refl.
Qed.
Lemma lagr_is_derive_n n x j k s : (j < n)%nat -> is_derive_n (lagr n x j) k s (Derive_n (lagr n x j) k s).
Proof.
  intros Hj. apply (is_derive_n_chain (fun k => Derive_n (lagr n x j) k)). intros i u.
  apply (isPoly_is_derive n). apply lagr_poly; auto.
Qed.
Lemma lag_impl_R (pts : vec R) n x k : vec_is pts n x -> distinct n x ->
  exists m, lag_derivative_matrix_impl pts k = Ok m /\ mat_is m n n (lagD n x k).
Proof.
  intros P D. destruct (lag_impl_gen pts n x k P) as (m & E & M). exists m. split; auto.
  eapply mat_is_ext; [exact M|]. intros i j Hi Hj. apply gD_R; auto.
Qed.
(** evaluation of derivatives where the value is not snapped away from s *)
Definition exact_at (n : nat) (x : nat -> R) (s : R) : Prop :=
  (forall j, (j < n)%nat -> ~ near s (x j)) \/ (exists j, (j < n)%nat /\ s = x j /\ separated n x).
Lemma lag_eval_exact (pts b : vec R) n x s : vec_is pts n x -> distinct n x -> vlen b = n -> exact_at n x s ->
  exists bw b', bary_weights pts = Ok bw /\ vec_is bw n (gw x n) /\ lag_eval pts bw s b = Ok b' /\
    vec_is b' n (fun j => lagr n x j s).
Proof.
  intros P D L X. destruct (lag_eval_R pts b n x s P D L) as (bw & b' & E & W & E' & V).
  exists bw, b'. split; auto. split; auto. split; auto.
  destruct V as [[_ V]|(j & Hj & N & F & V)]; auto.
  destruct X as [X|(i & Hi & -> & S)]; [exfalso; apply (X j); auto|].
  destruct (Nat.eq_dec i j) as [->|Hne]; [|exfalso; apply (S i j); auto].
  eapply vec_is_ext; [exact V|]. intros a Ha. cbv beta. rewrite lagr_delta by auto. unfold unitv.
  destruct (Nat.eqb_spec a j); destruct (Nat.eqb_spec j a); auto; congruence.
Qed.
Lemma lag_eval_deriv_R (pts b : vec R) n x s tau k : vec_is pts n x -> distinct n x -> vlen b = n -> exact_at n x s ->
  exists bw b', bary_weights pts = Ok bw /\ lag_eval_deriv pts bw s tau k b = Ok b' /\
    vec_is b' n (fun j => (2 / tau) ^ k * Derive_n (lagr n x j) k s).
Proof.
  intros P D L X. destruct (lag_eval_exact pts b n x s P D L X) as (bw & b0 & E & W & E0 & V0).
  destruct (lag_eval_deriv_gen pts bw b n x (gw x n) s tau k P W L) as (b' & b1 & V & E1 & V1 & E' & V').
  rewrite E0 in E1. injection E1 as <-.
  exists bw, b'. split; auto. split; auto. eapply vec_is_ext; [exact V'|]. intros j Hj. cbv beta.
  assert (VV : forall i, (i < n)%nat -> V i = lagr n x i s).
  { intros i Hi. destruct V0 as [_ V0]. destruct V1 as [_ V1]. specialize (V0 i Hi). specialize (V1 i Hi). congruence. }
  destruct k as [|k].
  - simpl. rewrite VV by auto. ring.
  - rewrite nsum_R, npown_pow. unfold c2. rnum. rewrite Rmult_comm. f_equal.
    rewrite <- (lagr_deriv_expand n x (S k) j s) by auto. apply Rsum_ext. intros i Hi.
    rewrite gD_R, VV by auto. reflexivity.
Qed.
Lemma lag_eval_deriv_tau_R (pts b : vec R) n x s tau k : vec_is pts n x -> distinct n x -> vlen b = n -> exact_at n x s ->
  exists bw b', bary_weights pts = Ok bw /\ lag_eval_deriv_tau pts bw s tau k b = Ok b' /\
    vec_is b' n (fun j => (2 / tau) ^ k * Derive_n (lagr n x j) k s * (- (1 / 2) * INR k * (2 / tau))).
Proof.
  intros P D L X. destruct (lag_eval_deriv_R pts b n x s tau k P D L X) as (bw & b' & E & E' & V).
  exists bw. unfold lag_eval_deriv_tau. rewrite E'. cbn [bind]. eexists. split; auto. split; [reflexivity|].
  pose proof (vscale_is _ _ _ (nopp (@nhalf R Rnum) * nofnat k * (c2 / tau)) V) as V2.
  unfold nhalf, c2 in *. rnum. rewrite nofnat_INR in *. exact V2.
Qed.
Lemma lagr_time_derive n x j k t0 tau t : (j < n)%nat ->
  is_derive_n (fun u => lagr n x j (window t0 tau u)) k t ((2 / tau) ^ k * Derive_n (lagr n x j) k (window t0 tau t)).
Proof.
  intros Hj.
  assert (H := is_derive_n_chain (fun m u => (2 / tau) ^ m * Derive_n (lagr n x j) m (window t0 tau u)) k t).
  cbv beta in H.
  assert (E : forall f g : R -> R, (forall u, f u = g u) -> forall l, is_derive_n f k t l -> is_derive_n g k t l).
  { intros f g Efg l. apply is_derive_n_ext. auto. }
  eapply E; [|apply H].
  - intros u. simpl. ring.
  - intros m u. eapply is_derive_eq.
    + apply d_scal. apply (d_comp (Derive_n (lagr n x j) m) (window t0 tau)).
      * apply (isPoly_is_derive n). apply lagr_poly; auto.
      * apply window_derive.
    + simpl. ring.
Qed.
Lemma pow_tau_derive k c tau : tau <> 0 ->
  is_derive (fun th => (2 / th) ^ k * c) tau ((2 / tau) ^ k * c * (- (1 / 2) * INR k * (2 / tau))).
Proof.
  intros Ht. eapply is_derive_eq.
  - apply d_scalr. apply (d_pow (fun th => 2 / th)). unfold Rdiv. apply d_scal. apply (d_inv (fun y => y)); [apply d_id|auto].
  - destruct k; [simpl; ring|]. simpl pred. simpl pow. field. auto.
Qed.

(** change of points *)
Lemma anym_true y x n : anym y x n = true <-> exists j, (j < n)%nat /\ near y (x j).
Proof.
  induction n; simpl.
  - split; [discriminate|]. intros (j & Hj & _); lia.
  - rewrite orb_true_iff, IHn, almost_near. split.
    + intros [(j & Hj & A)|A]; [exists j; split; auto|exists n; split; auto].
    + intros (j & Hj & A). destruct (Nat.eq_dec j n) as [->|]; [right; auto|left; exists j; split; [lia|auto]].
Qed.
Lemma flagged_true y x n k : flagged y x n k = true <-> exists i j, (i < k)%nat /\ (j < n)%nat /\ near (y i) (x j).
Proof.
  induction k; simpl.
  - split; [discriminate|]. intros (i & j & Hi & _); lia.
  - rewrite orb_true_iff, IHk, anym_true. split.
    + intros [(i & j & Hi & Hj & A)|(j & Hj & A)]; [exists i, j|exists k, j]; auto.
    + intros (i & j & Hi & Hj & A). destruct (Nat.eq_dec i k) as [->|]; [right; eauto|left; exists i, j; repeat split; auto; lia].
Qed.
Lemma lag_change_R (old new : vec R) n r x y : vec_is old n x -> vec_is new r y -> distinct n x ->
  exists m M, lag_change old new = Ok m /\ mat_is m r n M /\
    forall k j, (k < r)%nat -> (j < n)%nat ->
      ((forall i l, (i <= k)%nat -> (l < n)%nat -> ~ near (y i) (x l)) -> M k j = lagr n x j (y k)) /\
      ((exists i l, (i <= k)%nat /\ (l < n)%nat /\ near (y i) (x l)) ->
         (near (y k) (x j) -> M k j = 1) /\ (~ near (y k) (x j) -> M k j = 0)).
Proof.
  intros P Q D. destruct (lag_change_gen old new n r x y P Q) as (m & E & M). exists m, (gchange x y n).
  split; auto. split; auto. intros k j Hk Hj. unfold gchange. split.
  - intros Hn. destruct (flagged y x n (S k)) eqn:F.
    + exfalso. apply flagged_true in F. destruct F as (i & l & Hi & Hl & A). apply (Hn i l); auto. lia.
    + apply gterm_R; auto. intros i Hi Ei. apply (Hn k i); auto. rewrite Ei. apply near_refl.
  - intros (i & l & Hi & Hl & A). replace (flagged y x n (S k)) with true.
    + split; intros B.
      * apply almost_near in B. rewrite B. reflexivity.
      * apply almost_near_f in B. rewrite B. reflexivity.
    + symmetry. apply flagged_true. exists i, l. repeat split; auto. lia.
Qed.

(** Gram matrix, tau derivative *)
Lemma lag_add_gram_R dim buf tau k m M b B : mat_is m dim dim M -> (k <= dim)%nat -> nth_error buf k = Some b -> mat_is b dim dim B ->
  exists m', lag_add_gram dim buf tau k m = Ok m' /\ mat_is m' dim dim (fun i j => M i j + B i j * leg_scale tau k).
Proof.
  intros Mm Hk Eb Mb. unfold lag_add_gram. destruct (Nat.ltb_spec k (dim + 1)); [|lia]. rewrite Eb.
  match goal with |- context [madd_scaled m b ?x] =>
    destruct (madd_scaled_is m b dim dim M B x Mm Mb) as (m' & E' & M') end. exists m'. split; [exact E'|].
  eapply mat_is_ext; [exact M'|]. intros i j Hi Hj. rnum. f_equal. f_equal. unfold leg_scale.
  destruct k as [|k]; [reflexivity|]. replace (Nat.ltb 0 (S k)) with true by reflexivity.
  rewrite npown_pow. replace (2 * S k - 1)%nat with (2 * k + 1)%nat by lia. reflexivity.
Qed.
Lemma lag_add_gram_tau_R dim buf tau k m M b B : mat_is m dim dim M -> (k <= dim)%nat -> nth_error buf k = Some b -> mat_is b dim dim B ->
  exists m', lag_add_gram_tau dim buf tau k m = Ok m' /\ mat_is m' dim dim (fun i j => M i j + B i j * leg_scale_tau tau k).
Proof.
  intros Mm Hk Eb Mb. unfold lag_add_gram_tau. destruct (Nat.ltb_spec k (dim + 1)); [|lia]. rewrite Eb.
  match goal with |- context [madd_scaled m b ?x] =>
    destruct (madd_scaled_is m b dim dim M B x Mm Mb) as (m' & E' & M') end. exists m'. split; [exact E'|].
  eapply mat_is_ext; [exact M'|]. intros i j Hi Hj. simpl nadd. simpl nmul. f_equal. f_equal. unfold leg_scale_tau.
  destruct k as [|k]; [reflexivity|]. replace (Nat.ltb 0 (S k)) with true by reflexivity.
  rewrite npown_pow, nofnat_INR. reflexivity.
Qed.
Lemma lag_add_gram_big dim buf tau k (m : mat R) : (dim < k)%nat ->
  lag_add_gram dim buf tau k m = Ok m /\ lag_add_gram_tau dim buf tau k m = Ok m.
Proof.
  intros. unfold lag_add_gram, lag_add_gram_tau. destruct (Nat.ltb_spec k (dim + 1)); [lia|]. auto.
Qed.
