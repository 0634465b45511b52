(** What the assembly writes, interval by interval, and the whole matrix. *)
From Coquelicot Require Import Coquelicot.
From Coq Require Import List Arith Lia Bool ZArith.
From Verif Require Import Num Outcome LinAlg BasisModel BasisProofs ToolsModel GSplineModel InterpModel InterpSpec InterpProofs.
Import ListNotations.
Local Open Scope nat_scope.

Section Assembly.
Context {T : Type} `{Num T}.
Variables (h c n : nat).
Hypothesis Hh : 1 <= h.
Hypothesis Hn : 1 <= n.
Let dim := 2 * h.
(** values of the k-th derivative of function bb at the left and right end of interval iv *)
Variables L Rr : nat -> nat -> nat -> T.

Inductive ent : cond -> nat -> nat -> (nat -> T) -> Prop :=
| ent_start iv cc : ent (CStart iv cc) iv cc (L iv 0)
| ent_end iv cc : ent (CEnd iv cc) iv cc (Rr iv 0)
| ent_left iv cc d : ent (CCont iv cc d) iv cc (fun bb => nmul n1 (Rr iv (S d) bb))
| ent_right iv cc d : ent (CCont iv cc d) (S iv) cc (fun bb => nmul (nopp n1) (L (S iv) (S d) bb))
| ent_first cc d : ent (CFirst cc d) 0 cc (L 0 (S d))
| ent_last cc d : ent (CLast cc d) (n - 1) cc (Rr (n - 1) (S d)).

Definition EI (iv : nat) : nat -> nat -> T -> Prop := fun i j x =>
  exists q cc f bb, cond_ok dim c n q /\ ent q iv cc f /\ i = rowof dim c n q /\ bb < dim /\ j = (iv * c + cc) * dim + bb /\ x = f bb.

Definition Epos (i0 j0 : nat) (F : nat -> T) : nat -> nat -> T -> Prop := fun i j x =>
  exists cc bb, cc < c /\ bb < dim /\ i = i0 + cc /\ j = j0 + cc * dim + bb /\ x = F bb.
Definition Econt (i0 j0 : nat) (minus : bool) (F : nat -> nat -> T) : nat -> nat -> T -> Prop := fun i j x =>
  exists cc d bb, cc < c /\ d < dim - 2 /\ bb < dim /\ i = i0 + cc * (dim - 2) + d /\ j = j0 + cc * dim + bb /\
    x = nmul (if minus then nopp n1 else n1) (F (S d) bb).
Definition Ebnd (i0 j0 : nat) (F : nat -> nat -> T) : nat -> nat -> T -> Prop := fun i j x =>
  exists cc d bb, cc < c /\ d < h - 1 /\ bb < dim /\ i = i0 + cc * (h - 1) + d /\ j = j0 + cc * dim + bb /\ x = F (S d) bb.

Lemma jeq iv cc bb : (iv * c + cc) * dim + bb = iv * (c * dim) + cc * dim + bb.
Proof. ring. Qed.
Lemma d2 : dim / 2 = h.
Proof. apply dim_half; exact Hh. Qed.

Ltac facts := destruct (mult_facts h c Hh) as (F1 & F2 & F3 & F4 & F5); fold dim in F1, F2, F3, F4, F5; assert (F6 : c <= c * h) by nia.
Ltac give q := exists q; eexists; eexists; eexists; split; [unfold cond_ok; rewrite ?d2; lia|]; split; [constructor|];
   split; [unfold rowof; rewrite ?d2|split; [eassumption|split; [rewrite jeq; lia|reflexivity]]].
Ltac fin := repeat split; try lia; try reflexivity.
Lemma EI_first_one : n = 1 -> forall i j x,
  eor (eor (eor (Epos 0 0 (L 0 0)) (Ebnd c 0 (L 0))) (Epos (c + c * (h - 1)) 0 (Rr 0 0))) (Ebnd (c + c * (h - 1) + c) 0 (Rr 0)) i j x <-> EI 0 i j x.
Proof.
  intros N i j x. facts. unfold eor, Epos, Ebnd. split.
  - intros [[[H0|H0]|H0]|H0].
    + destruct H0 as (cc & bb & Hc & Hb & -> & -> & ->). give (CStart 0 cc). lia.
    + destruct H0 as (cc & d & bb & Hc & Hd & Hb & -> & -> & ->). give (CFirst cc d). lia.
    + destruct H0 as (cc & bb & Hc & Hb & -> & -> & ->). give (CEnd 0 cc). lia.
    + destruct H0 as (cc & d & bb & Hc & Hd & Hb & -> & -> & ->).
      exists (CLast cc d), cc, (Rr 0 (S d)), bb. split; [unfold cond_ok; rewrite d2; lia|].
      split; [pose proof (ent_last cc d) as X; rewrite N in X; exact X|].
      split; [unfold rowof; rewrite d2, N; simpl Nat.eqb; cbv iota; lia|]. split; auto.
  - intros (q & cc & f & bb & Hq & En & -> & Hb & -> & ->). rewrite jeq. unfold cond_ok in Hq. rewrite ?d2 in Hq.
    remember 0 as z eqn:Z in En. unfold rowof; rewrite ?d2. destruct En; subst; try lia.
    + left; left; left. exists cc, bb. fin.
    + left; right. exists cc, bb. fin.
    + left; left; right. exists cc, d, bb. fin.
    + right. exists cc, d, bb. simpl Nat.eqb. fin.
Qed.
Lemma EI_first : n <> 1 -> forall i j x,
  eor (eor (eor (Epos 0 0 (L 0 0)) (Ebnd c 0 (L 0))) (Epos (c + c * (h - 1)) 0 (Rr 0 0))) (Econt (c + c * (h - 1) + c) 0 false (Rr 0)) i j x <-> EI 0 i j x.
Proof.
  intros N i j x. facts. unfold eor, Epos, Ebnd, Econt. split.
  - intros [[[H0|H0]|H0]|H0].
    + destruct H0 as (cc & bb & Hc & Hb & -> & -> & ->). give (CStart 0 cc). lia.
    + destruct H0 as (cc & d & bb & Hc & Hd & Hb & -> & -> & ->). give (CFirst cc d). lia.
    + destruct H0 as (cc & bb & Hc & Hb & -> & -> & ->). give (CEnd 0 cc). lia.
    + destruct H0 as (cc & d & bb & Hc & Hd & Hb & -> & -> & ->). give (CCont 0 cc d). lia.
  - intros (q & cc & f & bb & Hq & En & -> & Hb & -> & ->). rewrite jeq. unfold cond_ok in Hq. rewrite ?d2 in Hq.
    remember 0 as z eqn:Z in En. unfold rowof; rewrite ?d2. destruct En; subst; try lia.
    + left; left; left. exists cc, bb. fin.
    + left; right. exists cc, bb. fin.
    + right. exists cc, d, bb. fin.
    + left; left; right. exists cc, d, bb. fin.
Qed.
Lemma EI_interior k i0 : S (S k) < n -> i0 = c * (h + 1) + k * (dim * c) -> forall i j x,
  eor (eor (eor (Econt i0 (S k * (c * dim)) true (L (S k))) (Epos (i0 + c * (dim - 2)) (S k * (c * dim)) (L (S k) 0)))
           (Epos (i0 + c * (dim - 2) + c) (S k * (c * dim)) (Rr (S k) 0)))
      (Econt (i0 + c * (dim - 2) + c + c) (S k * (c * dim)) false (Rr (S k))) i j x <-> EI (S k) i j x.
Proof.
  intros N -> i j x. facts. unfold eor, Epos, Ebnd, Econt.
  assert (K : S k * (dim * c) = k * (dim * c) + dim * c) by lia. split.
  - intros [[[H0|H0]|H0]|H0].
    + destruct H0 as (cc & d & bb & Hc & Hd & Hb & -> & -> & ->). give (CCont k cc d). lia.
    + destruct H0 as (cc & bb & Hc & Hb & -> & -> & ->). give (CStart (S k) cc). lia.
    + destruct H0 as (cc & bb & Hc & Hb & -> & -> & ->). give (CEnd (S k) cc). destruct (Nat.eqb_spec (S (S k)) n); lia.
    + destruct H0 as (cc & d & bb & Hc & Hd & Hb & -> & -> & ->). give (CCont (S k) cc d). lia.
  - intros (q & cc & f & bb & Hq & En & -> & Hb & -> & ->). rewrite jeq. unfold cond_ok in Hq. rewrite ?d2 in Hq.
    remember (S k) as z eqn:Z in En. unfold rowof; rewrite ?d2. destruct En; subst; try lia.
    + left; left; right. exists cc, bb. fin.
    + left; right. exists cc, bb. destruct (Nat.eqb_spec (S (S k)) n); fin.
    + right. exists cc, d, bb. fin.
    + injection Z as ->. left; left; left. exists cc, d, bb. fin.
Qed.
Lemma EI_last k i0 : S (S k) = n -> i0 = c * (h + 1) + k * (dim * c) -> forall i j x,
  eor (eor (eor (Econt i0 (S k * (c * dim)) true (L (S k))) (Epos (i0 + c * (dim - 2)) (S k * (c * dim)) (L (S k) 0)))
           (Ebnd (i0 + c * (dim - 2) + c) (S k * (c * dim)) (Rr (S k))))
      (Epos (i0 + c * (dim - 2) + c + c * (h - 1)) (S k * (c * dim)) (Rr (S k) 0)) i j x <-> EI (S k) i j x.
Proof.
  intros N -> i j x. facts. unfold eor, Epos, Ebnd, Econt.
  assert (N1 : n - 1 = S k) by lia. assert (N2 : n - 2 = k) by lia.
  assert (K : S k * (dim * c) = k * (dim * c) + dim * c) by lia. split.
  - intros [[[H0|H0]|H0]|H0].
    + destruct H0 as (cc & d & bb & Hc & Hd & Hb & -> & -> & ->). give (CCont k cc d). lia.
    + destruct H0 as (cc & bb & Hc & Hb & -> & -> & ->). give (CStart (S k) cc). lia.
    + destruct H0 as (cc & d & bb & Hc & Hd & Hb & -> & -> & ->).
      exists (CLast cc d), cc, (Rr (S k) (S d)), bb. split; [unfold cond_ok; rewrite d2; lia|].
      split; [pose proof (ent_last cc d) as X; rewrite N1 in X; exact X|].
      split; [unfold rowof; rewrite d2, N2; destruct (Nat.eqb_spec n 1); lia|]. split; auto. split; auto. rewrite jeq. lia.
    + destruct H0 as (cc & bb & Hc & Hb & -> & -> & ->). give (CEnd (S k) cc). destruct (Nat.eqb_spec (S (S k)) n); lia.
  - intros (q & cc & f & bb & Hq & En & -> & Hb & -> & ->). rewrite jeq. unfold cond_ok in Hq. rewrite ?d2 in Hq.
    remember (S k) as z eqn:Z in En. unfold rowof; rewrite ?d2. destruct En; subst iv || idtac; try lia.
    + left; left; right. exists cc, bb. fin.
    + right. exists cc, bb. destruct (Nat.eqb_spec (S (S k)) n); fin.
    + injection Z as ->. left; left; left. exists cc, d, bb. fin.
    + left; right. rewrite N1, N2. destruct (Nat.eqb_spec n 1); [lia|]. exists cc, d, bb. fin.
Qed.

(** ** the assembly *)
Variable tf : nat -> T.
Variable ev : T -> T -> nat -> vec T -> outcome (vec T).
Hypothesis evL : forall iv, iv < n -> ev_ok dim ev (nopp n1) (tf iv) (L iv).
Hypothesis evR : forall iv, iv < n -> ev_ok dim ev n1 (tf iv) (Rr iv).
Let N := dim * c * n.


Lemma pos_step i0 j0 (bufs : vec T * mat T) (F : nat -> nat -> T) m : vec_is (fst bufs) dim (F 0) -> srows m = N -> scols m = N ->
  i0 + c <= N -> j0 + c * dim <= N ->
  exists m', fill_position c dim i0 j0 (fst bufs) m = Ok m' /\ srows m' = N /\ scols m' = N /\ wrote m m' (Epos i0 j0 (F 0)).
Proof.
  intros V R C Hi Hj. destruct (fill_position_wrote dim c i0 j0 (fst bufs) (F 0) m V) as (m' & E & W); [lia|lia|].
  exists m'. split; auto. pose proof W as (R' & C' & _). split; [congruence|]. split; [congruence|]. exact W.
Qed.
Lemma cont_step i0 j0 minus (bufs : vec T * mat T) (F : nat -> nat -> T) m : mat_is (snd bufs) dim (dim - 2) (fun bb d => F (S d) bb) -> srows m = N -> scols m = N ->
  i0 + c * (dim - 2) <= N -> j0 + c * dim <= N ->
  exists m', fill_continuity c dim i0 j0 minus (snd bufs) m = Ok m' /\ srows m' = N /\ scols m' = N /\ wrote m m' (Econt i0 j0 minus F).
Proof.
  intros V R C Hi Hj. destruct (fill_continuity_wrote dim c i0 j0 minus (snd bufs) _ m V) as (m' & E & W); [lia|lia|].
  exists m'. split; auto. pose proof W as (R' & C' & _). split; [congruence|]. split; [congruence|]. exact W.
Qed.
Lemma bnd_step i0 j0 (bufs : vec T * mat T) (F : nat -> nat -> T) m : mat_is (snd bufs) dim (dim - 2) (fun bb d => F (S d) bb) -> srows m = N -> scols m = N ->
  i0 + c * (h - 1) <= N -> j0 + c * dim <= N ->
  exists m', fill_boundary c dim i0 j0 (snd bufs) m = Ok m' /\ srows m' = N /\ scols m' = N /\ wrote m m' (Ebnd i0 j0 F).
Proof.
  intros V R C Hi Hj. destruct (fill_boundary_wrote dim c i0 j0 (snd bufs) (fun bb d => F (S d) bb) m) as (m' & E & W); [rewrite d2; unfold dim; lia|exact V|rewrite d2; lia|lia|].
  exists m'. split; auto. pose proof W as (R' & C' & _). split; [congruence|]. split; [congruence|]. rewrite d2 in W. exact W.
Qed.
Lemma rows_below k : k < n -> k * (dim * c) + dim * c <= N.
Proof.
  intros Hk. unfold N. rewrite (Nat.mul_comm _ n). replace (k * (dim * c) + dim * c) with (S k * (dim * c)) by lia.
  apply Nat.mul_le_mono_r. lia.
Qed.

Ltac bufs_at Ev b0 Sh0 b' Sh Vp Vd := let E := fresh "E" in destruct (fill_bufs_ok dim ev _ _ _ b0 Ev Sh0) as (b' & E & Sh & Vp & Vd); rewrite E; clear E; cbn [bind].
Ltac step_at lem m' R C W := let E := fresh "E" in destruct lem as (m' & E & R & C & W); [eassumption|eassumption|eassumption|lia|lia|]; rewrite E; clear E; cbn [bind].

(** the sequence of lines 60-71 and 274-285 *)
Lemma first_ok {A} bufs m (k : (vec T * mat T) -> smat T -> outcome A) : bufs_shape dim bufs -> srows m = N -> scols m = N ->
  exists bufs' m', bufs_shape dim bufs' /\ srows m' = N /\ scols m' = N /\
    mat_is (snd bufs') dim (dim - 2) (fun bb d => Rr 0 (S d) bb) /\
    wrote m m' (eor (eor (Epos 0 0 (L 0 0)) (Ebnd c 0 (L 0))) (Epos (c + c * (h - 1)) 0 (Rr 0 0))) /\
    (bufs <- fill_bufs ev dim (nopp n1) (tf 0) bufs ;;
     m <- fill_position c dim 0 0 (fst bufs) m ;;
     m <- fill_boundary c dim c 0 (snd bufs) m ;;
     bufs <- fill_bufs ev dim n1 (tf 0) bufs ;;
     m <- fill_position c dim (c + c * (dim / 2 - 1)) 0 (fst bufs) m ;; k bufs m) = k bufs' m'.
Proof.
  intros Sh R C. facts. pose proof (rows_below 0 ltac:(lia)) as B.
  bufs_at (evL 0 ltac:(lia)) bufs Sh b1 Sh1 Vp1 Vd1.
  step_at (pos_step 0 0 b1 (L 0) m) m1 R1 C1 W1.
  step_at (bnd_step c 0 b1 (L 0) m1) m2 R2 C2 W2.
  bufs_at (evR 0 ltac:(lia)) b1 Sh1 b3 Sh3 Vp3 Vd3. rewrite d2.
  step_at (pos_step (c + c * (h - 1)) 0 b3 (Rr 0) m2) m4 R4 C4 W4.
  exists b3, m4. split; auto. split; auto. split; auto. split; auto. split; auto.
  eapply wrote_trans; [eapply wrote_trans; eassumption|eassumption].
Qed.
(** lines 82-96 and 295-315 *)
Lemma interior_ok {A} j i0 bufs m (k : (vec T * mat T) -> smat T -> outcome A) :
  S (S j) < n -> i0 = c * (h + 1) + j * (dim * c) -> bufs_shape dim bufs -> srows m = N -> scols m = N ->
  exists bufs' m', bufs_shape dim bufs' /\ srows m' = N /\ scols m' = N /\ wrote m m' (EI (S j)) /\
    (bufs <- fill_bufs ev dim (nopp n1) (tf (S j)) bufs ;;
     m <- fill_continuity c dim i0 (S j * (c * dim)) true (snd bufs) m ;;
     m <- fill_position c dim (i0 + c * (dim - 2)) (S j * (c * dim)) (fst bufs) m ;;
     bufs <- fill_bufs ev dim n1 (tf (S j)) bufs ;;
     m <- fill_position c dim (i0 + c * (dim - 2) + c) (S j * (c * dim)) (fst bufs) m ;;
     m <- fill_continuity c dim (i0 + c * (dim - 2) + c + c) (S j * (c * dim)) false (snd bufs) m ;; k bufs m) = k bufs' m'.
Proof.
  intros Hj Hi Sh R C. facts. pose proof (rows_below (S (S j)) ltac:(lia)) as B.
  assert (K : S (S j) * (dim * c) = j * (dim * c) + 2 * (dim * c)) by ring.
  assert (J : S j * (c * dim) = j * (dim * c) + dim * c) by ring. assert (J' : c * dim = dim * c) by ring.
  bufs_at (evL (S j) ltac:(lia)) bufs Sh b1 Sh1 Vp1 Vd1.
  step_at (cont_step i0 (S j * (c * dim)) true b1 (L (S j)) m) m1 R1 C1 W1.
  step_at (pos_step (i0 + c * (dim - 2)) (S j * (c * dim)) b1 (L (S j)) m1) m2 R2 C2 W2.
  bufs_at (evR (S j) ltac:(lia)) b1 Sh1 b3 Sh3 Vp3 Vd3.
  step_at (pos_step (i0 + c * (dim - 2) + c) (S j * (c * dim)) b3 (Rr (S j)) m2) m4 R4 C4 W4.
  step_at (cont_step (i0 + c * (dim - 2) + c + c) (S j * (c * dim)) false b3 (Rr (S j)) m4) m5 R5 C5 W5.
  exists b3, m5. split; auto. split; auto. split; auto. split; auto.
  eapply wrote_iff; [eapply wrote_trans; [eapply wrote_trans; [eapply wrote_trans; eassumption|eassumption]|eassumption]|].
  apply EI_interior; auto.
Qed.
(** lines 98-110 and 319-336 *)
Lemma last_ok {A} j i0 bufs m (k : (vec T * mat T) -> smat T -> outcome A) :
  S (S j) = n -> i0 = c * (h + 1) + j * (dim * c) -> bufs_shape dim bufs -> srows m = N -> scols m = N ->
  exists bufs' m', bufs_shape dim bufs' /\ srows m' = N /\ scols m' = N /\ wrote m m' (EI (S j)) /\
    (bufs <- fill_bufs ev dim (nopp n1) (tf (S j)) bufs ;;
     m <- fill_continuity c dim i0 (S j * (c * dim)) true (snd bufs) m ;;
     m <- fill_position c dim (i0 + c * (dim - 2)) (S j * (c * dim)) (fst bufs) m ;;
     bufs <- fill_bufs ev dim n1 (tf (S j)) bufs ;;
     m <- fill_boundary c dim (i0 + c * (dim - 2) + c) (S j * (c * dim)) (snd bufs) m ;;
     m <- fill_position c dim (i0 + c * (dim - 2) + c + c * (dim / 2 - 1)) (S j * (c * dim)) (fst bufs) m ;; k bufs m) = k bufs' m'.
Proof.
  intros Hj Hi Sh R C. facts. pose proof (rows_below (S j) ltac:(lia)) as B.
  assert (K : S j * (dim * c) = j * (dim * c) + dim * c) by ring.
  assert (J : S j * (c * dim) = j * (dim * c) + dim * c) by ring. assert (J' : c * dim = dim * c) by ring.
  bufs_at (evL (S j) ltac:(lia)) bufs Sh b1 Sh1 Vp1 Vd1.
  step_at (cont_step i0 (S j * (c * dim)) true b1 (L (S j)) m) m1 R1 C1 W1.
  step_at (pos_step (i0 + c * (dim - 2)) (S j * (c * dim)) b1 (L (S j)) m1) m2 R2 C2 W2.
  bufs_at (evR (S j) ltac:(lia)) b1 Sh1 b3 Sh3 Vp3 Vd3. rewrite d2.
  step_at (bnd_step (i0 + c * (dim - 2) + c) (S j * (c * dim)) b3 (Rr (S j)) m2) m4 R4 C4 W4.
  step_at (pos_step (i0 + c * (dim - 2) + c + c * (h - 1)) (S j * (c * dim)) b3 (Rr (S j)) m4) m5 R5 C5 W5.
  exists b3, m5. split; auto. split; auto. split; auto. split; auto.
  eapply wrote_iff; [eapply wrote_trans; [eapply wrote_trans; [eapply wrote_trans; eassumption|eassumption]|eassumption]|].
  apply EI_last; auto.
Qed.
End Assembly.

Section Fill.
Context {T : Type} `{Num T}.
Variables (h c n : nat).
Hypothesis Hh : 1 <= h.
Hypothesis Hn : 1 <= n.
Let dim := 2 * h.
Let N := dim * c * n.
Variables L Rr : nat -> nat -> nat -> T.
Variable b : basis T.
Hypothesis Hb : b_dim b = dim.
Variables (tau : vec T) (tf : nat -> T).
Hypothesis Ht : vec_is tau n tf.

Notation EIs := (EI h c n L Rr).
Lemma fill_matrix_ok bufs m :
  (forall iv, iv < n -> ev_ok dim (b_eval_deriv b) (nopp n1) (tf iv) (L iv)) ->
  (forall iv, iv < n -> ev_ok dim (b_eval_deriv b) n1 (tf iv) (Rr iv)) ->
  bufs_shape dim bufs -> srows m = N -> scols m = N ->
  exists bufs' m', fill_matrix b c n tau bufs m = Ok (bufs', m') /\ bufs_shape dim bufs' /\ srows m' = N /\ scols m' = N /\
    wrote m m' (fun i j x => exists iv, iv < n /\ EIs iv i j x).
Proof.
  intros evL evR Sh R C. unfold fill_matrix. rewrite Hb.
  pose proof Ht as [Lt _]. rewrite Lt, Nat.eqb_refl. cbn [negb]. rewrite (vread_ok _ _ _ 0 Ht) by lia. cbn [bind]. cbv zeta.
  destruct (mult_facts h c Hh) as (F1 & F2 & F3 & F4 & F5). fold dim in F1, F2, F3, F4, F5. assert (F6 : c <= c * h) by nia.
  destruct (first_ok h c n Hh Hn L Rr tf _ evL evR bufs m (fun bufs m =>
     if n =? 1 then m <- fill_boundary c dim (c + c * (dim / 2 - 1) + c) 0 (snd bufs) m ;; Ok (bufs, m)
     else m <- fill_continuity c dim (c + c * (dim / 2 - 1) + c) 0 false (snd bufs) m ;;
          st <- for_ 1 (n - 1) (fill_interior b c tau) (c + c * (dim / 2 - 1) + c, c * dim, bufs, m) ;;
          fill_last b c n tau st) Sh R C) as (b1 & m1 & Sh1 & R1 & C1 & V1 & W1 & E1).
  fold dim in E1. rewrite E1. clear E1. pose proof (d2 h Hh) as D2. fold dim in D2. rewrite !D2.
  destruct (Nat.eqb_spec n 1) as [E|Ne].
  - destruct (bnd_step h c n Hh Hn (c + c * (h - 1) + c) 0 b1 (Rr 0) m1) as (m2 & E2 & R2 & C2 & W2); auto.
    { fold dim. fold N. pose proof (rows_below h c n Hh Hn 0 ltac:(lia)) as B. fold dim N in B. lia. }
    { fold dim. fold N. pose proof (rows_below h c n Hh Hn 0 ltac:(lia)) as B. fold dim N in B. lia. }
    fold dim in E2. rewrite E2. cbn [bind]. exists b1, m2. split; auto. split; auto. split; auto. split; auto.
    eapply wrote_iff; [exact (wrote_trans _ _ _ _ _ W1 W2)|]. intros i j x. rewrite (EI_first_one h c n Hh Hn L Rr E).
    split; [intros X; exists 0; split; [lia|exact X]|]. intros (iv & Hiv & X). replace iv with 0 in X by lia. exact X.
  - destruct (cont_step h c n Hh Hn (c + c * (h - 1) + c) 0 false b1 (Rr 0) m1) as (m2 & E2 & R2 & C2 & W2); auto.
    { fold dim. fold N. pose proof (rows_below h c n Hh Hn 1 ltac:(lia)) as B. fold dim N in B. lia. }
    { fold dim. fold N. pose proof (rows_below h c n Hh Hn 0 ltac:(lia)) as B. fold dim N in B. lia. }
    fold dim in E2. rewrite E2. cbn [bind].
    match goal with |- context [for_ 1 (n - 1) ?f ?v] =>
      destruct (for_ok (fun k (st : nat * nat * (vec T * mat T) * smat T) => let '(i0, j0, bufs, mm) := st in
         i0 = c * (h + 1) + (k - 1) * (dim * c) /\ j0 = k * (c * dim) /\ bufs_shape dim bufs /\ srows mm = N /\ scols mm = N /\
         wrote m mm (fun i j x => exists iv, iv < k /\ EIs iv i j x)) f 1 (n - 1) v) as ([[[i0 j0] b3] m3] & E3 & I3 & J3 & Sh3 & R3 & C3 & W3)
    end.
    + lia.
    + split; [lia|]. split; [lia|]. split; auto. split; auto. split; auto.
      eapply wrote_iff; [exact (wrote_trans _ _ _ _ _ W1 W2)|]. intros i j x. rewrite (EI_first h c n Hh Hn L Rr Ne).
      split; [intros X; exists 0; split; [lia|exact X]|]. intros (iv & Hiv & X). replace iv with 0 in X by lia. exact X.
    + intros k [[[i0 j0] b4] m4] Hk (I4 & J4 & Sh4 & R4 & C4 & W4). unfold fill_interior. rewrite Hb. cbv zeta.
      destruct k as [|k]; [lia|]. rewrite (vread_ok _ _ _ (S k) Ht) by lia. cbn [bind]. subst j0.
      destruct (interior_ok h c n Hh Hn L Rr tf _ evL evR k i0 b4 m4
         (fun bufs m => Ok (i0 + c * (dim - 2) + c + c, S k * (c * dim) + c * dim, bufs, m))) as (b5 & m5 & Sh5 & R5 & C5 & W5 & E5); auto.
      { lia. } { rewrite I4. fold dim. lia. }
      fold dim in E5. rewrite E5. eexists. split; [reflexivity|]. cbv beta iota.
      split. { assert (S k * (dim * c) = k * (dim * c) + dim * c) by lia. replace (S (S k) - 1) with (S k) by lia. replace (S k - 1) with k in I4 by lia. lia. }
      split; [lia|]. split; auto. split; auto. split; auto.
      eapply wrote_iff; [exact (wrote_trans _ _ _ _ _ W4 W5)|]. intros i j x. unfold eor. split.
      * intros [(iv & Hiv & X)|X]; [exists iv|exists (S k)]; split; auto; lia.
      * intros (iv & Hiv & X). destruct (Nat.eq_dec iv (S k)) as [->|Nk]; auto. left. exists iv. split; auto. lia.
    + rewrite E3. cbn [bind]. unfold fill_last. rewrite Hb. cbv zeta.
      rewrite (vread_ok _ _ _ (n - 1) Ht) by lia. cbn [bind]. subst j0.
      assert (exists j, n = S (S j)) as (j & En) by (exists (n - 2); lia).
      replace (n - 1) with (S j) in * by lia.
      destruct (last_ok h c n Hh Hn L Rr tf _ evL evR j i0 b3 m3 (fun bufs m => Ok (bufs, m))) as (b5 & m5 & Sh5 & R5 & C5 & W5 & E5); auto.
      { rewrite I3. replace (S j - 1) with j by lia. reflexivity. }
      fold dim in E5. rewrite E5. exists b5, m5. split; auto. split; auto. split; auto. split; auto.
      eapply wrote_iff; [exact (wrote_trans _ _ _ _ _ W3 W5)|]. intros i k x. unfold eor. split.
      * intros [(iv & Hiv & X)|X]; [exists iv|exists (S j)]; split; auto; lia.
      * intros (iv & Hiv & X). destruct (Nat.eq_dec iv (S j)) as [->|Nk]; auto. left. exists iv. split; auto. lia.
Qed.

Lemma fill_matrix_tau_ok idx bufs m : idx < n ->
  (forall iv, iv < n -> ev_ok dim (b_eval_deriv_tau b) (nopp n1) (tf iv) (L iv)) ->
  (forall iv, iv < n -> ev_ok dim (b_eval_deriv_tau b) n1 (tf iv) (Rr iv)) ->
  bufs_shape dim bufs -> srows m = N -> scols m = N ->
  exists bufs' m', fill_matrix_tau b c n tau idx bufs m = Ok (bufs', m') /\ bufs_shape dim bufs' /\ srows m' = N /\ scols m' = N /\
    wrote m m' (EIs idx).
Proof.
  intros Hidx evL evR Sh R C. unfold fill_matrix_tau. rewrite Hb. cbv zeta.
  destruct (mult_facts h c Hh) as (F1 & F2 & F3 & F4 & F5). fold dim in F1, F2, F3, F4, F5. assert (F6 : c <= c * h) by nia.
  destruct (Nat.eqb_spec idx 0) as [->|N0].
  - rewrite (vread_ok _ _ _ 0 Ht) by lia. cbn [bind].
    destruct (first_ok h c n Hh Hn L Rr tf _ evL evR bufs m (fun bufs m =>
       m <- (if n =? 1 then fill_boundary c dim (c + c * (dim / 2 - 1) + c) 0 (snd bufs) m
             else fill_continuity c dim (c + c * (dim / 2 - 1) + c) 0 false (snd bufs) m) ;; Ok (bufs, m)) Sh R C)
       as (b1 & m1 & Sh1 & R1 & C1 & V1 & W1 & E1).
    fold dim in E1. rewrite E1. clear E1. pose proof (d2 h Hh) as D2. fold dim in D2. rewrite !D2.
    destruct (Nat.eqb_spec n 1) as [E|Ne].
    + destruct (bnd_step h c n Hh Hn (c + c * (h - 1) + c) 0 b1 (Rr 0) m1) as (m2 & E2 & R2 & C2 & W2); auto.
      { fold dim. fold N. pose proof (rows_below h c n Hh Hn 0 ltac:(lia)) as B. fold dim N in B. lia. }
      { fold dim. fold N. pose proof (rows_below h c n Hh Hn 0 ltac:(lia)) as B. fold dim N in B. lia. }
      fold dim in E2. rewrite E2. cbn [bind]. exists b1, m2. split; auto. split; auto. split; auto. split; auto.
      eapply wrote_iff; [exact (wrote_trans _ _ _ _ _ W1 W2)|]. apply (EI_first_one h c n Hh Hn L Rr E).
    + destruct (cont_step h c n Hh Hn (c + c * (h - 1) + c) 0 false b1 (Rr 0) m1) as (m2 & E2 & R2 & C2 & W2); auto.
      { fold dim. fold N. pose proof (rows_below h c n Hh Hn 1 ltac:(lia)) as B. fold dim N in B. lia. }
      { fold dim. fold N. pose proof (rows_below h c n Hh Hn 0 ltac:(lia)) as B. fold dim N in B. lia. }
      fold dim in E2. rewrite E2. cbn [bind]. exists b1, m2. split; auto. split; auto. split; auto. split; auto.
      eapply wrote_iff; [exact (wrote_trans _ _ _ _ _ W1 W2)|]. apply (EI_first h c n Hh Hn L Rr Ne).
  - destruct idx as [|k]; [lia|].
    assert (J : S k * dim * c = S k * (c * dim)) by ring.
    destruct (Nat.ltb_spec (S k) (n - 1)) as [Hlt|Hge].
    + rewrite (vread_ok _ _ _ (S k) Ht) by lia. cbn [bind]. rewrite J.
      set (i0 := 2 * c + c * (dim / 2 - 1) + (c * (dim - 2) + 2 * c) * (S k - 1)).
      destruct (interior_ok h c n Hh Hn L Rr tf _ evL evR k i0 bufs m (fun bufs m => Ok (bufs, m))) as (b5 & m5 & Sh5 & R5 & C5 & W5 & E5); auto.
      { lia. }
      { unfold i0. rewrite F3. fold dim. rewrite F2. unfold dim. rewrite (d2 h Hh). replace (S k - 1) with k by lia. nia. }
      fold dim in E5. rewrite E5. exists b5, m5. auto.
    + destruct (Nat.eqb_spec (S k) (n - 1)) as [E|]; [|lia].
      rewrite (vread_ok _ _ _ (n - 1) Ht) by lia. rewrite <- E. cbn [bind]. rewrite J.
      set (i0 := (dim / 2 + 1) * c + dim * c * (S k - 1)).
      destruct (last_ok h c n Hh Hn L Rr tf _ evL evR k i0 bufs m (fun bufs m => Ok (bufs, m))) as (b5 & m5 & Sh5 & R5 & C5 & W5 & E5); auto.
      { lia. }
      { unfold i0. unfold dim. rewrite (d2 h Hh). replace (S k - 1) with k by lia. ring. }
      fold dim in E5. rewrite E5. exists b5, m5. auto.
Qed.
End Fill.
