(** Layout of the interpolation system: where each condition goes. *)
From Coquelicot Require Import Coquelicot.
From Coq Require Import List Arith Lia Bool ZArith.
From Verif Require Import Num Outcome LinAlg BasisModel BasisProofs ToolsModel GSplineModel InterpModel InterpSpec.
Import ListNotations.
Local Open Scope nat_scope.

(** ** rows *)
Definition rowof (dim c n : nat) (q : cond) : nat :=
  let h := dim / 2 in
  match q with
  | CStart 0 cc => cc
  | CStart (S k) cc => c * (h + 1) + k * (dim * c) + c * (dim - 2) + cc
  | CEnd 0 cc => c * h + cc
  | CEnd (S k) cc => c * (h + 1) + k * (dim * c) + c * (dim - 1) + (if S (S k) =? n then c * (h - 1) else 0) + cc
  | CCont k cc d => c * (h + 1) + k * (dim * c) + cc * (dim - 2) + d
  | CFirst cc d => c + cc * (h - 1) + d
  | CLast cc d => (if n =? 1 then c * (h + 1) else c * (h + 1) + (n - 2) * (dim * c) + c * (dim - 1)) + cc * (h - 1) + d
  end.

Section Rows.
Variables (h c n : nat).
Hypothesis Hh : 1 <= h.
Let dim := 2 * h.

Lemma dim_half : dim / 2 = h.
Proof. unfold dim. rewrite Nat.mul_comm. apply Nat.div_mul. lia. Qed.

(** with the products as atoms: K = c, P = c*h; c*dim = 2P *)
Lemma mult_facts : c * (h + 1) = c * h + c /\ dim * c = 2 * (c * h) /\ c * (dim - 2) + 2 * c = 2 * (c * h) /\
  c * (dim - 1) + c = 2 * (c * h) /\ c * (h - 1) + c = c * h.
Proof. unfold dim. repeat split; nia. Qed.
Lemma off1 cc d : cc < c -> d < h - 1 -> cc * (h - 1) + d < c * (h - 1).
Proof. apply pair_lt. Qed.
Lemma off2 cc d : cc < c -> d < dim - 2 -> cc * (dim - 2) + d < c * (dim - 2).
Proof. apply pair_lt. Qed.
Lemma step_le k k' : k < k' -> k * (dim * c) + dim * c <= k' * (dim * c).
Proof. intros. nia. Qed.


Hypothesis Hn1 : 1 <= n.
Local Notation ok := (cond_ok dim c n).

Lemma row_lt q : ok q -> rowof dim c n q < dim * c * n.
Proof.
  destruct mult_facts as (F1 & F2 & F3 & F4 & F5). intros Hq. unfold rowof. rewrite dim_half.
  assert (Hn : forall k, k < n -> k * (dim * c) + dim * c <= dim * c * n).
  { intros k Hk. rewrite (Nat.mul_comm _ n). replace (k * (dim * c) + dim * c) with (S k * (dim * c)) by lia.
    apply Nat.mul_le_mono_r. lia. }
  unfold cond_ok in Hq. rewrite ?dim_half in Hq.
  pose proof (Hn 0 ltac:(lia)) as H0. rewrite Nat.mul_0_l in H0.
  destruct q as [iv cc|iv cc|iv cc d|cc d|cc d].
  - destruct Hq as [Hi Hc]. destruct iv as [|k].
    + lia.
    + pose proof (Hn (S k) ltac:(lia)). simpl Nat.mul in H. lia.
  - destruct Hq as [Hi Hc]. destruct iv as [|k].
    + lia.
    + pose proof (Hn (S k) ltac:(lia)). simpl Nat.mul in H.
      destruct (Nat.eqb_spec (S (S k)) n); [lia|].
      pose proof (Hn (S (S k)) ltac:(lia)). simpl Nat.mul in H1. lia.
  - destruct Hq as (Hi & Hc & Hd). pose proof (Hn (S iv) ltac:(lia)). simpl Nat.mul in H.
    pose proof (off2 cc d Hc Hd). lia.
  - destruct Hq as (Hc & Hd). pose proof (off1 cc d Hc Hd). lia.
  - destruct Hq as (Hc & Hd). pose proof (off1 cc d Hc Hd). destruct (Nat.eqb_spec n 1); [lia|].
    pose proof (Hn (n - 1) ltac:(lia)). replace (n - 1) with (S (n - 2)) in H1 by lia. simpl Nat.mul in H1. lia.
Qed.

(** The rows in order: the start block, then one stretch of dim*c rows per interior breakpoint.  A row is
    (stretch, offset) with the offset deciding the kind. *)
Definition stretch (q : cond) : nat :=
  match q with
  | CStart 0 _ | CEnd 0 _ | CFirst _ _ => 0
  | CStart (S k) _ | CEnd (S k) _ => S k
  | CCont k _ _ => S k
  | CLast _ _ => if n =? 1 then 0 else n - 1
  end.
Lemma row_stretch q : ok q ->
  match stretch q with
  | 0 => rowof dim c n q < c * (h + 1) \/ n = 1
  | S k => c * (h + 1) + k * (dim * c) <= rowof dim c n q /\
           (rowof dim c n q < c * (h + 1) + k * (dim * c) + dim * c \/ S (S k) = n)
  end.
Proof.
  destruct mult_facts as (F1 & F2 & F3 & F4 & F5). intros Hq. unfold rowof. rewrite dim_half.
  unfold cond_ok in Hq. rewrite ?dim_half in Hq.
  destruct q as [[|k] cc|[|k] cc|iv cc d|cc d|cc d]; unfold stretch; cbv iota beta.
  - lia.
  - lia.
  - lia.
  - destruct (Nat.eqb_spec (S (S k)) n); lia.
  - destruct Hq as (Hi & Hc & Hd). pose proof (off2 cc d Hc Hd). lia.
  - destruct Hq as (Hc & Hd). pose proof (off1 cc d Hc Hd). lia.
  - destruct Hq as (Hc & Hd). pose proof (off1 cc d Hc Hd). destruct (Nat.eqb_spec n 1); [lia|].
    replace (n - 1) with (S (n - 2)) by lia. cbv iota. lia.
Qed.
Lemma stretch_lt q : ok q -> stretch q < n.
Proof.
  destruct q as [[|k] cc|[|k] cc|iv cc d|cc d|cc d]; simpl; intros; try lia. destruct (Nat.eqb_spec n 1); lia.
Qed.
Lemma stretch_inj q q' : ok q -> ok q' -> rowof dim c n q = rowof dim c n q' -> stretch q = stretch q'.
Proof.
  intros Hq Hq' E. pose proof (row_stretch q Hq) as A. pose proof (row_stretch q' Hq') as B.
  pose proof (stretch_lt q Hq) as A'. pose proof (stretch_lt q' Hq') as B'. rewrite <- E in B.
  destruct (stretch q) as [|k], (stretch q') as [|k']; auto; try lia.
  destruct (Nat.lt_trichotomy k k') as [L|[L|L]]; [|lia|]; pose proof (step_le _ _ L); lia.
Qed.

Lemma row_inj q q' : ok q -> ok q' -> rowof dim c n q = rowof dim c n q' -> q = q'.
Proof.
  intros Hq Hq' E. pose proof (stretch_inj q q' Hq Hq' E) as S0.
  destruct mult_facts as (F1 & F2 & F3 & F4 & F5). unfold rowof in E. rewrite dim_half in E.
  unfold cond_ok in Hq, Hq'. rewrite ?dim_half in Hq, Hq'.
  destruct q as [[|k] cc|[|k] cc|iv cc d|cc d|cc d], q' as [[|k'] cc'|[|k'] cc'|iv' cc' d'|cc' d'|cc' d'];
    unfold stretch in S0; cbv iota beta in S0;
    repeat match goal with
    | H : _ /\ _ |- _ => destruct H
    | H : context [n =? 1] |- _ => destruct (Nat.eqb_spec n 1)
    | H : context [S (S ?k) =? n] |- _ => destruct (Nat.eqb_spec (S (S k)) n)
    end; try lia;
    try (injection S0 as S0; subst);
    repeat match goal with
    | Hc : ?cc < c, Hd : ?d < h - 1 |- _ => lazymatch goal with _ : cc * (h - 1) + d < c * (h - 1) |- _ => fail | _ => pose proof (off1 cc d Hc Hd) end
    | Hc : ?cc < c, Hd : ?d < dim - 2 |- _ => lazymatch goal with _ : cc * (dim - 2) + d < c * (dim - 2) |- _ => fail | _ => pose proof (off2 cc d Hc Hd) end
    end; try lia.
  all: try (f_equal; lia).
  - replace (n - 2) with k in E by lia. lia.
  - destruct (pair_inj (dim - 2) cc d cc' d') as [-> ->]; [lia|lia|lia|reflexivity].
  - replace (n - 2) with iv in E by lia. lia.
  - destruct (pair_inj (h - 1) cc d cc' d') as [-> ->]; [lia|lia|lia|reflexivity].
  - destruct (pair_inj (h - 1) cc d cc' d') as [-> ->]; [lia|lia|lia|reflexivity].
  - destruct (pair_inj (h - 1) cc d cc' d') as [-> ->]; [lia|lia|lia|reflexivity].
Qed.

Lemma unpair w r m : r < m * w -> exists i y, i < m /\ y < w /\ r = i * w + y.
Proof.
  intros Hr. destruct w as [|w]; [lia|]. exists (r / S w), (r mod S w).
  split; [apply Nat.div_lt_upper_bound; lia|]. split; [apply Nat.mod_upper_bound; lia|].
  rewrite Nat.mul_comm. apply Nat.div_mod. lia.
Qed.
Lemma row_surj r : r < dim * c * n -> exists q, ok q /\ rowof dim c n q = r.
Proof.
  intros Hr. destruct mult_facts as (F1 & F2 & F3 & F4 & F5).
  unfold rowof, cond_ok. rewrite dim_half.
  destruct (Nat.ltb_spec r c). { exists (CStart 0 r). lia. }
  destruct (Nat.ltb_spec r (c * h)).
  { destruct (unpair (h - 1) (r - c) c) as (cc & d & H1 & H2 & H3); [lia|]. exists (CFirst cc d). lia. }
  destruct (Nat.ltb_spec r (c * h + c)). { exists (CEnd 0 (r - c * h)). lia. }
  destruct (Nat.eq_dec n 1) as [E|N1].
  { destruct (unpair (h - 1) (r - c * (h + 1)) c) as (cc & d & H2 & H3 & H4); [rewrite E in Hr; lia|].
    exists (CLast cc d). destruct (Nat.eqb_spec n 1); lia. }
  assert (Hk : exists k o, S k < n /\ r = c * (h + 1) + k * (dim * c) + o /\ (o < dim * c \/ S (S k) = n)).
  { destruct (Nat.ltb_spec (r - c * (h + 1)) ((n - 2) * (dim * c))) as [L|L].
    - destruct (unpair (dim * c) _ _ L) as (k & o & H2 & H3 & H4). exists k, o. lia.
    - exists (n - 2), (r - c * (h + 1) - (n - 2) * (dim * c)). lia. }
  destruct Hk as (k & o & Hk & -> & Ho).
  destruct (Nat.ltb_spec o (c * (dim - 2))).
  { destruct (unpair (dim - 2) o c) as (cc & d & H3 & H4 & H5); [lia|]. exists (CCont k cc d). lia. }
  destruct (Nat.ltb_spec o (c * (dim - 1))). { exists (CStart (S k) (o - c * (dim - 2))). lia. }
  destruct (Nat.eq_dec (S (S k)) n) as [E|N2].
  - destruct (Nat.ltb_spec o (c * (dim - 1) + c * (h - 1))).
    + destruct (unpair (h - 1) (o - c * (dim - 1)) c) as (cc & d & H5 & H6 & H7); [lia|]. exists (CLast cc d).
      destruct (Nat.eqb_spec n 1); [lia|]. replace (n - 2) with k by lia. lia.
    + exists (CEnd (S k) (o - c * (dim - 1) - c * (h - 1))). destruct (Nat.eqb_spec (S (S k)) n); [|lia].
      assert (o < c * (dim - 1) + c * (h - 1) + c).
      { assert (En : dim * c * n = dim * c * 2 + k * (dim * c)) by (subst n; ring). lia. }
      lia.
  - exists (CEnd (S k) (o - c * (dim - 1))). destruct (Nat.eqb_spec (S (S k)) n); lia.
Qed.
End Rows.

(** ** writing coefficients *)
Section Writes.
Context {T : Type} `{Num T}.
Notation eset := (nat -> nat -> T -> Prop).

(** [m'] is [m] with the coefficients [E] written (created or overwritten) *)
Definition wrote (m m' : smat T) (E : eset) : Prop :=
  srows m' = srows m /\ scols m' = scols m /\
  (forall i j x, E i j x -> exists y, E i j y /\ sget m' i j = Some y) /\
  (forall i j, sget m' i j = sget m i j \/ exists y, E i j y /\ sget m' i j = Some y).
Definition eor (A B : eset) : eset := fun i j x => A i j x \/ B i j x.
Definition enone : eset := fun _ _ _ => False.

Lemma wrote_refl m : wrote m m enone.
Proof. split; [reflexivity|]. split; [reflexivity|]. split; [intros ? ? ? []|]. auto. Qed.
Lemma wrote_trans m m1 m2 A B : wrote m m1 A -> wrote m1 m2 B -> wrote m m2 (eor A B).
Proof.
  intros (R1 & C1 & P1 & Q1) (R2 & C2 & P2 & Q2). unfold eor. split; [congruence|]. split; [congruence|]. split.
  - intros i j x [Hx|Hx].
    + destruct (P1 _ _ _ Hx) as (y & Hy & G). destruct (Q2 i j) as [E|(z & Hz & G')]; eauto. rewrite E. eauto.
    + destruct (P2 _ _ _ Hx) as (y & Hy & G). eauto.
  - intros i j. destruct (Q2 i j) as [E|(z & Hz & G')]; eauto. rewrite E. destruct (Q1 i j) as [E'|(z & Hz & G')]; eauto.
Qed.
Lemma wrote_iff m m' A B : wrote m m' A -> (forall i j x, A i j x <-> B i j x) -> wrote m m' B.
Proof.
  intros (R1 & C1 & P1 & Q1) I. split; auto. split; auto. split.
  - intros i j x Hx. apply I in Hx. destruct (P1 _ _ _ Hx) as (y & Hy & G). exists y. split; auto. now apply I.
  - intros i j. destruct (Q1 i j) as [E|(y & Hy & G)]; auto. right. exists y. split; auto. now apply I.
Qed.
Lemma wrote_one m i j x : i < srows m -> j < scols m ->
  exists m', sset m i j x = Ok m' /\ wrote m m' (fun a b y => a = i /\ b = j /\ y = x).
Proof.
  intros Hi Hj. unfold sset. destruct (Nat.ltb_spec i (srows m)); [|lia]. destruct (Nat.ltb_spec j (scols m)); [|lia].
  eexists. split; [reflexivity|]. split; [reflexivity|]. split; [reflexivity|]. split.
  - intros a b y (-> & -> & ->). exists x. cbn [sget]. rewrite !Nat.eqb_refl. auto.
  - intros a b. cbn [sget]. destruct (Nat.eqb_spec a i), (Nat.eqb_spec b j); simpl; auto. right. exists x. auto.
Qed.
Lemma wrote_for r c (E : nat -> eset) f lo hi m : srows m = r -> scols m = c ->
  (forall k m, lo <= k < hi -> srows m = r -> scols m = c -> exists m', f k m = Ok m' /\ wrote m m' (E k)) ->
  exists m', for_ lo hi f m = Ok m' /\ wrote m m' (fun i j x => exists k, lo <= k < hi /\ E k i j x).
Proof.
  intros Hr Hc St. destruct (Nat.le_gt_cases lo hi) as [Hl|Hl].
  - destruct (for_ok (fun k m' => wrote m m' (fun i j x => exists k', lo <= k' < k /\ E k' i j x)) f lo hi m Hl) as (m' & Em & W).
    + eapply wrote_iff; [apply wrote_refl|]. intros i j x. split; [intros []|]. intros (k' & B & _). lia.
    + intros k m1 Hk W. destruct (St k m1 Hk) as (m2 & E2 & W2).
      { destruct W as (R1 & _). congruence. } { destruct W as (_ & C1 & _). congruence. }
      exists m2. split; auto. eapply wrote_iff; [exact (wrote_trans _ _ _ _ _ W W2)|]. intros i j x. unfold eor. split.
      * intros [(k' & B & Hx)|Hx]; [exists k'|exists k]; split; auto; lia.
      * intros (k' & B & Hx). destruct (Nat.eq_dec k' k) as [->|N]; auto. left. exists k'. split; auto. lia.
    + exists m'. split; auto.
  - exists m. rewrite for_empty by lia. split; auto. eapply wrote_iff; [apply wrote_refl|].
    intros i j x. split; [intros []|]. intros (k' & B & _). lia.
Qed.

(** ** the three blocks *)
Variables (dim codom : nat).
Lemma fill_position_wrote i0 j0 pos pf m : vec_is pos dim pf -> i0 + codom <= srows m -> j0 + codom * dim <= scols m ->
  exists m', fill_position codom dim i0 j0 pos m = Ok m' /\
    wrote m m' (fun i j x => exists cc bb, cc < codom /\ bb < dim /\ i = i0 + cc /\ j = j0 + cc * dim + bb /\ x = pf bb).
Proof.
  intros V Hr Hc. unfold fill_position.
  destruct (wrote_for (srows m) (scols m)
    (fun cc i j x => exists bb, 0 <= bb < dim /\ i = i0 + cc /\ j = j0 + dim * cc + bb /\ x = pf bb)
    (fun cc m => for_ 0 dim (fun bb m => x <- vread pos bb ;; sset m (i0 + cc) (j0 + dim * cc + bb) x) m)
    0 codom m eq_refl eq_refl) as (m' & E & W).
  - intros cc m1 Hcc R1 C1.
    apply (wrote_for (srows m) (scols m)
      (fun bb i j x => i = i0 + cc /\ j = j0 + dim * cc + bb /\ x = pf bb)); auto.
    intros bb m2 Hb R2 C2. rewrite (vread_ok _ _ _ _ V) by lia. cbn [bind].
    assert (j0 + dim * cc + bb < scols m) by nia. apply wrote_one; lia.
  - exists m'. split; auto. eapply wrote_iff; [exact W|]. intros i j x. split.
    + intros (cc & B & bb & B' & -> & -> & ->). exists cc, bb. repeat split; auto; lia.
    + intros (cc & bb & B & B' & -> & -> & ->). exists cc. split; [lia|]. exists bb. repeat split; auto; lia.
Qed.
Lemma fill_continuity_wrote i0 j0 minus der df m : mat_is der dim (dim - 2) df ->
  i0 + codom * (dim - 2) <= srows m -> j0 + codom * dim <= scols m ->
  exists m', fill_continuity codom dim i0 j0 minus der m = Ok m' /\
    wrote m m' (fun i j x => exists cc d bb, cc < codom /\ d < dim - 2 /\ bb < dim /\
      i = i0 + cc * (dim - 2) + d /\ j = j0 + cc * dim + bb /\ x = nmul (if minus then nopp n1 else n1) (df bb d)).
Proof.
  intros V Hr Hc. unfold fill_continuity. set (k := if minus then nopp n1 else n1).
  destruct (wrote_for (srows m) (scols m)
    (fun cc i j x => exists bb, 0 <= bb < dim /\ exists d, 0 <= d < dim - 2 /\ i = i0 + cc * (dim - 2) + d /\ j = j0 + dim * cc + bb /\ x = nmul k (df bb d))
    (fun cc m => for_ 0 dim (fun bb m => for_ 0 (dim - 2) (fun d m =>
        x <- mread der bb d ;; sset m (i0 + cc * (dim - 2) + d) (j0 + dim * cc + bb) (nmul k x)) m) m)
    0 codom m eq_refl eq_refl) as (m' & E & W).
  - intros cc m1 Hcc R1 C1.
    apply (wrote_for (srows m) (scols m)
      (fun bb i j x => exists d, 0 <= d < dim - 2 /\ i = i0 + cc * (dim - 2) + d /\ j = j0 + dim * cc + bb /\ x = nmul k (df bb d))); auto.
    intros bb m2 Hb R2 C2.
    apply (wrote_for (srows m) (scols m)
      (fun d i j x => i = i0 + cc * (dim - 2) + d /\ j = j0 + dim * cc + bb /\ x = nmul k (df bb d))); auto.
    intros d m3 Hd R3 C3. rewrite (mread_ok _ _ _ _ _ _ V) by lia. cbn [bind].
    assert (j0 + dim * cc + bb < scols m) by nia. assert (i0 + cc * (dim - 2) + d < srows m) by nia. apply wrote_one; lia.
  - exists m'. split; auto. eapply wrote_iff; [exact W|]. intros i j x. split.
    + intros (cc & B & bb & B' & d & B'' & -> & -> & ->). exists cc, d, bb. repeat split; auto; lia.
    + intros (cc & d & bb & B & B' & B'' & -> & -> & ->). exists cc. split; [lia|]. exists bb. split; [lia|]. exists d. repeat split; auto; lia.
Qed.
Lemma fill_boundary_wrote i0 j0 der df m : dim / 2 - 1 <= dim - 2 -> mat_is der dim (dim - 2) df ->
  i0 + codom * (dim / 2 - 1) <= srows m -> j0 + codom * dim <= scols m ->
  exists m', fill_boundary codom dim i0 j0 der m = Ok m' /\
    wrote m m' (fun i j x => exists cc d bb, cc < codom /\ d < dim / 2 - 1 /\ bb < dim /\
      i = i0 + cc * (dim / 2 - 1) + d /\ j = j0 + cc * dim + bb /\ x = df bb d).
Proof.
  intros Hd V Hr Hc. unfold fill_boundary. set (h := dim / 2 - 1) in *.
  destruct (wrote_for (srows m) (scols m)
    (fun cc i j x => exists d, 0 <= d < h /\ exists bb, 0 <= bb < dim /\ i = i0 + cc * h + d /\ j = j0 + dim * cc + bb /\ x = df bb d)
    (fun cc m => for_ 0 h (fun d m => for_ 0 dim (fun bb m =>
        x <- mread der bb d ;; sset m (i0 + cc * h + d) (j0 + dim * cc + bb) x) m) m)
    0 codom m eq_refl eq_refl) as (m' & E & W).
  - intros cc m1 Hcc R1 C1.
    apply (wrote_for (srows m) (scols m)
      (fun d i j x => exists bb, 0 <= bb < dim /\ i = i0 + cc * h + d /\ j = j0 + dim * cc + bb /\ x = df bb d)); auto.
    intros d m2 Hb R2 C2.
    apply (wrote_for (srows m) (scols m)
      (fun bb i j x => i = i0 + cc * h + d /\ j = j0 + dim * cc + bb /\ x = df bb d)); auto.
    intros bb m3 Hd3 R3 C3. rewrite (mread_ok _ _ _ _ _ _ V) by lia. cbn [bind].
    assert (j0 + dim * cc + bb < scols m) by nia. assert (i0 + cc * h + d < srows m) by nia. apply wrote_one; lia.
  - exists m'. split; auto. eapply wrote_iff; [exact W|]. intros i j x. split.
    + intros (cc & B & d & B'' & bb & B' & -> & -> & ->). exists cc, d, bb. repeat split; auto; lia.
    + intros (cc & d & bb & B & B' & B'' & -> & -> & ->). exists cc. split; [lia|]. exists d. split; [lia|]. exists bb. repeat split; auto; lia.
Qed.

(** ** the buffers *)
Definition ev_ok (ev : T -> T -> nat -> vec T -> outcome (vec T)) (s tau : T) (F : nat -> nat -> T) : Prop :=
  forall k buff, k <= dim - 2 -> vlen buff = dim -> exists v, ev s tau k buff = Ok v /\ vec_is v dim (F k).
Definition bufs_shape (b : vec T * mat T) : Prop := vlen (fst b) = dim /\ mrows (snd b) = dim /\ mcols (snd b) = dim - 2.
Lemma fill_bufs_ok ev s tau F b : ev_ok ev s tau F -> bufs_shape b ->
  exists b', fill_bufs ev dim s tau b = Ok b' /\ bufs_shape b' /\
    vec_is (fst b') dim (F 0) /\ mat_is (snd b') dim (dim - 2) (fun bb d => F (S d) bb).
Proof.
  intros V (Lp & Rd & Cd). destruct b as [pos der]. cbn [fst snd] in *. unfold fill_bufs.
  destruct (V 0 pos) as (p & Ep & Vp); [lia|auto|]. rewrite Ep. cbn [bind].
  match goal with |- context [for_ 0 (dim - 2) ?f der] =>
    destruct (for_ok (fun d m => mrows m = dim /\ mcols m = dim - 2 /\
      forall bb d', bb < dim -> d' < d -> mget m bb d' = Some (F (S d') bb)) f 0 (dim - 2) der) as (m & Em & Rm & Cm & Gm)
  end.
  - lia.
  - repeat split; auto. intros; lia.
  - intros d m Hd (Rm & Cm & Gm). unfold mcol. rewrite Cm. destruct (Nat.ltb_spec d (dim - 2)); [|lia]. cbn [bind].
    destruct (V (S d) (mkvec (mrows m) (fun i => mget m i d))) as (v & Ev & Lv & Gv); [lia|exact Rm|]. rewrite Ev. cbn [bind].
    unfold mset_col. rewrite Cm, Rm, Lv, Nat.eqb_refl. destruct (Nat.ltb_spec d (dim - 2)); [|lia]. cbn [andb].
    eexists. split; [reflexivity|]. cbn [mrows mcols mget]. repeat split; auto. intros bb d' Hb Hd'.
    destruct (Nat.eqb_spec d' d) as [->|N]; [apply Gv; lia|apply Gm; lia].
  - rewrite Em. cbn [bind]. eexists. split; [reflexivity|]. unfold bufs_shape. cbn [fst snd].
    destruct Vp as [Lp' Vp]. repeat split; auto.
Qed.
End Writes.
