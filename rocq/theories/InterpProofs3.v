(** Content of the assembled matrix and of the right-hand side. *)
From Coquelicot Require Import Coquelicot.
From Coq Require Import List Arith Lia Bool ZArith.
From Verif Require Import Num Outcome LinAlg BasisModel BasisProofs ToolsModel GSplineModel InterpModel InterpSpec InterpProofs InterpProofs2.
Import ListNotations.
Local Open Scope nat_scope.

(** ** the matrix *)
Section Content.
Context {T : Type} `{Num T}.
Variables (h c n : nat).
Hypothesis Hh : 1 <= h.
Hypothesis Hn : 1 <= n.
Let dim := 2 * h.
Let N := dim * c * n.
Notation EI := (EI h c n).

Lemma ent_cc L R q iv cc (f : nat -> T) : cond_ok dim c n q -> ent n L R q iv cc f -> cc < c /\ iv < n.
Proof. intros Ok En. destruct En; simpl in Ok; lia. Qed.
Lemma ent_fun L R q iv cc cc' (f f' : nat -> T) : ent n L R q iv cc f -> ent n L R q iv cc' f' -> cc = cc' /\ f = f'.
Proof. intros E E'. destruct E; inversion E'; subst; auto; lia. Qed.
Lemma ent_pat L R L' R' q iv cc (f : nat -> T) : ent n L R q iv cc f -> exists f', ent n L' R' q iv cc f'.
Proof. intros E. destruct E; eexists; constructor. Qed.
Lemma EI_pat L R L' R' iv i j x : EI L R iv i j x -> exists y, EI L' R' iv i j y.
Proof.
  intros (q & cc & f & bb & Ok & En & Hi & Hb & Hj & ->). destruct (ent_pat L R L' R' _ _ _ _ En) as (f' & En').
  exists (f' bb), q, cc, f', bb. auto 8.
Qed.
Lemma EI_at L R iv q cc bb x : cond_ok dim c n q -> cc < c -> bb < dim ->
  EI L R iv (rowof dim c n q) ((iv * c + cc) * dim + bb) x <-> exists f : nat -> T, ent n L R q iv cc f /\ x = f bb.
Proof.
  intros Ok Hc Hb. split.
  - intros (q' & cc' & f & bb' & Ok' & En & Hi & Hb' & Hj & ->). apply (row_inj h c n Hh Hn q q' Ok Ok') in Hi. subst q'.
    apply pair_inj in Hj; auto. destruct Hj as [Hj ->]. destruct (ent_cc _ _ _ _ _ _ Ok En) as [Hc' _].
    replace cc' with cc in En by lia. eauto.
  - intros (f & En & ->). exists q, cc, f, bb. auto 8.
Qed.
Lemma EI_iv L R iv iv' q cc bb (x : T) : cond_ok dim c n q -> cc < c -> bb < dim ->
  EI L R iv' (rowof dim c n q) ((iv * c + cc) * dim + bb) x -> iv' = iv.
Proof.
  intros Ok Hc Hb (q' & cc' & f & bb' & Ok' & En & Hi & Hb' & Hj & _).
  destruct (ent_cc _ _ _ _ _ _ Ok' En) as [Hc' _]. apply pair_inj in Hj; auto. destruct Hj as [Hj _]. apply pair_inj in Hj; auto. lia.
Qed.

(** nothing stored outside the places of the conditions, for the intervals in [P] *)
Definition clean (P : nat -> Prop) (m : smat T) : Prop :=
  forall i j x, sget m i j = Some x -> exists iv L R y, P iv /\ EI L R iv i j y.
Lemma clean_snew P : clean P (snew N N).
Proof. intros i j x E. discriminate. Qed.
Lemma clean_wrote (P : nat -> Prop) L R m m' : clean P m -> wrote m m' (fun i j x => exists iv, P iv /\ EI L R iv i j x) -> clean P m'.
Proof.
  intros Cl (_ & _ & _ & Q) i j x E. destruct (Q i j) as [Eq|(y & (iv & Hp & X) & _)].
  - rewrite E in Eq. symmetry in Eq. exact (Cl _ _ _ Eq).
  - exists iv, L, R, y. auto.
Qed.
(** what is stored after an assembly *)
Lemma content (P : nat -> Prop) L R m m' : clean P m -> wrote m m' (fun i j x => exists iv, P iv /\ EI L R iv i j x) ->
  forall q iv cc bb, cond_ok dim c n q -> cc < c -> bb < dim ->
   (forall f, P iv -> ent n L R q iv cc f -> sget m' (rowof dim c n q) ((iv * c + cc) * dim + bb) = Some (f bb)) /\
   (~ P iv \/ (forall f, ~ ent n L R q iv cc f) -> sget m' (rowof dim c n q) ((iv * c + cc) * dim + bb) = None).
Proof.
  intros Cl (_ & _ & W & Q) q iv cc bb Ok Hc Hb. split.
  - intros f Hp En. destruct (W (rowof dim c n q) ((iv * c + cc) * dim + bb) (f bb)) as (y & (iv' & Hp' & X) & G).
    + exists iv. split; auto. apply EI_at; auto. eauto.
    + rewrite G. f_equal. pose proof (EI_iv _ _ _ _ _ _ _ _ Ok Hc Hb X). subst iv'. apply EI_at in X; auto.
      destruct X as (f' & En' & ->). destruct (ent_fun _ _ _ _ _ _ _ _ En En') as [_ ->]. reflexivity.
  - intros No. destruct (sget m' (rowof dim c n q) ((iv * c + cc) * dim + bb)) as [x|] eqn:G; auto. exfalso.
    assert (X : exists iv' y, P iv' /\ EI L R iv' (rowof dim c n q) ((iv * c + cc) * dim + bb) y).
    { destruct (Q (rowof dim c n q) ((iv * c + cc) * dim + bb)) as [Eq|(y & (iv' & Hp & X) & _)]; eauto.
      rewrite G in Eq. symmetry in Eq. destruct (Cl _ _ _ Eq) as (iv' & L' & R' & y & Hp & X).
      destruct (EI_pat L' R' L R _ _ _ _ X) as (y' & X'). eauto. }
    destruct X as (iv' & y & Hp & X). pose proof (EI_iv _ _ _ _ _ _ _ _ Ok Hc Hb X). subst iv'.
    apply EI_at in X; auto. destruct X as (f & En & _). destruct No as [No|No]; [auto|exact (No _ En)].
Qed.
End Content.

(** ** the right-hand side *)
Section Vector.
Context {T : Type} `{Num T}.
Definition vwrote (v v' : vec T) (E : nat -> T -> Prop) : Prop :=
  vlen v' = vlen v /\
  (forall i x, E i x -> exists y, E i y /\ vget v' i = Some y) /\
  (forall i, vget v' i = vget v i \/ exists y, E i y /\ vget v' i = Some y).
Lemma vwrote_refl v : vwrote v v (fun _ _ => False).
Proof. split; auto. split; [intros ? ? []|]. auto. Qed.
Lemma vwrote_trans v v1 v2 A B : vwrote v v1 A -> vwrote v1 v2 B -> vwrote v v2 (fun i x => A i x \/ B i x).
Proof.
  intros (L1 & P1 & Q1) (L2 & P2 & Q2). split; [congruence|]. split.
  - intros i x [Hx|Hx].
    + destruct (P1 _ _ Hx) as (y & Hy & G). destruct (Q2 i) as [E|(z & Hz & G')]; eauto. rewrite E. eauto.
    + destruct (P2 _ _ Hx) as (y & Hy & G). eauto.
  - intros i. destruct (Q2 i) as [E|(z & Hz & G')]; eauto. rewrite E. destruct (Q1 i) as [E'|(z & Hz & G')]; eauto.
Qed.
Lemma vwrote_iff v v' A B : vwrote v v' A -> (forall i x, A i x <-> B i x) -> vwrote v v' B.
Proof.
  intros (L1 & P1 & Q1) I. split; auto. split.
  - intros i x Hx. apply I in Hx. destruct (P1 _ _ Hx) as (y & Hy & G). exists y. split; auto. now apply I.
  - intros i. destruct (Q1 i) as [E|(y & Hy & G)]; auto. right. exists y. split; auto. now apply I.
Qed.

(** rows 0..n of the first c columns can be read *)
Definition reads (wp : mat T) (n c : nat) (W : nat -> nat -> T) : Prop :=
  forall w cc, w <= n -> cc < c -> mread wp w cc = Ok (W w cc).
Lemma put_waypoint_ok c wp (W : nat -> nat -> T) w pos v : (forall cc, cc < c -> mread wp w cc = Ok (W w cc)) -> pos + c <= vlen v ->
  exists v', put_waypoint c wp w (pos, v) = Ok (pos + c, v') /\ vwrote v v' (fun i x => exists cc, cc < c /\ i = pos + cc /\ x = W w cc).
Proof.
  intros M Hp. unfold put_waypoint.
  match goal with |- context [for_ 0 c ?f ?s] =>
    destruct (for_ok (fun k (st : nat * vec T) => fst st = pos + k /\
      vwrote v (snd st) (fun i x => exists cc, cc < k /\ i = pos + cc /\ x = W w cc)) f 0 c s) as ([p' v'] & E & Hp' & W')
  end.
  - lia.
  - cbn [fst snd]. split; [lia|]. eapply vwrote_iff; [apply vwrote_refl|]. intros i x. split; [intros []|]. intros (cc & B & _). lia.
  - intros k [p v1] Hk [Ep W1]. cbn [fst snd] in *. subst p. rewrite M by lia. cbn [bind].
    pose proof W1 as (L1 & _). rewrite vwrite_lt by lia. cbn [bind]. eexists. split; [reflexivity|]. cbn [fst snd]. split; [lia|].
    eapply vwrote_iff; [eapply vwrote_trans; [exact W1|]|].
    + instantiate (1 := fun i x => i = pos + k /\ x = W w k). split; [reflexivity|]. cbn [vget]. split.
      * intros i x [-> ->]. rewrite Nat.eqb_refl. eauto.
      * intros i. destruct (Nat.eqb_spec i (pos + k)); auto. right. eauto.
    + intros i x. split.
      * intros [(cc & B & -> & ->)|[-> ->]]; [exists cc|exists k]; split; auto; lia.
      * intros (cc & B & -> & ->). destruct (Nat.eq_dec cc k) as [->|Ne]; auto. left. exists cc. split; auto. lia.
  - cbn [fst snd] in *. subst p'. exists v'. auto.
Qed.

Variables (h c n : nat).
Hypothesis Hh : 1 <= h.
Hypothesis Hn : 1 <= n.
Let dim := 2 * h.
Let N := dim * c * n.
Variables (wp : mat T) (W : nat -> nat -> T).
Hypothesis Hwp : reads wp n c W.

(** the entries of the right-hand side that are written *)
Definition VI (iv : nat) : nat -> T -> Prop := fun i x =>
  exists cc, cc < c /\ ((i = rowof dim c n (CStart iv cc) /\ x = W iv cc) \/ (i = rowof dim c n (CEnd iv cc) /\ x = W (S iv) cc)).

Lemma fill_vector_ok v : vlen v = N ->
  exists v', fill_vector c dim n wp v = Ok v' /\ vlen v' = N /\ vwrote v v' (fun i x => exists iv, iv < n /\ VI iv i x).
Proof.
  intros Lv. unfold fill_vector.
  destruct (mult_facts h c Hh) as (F1 & F2 & F3 & F4 & F5). fold dim in F1, F2, F3, F4, F5. assert (F6 : c <= c * h) by nia.
  pose proof (d2 h Hh) as D2. fold dim in D2.
  assert (B : forall k, k < n -> k * (dim * c) + dim * c <= N) by (intros k Hk; exact (rows_below h c n Hh Hn k Hk)).
  pose proof (B 0 ltac:(lia)) as B0.
  destruct (put_waypoint_ok c wp W 0 0 v (fun cc => Hwp 0 cc ltac:(lia))) as (v1 & E1 & W1); [lia|]. rewrite E1. cbn [bind]. unfold skip_rows. cbn [fst snd].
  pose proof W1 as (L1 & _).
  destruct (put_waypoint_ok c wp W 1 (0 + c + c * (dim / 2 - 1)) v1 (fun cc => Hwp 1 cc ltac:(lia))) as (v2 & E2 & W2); [rewrite D2; lia|]. rewrite E2. cbn [bind fst snd].
  pose proof W2 as (L2 & _). rewrite D2 in *.
  assert (W12 : vwrote v v2 (VI 0)).
  { eapply vwrote_iff; [exact (vwrote_trans _ _ _ _ _ W1 W2)|]. intros i x. unfold VI, rowof. rewrite D2. split.
    - intros [(cc & Hc & -> & ->)|(cc & Hc & -> & ->)]; exists cc; (split; [exact Hc|]); [left|right]; (split; [lia|reflexivity]).
    - intros (cc & Hc & [[-> ->]|[-> ->]]); [left|right]; exists cc; repeat split; auto; lia. }
  destruct (Nat.eqb_spec n 1) as [En|Ne].
  { exists v2. split; auto. split; [congruence|]. eapply vwrote_iff; [exact W12|]. intros i x. split; [intros X; exists 0; split; [lia|exact X]|].
    intros (iv & Hiv & X). replace iv with 0 in X by lia. exact X. }
  match goal with |- context [for_ 1 (n - 1) ?f ?s] =>
    destruct (for_ok (fun k (st : nat * vec T) => fst st = c * (h + 1) + (k - 1) * (dim * c) + c * (dim - 2) /\
      vwrote v (snd st) (fun i x => exists iv, iv < k /\ VI iv i x)) f 1 (n - 1) s) as ([p3 v3] & E3 & P3 & W3)
  end.
  - lia.
  - cbn [fst snd]. split; [lia|]. eapply vwrote_iff; [exact W12|]. intros i x. split; [intros X; exists 0; split; [lia|exact X]|].
    intros (iv & Hiv & X). replace iv with 0 in X by lia. exact X.
  - intros k [p v4] Hk [P4 W4]. cbn [fst snd] in *. destruct k as [|k]; [lia|]. replace (S k - 1) with k in P4 by lia.
    pose proof W4 as (L4 & _). pose proof (B (S (S k)) ltac:(lia)) as Bk.
    assert (K2 : S (S k) * (dim * c) = k * (dim * c) + 2 * (dim * c)) by ring.
    destruct (put_waypoint_ok c wp W (S k) p v4 (fun cc => Hwp (S k) cc ltac:(lia))) as (v5 & E5 & W5); [lia|]. rewrite E5. cbn [bind]. pose proof W5 as (L5 & _).
    destruct (put_waypoint_ok c wp W (S k + 1) (p + c) v5 (fun cc => Hwp (S k + 1) cc ltac:(lia))) as (v6 & E6 & W6); [lia|]. rewrite E6. cbn [bind fst snd].
    eexists. split; [reflexivity|]. cbn [fst snd]. split.
    { assert (S k * (dim * c) = k * (dim * c) + dim * c) by ring. replace (S (S k) - 1) with (S k) by lia. lia. }
    eapply vwrote_iff; [exact (vwrote_trans _ _ _ _ _ (vwrote_trans _ _ _ _ _ W4 W5) W6)|]. intros i x.
    assert (K : VI (S k) i x <-> (exists cc, cc < c /\ i = p + cc /\ x = W (S k) cc) \/ (exists cc, cc < c /\ i = p + c + cc /\ x = W (S k + 1) cc)).
    { unfold VI, rowof. rewrite D2. destruct (Nat.eqb_spec (S (S k)) n); [lia|]. replace (S k + 1) with (S (S k)) by lia. split.
      - intros (cc & Hc & [[-> ->]|[-> ->]]); [left|right]; exists cc; repeat split; auto; lia.
      - intros [(cc & Hc & -> & ->)|(cc & Hc & -> & ->)]; exists cc; (split; [exact Hc|]); [left|right]; (split; [lia|reflexivity]). }
    split.
    + intros [[(iv & Hiv & X)|X]|X]; [exists iv|exists (S k)|exists (S k)]; (split; [lia|]); auto; apply K; auto.
    + intros (iv & Hiv & X). destruct (Nat.eq_dec iv (S k)) as [->|Nk].
      * apply K in X. destruct X; auto.
      * left; left. exists iv. split; auto. lia.
  - rewrite E3. cbn [bind]. cbn [fst snd] in P3, W3. pose proof W3 as (L3 & _).
    assert (exists k, n = S (S k)) as (k & Ek) by (exists (n - 2); lia). pose proof (B (S k) ltac:(lia)) as Bk.
    assert (K2 : S k * (dim * c) = k * (dim * c) + dim * c) by ring.
    replace (n - 1) with (S k) in * by lia. replace (S k - 1) with k in P3 by lia.
    destruct (put_waypoint_ok c wp W (S k) p3 v3 (fun cc => Hwp (S k) cc ltac:(lia))) as (v5 & E5 & W5); [lia|]. rewrite E5. cbn [bind fst snd]. pose proof W5 as (L5 & _).
    destruct (put_waypoint_ok c wp W n (p3 + c + c * (h - 1)) v5 (fun cc => Hwp n cc ltac:(lia))) as (v6 & E6 & W6); [lia|]. rewrite E6. cbn [bind fst snd].
    exists v6. split; auto. pose proof W6 as (L6 & _). split; [congruence|].
    eapply vwrote_iff; [exact (vwrote_trans _ _ _ _ _ (vwrote_trans _ _ _ _ _ W3 W5) W6)|]. intros i x.
    assert (K : VI (S k) i x <-> (exists cc, cc < c /\ i = p3 + cc /\ x = W (S k) cc) \/ (exists cc, cc < c /\ i = p3 + c + c * (h - 1) + cc /\ x = W n cc)).
    { unfold VI, rowof. rewrite D2. destruct (Nat.eqb_spec (S (S k)) n) as [_|]; [|lia]. rewrite Ek. split.
      - intros (cc & Hc & [[-> ->]|[-> ->]]); [left|right]; exists cc; repeat split; auto; lia.
      - intros [(cc & Hc & -> & ->)|(cc & Hc & -> & ->)]; exists cc; (split; [exact Hc|]); [left|right]; (split; [lia|reflexivity]). }
    split.
    + intros [[(iv & Hiv & X)|X]|X]; [exists iv|exists (S k)|exists (S k)]; (split; [lia|]); auto; apply K; auto.
    + intros (iv & Hiv & X). destruct (Nat.eq_dec iv (S k)) as [->|Nk].
      * apply K in X. destruct X; auto.
      * left; left. exists iv. split; auto. lia.
Qed.

(** zero wherever no waypoint goes *)
Definition rhs_clean (v : vec T) : Prop :=
  vlen v = N /\ forall q, cond_ok dim c n q -> (forall iv cc, q <> CStart iv cc /\ q <> CEnd iv cc) -> vget v (rowof dim c n q) = Some n0.
Definition rhs_of (q : cond) : T :=
  match q with CStart iv cc => W iv cc | CEnd iv cc => W (S iv) cc | _ => n0 end.
Lemma VI_at iv q x : cond_ok dim c n q -> iv < n -> VI iv (rowof dim c n q) x ->
  (exists cc, q = CStart iv cc /\ x = W iv cc) \/ (exists cc, q = CEnd iv cc /\ x = W (S iv) cc).
Proof.
  intros Ok Hiv (cc & Hc & [[Hi ->]|[Hi ->]]); [left|right]; exists cc; split; auto;
    apply (row_inj h c n Hh Hn) in Hi; auto; simpl; lia.
Qed.
Lemma rhs_content v v' : rhs_clean v -> vwrote v v' (fun i x => exists iv, iv < n /\ VI iv i x) ->
  rhs_clean v' /\ forall q, cond_ok dim c n q -> vget v' (rowof dim c n q) = Some (rhs_of q).
Proof.
  intros [Lv Z] (Lv' & P & Q).
  assert (G : forall q, cond_ok dim c n q -> vget v' (rowof dim c n q) = Some (rhs_of q)).
  { intros q Ok.
    assert (D : (exists iv cc, q = CStart iv cc \/ q = CEnd iv cc) \/ (forall iv cc, q <> CStart iv cc /\ q <> CEnd iv cc)).
    { destruct q; [left; eauto|left; eauto| | |]; right; intros; split; discriminate. }
    destruct D as [(iv & cc & D)|D].
    - assert (Hiv : iv < n /\ cc < c) by (destruct D as [-> | ->]; exact Ok). destruct Hiv as [Hiv Hc].
      destruct (P (rowof dim c n q) (rhs_of q)) as (y & (iv' & Hiv' & X) & E).
      { exists iv. split; auto. exists cc. split; auto. destruct D as [-> | ->]; [left|right]; auto. }
      rewrite E. f_equal. destruct (VI_at _ _ _ Ok Hiv' X) as [(cc' & -> & ->)|(cc' & -> & ->)]; reflexivity.
    - destruct (Q (rowof dim c n q)) as [E|(y & (iv & Hiv & X) & _)].
      + rewrite E, Z; auto. destruct q as [iv cc|iv cc|iv cc d|cc d|cc d]; try reflexivity; exfalso; destruct (D iv cc); auto.
      + exfalso. destruct (VI_at _ _ _ Ok Hiv X) as [(cc & -> & _)|(cc & -> & _)]; destruct (D iv cc); auto. }
  split; auto. split; [congruence|]. intros q Ok D. rewrite G by auto.
  destruct q as [iv cc|iv cc|iv cc d|cc d|cc d]; try reflexivity; exfalso; destruct (D iv cc); auto.
Qed.
End Vector.
