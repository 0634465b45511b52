(** Collocation functionals: the matrices. *)
From Coquelicot Require Import Coquelicot.
From Coq Require Import List Arith Lia Bool ZArith Reals Lra.
From Verif Require Import Num Outcome LinAlg RSum RPoly RDeriv LegendreSpec LegendreModel LagrangeSpec LagrangeModel LagrangeMath LagrangeProofs
  Basis0101Model BasisModel SplineSpec BasisFn BasisProofs BasisProofs2 BasisProofs3
  ToolsModel FunModel GSplineModel GSplineProofs GSplineProofs2 GSplineProofs4 GLSpec GLModel GLProofs GLProofs2 GLLModel GLLProofs GLLProofs2 GLLProofs3 GLFModel.
Import ListNotations.
Local Opaque gl_iters.
Local Open Scope nat_scope.

(** positions are determined by interval, component and node *)
Lemma nidx_inj codom dim iv cc i iv' cc' i' : cc < codom -> i < dim -> cc' < codom -> i' < dim ->
  (iv * codom + cc) * dim + i = (iv' * codom + cc') * dim + i' -> iv = iv' /\ cc = cc' /\ i = i'.
Proof.
  intros A B C D E.
  pose proof (nidx_at codom dim (fun a b c => (a, b, c)) iv cc i A B) as X. rewrite E, nidx_at in X by auto. inversion X. auto.
Qed.
Lemma row_inj dim iv i iv' i' : i < dim -> i' < dim -> iv * dim + i = iv' * dim + i' -> iv = iv' /\ i = i'.
Proof. intros A B E. destruct (nidx_inj 1 dim iv 0 i iv' 0 i') as (X & _ & Y); auto; lia. Qed.
Lemma row_lt n dim iv i : iv < n -> i < dim -> iv * dim + i < n * dim.
Proof. nia. Qed.

Section G.
Context {T : Type} `{HN : Num T}.
Local Open Scope num_scope.
Lemma write_is (m : mat T) r c f i j x g : mat_is m r c f -> (i < r)%nat -> (j < c)%nat ->
  g i j = x -> (forall a b, (a < r)%nat -> (b < c)%nat -> (a <> i \/ b <> j) -> g a b = f a b) ->
  exists m', mwrite m i j x = Ok m' /\ mat_is m' r c g.
Proof.
  intros (R & C & G) Hi Hj Ex Eo. rewrite mwrite_lt by lia. eexists. split; [reflexivity|].
  split; [exact R|]. split; [exact C|]. intros a b Ha Hb. cbn [mget].
  destruct (Nat.eqb_spec a i) as [->|Na]; cbn [andb]; [destruct (Nat.eqb_spec b j) as [->|Nb]|]; [now rewrite Ex| |]; rewrite G by auto; f_equal; symmetry; apply Eo; auto.
Qed.

(** ** left multiplication by a transposed vector *)
(** row of the only pattern cell of a column *)
Definition prow (codom dim c : nat) : nat := (c / dim / codom * dim + c mod dim)%nat.
Lemma prow_at codom dim iv cc i : (cc < codom)%nat -> (i < dim)%nat -> prow codom dim ((iv * codom + cc) * dim + i) = (iv * dim + i)%nat.
Proof. intros A B. exact (nidx_at codom dim (fun a _ c => a * dim + c)%nat iv cc i A B). Qed.
Definition tcell (codom dim k : nat) (v : nat -> T) (f0 : nat -> nat -> T) (r c : nat) : T :=
  if Nat.ltb c k && Nat.eqb r (prow codom dim c) then v c else f0 r c.
Lemma tcell_step codom dim k v f0 (m : mat T) R C iv cc i x : mat_is m R C (tcell codom dim k v f0) -> k = ((iv * codom + cc) * dim + i)%nat ->
  (cc < codom)%nat -> (i < dim)%nat -> (iv * dim + i < R)%nat -> (k < C)%nat -> x = v k ->
  exists m', mwrite m (iv * dim + i) k x = Ok m' /\ mat_is m' R C (tcell codom dim (S k) v f0).
Proof.
  intros M Ek Hc Hi HR HC ->. eapply write_is; eauto.
  - unfold tcell. rewrite Ek, prow_at by auto. rewrite Nat.eqb_refl. destruct (Nat.ltb_spec ((iv * codom + cc) * dim + i) (S ((iv * codom + cc) * dim + i))); [reflexivity|lia].
  - intros a b Ha Hb Ne. unfold tcell. destruct (Nat.ltb_spec b k), (Nat.ltb_spec b (S k)); try lia; auto. assert (b = k) by lia. subst b.
    rewrite Ek, prow_at by auto. destruct (Nat.eqb_spec a (iv * dim + i)); [lia|reflexivity].
Qed.
Lemma tlm_fill_ok n codom nglp (v : vec T) vf (m : mat T) f0 : vec_is v (n * nglp * codom) vf -> mat_is m (nglp * n) (nglp * n * codom) f0 ->
  exists m', tlm_fill n codom nglp v m = Ok m' /\ mat_is m' (nglp * n) (nglp * n * codom) (tcell codom nglp (n * nglp * codom) vf f0).
Proof.
  intros V M. unfold tlm_fill.
  match goal with |- context [for_ ?lo ?hi ?b ?v] => destruct (for_ok (fun k m => mat_is m (nglp * n) (nglp * n * codom) (tcell codom nglp (k * codom * nglp) vf f0)) b lo hi v) as (r & E & Mr) end.
  - lia.
  - eapply mat_is_ext; [exact M|]. intros r c _ _. unfold tcell. destruct (Nat.ltb_spec c (0 * codom * nglp)); [lia|reflexivity].
  - intros iv m1 Hiv M1.
    match goal with |- context [for_ ?lo ?hi ?b ?v] => destruct (for_ok (fun k m => mat_is m (nglp * n) (nglp * n * codom) (tcell codom nglp ((iv * codom + k) * nglp) vf f0)) b lo hi v) as (r & E & Mr) end.
    + lia.
    + rewrite Nat.add_0_r. exact M1.
    + intros cc m2 Hcc M2.
      match goal with |- context [for_ ?lo ?hi ?b ?v] => destruct (for_ok (fun k m => mat_is m (nglp * n) (nglp * n * codom) (tcell codom nglp ((iv * codom + cc) * nglp + k) vf f0)) b lo hi v) as (r & E & Mr) end.
      * lia.
      * rewrite Nat.add_0_r. exact M2.
      * intros i m3 Hi M3. assert (Hk := nidx_lt n codom nglp iv cc i ltac:(lia) ltac:(lia) ltac:(lia)).
        replace (iv * nglp * codom + cc * nglp + i)%nat with ((iv * codom + cc) * nglp + i)%nat by nia.
        rewrite (vread_ok v _ vf _ V) by auto. cbn [bind].
        replace (cc * nglp + iv * nglp * codom + i)%nat with ((iv * codom + cc) * nglp + i)%nat by nia.
        destruct (tcell_step codom nglp _ vf f0 m3 (nglp * n) (nglp * n * codom) iv cc i (vf ((iv * codom + cc) * nglp + i)%nat) M3 eq_refl) as (r & E & Mr); try lia; auto.
        { pose proof (row_lt n nglp iv i ltac:(lia) ltac:(lia)). lia. }
        rewrite E. eexists. split; [reflexivity|]. replace ((iv * codom + cc) * nglp + S i)%nat with (S ((iv * codom + cc) * nglp + i)) by lia. exact Mr.
      * rewrite E. eexists. split; [reflexivity|]. replace ((iv * codom + S cc) * nglp)%nat with ((iv * codom + cc) * nglp + nglp)%nat by nia. exact Mr.
    + rewrite E. eexists. split; [reflexivity|]. replace (S iv * codom * nglp)%nat with ((iv * codom + codom) * nglp)%nat by nia. exact Mr.
  - exists r. split; [exact E|]. replace (n * nglp * codom)%nat with (n * codom * nglp)%nat by lia. exact Mr.
Qed.

(** ** left multiplication by a matrix at each node *)
(** cell (interval, component, node) x (interval, component, node) *)
Definition mcells (m : mat T) (n rows cols dim : nat) (f : nat -> nat -> nat -> nat -> nat -> nat -> T) : Prop :=
  mrows m = (dim * n * rows)%nat /\ mcols m = (dim * n * cols)%nat /\
  forall iv row i iv' col i', (iv < n)%nat -> (row < rows)%nat -> (i < dim)%nat -> (iv' < n)%nat -> (col < cols)%nat -> (i' < dim)%nat ->
    mget m ((iv * rows + row) * dim + i) ((iv' * cols + col) * dim + i') = Some (f iv row i iv' col i').
Lemma mcells_mat m n rows cols dim f : mcells m n rows cols dim f ->
  mat_is m (n * dim * rows) (n * dim * cols) (fun r c => nidx rows dim (fun iv row i => nidx cols dim (fun iv' col i' => f iv row i iv' col i') c) r).
Proof.
  intros (R & C & G). split; [lia|]. split; [lia|]. intros r c Hr Hc.
  destruct (nidx_split n rows dim r Hr) as (iv & row & i & A & B & D & ->). destruct (nidx_split n cols dim c Hc) as (iv' & col & i' & A' & B' & D' & ->).
  rewrite !nidx_at by auto. auto.
Qed.
Lemma mcells_write m n rows cols dim f iv row i col x g : mcells m n rows cols dim f -> (iv < n)%nat -> (row < rows)%nat -> (i < dim)%nat -> (col < cols)%nat ->
  g iv row i iv col i = x ->
  (forall a b c a' b' c', (a < n)%nat -> (b < rows)%nat -> (c < dim)%nat -> (a' < n)%nat -> (b' < cols)%nat -> (c' < dim)%nat ->
     ~ (a = iv /\ b = row /\ c = i /\ a' = iv /\ b' = col /\ c' = i) -> g a b c a' b' c' = f a b c a' b' c') ->
  exists m', mwrite m ((iv * rows + row) * dim + i) ((iv * cols + col) * dim + i) x = Ok m' /\ mcells m' n rows cols dim g.
Proof.
  intros (R & C & G) H1 H2 H3 H4 Ex Eo.
  assert (B1 := nidx_lt n rows dim iv row i H1 H2 H3). assert (B2 := nidx_lt n cols dim iv col i H1 H4 H3).
  rewrite mwrite_lt by lia. eexists. split; [reflexivity|]. split; [exact R|]. split; [exact C|]. intros a b c a' b' c' A1 A2 A3 A4 A5 A6. cbn [mget].
  destruct (Nat.eqb_spec ((a * rows + b) * dim + c) ((iv * rows + row) * dim + i)) as [E|Ne]; cbn [andb].
  - apply nidx_inj in E; auto. destruct E as (-> & -> & ->).
    destruct (Nat.eqb_spec ((a' * cols + b') * dim + c') ((iv * cols + col) * dim + i)) as [E|Ne].
    + apply nidx_inj in E; auto. destruct E as (-> & -> & ->). now rewrite Ex.
    + rewrite G by auto. f_equal. symmetry. apply Eo; auto. intros (_ & _ & _ & -> & -> & ->). lia.
  - rewrite G by auto. f_equal. symmetry. apply Eo; auto. intros (-> & -> & -> & _). lia.
Qed.

(** cells written before step (idx, col, row) *)
Definition before3 (idx col row k b b' : nat) : bool :=
  Nat.ltb k idx || (Nat.eqb k idx && (Nat.ltb b' col || (Nat.eqb b' col && Nat.ltb b row))).
Definition mstage (dim idx col row : nat) (ok : nat -> bool) (P : nat -> nat -> nat -> T) (f0 : nat -> nat -> nat -> nat -> nat -> nat -> T) :=
  fun iv b i iv' b' i' => if Nat.eqb iv iv' && Nat.eqb i i' && ok b && before3 idx col row (iv * dim + i) b b' then P (iv * dim + i)%nat b b' else f0 iv b i iv' b' i'.
Lemma mcells_ext m n rows cols dim f g : mcells m n rows cols dim f ->
  (forall a b c a' b' c', (a < n)%nat -> (b < rows)%nat -> (c < dim)%nat -> (a' < n)%nat -> (b' < cols)%nat -> (c' < dim)%nat -> f a b c a' b' c' = g a b c a' b' c') ->
  mcells m n rows cols dim g.
Proof. intros (R & C & G) E. split; [exact R|]. split; [exact C|]. intros. rewrite <- E by auto. auto. Qed.
Ltac bcase := repeat (match goal with
  | |- context [Nat.eqb ?a ?b] => destruct (Nat.eqb_spec a b)
  | |- context [Nat.ltb ?a ?b] => destruct (Nat.ltb_spec a b) end; cbn [andb orb]; try (exfalso; lia)).
Lemma mstage_step m n rows cols dim idx col row ok P f0 x : mcells m n rows cols dim (mstage dim idx col row ok P f0) -> (idx < dim * n)%nat -> (col < cols)%nat -> (row < rows)%nat ->
  ok row = true -> x = P idx row col ->
  exists m', mwrite m (row * dim + idx / dim * dim * rows + idx mod dim) (col * dim + idx / dim * dim * cols + idx mod dim) x = Ok m' /\
    mcells m' n rows cols dim (mstage dim idx col (S row) ok P f0).
Proof.
  intros M Hx Hc Hr Ho ->. assert (0 < dim)%nat by (destruct dim; lia). assert (Dm := Nat.div_mod idx dim ltac:(lia)).
  assert (Hm : (idx mod dim < dim)%nat) by (apply Nat.mod_upper_bound; lia). assert (Hq : (idx / dim < n)%nat) by (apply Nat.div_lt_upper_bound; lia).
  replace (row * dim + idx / dim * dim * rows + idx mod dim)%nat with ((idx / dim * rows + row) * dim + idx mod dim)%nat by nia.
  replace (col * dim + idx / dim * dim * cols + idx mod dim)%nat with ((idx / dim * cols + col) * dim + idx mod dim)%nat by nia.
  eapply mcells_write; eauto.
  - unfold mstage, before3. rewrite !Nat.eqb_refl, Ho. replace (idx / dim * dim + idx mod dim)%nat with idx by lia. rewrite Nat.eqb_refl.
    destruct (Nat.ltb_spec row (S row)); [|lia]. cbn [andb orb]. rewrite !orb_true_r. cbn. reflexivity.
  - intros a b c a' b' c' A1 A2 A3 A4 A5 A6 Ne. unfold mstage.
    destruct (Nat.eqb_spec a a') as [->|]; cbn [andb]; [|reflexivity]. destruct (Nat.eqb_spec c c') as [->|]; cbn [andb]; [|reflexivity].
    destruct (ok b); cbn [andb]; [|reflexivity].
    assert (X : before3 idx col (S row) (a' * dim + c') b b' = before3 idx col row (a' * dim + c') b b').
    { unfold before3. destruct (Nat.eqb_spec (a' * dim + c') idx) as [E|]; cbn [andb]; [|reflexivity].
      assert (E' : (a' * dim + c' = idx / dim * dim + idx mod dim)%nat) by lia. apply row_inj in E'; auto. destruct E' as (-> & ->).
      bcase; reflexivity. }
    rewrite X. reflexivity.
Qed.
Lemma before3_next_col idx col rows k b b' : (b < rows)%nat -> before3 idx col rows k b b' = before3 idx (S col) 0 k b b'.
Proof. intros Hb. unfold before3. bcase; reflexivity. Qed.
Lemma before3_next_idx idx cols k b b' : (b' < cols)%nat -> before3 idx cols 0 k b b' = before3 (S idx) 0 0 k b b'.
Proof. intros Hb. unfold before3. bcase; reflexivity. Qed.

(** the triple loop; [rmax] rows are written *)
Lemma mloop n rows cols dim rmax (val : nat -> nat -> nat -> outcome T) (pre : nat -> outcome unit) P f0 m : mcells m n rows cols dim f0 -> (rmax <= rows)%nat ->
  (forall idx, (idx < dim * n)%nat -> pre idx = Ok tt) ->
  (forall idx row col, (idx < dim * n)%nat -> (row < rmax)%nat -> (col < cols)%nat -> val idx row col = Ok (P idx row col)) ->
  exists m', for_ 0 (dim * n) (fun idx m => _ <- pre idx ;; for_ 0 cols (fun col m => for_ 0 rmax (fun row m =>
      x <- val idx row col ;; mwrite m (row * dim + idx / dim * dim * rows + idx mod dim) (col * dim + idx / dim * dim * cols + idx mod dim) x) m) m) m = Ok m' /\
    mcells m' n rows cols dim (fun iv b i iv' b' i' => if Nat.eqb iv iv' && Nat.eqb i i' && Nat.ltb b rmax then P (iv * dim + i)%nat b b' else f0 iv b i iv' b' i').
Proof.
  intros M Hr Hp Hv. set (ok := fun b => Nat.ltb b rmax).
  match goal with |- context [for_ ?lo ?hi ?b ?v] => destruct (for_ok (fun k m => mcells m n rows cols dim (mstage dim k 0 0 ok P f0)) b lo hi v) as (r & E & Mr) end.
  - lia.
  - eapply mcells_ext; [exact M|]. intros a b c a' b' c' _ _ _ _ _ _. unfold mstage, before3. destruct (Nat.ltb_spec b' 0); [lia|]. destruct (Nat.ltb_spec b 0); [lia|].
    destruct (Nat.ltb_spec (a * dim + c) 0); [lia|]. cbn [orb]. rewrite !andb_false_r. reflexivity.
  - intros idx m1 Hx M1. rewrite Hp by lia. cbn [bind].
    match goal with |- context [for_ ?lo ?hi ?b ?v] => destruct (for_ok (fun k m => mcells m n rows cols dim (mstage dim idx k 0 ok P f0)) b lo hi v) as (r & E & Mr) end.
    + lia.
    + exact M1.
    + intros col m2 Hc M2.
      match goal with |- context [for_ ?lo ?hi ?b ?v] => destruct (for_ok (fun k m => mcells m n rows cols dim (mstage dim idx col k ok P f0)) b lo hi v) as (r & E & Mr) end.
      * lia.
      * exact M2.
      * intros row m3 Hrow M3. rewrite Hv by lia. cbn [bind]. apply (mstage_step m3 n rows cols dim idx col row ok P f0); auto; try lia. unfold ok. apply Nat.ltb_lt. lia.
      * rewrite E. eexists. split; [reflexivity|]. eapply mcells_ext; [exact Mr|]. intros a b c a' b' c' A1 A2 A3 A4 A5 A6. unfold mstage, ok.
        destruct (Nat.ltb_spec b rmax); [|now rewrite !andb_false_r]. now rewrite (before3_next_col idx col rmax) by auto.
    + rewrite E. eexists. split; [reflexivity|]. eapply mcells_ext; [exact Mr|]. intros a b c a' b' c' A1 A2 A3 A4 A5 A6. unfold mstage.
      now rewrite (before3_next_idx idx cols) by auto.
  - exists r. split; [exact E|]. eapply mcells_ext; [exact Mr|]. intros a b c a' b' c' A1 A2 A3 A4 A5 A6. unfold mstage, ok, before3.
    destruct (Nat.ltb_spec (a * dim + c) (dim * n)); [|nia]. cbn [orb]. now rewrite andb_true_r.
Qed.
End G.
