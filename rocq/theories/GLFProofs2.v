(** Collocation functionals over the reals. *)
From Coquelicot Require Import Coquelicot.
From Coq Require Import List Arith Lia Bool ZArith Reals Lra.
From Verif Require Import Num Outcome LinAlg RSum RPoly RDeriv LegendreSpec LegendreModel LagrangeSpec LagrangeModel LagrangeMath LagrangeProofs
  Basis0101Model BasisModel SplineSpec BasisFn BasisProofs BasisProofs2 BasisProofs3
  ToolsModel FunModel GSplineModel GSplineProofs GSplineProofs2 GSplineProofs4 GLSpec GLModel GLProofs GLProofs2 GLLModel GLLProofs GLLProofs2 GLLProofs3 GLFModel GLFProofs.
Import ListNotations.
Local Opaque gl_iters.
Local Open Scope R_scope.

Lemma sum_nodes n codom dim f : Rsum (n * dim * codom) f = Rsum n (fun iv => Rsum codom (fun cc => Rsum dim (fun i => f ((iv * codom + cc) * dim + i)%nat))).
Proof. replace (n * dim * codom)%nat with (n * codom * dim)%nat by lia. rewrite Rsum_mul, Rsum_mul. reflexivity. Qed.
Lemma sum_same_node n codom dim iv i (f : nat -> R) (g : nat -> nat -> nat -> R) : (iv < n)%nat -> (i < dim)%nat ->
  (forall iv' cc i', (iv' < n)%nat -> (cc < codom)%nat -> (i' < dim)%nat -> f ((iv' * codom + cc) * dim + i')%nat = if Nat.eqb iv iv' && Nat.eqb i i' then g iv cc i else 0) ->
  Rsum (n * dim * codom) f = Rsum codom (fun cc => g iv cc i).
Proof.
  intros Hiv Hi E. rewrite sum_nodes. rewrite (Rsum_delta n iv); auto.
  - apply Rsum_ext. intros cc Hc. rewrite (Rsum_delta dim i); auto.
    + rewrite E by auto. now rewrite !Nat.eqb_refl.
    + intros i' Hi' Ne. rewrite E by auto. destruct (Nat.eqb_spec i i'); [congruence|]. now rewrite andb_false_r.
  - intros iv' Hiv' Ne. apply Rsum_zero. intros cc Hc. apply Rsum_zero. intros i' Hi'. rewrite E by auto. destruct (Nat.eqb_spec iv iv'); [congruence|]. reflexivity.
Qed.

Lemma for_ext {S} lo hi (f h : nat -> S -> outcome S) s : (forall i s, (lo <= i < hi)%nat -> f i s = h i s) -> for_ lo hi f s = for_ lo hi h s.
Proof.
  unfold for_. intros E. assert (X : forall k a s, (lo <= a)%nat -> (a + k <= hi)%nat -> for_n a k f s = for_n a k h s).
  { induction k as [|k IH]; intros a s' A B; cbn [for_n]; auto. rewrite E by lia. destruct (h a s'); cbn [bind]; auto. apply IH; lia. }
  destruct (le_lt_dec lo hi); [apply X; lia|]. replace (hi - lo)%nat with 0%nat by lia. reflexivity.
Qed.
Definition ok_or_ub {S} (o : outcome S) : Prop := o = UB \/ exists s, o = Ok s.
Lemma for_ok_or_ub {S} lo hi (f : nat -> S -> outcome S) s : (forall i s, (lo <= i < hi)%nat -> ok_or_ub (f i s)) -> ok_or_ub (for_ lo hi f s).
Proof.
  intros E. unfold for_. assert (X : forall k a s, (lo <= a)%nat -> (a + k <= hi)%nat -> ok_or_ub (for_n a k f s)).
  { induction k as [|k IH]; intros a s' A B; cbn [for_n]; [right; eauto|]. destruct (E a s' ltac:(lia)) as [->|(s1 & ->)]; cbn [bind]; [left; auto|]. apply IH; lia. }
  destruct (le_lt_dec lo hi); [apply X; lia|]. replace (hi - lo)%nat with 0%nat by lia. right; eexists; reflexivity.
Qed.
Lemma for_ub {S} lo hi (f : nat -> S -> outcome S) s i0 : (forall i s, (lo <= i < hi)%nat -> ok_or_ub (f i s)) -> (lo <= i0 < hi)%nat -> (forall s, f i0 s = UB) -> for_ lo hi f s = UB.
Proof.
  intros E Hi U. unfold for_. replace (hi - lo)%nat with ((i0 - lo) + (1 + (hi - i0 - 1)))%nat by lia. rewrite for_n_app.
  destruct (for_ok_or_ub lo i0 f s) as [X|(s1 & X)]. { intros; apply E; lia. }
  - unfold for_ in X. rewrite X. reflexivity.
  - unfold for_ in X. rewrite X. cbn [bind]. replace (lo + (i0 - lo))%nat with i0 by lia. cbn [Nat.add for_n]. rewrite U. reflexivity.
Qed.

Section F.
Variable fresh : nat -> nat -> option R.

Lemma colloc_vec (g : gspline R) dom n codom nglp tf V : colloc g dom n codom nglp tf V -> vec_is (gs_coef g) (n * nglp * codom) (nidx codom nglp V).
Proof. intros (_ & _ & _ & L & G & _). apply vec_nodes; auto. Qed.

(** a matrix applied to a spline *)
Lemma lf_spline_ok (m : mat R) M (g : gspline R) dom n rows cols nglp tf V : mat_is m (n * nglp * rows) (n * nglp * cols) M ->
  colloc g dom n cols nglp tf V -> (2 <= nglp)%nat -> (1 <= n)%nat ->
  exists r, lf_spline fresh m g = Ok r /\ colloc r dom n rows nglp tf (fun iv cc i => Rsum (n * nglp * cols) (fun k => M ((iv * rows + cc) * nglp + i)%nat k * nidx cols nglp V k)).
Proof.
  intros Mm C Hn H1. unfold lf_spline, lf_call. destruct (mvmul_is m _ _ _ _ _ Mm (colloc_vec _ _ _ _ _ _ _ C)) as (w & E & W). rewrite E. cbn [bind].
  destruct (colloc_shape _ _ _ _ _ _ _ C Hn) as (-> & -> & _). destruct (Nat.eqb_spec n 0); [lia|]. destruct (Nat.eqb_spec nglp 0); [lia|]. cbn [orb].
  replace (mrows m / n / nglp)%nat with rows.
  2:{ replace (mrows m) with (n * nglp * rows)%nat by (symmetry; apply Mm). rewrite Nat.div_div by lia. rewrite Nat.mul_comm, Nat.div_mul by lia. reflexivity. }
  destruct (gll_make_ok fresh (gs_dom g) rows n nglp w (gs_tau g) tf _ Hn W ltac:(apply C)) as (r & b & Er & Eb & -> & Db & Wr).
  eexists. split; [exact Er|]. unfold colloc. cbn [gs_dom gs_codom gs_tau gs_coef gs_buf gs_basis]. split; [apply C|]. split; [reflexivity|]. split; [apply C|].
  split; [apply W|]. split.
  { intros iv cc i A B D. destruct W as [_ W]. rewrite W by (apply nidx_lt; auto). now rewrite nsum_R. }
  split; [exact Db|]. destruct (gll_basis_ok fresh nglp Hn) as (p & bw & gr & E1 & E2 & _ & E3 & _). rewrite E1 in Eb. injection Eb as <-. eauto 10.
Qed.

(** *** transposed vector *)
Definition tmat (codom nglp n : nat) (cf : nat -> R) (r c : nat) : R :=
  tcell codom nglp (n * nglp * codom) cf (fun _ _ => 0) r c.
Lemma tmat_at codom nglp n cf iv i iv' cc i' : (iv < n)%nat -> (i < nglp)%nat -> (iv' < n)%nat -> (cc < codom)%nat -> (i' < nglp)%nat ->
  tmat codom nglp n cf (iv * nglp + i) ((iv' * codom + cc) * nglp + i') = if Nat.eqb iv iv' && Nat.eqb i i' then cf ((iv * codom + cc) * nglp + i)%nat else 0.
Proof.
  intros A B A' C B'. unfold tmat, tcell. rewrite prow_at by auto. pose proof (nidx_lt n codom nglp iv' cc i' A' C B').
  destruct (Nat.ltb_spec ((iv' * codom + cc) * nglp + i') (n * nglp * codom)); [|lia]. cbn [andb].
  destruct (Nat.eqb_spec (iv * nglp + i) (iv' * nglp + i')) as [E|Ne].
  - apply row_inj in E; auto. destruct E as (-> & ->). now rewrite !Nat.eqb_refl.
  - destruct (Nat.eqb_spec iv iv') as [->|]; cbn [andb]; auto. destruct (Nat.eqb_spec i i') as [->|]; auto. lia.
Qed.
(** row times vector: the inner product at the node *)
Lemma tmat_row codom nglp n cf u iv i : (iv < n)%nat -> (i < nglp)%nat ->
  Rsum (n * nglp * codom) (fun k => tmat codom nglp n cf (iv * nglp + i) k * u k) = Rsum codom (fun cc => cf ((iv * codom + cc) * nglp + i)%nat * u ((iv * codom + cc) * nglp + i)%nat).
Proof.
  intros Hiv Hi. apply (sum_same_node n codom nglp iv i _ (fun iv cc i => cf ((iv * codom + cc) * nglp + i)%nat * u ((iv * codom + cc) * nglp + i)%nat)); auto.
  intros iv' cc i' A B D. rewrite tmat_at by auto. destruct (Nat.eqb_spec iv iv') as [->|]; cbn [andb]; [|ring]. destruct (Nat.eqb_spec i i') as [->|]; ring.
Qed.
Lemma tlm_of_gen (g : gspline R) n codom nglp cf : gs_n g = n -> gs_dim g = nglp -> gs_codom g = codom -> vec_is (gs_coef g) (n * nglp * codom) cf ->
  exists t, tlm_of g = Ok t /\ tl_nglp t = nglp /\ tl_n t = n /\ tl_codom t = codom /\ mat_is (tl_mat t) (n * nglp * 1) (n * nglp * codom) (tmat codom nglp n cf).
Proof.
  intros <- <- <- V. unfold tlm_of. cbn [tlm_new tl_n tl_codom tl_nglp tl_mat].
  destruct (tlm_fill_ok (gs_n g) (gs_codom g) (gs_dim g) (gs_coef g) _ (mzero (gs_dim g * gs_n g) (gs_dim g * gs_n g * gs_codom g)) (fun _ _ => n0) V (mzero_is _ _)) as (m & E & M).
  rewrite E. cbn [bind]. eexists. split; [reflexivity|]. cbn. repeat (split; [reflexivity|]).
  destruct M as (R & K & G). split; [cbn in *; lia|]. split; [cbn in *; lia|]. intros i j Hi Hj. apply G; lia.
Qed.
Lemma tlm_of_ok (g : gspline R) dom n codom nglp tf V : colloc g dom n codom nglp tf V -> (2 <= nglp)%nat ->
  exists t, tlm_of g = Ok t /\ tl_nglp t = nglp /\ tl_n t = n /\ tl_codom t = codom /\ mat_is (tl_mat t) (n * nglp * 1) (n * nglp * codom) (tmat codom nglp n (nidx codom nglp V)).
Proof. intros C Hn. destruct (colloc_shape _ _ _ _ _ _ _ C Hn) as (A & B & D). apply tlm_of_gen; auto. eapply colloc_vec; eauto. Qed.
(** pointwise product of two vector splines *)
Lemma tmat_inner m (b : gspline R) domb n codom nglp tb Va Vb : mat_is m (n * nglp * 1) (n * nglp * codom) (tmat codom nglp n (nidx codom nglp Va)) ->
  colloc b domb n codom nglp tb Vb -> (2 <= nglp)%nat -> (1 <= n)%nat ->
  exists r w, lf_spline fresh m b = Ok r /\ colloc r domb n 1 nglp tb (fun iv _ i => Rsum codom (fun cc => Va iv cc i * Vb iv cc i)) /\
    lf_call m b = Ok w /\ vlen w = (n * nglp)%nat /\
    forall iv i, (iv < n)%nat -> (i < nglp)%nat -> vget w (iv * nglp + i) = Some (Rsum codom (fun cc => Va iv cc i * Vb iv cc i)).
Proof.
  intros M Cb Hn H1.
  assert (X : forall iv i, (iv < n)%nat -> (i < nglp)%nat ->
     Rsum (n * nglp * codom) (fun k => tmat codom nglp n (nidx codom nglp Va) (iv * nglp + i) k * nidx codom nglp Vb k) = Rsum codom (fun cc => Va iv cc i * Vb iv cc i)).
  { intros iv i Hiv Hi. rewrite tmat_row by auto. apply Rsum_ext. intros cc Hc. now rewrite !nidx_at. }
  destruct (lf_spline_ok _ _ b domb n 1 codom nglp tb Vb M Cb Hn H1) as (r & Er & Cr).
  destruct (mvmul_is _ _ _ _ _ _ M (colloc_vec _ _ _ _ _ _ _ Cb)) as (w & Ew & W). exists r, w. split; [exact Er|].
  split; [|split; [exact Ew|]].
  - eapply colloc_ext; [exact Cr|]. intros iv cc i A B D. cbn beta. replace ((iv * 1 + cc) * nglp + i)%nat with (iv * nglp + i)%nat by nia. auto.
  - split; [destruct W; lia|]. intros iv i Hiv Hi. destruct W as [_ W]. rewrite W by (pose proof (row_lt n nglp iv i Hiv Hi); lia). rewrite nsum_R, X by auto. reflexivity.
Qed.
(** the same for an operator filled before and assigned again *)
Lemma tcell_over codom dim k (v v' : nat -> R) r c : tcell codom dim k v' (tcell codom dim k v (fun _ _ => 0)) r c = tcell codom dim k v' (fun _ _ => 0) r c.
Proof. unfold tcell. destruct (Nat.ltb c k && Nat.eqb r (prow codom dim c)); reflexivity. Qed.
Lemma tlm_assign_ok (a b : gspline R) doma domb n codom nglp ta tb Va Vb ta0 : colloc a doma n codom nglp ta Va -> colloc b domb n codom nglp tb Vb -> (2 <= nglp)%nat ->
  tlm_of a = Ok ta0 -> exists t, tlm_assign ta0 b = Ok t /\ mat_is (tl_mat t) (n * nglp * 1) (n * nglp * codom) (tmat codom nglp n (nidx codom nglp Vb)).
Proof.
  intros Ca Cb Hn E. destruct (tlm_of_ok a _ _ _ _ _ _ Ca Hn) as (t & E' & K1 & K2 & K3 & M). rewrite E in E'. injection E' as <-. unfold tlm_assign.
  replace (gs_codom b) with codom by (symmetry; apply Cb). rewrite K1, K2, K3, Nat.eqb_refl. cbn [require bind].
  destruct (tlm_fill_ok n codom nglp (gs_coef b) _ (tl_mat ta0) (tmat codom nglp n (nidx codom nglp Va)) (colloc_vec _ _ _ _ _ _ _ Cb)) as (m & Em & Mm).
  { destruct M as (R & K & G). split; [lia|]. split; [lia|]. intros; apply G; lia. }
  rewrite Em. cbn [bind]. eexists. split; [reflexivity|]. cbn [tl_mat]. destruct Mm as (R & K & G). split; [lia|]. split; [lia|].
  intros i j Hi Hj. rewrite G by lia. f_equal. apply tcell_over.
Qed.

(** *** composition *)
Lemma lf_compose (a b : mat R) r k c f h (g : gspline R) v : mat_is a r k f -> mat_is b k c h -> vec_is (gs_coef g) c v ->
  exists p w w' x F, lf_mul a b = Ok p /\ lf_call p g = Ok w /\ lf_call b g = Ok w' /\ mvmul a w' = Ok x /\ vec_is w r F /\ vec_is x r F.
Proof.
  intros A B V. destruct (mmul_is a b r k c f h A B) as (p & Ep & P). destruct (mvmul_is p _ _ _ _ _ P V) as (w & Ew & W).
  destruct (mvmul_is b _ _ _ _ _ B V) as (w' & Ew' & W'). destruct (mvmul_is a w' _ _ _ _ A W') as (x & Ex & X).
  exists p, w, w', x. eexists. repeat (split; [eassumption|]). eapply vec_is_ext; [exact X|]. intros i Hi. rewrite !nsum_R.
  rewrite (Rsum_ext k _ (fun l => Rsum c (fun j => f i l * (h l j * v j)))). 2:{ intros l Hl. rewrite nsum_R. rnum. symmetry. apply Rsum_scal. }
  rewrite Rsum_swap. apply Rsum_ext. intros j Hj. match goal with |- _ = nmul ?u _ => replace u with (Rsum k (fun l => f i l * h l j)) by (symmetry; apply nsum_R) end. rnum. rewrite <- Rsum_scal_r. apply Rsum_ext. intros l Hl. ring.
Qed.
Lemma mzip_is (op : R -> R -> R) (a b : mat R) r c f h : mat_is a r c f -> mat_is b r c h -> exists m, mzip op a b = Ok m /\ mat_is m r c (fun i j => op (f i j) (h i j)).
Proof.
  intros (R1 & C1 & G1) (R2 & C2 & G2). unfold mzip. rewrite R1, R2, C1, C2, !Nat.eqb_refl. cbn [andb]. eexists. split; [reflexivity|].
  split; [reflexivity|]. split; [reflexivity|]. intros i j Hi Hj. cbn [mget]. rewrite G1, G2 by auto. reflexivity.
Qed.

(** *** matrix at each node *)
Lemma mlm_new_cells cols nglp n rows : mcells (ml_mat (mlm_new (T := R) cols nglp n rows)) n rows cols nglp (fun _ _ _ _ _ _ => 0).
Proof. split; [reflexivity|]. split; [reflexivity|]. reflexivity. Qed.
Lemma mlm_update_ok (a : mlm R) ms P f0 : mcells (ml_mat a) (ml_n a) (ml_rows a) (ml_cols a) (ml_nglp a) f0 ->
  length ms = (ml_nglp a * ml_n a)%nat -> (forall k p, nth_error ms k = Some p -> mat_is p (ml_rows a) (ml_cols a) (P k)) ->
  exists m, mlm_update a ms = Ok (mlm_with a m) /\ mcells m (ml_n a) (ml_rows a) (ml_cols a) (ml_nglp a)
    (fun iv b i iv' b' i' => if Nat.eqb iv iv' && Nat.eqb i i' then P (iv * ml_nglp a + i)%nat b b' else f0 iv b i iv' b' i').
Proof.
  intros M L HP. unfold mlm_update. rewrite L, Nat.eqb_refl. cbn [negb].
  assert (Hnth : forall idx, (idx < ml_nglp a * ml_n a)%nat -> exists p, nth_error ms idx = Some p).
  { intros idx Hx. destruct (nth_error ms idx) as [p|] eqn:E; [eauto|]. apply nth_error_None in E. lia. }
  destruct (mloop (ml_n a) (ml_rows a) (ml_cols a) (ml_nglp a) (ml_rows a)
    (fun idx row col => p <- of_option (nth_error ms idx) ;; mread p row col)
    (fun idx => p <- of_option (nth_error ms idx) ;; if negb (Nat.eqb (mcols p) (ml_cols a)) || negb (Nat.eqb (mrows p) (ml_rows a)) then Throw RuntimeError else Ok tt)
    P f0 (ml_mat a) M (le_n _)) as (m & E & Mm).
  { intros idx Hx. destruct (Hnth idx Hx) as (p & Ep). rewrite Ep. cbn [of_option bind]. destruct (HP idx p Ep) as (R & K & _). now rewrite R, K, !Nat.eqb_refl. }
  { intros idx row col Hx Hr Hc. destruct (Hnth idx Hx) as (p & Ep). rewrite Ep. cbn [of_option bind]. apply (mread_ok p _ _ (P idx) row col (HP idx p Ep)); auto. }
  exists m. split.
  - match goal with |- bind ?X _ = _ => assert (EX : X = Ok m) end.
    { rewrite <- E. apply for_ext. intros idx m0 Hx. destruct (Hnth idx ltac:(lia)) as (p & Ep). rewrite Ep. cbn [of_option bind].
      destruct (HP idx p Ep) as (R & K & _). rewrite R, K, !Nat.eqb_refl. cbn [negb orb bind]. reflexivity. }
    rewrite EX. reflexivity.
  - eapply mcells_ext; [exact Mm|]. intros x b c a' b' c' A1 A2 A3 A4 A5 A6. cbn beta. destruct (Nat.ltb_spec b (ml_rows a)); [|lia]. now rewrite andb_true_r.
Qed.
Lemma mlm_const_ok (a : mlm R) p P f0 : mcells (ml_mat a) (ml_n a) (ml_rows a) (ml_cols a) (ml_nglp a) f0 -> (ml_cols a <= ml_rows a)%nat ->
  mat_is p (ml_rows a) (ml_cols a) P ->
  exists m, mlm_update_const a p = Ok (mlm_with a m) /\ mcells m (ml_n a) (ml_rows a) (ml_cols a) (ml_nglp a)
    (fun iv b i iv' b' i' => if Nat.eqb iv iv' && Nat.eqb i i' && Nat.ltb b (ml_cols a) then P b' b else f0 iv b i iv' b' i').
Proof.
  intros M Hle Mp. pose proof Mp as (R & K & _). unfold mlm_update_const. rewrite R, K, !Nat.eqb_refl. cbn [negb orb].
  destruct (mloop (ml_n a) (ml_rows a) (ml_cols a) (ml_nglp a) (ml_cols a) (fun idx row col => mread p col row) (fun idx => Ok tt) (fun _ row col => P col row) f0 (ml_mat a) M Hle) as (m & E & Mm).
  { reflexivity. } { intros idx row col Hx Hr Hc. apply (mread_ok p _ _ P col row Mp); lia. }
  exists m. split; [|exact Mm]. rewrite (Nat.mul_comm (ml_n a)). cbn [bind] in E. unfold mlm_i0, mlm_j0. rewrite E. reflexivity.
Qed.
Lemma mlm_const_ub (a : mlm R) p : (ml_rows a < ml_cols a)%nat -> (1 <= ml_n a)%nat -> (1 <= ml_nglp a)%nat ->
  mrows p = ml_rows a -> mcols p = ml_cols a -> mlm_update_const a p = UB.
Proof.
  intros Hlt H1 Hn Rw K. unfold mlm_update_const. rewrite Rw, K, !Nat.eqb_refl. cbn [negb orb].
  assert (W : forall (m : mat R) i j x, ok_or_ub (mwrite m i j x)).
  { intros m i j x. unfold mwrite. destruct (_ && _); [right; eauto|left; auto]. }
  assert (Rd : forall (m : mat R) i j, ok_or_ub (mread m i j)).
  { intros m i j. unfold mread. destruct (_ && _); [|left; auto]. destruct (mget m i j); [right; eexists; reflexivity|left; auto]. }
  assert (In : forall idx col m row, ok_or_ub (x <- mread p col row ;; mwrite m (mlm_i0 a idx row) (mlm_j0 a idx col) x)).
  { intros. destruct (Rd p col row) as [->|(x & ->)]; cbn [bind]; [left; auto|apply W]. }
  rewrite (for_ub 0 (ml_n a * ml_nglp a) _ (ml_mat a) 0); [reflexivity| |nia|].
  - intros idx m _. apply for_ok_or_ub. intros col m' _. apply for_ok_or_ub. intros row m'' _. apply In.
  - intros m. apply (for_ub 0 (ml_cols a) _ m (ml_rows a)); [|lia|].
    + intros col m' _. apply for_ok_or_ub. intros row m'' _. apply In.
    + intros m'. apply (for_ub 0 (ml_cols a) _ m' 0); [|lia|]. { intros row m'' _. apply In. }
      intros m''. unfold mread. rewrite Rw. destruct (Nat.ltb_spec (ml_rows a) (ml_rows a)); [lia|]. reflexivity.
Qed.
(** the product of such a matrix with a vector spline *)
Lemma mcells_spline m rows cols nglp n f (g : gspline R) dom tf V Q : mcells m n rows cols nglp f -> colloc g dom n cols nglp tf V -> (2 <= nglp)%nat -> (1 <= n)%nat ->
  (forall iv b i iv' b' i', (iv < n)%nat -> (b < rows)%nat -> (i < nglp)%nat -> (iv' < n)%nat -> (b' < cols)%nat -> (i' < nglp)%nat ->
     f iv b i iv' b' i' = if Nat.eqb iv iv' && Nat.eqb i i' then Q iv i b b' else 0) ->
  exists r, lf_spline fresh m g = Ok r /\ colloc r dom n rows nglp tf (fun iv b i => Rsum cols (fun b' => Q iv i b b' * V iv b' i)).
Proof.
  intros M C Hn H1 E. pose proof (mcells_mat m n rows cols nglp f M) as Mm.
  destruct (lf_spline_ok m _ g dom n rows cols nglp tf V Mm C Hn H1) as (r & Er & Cr). exists r. split; [exact Er|].
  eapply colloc_ext; [exact Cr|]. intros iv b i A B D. cbn beta.
  apply (sum_same_node n cols nglp iv i _ (fun iv b' i => Q iv i b b' * V iv b' i)); auto. intros iv' b' i' A' B' D'.
  pose proof (nidx_lt n rows nglp iv b i A B D). rewrite !nidx_at by auto. rewrite E by auto. destruct (_ && _) eqn:X; [|ring].
  apply andb_prop in X. destruct X as [X1 X2]. apply Nat.eqb_eq in X1. apply Nat.eqb_eq in X2. subst. reflexivity.
Qed.
End F.
