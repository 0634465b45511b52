(** Collocation splines: pointwise operations, for any numbers. *)
From Coq Require Import List Arith Lia Bool ZArith.
From Verif Require Import Num Outcome LinAlg LegendreModel LagrangeModel LagrangeProofs Basis0101Model BasisModel ToolsModel FunModel
  GSplineModel GSplineProofs GLModel GLProofs GLLModel GLLProofs.
Import ListNotations.
Local Open Scope nat_scope.
Local Open Scope num_scope.
Local Opaque gl_iters.

Section G.
Context {T : Type} `{Num T}.
Variable fresh : nat -> nat -> option T.
Implicit Types (g a b r : gspline T) (tf : nat -> T) (V : nat -> nat -> nat -> T).

(** [g] is a collocation spline with [n] intervals of lengths [tf] and [nglp]
    points each; component [cc] at node [i] of interval [iv] is [V iv cc i] *)
Definition colloc g (dom : T * T) (n codom nglp : nat) tf V : Prop :=
  gs_dom g = dom /\ gs_codom g = codom /\ vec_is (gs_tau g) n tf /\ vlen (gs_coef g) = (n * nglp * codom)%nat /\
  (forall iv cc i, (iv < n)%nat -> (cc < codom)%nat -> (i < nglp)%nat -> vget (gs_coef g) ((iv * codom + cc) * nglp + i) = Some (V iv cc i)) /\
  vlen (gs_buf g) = nglp /\
  exists pts bw gr, gs_basis g = BLagrange pts bw gr /\ gl_points nglp = Ok pts /\ bary_weights pts = Ok bw.

Lemma colloc_gwf g dom n codom nglp tf V : colloc g dom n codom nglp tf V -> (2 <= nglp)%nat ->
  gs_dim g = nglp /\ gwf g n codom tf (nidx codom nglp V).
Proof.
  intros (Ed & Ec & Vt & Lc & Gc & Lb & pts & bw & gr & Eb & Ep & Ew) Hn.
  destruct (gl_points_ok (T := T) nglp Hn) as (p' & Ep' & P). rewrite Ep in Ep'. injection Ep' as <-.
  destruct (bary_weights_gen pts nglp _ P) as (bw' & Ew' & W). rewrite Ew in Ew'. injection Ew' as <-.
  assert (L : vlen pts = nglp) by apply P.
  assert (D : gs_dim g = nglp) by (unfold gs_dim; rewrite Eb; exact L). split; auto.
  unfold gwf. rewrite D, Eb. split; [cbn [bok]; rewrite L; eauto|]. repeat (split; [assumption|]). split; [|assumption]. apply vec_nodes; auto.
Qed.
Lemma colloc_of g g0 dom n codom nglp tf V V0 : colloc g0 dom n codom nglp tf V0 -> (2 <= nglp)%nat ->
  gs_basis g = gs_basis g0 -> gs_dom g = dom -> gwf g n codom tf (nidx codom nglp V) -> colloc g dom n codom nglp tf V.
Proof.
  intros C Hn Eb Ed W. destruct (colloc_gwf _ _ _ _ _ _ _ C Hn) as (D & _). destruct C as (_ & _ & _ & _ & _ & _ & X).
  destruct W as (BO & Ec & Vt & K & Lb). assert (D' : gs_dim g = nglp) by (unfold gs_dim in *; congruence). rewrite D' in *.
  unfold colloc. rewrite Eb. repeat (split; [assumption|]). split; [apply K|]. split; [|auto].
  intros iv cc i A B E. destruct K as [_ K]. rewrite K by (apply nidx_lt; auto). now rewrite nidx_at by auto.
Qed.
Lemma colloc_move g dom n codom nglp tf V : colloc g dom n codom nglp tf V -> colloc (gs_move g) dom n codom nglp tf V.
Proof.
  intros (Ed & Ec & Vt & Lc & Gc & Lb & pts & bw & gr & Eb & Ep & Ew). unfold colloc, gs_move. cbn. 
  repeat (split; [assumption|]). split.
  { unfold gs_dim. rewrite Eb. cbn. unfold gl_points in Ep. destruct (gl_points_weights nglp) as [[p w]| | ] eqn:E; try discriminate.
    injection Ep as ->. destruct (le_lt_dec 2 nglp) as [Hn|Hn]; [|rewrite gl_ub in E by auto; discriminate].
    destruct (gl_ok (T := T) nglp Hn) as (p' & w' & E' & P & _). rewrite E in E'. injection E' as <- <-. apply P. }
  exists pts, bw, gr. auto.
Qed.
Lemma colloc_copy g dom n codom nglp tf V : colloc g dom n codom nglp tf V -> (2 <= nglp)%nat -> gs_copy g = Ok (gs_move g).
Proof. intros C Hn. destruct (colloc_gwf _ _ _ _ _ _ _ C Hn) as (_ & W). eapply gwf_copy; eauto. Qed.
Lemma colloc_start rv g dom n codom nglp tf V : colloc g dom n codom nglp tf V -> (2 <= nglp)%nat ->
  exists s, (if rv : bool then Ok g else gs_copy g) = Ok s /\ colloc s dom n codom nglp tf V.
Proof.
  intros C Hn. destruct rv; [eauto|]. rewrite (colloc_copy _ _ _ _ _ _ _ C Hn). eexists. split; [reflexivity|]. now apply colloc_move.
Qed.
Lemma colloc_finish rv g dom n codom nglp tf V : colloc g dom n codom nglp tf V -> colloc (if rv : bool then gs_move g else g) dom n codom nglp tf V.
Proof. destruct rv; auto using colloc_move. Qed.
Lemma colloc_ext g dom n codom nglp tf V V' : colloc g dom n codom nglp tf V ->
  (forall iv cc i, (iv < n)%nat -> (cc < codom)%nat -> (i < nglp)%nat -> V iv cc i = V' iv cc i) -> colloc g dom n codom nglp tf V'.
Proof.
  intros (Ed & Ec & Vt & Lc & Gc & X) E. unfold colloc. repeat (split; [assumption|]). split; [|exact X]. intros. rewrite <- E by auto. auto.
Qed.
(** shapes *)
Lemma colloc_shape g dom n codom nglp tf V : colloc g dom n codom nglp tf V -> (2 <= nglp)%nat -> gs_n g = n /\ gs_dim g = nglp /\ gs_codom g = codom.
Proof. intros C Hn. destruct (colloc_gwf _ _ _ _ _ _ _ C Hn) as (D & W). split; [apply W|]. split; auto. apply W. Qed.

(** new coefficients *)
Lemma colloc_coef g c dom n codom nglp tf V V' : colloc g dom n codom nglp tf V -> (2 <= nglp)%nat ->
  vec_is c (n * nglp * codom) (nidx codom nglp V') -> colloc (with_coef g c) dom n codom nglp tf V'.
Proof.
  intros C Hn Vc. destruct (colloc_gwf _ _ _ _ _ _ _ C Hn) as (D & W).
  apply (colloc_of _ g dom n codom nglp tf V' V C Hn); [reflexivity|apply C|]. eapply gwf_with_coef; [exact W|]. now rewrite D.
Qed.
Lemma colloc_blocks h g dom n codom nglp tf V G : colloc g dom n codom nglp tf V -> (2 <= nglp)%nat ->
  (forall iv m, (iv < n)%nat -> mat_is m nglp codom (fun i cc => V iv cc i) -> exists m', h iv m = Ok m' /\ mat_is m' nglp codom (fun i cc => G iv cc i)) ->
  exists r, map_blocks h n g = Ok r /\ colloc r dom n codom nglp tf G.
Proof.
  intros C Hn Hh. destruct (colloc_gwf _ _ _ _ _ _ _ C Hn) as (D & W).
  destruct (map_blocks_ok h g n codom tf (nidx codom nglp V) G W) as (c & E & Vc).
  - rewrite D. intros iv m Hiv M. apply Hh; auto. eapply mat_is_ext; [exact M|]. intros i cc Hi Hc. cbn beta. now rewrite nidx_at.
  - rewrite D in Vc. eexists. split; [exact E|]. eapply colloc_coef; eauto.
Qed.

(** element-wise change of the coefficient vector *)
Lemma colloc_map (f : T -> T) g dom n codom nglp tf V (c : vec T) : colloc g dom n codom nglp tf V -> (2 <= nglp)%nat ->
  c = vmap1 f (gs_coef g) -> colloc (with_coef g c) dom n codom nglp tf (fun iv cc i => f (V iv cc i)).
Proof.
  intros C Hn ->. eapply colloc_coef; eauto. destruct C as (_ & _ & _ & Lc & Gc & _). apply vec_nodes; [exact Lc|].
  intros iv cc i A B E. cbn. now rewrite Gc.
Qed.
Lemma scale_ok rv x g dom n codom nglp tf V : colloc g dom n codom nglp tf V -> (2 <= nglp)%nat ->
  exists r, gll_scale rv x g = Ok r /\ colloc r dom n codom nglp tf (fun iv cc i => V iv cc i * x).
Proof.
  intros C Hn. unfold gll_scale. destruct rv.
  - eexists. split; [reflexivity|]. apply colloc_move. apply (colloc_map (fun y => y * x) g); auto.
  - rewrite (colloc_copy _ _ _ _ _ _ _ C Hn). cbn [bind]. eexists. split; [reflexivity|].
    apply (colloc_map (fun y => y * x) (gs_move g)); auto. now apply colloc_move.
Qed.
Lemma pow_ok rv x g dom n nglp tf V : colloc g dom n 1 nglp tf V -> (2 <= nglp)%nat ->
  exists r, gll_pow rv g x = Ok r /\ colloc r dom n 1 nglp tf (fun iv cc i => npow (V iv cc i) x).
Proof.
  intros C Hn. unfold gll_pow. assert (Ec : gs_codom g = 1%nat) by apply C. rewrite Ec. cbn [Nat.eqb require bind]. destruct rv.
  - eexists. split; [reflexivity|]. apply colloc_move. apply (colloc_map (fun y => npow y x) g); auto.
  - rewrite (colloc_copy _ _ _ _ _ _ _ C Hn). cbn [bind]. eexists. split; [reflexivity|].
    apply (colloc_map (fun y => npow y x) (gs_move g)); auto. now apply colloc_move.
Qed.
Lemma div_ok rv x g dom n nglp tf V : colloc g dom n 1 nglp tf V -> (2 <= nglp)%nat ->
  exists r, gll_div rv x g = Ok r /\ colloc r dom n 1 nglp tf (fun iv cc i => x / V iv cc i).
Proof.
  intros C Hn. unfold gll_div. assert (Ec : gs_codom g = 1%nat) by apply C. rewrite Ec. cbn [Nat.eqb require bind].
  destruct (colloc_start rv _ _ _ _ _ _ _ C Hn) as (s & Es & Cs). rewrite Es. cbn [bind].
  destruct (colloc_shape _ _ _ _ _ _ _ C Hn) as (-> & _).
  match goal with |- context [map_blocks ?h n s] => destruct (colloc_blocks h s dom n 1 nglp tf V (fun iv cc i => x / V iv cc i) Cs Hn) as (r & Er & Cr) end.
  - intros iv m Hiv (R & K & G). eexists. split; [reflexivity|]. split; [exact R|]. split; [exact K|]. intros i cc Hi Hc. cbn [mmap mget]. now rewrite G.
  - rewrite Er. cbn [bind]. eexists. split; [reflexivity|]. now apply colloc_finish.
Qed.
Lemma rowwise_ok f rv v vf g dom n codom nglp tf V : colloc g dom n codom nglp tf V -> (2 <= nglp)%nat -> vec_is v codom vf ->
  exists r, gll_rowwise f rv v g = Ok r /\ colloc r dom n codom nglp tf (fun iv cc i => f (vf cc) (V iv cc i)).
Proof.
  intros C Hn Vv. unfold gll_rowwise. assert (Ec : gs_codom g = codom) by apply C. assert (Lv : vlen v = codom) by apply Vv.
  rewrite Ec, Lv, Nat.eqb_refl. cbn [require bind].
  destruct (colloc_start rv _ _ _ _ _ _ _ C Hn) as (s & Es & Cs). rewrite Es. cbn [bind].
  destruct (colloc_shape _ _ _ _ _ _ _ C Hn) as (-> & _).
  match goal with |- context [map_blocks ?h n s] => destruct (colloc_blocks h s dom n codom nglp tf V (fun iv cc i => f (vf cc) (V iv cc i)) Cs Hn) as (r & Er & Cr) end.
  - intros iv m Hiv (R & K & G). eexists. split; [reflexivity|]. split; [exact R|]. split; [exact K|]. intros i cc Hi Hc. cbn [mmap mget].
    rewrite G by auto. destruct Vv as [_ Vv]. now rewrite Vv.
  - rewrite Er. cbn [bind]. eexists. split; [reflexivity|]. now apply colloc_finish.
Qed.
Lemma rowwise_throw f rv v g : vlen v <> gs_codom g -> gll_rowwise f rv v g = Throw InvalidArgument.
Proof. intros Ne. unfold gll_rowwise. destruct (Nat.eqb_spec (vlen v) (gs_codom g)); [contradiction|reflexivity]. Qed.
Lemma codom_throw rv x g : gs_codom g <> 1%nat -> gll_pow rv g x = Throw InvalidArgument /\ gll_div rv x g = Throw InvalidArgument.
Proof. intros Ne. unfold gll_pow, gll_div. destruct (Nat.eqb_spec (gs_codom g) 1); [contradiction|]. auto. Qed.

(** product *)
Lemma mul_ok o a b doma domb n ca cb nglp ta tb Va Vb : colloc a doma n ca nglp ta Va -> colloc b domb n cb nglp tb Vb -> (2 <= nglp)%nat ->
  same_ends doma domb = true -> ca = 1%nat \/ cb = 1%nat ->
  exists r, gll_mul o a b = Ok r /\
    if Nat.eqb cb 1 then colloc r doma n ca nglp ta (fun iv cc i => Va iv cc i * Vb iv 0%nat i)
    else colloc r domb n cb nglp tb (fun iv cc i => Vb iv cc i * Va iv 0%nat i).
Proof.
  intros Ca Cb Hn Hd H1. unfold gll_mul, same_discretization.
  destruct (colloc_shape _ _ _ _ _ _ _ Ca Hn) as (Na & Da & Ka). destruct (colloc_shape _ _ _ _ _ _ _ Cb Hn) as (Nb & Db & Kb).
  rewrite Na, Nb, Da, Db, Ka, Kb, !Nat.eqb_refl. cbn [andb require bind].
  replace (gs_dom a) with doma by (symmetry; apply Ca). replace (gs_dom b) with domb by (symmetry; apply Cb). rewrite Hd. cbn [require bind].
  replace (Nat.eqb ca 1 || Nat.eqb cb 1) with true by (destruct H1 as [->| ->]; cbn; rewrite ?orb_true_r; reflexivity). cbn [require bind].
  assert (X : forall rv v w dom c d tv tw V W, colloc v dom n c nglp tv V -> colloc w d n 1 nglp tw W ->
    exists r, (start <- (if rv : bool then Ok v else gs_copy v) ;;
      r <- map_blocks (fun iv m => s <- value_block w iv ;; if Nat.eqb (mcols s) 0 then UB else Ok (mmap (fun i _ x => olift2 nmul x (mget s i 0)) m)) n start ;;
      Ok (if rv then gs_move r else r)) = Ok r /\ colloc r dom n c nglp tv (fun iv cc i => V iv cc i * W iv 0%nat i)).
  { intros rv v w dom c d tv tw V W Cv Cw. destruct (colloc_start rv _ _ _ _ _ _ _ Cv Hn) as (s & Es & Cs). rewrite Es. cbn [bind].
    match goal with |- context [map_blocks ?h n s] => destruct (colloc_blocks h s dom n c nglp tv V (fun iv cc i => V iv cc i * W iv 0%nat i) Cs Hn) as (r & Er & Cr) end.
    - intros iv m Hiv (R & K & G). destruct (colloc_gwf _ _ _ _ _ _ _ Cw Hn) as (Dw & Ww).
      destruct (block_ok w n 1 tw _ iv Ww Hiv) as (q & Eq & Rq & Kq & Gq). rewrite Eq. cbn [bind]. rewrite Kq. cbn [Nat.eqb].
      eexists. split; [reflexivity|]. split; [exact R|]. split; [exact K|]. intros i cc Hi Hc. cbn [mmap mget].
      rewrite G by auto. rewrite Gq by lia. rewrite Dw, nidx_at by lia. reflexivity.
    - rewrite Er. cbn [bind]. eexists. split; [reflexivity|]. now apply colloc_finish. }
  destruct (Nat.eqb_spec cb 1) as [->|Nc].
  - apply X with (d := domb) (tw := tb); auto.
  - destruct H1 as [->|?]; [|contradiction]. apply X with (d := doma) (tw := ta); auto.
Qed.
Lemma mul_throw o a b : gs_dim a <> gs_dim b \/ gs_n a <> gs_n b \/ same_ends (gs_dom a) (gs_dom b) = false \/ (gs_codom a <> 1%nat /\ gs_codom b <> 1%nat) ->
  gll_mul o a b = Throw InvalidArgument.
Proof.
  intros X. unfold gll_mul, same_discretization.
  destruct (Nat.eqb_spec (gs_dim a) (gs_dim b)); cbn [andb require bind]; [|reflexivity].
  destruct (Nat.eqb_spec (gs_n a) (gs_n b)); cbn [andb require bind]; [|reflexivity].
  destruct (same_ends (gs_dom a) (gs_dom b)) eqn:Ed; cbn [require bind]; [|reflexivity].
  destruct (Nat.eqb_spec (gs_codom a) 1), (Nat.eqb_spec (gs_codom b) 1); cbn [orb require bind]; try reflexivity; exfalso; intuition congruence.
Qed.

(** norm *)
Lemma norm_ok g dom n codom nglp tf V : colloc g dom n codom nglp tf V -> (2 <= nglp)%nat ->
  exists r, gll_norm fresh g = Ok r /\ colloc r dom n 1 nglp tf (fun iv _ i => nsqrt (nsum codom (fun cc => V iv cc i * V iv cc i))).
Proof.
  intros C Hn. unfold gll_norm. destruct (colloc_shape _ _ _ _ _ _ _ C Hn) as (N & D & K). rewrite N, D.
  destruct (colloc_gwf _ _ _ _ _ _ _ C Hn) as (_ & W).
  set (R := fun iv i => nsqrt (nsum codom (fun cc => V iv cc i * V iv cc i))).
  match goal with |- context [for_ ?lo ?hi ?b ?v] => destruct (for_ok (fun k c => vlen c = (nglp * n)%nat /\
      forall iv i, (iv < k)%nat -> (i < nglp)%nat -> vget c (iv * nglp + i) = Some (R iv i)) b lo hi v) as (c & E & Lc & Gc) end.
  - lia.
  - split; [reflexivity|]. intros; lia.
  - intros iv c Hiv (Lc & Gc). destruct (block_ok g n codom tf _ iv W ltac:(lia)) as (m & Em & Rm & Km & Gm). rewrite Em. cbn [bind]. rewrite D in *.
    destruct (seg_put c (mkvec nglp (row_norm m)) (nglp * n) iv nglp (R iv) Lc) as (r & Er & Lr & Gr & Or).
    { nia. }
    { split; [reflexivity|]. intros i Hi. cbn [vget]. unfold row_norm. rewrite Km, (osum_some codom _ (fun cc => V iv cc i * V iv cc i)).
      - reflexivity.
      - intros cc Hc. rewrite Gm by auto. rewrite nidx_at by auto. reflexivity. }
    rewrite Er. eexists. split; [reflexivity|]. split; [exact Lr|]. intros iv' i Hi Hj. destruct (Nat.eq_dec iv' iv) as [->|Ne]; auto.
    rewrite Or by auto. apply Gc; auto. lia.
  - rewrite E. cbn [bind]. replace (gs_dom g) with dom by (symmetry; apply C).
    assert (Vc : vec_is c (n * nglp * 1) (nidx 1 nglp (fun iv _ i => R iv i))).
    { apply vec_nodes; [lia|]. intros iv cc i A B F. replace ((iv * 1 + cc) * nglp + i)%nat with (iv * nglp + i)%nat by nia. auto. }
    destruct (gll_make_ok fresh dom 1 n nglp c (gs_tau g) tf _ Hn Vc ltac:(apply C)) as (r & b & Er & Eb & -> & Db & Wr).
    eexists. split; [exact Er|]. unfold colloc. cbn [gs_dom gs_codom gs_tau gs_coef gs_buf gs_basis]. split; [reflexivity|]. split; [reflexivity|].
    split; [apply C|]. split; [apply Vc|]. split.
    { intros iv cc i A B F. destruct Vc as [_ Vc]. rewrite Vc by (apply nidx_lt; auto). now rewrite nidx_at by auto. }
    split; [exact Db|]. destruct (gll_basis_ok fresh nglp Hn) as (p & bw & gr & E1 & E2 & _ & E3 & _). rewrite E1 in Eb. injection Eb as <-. eauto 10.
Qed.

(** one value, one block *)
Lemma at_ok g dom n codom nglp tf V k : colloc g dom n codom nglp tf V -> (2 <= nglp)%nat -> (k < nglp * n)%nat ->
  exists v, value_at g k = Ok v /\ vec_is v codom (fun cc => V (k / nglp) cc (k mod nglp))%nat.
Proof.
  intros C Hn Hk. destruct (colloc_gwf _ _ _ _ _ _ _ C Hn) as (D & W). destruct (value_at_ok g n codom tf _ k W) as (v & E & Vv); [rewrite D; auto|].
  rewrite D in Vv. exists v. split; auto. eapply vec_is_ext; [exact Vv|]. intros cc Hc. cbn beta. rewrite nidx_at; auto. apply Nat.mod_upper_bound. lia.
Qed.
Lemma at_throw g dom n codom nglp tf V k : colloc g dom n codom nglp tf V -> (2 <= nglp)%nat -> (nglp * n <= k)%nat -> value_at g k = Throw InvalidArgument.
Proof.
  intros C Hn Hk. destruct (colloc_gwf _ _ _ _ _ _ _ C Hn) as (D & W). eapply value_at_throw; [exact W|]. rewrite D; auto.
Qed.

(** set_from_array *)
Lemma set_ok g dom n codom nglp tf V dom' (vals : list (vec T)) (F : nat -> nat -> T) : colloc g dom n codom nglp tf V -> (2 <= nglp)%nat ->
  length vals = (nglp * n)%nat -> (forall k v, nth_error vals k = Some v -> vec_is v codom (F k)) ->
  exists r, gll_set_from_array g dom' vals = Ok r /\
    colloc r dom' n codom nglp (fun i => tf i * ((snd dom' - fst dom') / nsum n tf)) (fun iv cc i => F (iv * nglp + i)%nat cc).
Proof.
  intros C Hn Hl HF. unfold gll_set_from_array. destruct (colloc_shape _ _ _ _ _ _ _ C Hn) as (N & D & K). rewrite N, D, Hl, Nat.eqb_refl. cbn [negb].
  assert (Vt : vec_is (gs_tau g) n tf) by apply C. rewrite (osum_some n (vget (gs_tau g)) tf) by apply Vt. cbn [of_option bind].
  set (s := (snd dom' - fst dom') / nsum n tf). set (tf' := fun i => tf i * s).
  match goal with |- context [for_ ?lo ?hi ?b ?v] => destruct (for_ok (fun k r => colloc r dom' n codom nglp tf' 
      (fun iv cc i => if Nat.ltb (iv * nglp + i) k then F (iv * nglp + i)%nat cc else V iv cc i)) b lo hi v) as (r & E & Cr) end.
  - lia.
  - destruct C as (_ & Ec & _ & Lc & Gc & Lb & X). unfold colloc. cbn [gs_dom gs_codom gs_tau gs_coef gs_buf gs_basis]. split; [reflexivity|]. split; [exact Ec|].
    split; [apply vscale_is; exact Vt|]. split; [exact Lc|]. split; [intros; apply Gc; auto|]. auto.
  - intros k r Hk Cr. destruct (nth_error vals k) as [v|] eqn:Ev; [|apply nth_error_None in Ev; lia]. cbn [of_option bind].
    destruct (colloc_gwf _ _ _ _ _ _ _ Cr Hn) as (Dr & Wr). assert (Hq : (k / nglp < n)%nat) by (apply Nat.div_lt_upper_bound; lia).
    assert (Hm : (k mod nglp < nglp)%nat) by (apply Nat.mod_upper_bound; lia). assert (Dk := Nat.div_mod k nglp ltac:(lia)).
    destruct (block_ok r n codom tf' _ (k / nglp) Wr Hq) as (m & Em & Rm & Km & Gm). rewrite Em. cbn [bind]. rewrite Km.
    pose proof (HF k v Ev) as Vv. replace (vlen v) with codom by (symmetry; apply Vv). rewrite Nat.eqb_refl.
    unfold set_block. rewrite Dr in *. replace (gs_codom r) with codom by (symmetry; apply Wr).
    set (Q := fun i cc => if Nat.eqb i (k mod nglp) then F k cc else if Nat.ltb (k / nglp * nglp + i) k then F (k / nglp * nglp + i)%nat cc else V (k / nglp)%nat cc i).
    assert (M : mat_is (mmap (fun i j x => if Nat.eqb i (k mod nglp) then vget v j else x) m) nglp codom Q).
    { split; [exact Rm|]. split; [exact Km|]. intros i cc Hi Hc. cbn [mmap mget]. unfold Q. destruct (Nat.eqb_spec i (k mod nglp)); [apply Vv; auto|].
      rewrite Gm by auto. rewrite nidx_at by auto. reflexivity. }
    pose proof (mflat_is _ _ _ _ M) as Mf. unfold vset_sized.
    match goal with |- context [Nat.eqb (vlen ?x) _] => replace (vlen x) with (nglp * codom)%nat by (symmetry; apply Mf) end. rewrite Nat.eqb_refl.
    match type of Mf with vec_is ?w _ ?f => destruct (seg_put (gs_coef r) w (n * nglp * codom) (k / nglp) (nglp * codom) f ltac:(apply Cr)) as (c & Ec & Lc & Gc & Oc) end.
    { nia. } { exact Mf. }
    rewrite Ec. cbn [bind]. eexists. split; [reflexivity|]. eapply (colloc_coef r); [exact Cr|exact Hn|].
    apply vec_nodes; [exact Lc|]. intros iv cc i A B F'. replace ((iv * codom + cc) * nglp + i)%nat with (iv * (nglp * codom) + (cc * nglp + i))%nat by nia.
    destruct (Nat.eq_dec iv (k / nglp)) as [->|Ne].
    + rewrite Gc by nia. rewrite (Nat.add_comm (cc * nglp) i), Nat.div_add, Nat.mod_add by lia. rewrite Nat.div_small, Nat.mod_small by auto. cbn [Nat.add].
      unfold Q. f_equal. destruct (Nat.eqb_spec i (k mod nglp)) as [->|Ni].
      * replace (k / nglp * nglp + k mod nglp)%nat with k by lia. destruct (Nat.ltb_spec k (S k)); [reflexivity|lia].
      * destruct (Nat.ltb_spec (k / nglp * nglp + i) k), (Nat.ltb_spec (k / nglp * nglp + i) (S k)); auto; lia.
    + rewrite Oc by (auto; nia). replace (iv * (nglp * codom) + (cc * nglp + i))%nat with ((iv * codom + cc) * nglp + i)%nat by nia.
      destruct Cr as (_ & _ & _ & _ & Gr & _). rewrite Gr by auto. f_equal.
      destruct (Nat.ltb_spec (iv * nglp + i) k), (Nat.ltb_spec (iv * nglp + i) (S k)); auto; exfalso.
      * lia.
      * apply Ne. assert (iv * nglp + i = k)%nat by lia. subst k. rewrite Nat.add_comm, Nat.div_add by lia. rewrite Nat.div_small by auto. lia.
  - exists r. split; [exact E|]. eapply colloc_ext; [exact Cr|]. intros iv cc i A B F'. cbn beta.
    destruct (Nat.ltb_spec (iv * nglp + i) (nglp * n)); [reflexivity|nia].
Qed.
Lemma set_throw g dom' (vals : list (vec T)) : length vals <> (gs_dim g * gs_n g)%nat -> gll_set_from_array g dom' vals = Throw RuntimeError.
Proof. intros Ne. unfold gll_set_from_array. destruct (Nat.eqb_spec (length vals) (gs_dim g * gs_n g)); [contradiction|reflexivity]. Qed.

(** assignment *)
Lemma assign_ok move a b doma domb n codom nglp ta tb Va Vb : colloc a doma n codom nglp ta Va -> colloc b domb n codom nglp tb Vb -> (2 <= nglp)%nat ->
  exists r, gll_assign move false a b = Ok r /\ colloc r domb n codom nglp ta Vb.
Proof.
  intros Ca Cb Hn. unfold gll_assign, same_discretization. rewrite andb_false_r. cbn [negb require bind].
  destruct (colloc_shape _ _ _ _ _ _ _ Ca Hn) as (Na & Da & Ka). destruct (colloc_shape _ _ _ _ _ _ _ Cb Hn) as (Nb & Db & Kb).
  rewrite Na, Nb, Da, Db, Ka, Kb, !Nat.eqb_refl. cbn [andb require bind]. eexists. split; [reflexivity|].
  unfold colloc. cbn [gs_dom gs_codom gs_tau gs_coef gs_buf gs_basis]. split; [apply Cb|]. split; [reflexivity|]. split; [apply Ca|].
  split; [apply Cb|]. split; [apply Cb|]. destruct Ca as (_ & _ & _ & _ & _ & L & X). auto.
Qed.
Lemma assign_throw move self a b : (move = true /\ self = true) \/ gs_dim a <> gs_dim b \/ gs_n a <> gs_n b \/ gs_codom a <> gs_codom b ->
  gll_assign move self a b = Throw InvalidArgument.
Proof.
  intros X. unfold gll_assign, same_discretization. destruct (move && self) eqn:E; cbn [negb require bind]; [reflexivity|].
  destruct (Nat.eqb_spec (gs_dim a) (gs_dim b)); cbn [andb require bind]; [|reflexivity].
  destruct (Nat.eqb_spec (gs_n a) (gs_n b)); cbn [andb require bind]; [|reflexivity].
  destruct (Nat.eqb_spec (gs_codom a) (gs_codom b)); cbn [require bind]; [|reflexivity].
  exfalso. destruct X as [[-> ->]|X]; [discriminate|]. intuition congruence.
Qed.

(** evaluation uses points, weights, lengths and coefficients only *)
Lemma value_same a b dom n codom nglp tf V pts np pf : colloc a dom n codom nglp tf V -> colloc b dom n codom nglp tf V -> (2 <= nglp)%nat -> (1 <= n)%nat ->
  vec_is pts np pf -> exists ma mb f, gs_value a pts = Ok ma /\ gs_value b pts = Ok mb /\ mat_is ma np codom f /\ mat_is mb np codom f.
Proof.
  intros Ca Cb Hn H1 P. destruct (colloc_gwf _ _ _ _ _ _ _ Ca Hn) as (Da & Wa). destruct (colloc_gwf _ _ _ _ _ _ _ Cb Hn) as (Db & Wb).
  destruct (value_gen a _ _ _ _ pts pf np Wa H1 P) as (ma & Ea & Ma). destruct (value_gen b _ _ _ _ pts pf np Wb H1 P) as (mb & Eb & Mb).
  exists ma, mb. eexists. split; [exact Ea|]. split; [exact Eb|]. split; [exact Ma|]. eapply mat_is_ext; [exact Mb|]. intros i cc Hi Hc. cbn beta.
  destruct Ca as (-> & _ & _ & _ & _ & _ & p & w & gr & Ba & Ep & Ew). destruct Cb as (-> & _ & _ & _ & _ & _ & p' & w' & gr' & Bb & Ep' & Ew').
  rewrite Ep in Ep'. injection Ep' as <-. rewrite Ew in Ew'. injection Ew' as <-. rewrite Ba, Bb. reflexivity.
Qed.

(** approximate *)
Lemma approx_ok f (F : nat -> T -> T) nglp n : (2 <= nglp)%nat -> pointwise f F -> let len := (snd (fo_dom f) - fst (fo_dom f)) / nofnat n in
  exists g, gll_approximate fresh f nglp n = Ok g /\ gs_bst g = bs_copy (bs_init (gs_basis g)) /\
    colloc g (fo_dom f) n (fo_codom f) nglp (fun _ => n1 * len)
      (fun iv cc i => F cc ((gpoint (nglp - 1) i + n1) * len / c2 + (fst (fo_dom f) + nofnat iv * len))).
Proof.
  intros Hn HF len. destruct (approx_gen fresh f F nglp n Hn HF) as (g & b & E & Eb & Bg & Sg & Dg & Kg & W). exists g. split; auto. split; [congruence|].
  destruct W as (BO & Ec & V & K & Lb). rewrite Kg in *. unfold colloc. repeat (split; [assumption|]). split; [apply K|]. split.
  { intros iv cc i A B C. destruct K as [_ K]. rewrite K by (apply nidx_lt; auto). now rewrite nidx_at by auto. }
  split; [assumption|]. destruct (gll_basis_ok fresh nglp Hn) as (p & bw & gr & E1 & E2 & _ & E3 & _). rewrite E1 in Eb. injection Eb as <-. eauto 10.
Qed.
Lemma approx_ub f n nglp : (nglp < 2)%nat -> gll_approximate fresh f nglp n = UB.
Proof. intros Hn. unfold gll_approximate, gl_points. rewrite gl_ub by auto. reflexivity. Qed.
Lemma assign_fun_ok f (F : nat -> T -> T) g dom n codom nglp tf V : colloc g dom n codom nglp tf V -> (2 <= nglp)%nat -> fo_codom f = codom -> pointwise f F ->
  let s := (snd (fo_dom f) - fst (fo_dom f)) / nsum n tf in
  exists r, gll_assign_fun false g f = Ok r /\ colloc r (fo_dom f) n codom nglp (fun i => tf i * s)
    (fun iv cc i => F cc ((gpoint (nglp - 1) i + n1) * (tf iv * s) / c2 + lacc (fst (fo_dom f)) (fun i => tf i * s) iv)).
Proof.
  intros C Hn Ef HF s. destruct (colloc_gwf _ _ _ _ _ _ _ C Hn) as (D & W). pose proof C as (_ & _ & _ & _ & _ & _ & p & bw & gr & Eb & Ep & Ew).
  destruct (gl_points_ok (T := T) nglp Hn) as (p' & Ep' & P). rewrite Ep in Ep'. injection Ep' as <-.
  assert (Vx : vec_is (b_params (gs_basis g)) (gs_dim g) (gpoint (nglp - 1))) by (rewrite Eb, D; exact P).
  destruct (assign_fun_gen f F g n codom tf _ _ W Vx Ef HF) as (r & E & Br & Sr & Dr & Wr). exists r. split; auto.
  destruct Wr as (BO & Ec & Vt & K & Lb). assert (Kr : gs_dim r = nglp) by (unfold gs_dim in *; congruence). rewrite Kr, D in *.
  unfold colloc. repeat (split; [assumption|]). split; [apply K|]. split.
  { intros iv cc i A B X. destruct K as [_ K]. rewrite K by (apply nidx_lt; auto). now rewrite nidx_at by auto. }
  split; [assumption|]. rewrite Br. eauto 10.
Qed.
Lemma assign_fun_throw self g f : self = true \/ gs_codom g <> fo_codom f -> gll_assign_fun self g f = Throw InvalidArgument.
Proof.
  intros X. unfold gll_assign_fun. destruct self; cbn [negb require bind]; [reflexivity|].
  destruct (Nat.eqb_spec (gs_codom g) (fo_codom f)); cbn [require bind]; [|reflexivity]. exfalso. intuition congruence.
Qed.
End G.
