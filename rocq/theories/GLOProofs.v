(** The collocation problem: jumps, convexity. *)
From Coquelicot Require Import Coquelicot.
From Coq Require Import List Arith Lia Bool ZArith Reals Lra Psatz String.
From Verif Require Import Num Outcome LinAlg RSum RPoly RDeriv LegendreSpec LegendreModel LagrangeSpec LagrangeModel LagrangeMath LagrangeProofs
  Basis0101Model BasisModel SplineSpec BasisFn BasisProofs BasisProofs2 BasisProofs3
  ToolsModel FunModel GSplineModel GSplineProofs GSplineProofs2 GSplineProofs4 GLSpec GLModel GLProofs GLProofs2 GLProps GLLModel GLLProofs GLLProofs2 GLLProofs3
  GLFModel GLFProofs GLFProofs2 GLFProofs3 GLFProps OptModel OptProofs GLOModel.
Import ListNotations.
Local Opaque gl_iters.
Local Open Scope R_scope.

(** ** The matrix of a sparse matrix *)
Lemma sdense_is (m : smat R) : mat_is (sdense m) (srows m) (scols m) (fun i j => match sget m i j with Some x => x | None => 0 end).
Proof. split; [reflexivity|]. split; [reflexivity|]. intros i j _ _. cbn. destruct (sget m i j); reflexivity. Qed.
Lemma sdense_mul (m : smat R) v c : vec_is v (scols m) c -> exists w, mvmul (sdense m) v = Ok w /\ vec_is w (srows m) (smul m c).
Proof.
  intros V. destruct (mvmul_is (sdense m) v _ _ _ _ (sdense_is m) V) as (w & E & W). exists w. split; [exact E|].
  eapply vec_is_ext; [exact W|]. intros i Hi. cbv beta. rewrite nsum_R. unfold smul. apply Rsum_ext. intros j _. rnum. destruct (sget m i j); ring.
Qed.

(** ** Rows of the continuity matrix *)
Definition crow (nm1 codom der iv cc : nat) : nat := (codom * nm1 * der + iv * codom + cc)%nat.
Lemma crow_lt nm1 codom deg der iv cc : (der <= deg)%nat -> (iv < nm1)%nat -> (cc < codom)%nat -> (crow nm1 codom der iv cc < nm1 * codom * (deg + 1))%nat.
Proof.
  intros Hd Hi Hc. unfold crow. assert (iv * codom + cc < nm1 * codom)%nat by nia.
  assert (codom * nm1 * der <= codom * nm1 * deg)%nat by (apply Nat.mul_le_mono_l; auto). nia.
Qed.
Lemma crow_split nm1 codom deg r : (r < nm1 * codom * (deg + 1))%nat -> exists der iv cc, (der <= deg)%nat /\ (iv < nm1)%nat /\ (cc < codom)%nat /\ r = crow nm1 codom der iv cc.
Proof.
  intros Hr. assert (0 < codom)%nat by nia. assert (0 < nm1)%nat by nia. set (p := (codom * nm1)%nat). assert (0 < p)%nat by (unfold p; nia).
  exists (r / p)%nat, (r mod p / codom)%nat, (r mod p mod codom)%nat.
  assert (r mod p < p)%nat by (apply Nat.mod_upper_bound; lia).
  split. { assert (r / p < deg + 1)%nat; [apply Nat.div_lt_upper_bound; unfold p; nia|lia]. }
  split; [apply Nat.div_lt_upper_bound; unfold p in *; nia|]. split; [apply Nat.mod_upper_bound; lia|].
  unfold crow. fold p. rewrite <- Nat.add_assoc. rewrite (Nat.mul_comm _ codom). rewrite <- Nat.div_mod by lia. apply Nat.div_mod. lia.
Qed.

Section C.
Variable fresh : nat -> nat -> option R.
Variable nglp : nat.
Hypothesis Hn : (2 <= nglp)%nat.
Variable x : nat -> R.
Hypothesis Gx : forall p, gl_points nglp = Ok p -> vec_is p nglp x.
Hypothesis Sx : separated nglp x.
Let D := DLag nglp x.

Lemma x_first : x 0%nat = -1.
Proof. destruct (gl_points_ok (T := R) nglp Hn) as (p & E & _). rewrite (gl_points_is nglp p x Hn E (Gx p E) 0%nat) by lia. apply gpoint_first; auto. Qed.
Lemma x_last : x (nglp - 1)%nat = 1.
Proof. destruct (gl_points_ok (T := R) nglp Hn) as (p & E & _). rewrite (gl_points_is nglp p x Hn E (Gx p E) (nglp - 1)%nat) by lia. apply gpoint_last; auto. Qed.

(** what every ContinuityError for [S nm1] intervals of lengths [tf] computes *)
Definition ce_jumps (m : mat R) (nm1 codom deg : nat) (t0 : R) (tf : nat -> R) : Prop :=
  exists M, mat_is m (nm1 * codom * (deg + 1)) (S nm1 * nglp * codom) M /\
  forall c der iv cc, (der <= deg)%nat -> (iv < nm1)%nat -> (cc < codom)%nat ->
    Rsum (S nm1 * nglp * codom) (fun j => M (crow nm1 codom der iv cc) j * c j) = jump D codom t0 tf c der iv cc.

Lemma cont_ok b nm1 codom deg (taus : vec R) tf t0 hist s : is_basis b D -> vec_is taus (S nm1) tf -> (forall i, (i < S nm1)%nat -> tf i <> 0) ->
  serve_all b hist (bs_init b) = Ok s ->
  exists m s', continuity_matrix b (S nm1) codom deg taus s = Ok (m, s') /\ srows m = (nm1 * codom * (deg + 1))%nat /\ ce_jumps (sdense m) nm1 codom deg t0 tf.
Proof.
  intros B V Ht Hs. destruct b as [? ?|pts bw gr|?]; try contradiction.
  pose proof (fun c => cont_lagrange_after pts bw gr nglp x nm1 codom deg taus tf t0 c hist s B Sx x_first x_last V Ht Hs) as K.
  destruct (K (fun _ => 0)) as (m & s' & E & Er & Ec & _). exists m, s'. split; [exact E|]. split; [exact Er|].
  exists (fun i j => match sget m i j with Some v => v | None => 0 end). split.
  - pose proof (sdense_is m) as M. rewrite Er, Ec in M. replace (S nm1 * nglp * codom)%nat with (S nm1 * codom * nglp)%nat by lia. exact M.
  - intros c der iv cc Hd Hi Hc. destruct (K c) as (m' & s2 & E' & _ & _ & J). rewrite E in E'. injection E' as <- <-.
    unfold D. rewrite <- (J der iv cc Hd Hi Hc). unfold smul, crow. rewrite Ec. replace (S nm1 * nglp * codom)%nat with (S nm1 * codom * nglp)%nat by lia.
    apply Rsum_ext. intros j _. destruct (sget m _ j); ring.
Qed.

(** a ContinuityError object in good order *)
Definition ce_good (ce : cont_err R) (codom deg : nat) : Prop :=
  is_basis (ce_basis ce) D /\ ce_codom ce = codom /\ ce_deg ce = deg /\ exists hist, serve_all (ce_basis ce) hist (bs_init (ce_basis ce)) = Ok (ce_bst ce).

Lemma sep_dist : distinct nglp x.
Proof. apply separated_distinct; auto. Qed.
Lemma ce_ctor_ok nm1 codom deg taus tf t0 : vec_is taus (S nm1) tf -> (forall i, (i < S nm1)%nat -> tf i <> 0) ->
  exists ce, ce_ctor fresh nglp taus codom deg = Ok ce /\ ce_good ce codom deg /\ ce_rows ce = (nm1 * codom * (deg + 1))%nat /\ ce_jumps (ce_mat ce) nm1 codom deg t0 tf.
Proof.
  intros V Ht. unfold ce_ctor, cont_error. destruct (gll_is_basis fresh nglp Hn x Gx sep_dist) as (b & -> & B). cbn [bind].
  replace (vlen taus) with (S nm1) by (symmetry; apply V). destruct (cont_ok b nm1 codom deg taus tf t0 [] _ B V Ht eq_refl) as (m & s' & -> & Er & J). cbn [bind].
  eexists. split; [reflexivity|]. split; [|split; [exact Er|exact J]]. split; [exact B|]. split; [reflexivity|]. split; [reflexivity|]. exists []. reflexivity.
Qed.
Lemma ce_of_ok (g : gspline R) nm1 codom deg t0 t1 tf c : rep g D (S nm1) codom t0 t1 tf c -> (forall i, (i < S nm1)%nat -> tf i <> 0) ->
  exists ce, ce_of fresh g deg = Ok ce /\ ce_good ce codom deg /\ ce_rows ce = (nm1 * codom * (deg + 1))%nat /\ ce_jumps (ce_mat ce) nm1 codom deg t0 tf.
Proof.
  intros Rg Ht. destruct (rep_shape nglp x _ _ _ _ _ _ _ Rg) as (S1 & S2 & S3 & _). pose proof Rg as (B & _ & _ & V & _ & _ & hist & HI).
  unfold ce_of. rewrite S1, S2, S3. destruct (cont_ok _ nm1 codom deg _ tf t0 hist _ B V Ht HI) as (m & s' & -> & Er & J). cbn [bind].
  destruct (gll_is_basis fresh nglp Hn x Gx sep_dist) as (b & -> & B'). cbn [bind].
  eexists. split; [reflexivity|]. split; [|split; [exact Er|exact J]]. split; [exact B'|]. split; [reflexivity|]. split; [reflexivity|]. exists []. reflexivity.
Qed.
Lemma ce_update_ok (ce : cont_err R) nm1 codom deg taus tf t0 : ce_good ce codom deg -> vec_is taus (S nm1) tf -> (forall i, (i < S nm1)%nat -> tf i <> 0) ->
  exists ce', ce_update ce taus = Ok ce' /\ ce_good ce' codom deg /\ ce_rows ce' = ce_rows ce /\ mrows (ce_mat ce') = (nm1 * codom * (deg + 1))%nat /\ ce_jumps (ce_mat ce') nm1 codom deg t0 tf.
Proof.
  intros (B & Ec & Ed & hist & HI) V Ht. unfold ce_update. replace (vlen taus) with (S nm1) by (symmetry; apply V). rewrite Ec, Ed.
  destruct (cont_ok _ nm1 codom deg _ tf t0 hist _ B V Ht HI) as (m & s' & E & Er & J). rewrite E. cbn [bind].
  eexists. split; [reflexivity|]. split; [|split; [reflexivity|split; [exact Er|exact J]]]. split; [exact B|]. split; [reflexivity|]. split; [reflexivity|].
  cbn [ce_basis ce_bst]. exists (hist ++ [RCont (S nm1) codom deg taus]). rewrite (serve_all_app _ _ _ _ _ HI). cbn. rewrite E. reflexivity.
Qed.

(** ** The distance is convex *)
Lemma piece_line codom lb tf c u h iv cc t : piece D codom lb tf (fun j => c j + h * u j) iv cc t = piece D codom lb tf c iv cc t + h * piece D codom lb tf u iv cc t.
Proof. unfold piece. rewrite <- Rsum_scal, <- Rsum_plus. apply Rsum_ext. intros; ring. Qed.
Lemma piece_dline n codom lb len c u h iv cc t : 0 < len -> (iv < n)%nat ->
  Derive (piece D codom lb (fun _ => len) (fun j => c j + h * u j) iv cc) t = Derive (piece D codom lb (fun _ => len) c iv cc) t + h * Derive (piece D codom lb (fun _ => len) u iv cc) t.
Proof.
  intros Hl Hi. rewrite (Derive_ext _ (fun t => piece D codom lb (fun _ => len) c iv cc t + h * piece D codom lb (fun _ => len) u iv cc t)) by (intros; apply piece_line).
  pose proof (fun c => piece_ex D codom n lb (fun _ => len) c iv cc 1 t ltac:(auto) Hi) as Ex. cbn [ex_derive_n Derive_n] in Ex.
  rewrite Derive_plus; [|apply Ex|apply ex_derive_scal, Ex]. rewrite Derive_scal. reflexivity.
Qed.
Lemma dist_line wf n codom lb len F F' c u : 0 < len -> (forall i, (i < nglp)%nat -> 0 <= wf i) -> exists b q, 0 <= q /\
  forall h, sobolev_distance nglp x wf n codom lb len F F' (fun j => c j + h * u j) = sobolev_distance nglp x wf n codom lb len F F' c + h * b + h * h * q.
Proof.
  intros Hl Hw. set (P c iv cc i := piece D codom lb (fun _ => len) c iv cc (on_interval (lb + INR iv * len) len (x i))).
  set (Q c iv cc i := Derive (piece D codom lb (fun _ => len) c iv cc) (on_interval (lb + INR iv * len) len (x i))).
  set (t iv i := on_interval (lb + INR iv * len) len (x i)).
  exists (Rsum n (fun iv => Rsum nglp (fun i => wf i * (len / 2) * Rsum codom (fun cc => - 2 * ((F cc (t iv i) - P c iv cc i) * P u iv cc i + (F' cc (t iv i) - Q c iv cc i) * Q u iv cc i))))).
  exists (Rsum n (fun iv => Rsum nglp (fun i => wf i * (len / 2) * Rsum codom (fun cc => P u iv cc i ^ 2 + Q u iv cc i ^ 2)))). split.
  - apply Rsum_nonneg. intros iv _. apply Rsum_nonneg. intros i Hi. apply Rmult_le_pos; [apply Rmult_le_pos; [auto|lra]|]. apply Rsum_nonneg. intros cc _. apply Rplus_le_le_0_compat; apply pow2_ge_0.
  - intros h. unfold sobolev_distance. cbn zeta. rewrite <- !Rsum_scal, <- !Rsum_plus. apply Rsum_ext. intros iv Hiv. rewrite <- !Rsum_scal, <- !Rsum_plus. apply Rsum_ext. intros i Hi.
    fold D. rewrite (Rsum_ext codom _ (fun cc => ((F cc (t iv i) - P c iv cc i) ^ 2 + (F' cc (t iv i) - Q c iv cc i) ^ 2) +
      (h * (- 2 * ((F cc (t iv i) - P c iv cc i) * P u iv cc i + (F' cc (t iv i) - Q c iv cc i) * Q u iv cc i)) + h * h * (P u iv cc i ^ 2 + Q u iv cc i ^ 2)))).
    2:{ intros cc _. rewrite piece_line, (piece_dline n) by auto. fold (t iv i). unfold P, Q. fold (t iv i). ring. }
    rewrite !Rsum_plus, !Rsum_scal. unfold P, Q. fold (t iv i). rewrite !Rsum_plus. ring.
Qed.
Lemma dist_convex wf n codom lb len F F' c G y : 0 < len -> (forall i, (i < nglp)%nat -> 0 <= wf i) ->
  let J := sobolev_distance nglp x wf n codom lb len F F' in is_gradient (n * nglp * codom) J c G ->
  J c + Rsum (n * nglp * codom) (fun j => G j * (y j - c j)) <= J y.
Proof.
  intros Hl Hw J Hg. destruct (dist_line wf n codom lb len F F' c (fun j => y j - c j) Hl Hw) as (b & q & Hq & E). fold J in E.
  specialize (Hg (fun j => y j - c j)). assert (Eb : Rsum (n * nglp * codom) (fun j => G j * (y j - c j)) = b).
  { apply is_derive_unique in Hg. rewrite <- Hg. rewrite (Derive_ext _ (fun h => J c + h * b + h * h * q)) by (intros; apply E). apply is_derive_unique. auto_derive; [auto|]. ring. }
  rewrite Eb. replace (J y) with (J (fun j => c j + 1 * (y j - c j))); [rewrite E; lra|].
  unfold J, sobolev_distance. cbn zeta. apply Rsum_ext. intros iv _. apply Rsum_ext. intros i _. f_equal. apply Rsum_ext. intros cc _.
  assert (X : forall s, piece D codom lb (fun _ => len) (fun j => c j + 1 * (y j - c j)) iv cc s = piece D codom lb (fun _ => len) y iv cc s) by (intros; unfold piece; apply Rsum_ext; intros; ring).
  fold D. rewrite X. rewrite (Derive_ext _ _ _ X). reflexivity.
Qed.
End C.
