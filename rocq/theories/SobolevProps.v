(** C45: the weighted Sobolev norm of the interpolating spline and its gradient. *)
From Coquelicot Require Import Coquelicot.
From Coq Require Import List Arith Lia Bool ZArith Reals Lra.
From Verif Require Import Num Outcome LinAlg RSum RMat RDeriv LegendreSpec LegendreMath LegendreModel LegendreProofs LegendreProps
  Basis0101Spec Basis0101Math Basis0101Model Basis0101Gram Basis0101Proofs Basis0101Props BasisModel SplineSpec BasisFn BasisProofs3
  ToolsModel GSplineModel GSplineProofs GSplineProofs2 GSplineProofs3 GSplineProofs5 GSplineProofs6
  InterpModel InterpSpec SolverSpec InterpProofs3 InterpMath InterpMath2 InterpProofs7 InterpProofs8 InterpProps
  SobolevModel SobolevSpec SobolevProofs SobolevProofs2 SobolevProofs3.
Import ListNotations.
Local Open Scope R_scope.

(** [sn_ok b d c n ws W sn] : [sn] was built from the basis b, the weights ws and waypoints with entries W, and its interpolator went
    through any sequence of calls, returned or not *)

(** ** construction *)
Theorem C45_constructor : forall b d c n hist s ws wp W, is_basis b d -> Nat.Even (d_dim d) -> (1 <= n)%nat -> exact_pt d (-1) -> exact_pt d 1 ->
  serve_all b hist (bs_init b) = Ok s -> mat_is wp (S n) c W -> exists sn, sn_ctor wp b s ws = Ok sn /\ sn_ok b d c n ws W sn.
Proof.
  intros b d c n hist s ws wp W B Ev Hn XL XR Hs M. destruct (reached_fresh b d c n hist s B Ev Hn XL XR Hs) as (ip & E & Re).
  pose proof M as (Mr & Mc & _). unfold sn_ctor. rewrite Mr, Mc. cbn [usub1 of_option bind]. rewrite E. cbn [bind]. eexists. split; [reflexivity|].
  exact (conj eq_refl (conj eq_refl (conj eq_refl (conj eq_refl (conj (reads_mat _ _ _ _ M) Re))))).
Qed.
Theorem C45_constructor_refusals : forall T (HN : Num T) (b : basis T) s ws wp,
  (mrows wp = 0%nat -> sn_ctor wp b s ws = UB) /\ ((1 <= mrows wp)%nat -> Nat.Odd (b_dim b) -> sn_ctor wp b s ws = Throw InvalidArgument).
Proof.
  intros T HN b s ws wp. unfold sn_ctor. split; [intros ->; reflexivity|]. intros Hr O. destruct (mrows wp) as [|n]; [lia|].
  cbn [usub1 of_option bind]. rewrite ctor_odd by auto. reflexivity.
Qed.

(** ** the value.  [E k] is the value with the single weight 1 at order k; every term is also multiplied by the later weights.
    The value does not depend on the history of the object, nor on which exact solver is used. *)
Lemma value_single d c n tf k cf : bform (d_dim d) c n (ctot [(k, 1)] (gramQ d) tf) cf cf = bform (d_dim d) c n (fun iv => gramQ d k (tf iv)) cf cf.
Proof. rewrite bform_ctot. cbn [ctotal wprod]. ring. Qed.
Lemma bform_coef dim c n G x y x' y' : (forall j, (j < dim * c * n)%nat -> x j = x' j) -> (forall j, (j < dim * c * n)%nat -> y j = y' j) -> bform dim c n G x y = bform dim c n G x' y'.
Proof.
  intros Ex Ey. unfold bform. apply Rsum_ext; intros iv Hiv; apply Rsum_ext; intros cc Hc; apply Rsum_ext; intros i Hi'; apply Rsum_ext; intros j Hj.
  pose proof (bound_ix iv n cc c dim Hiv Hc). rewrite Ex, Ey by nia. reflexivity.
Qed.
Theorem C45_value : forall b d c n ws W sn tau tf lu, sn_ok b d c n ws W sn -> (forall k w, In (k, w) ws -> order_ok d k) -> exact_solver lu ->
  vec_is tau n tf -> (forall i, (i < n)%nat -> / 10 ^ 6 <= tf i) ->
  exists E sn', sn_value lu sn tau = Ok (ctotal ws E, sn') /\ sn_ok b d c n ws W sn' /\
    (forall lu1 sn1, exact_solver lu1 -> sn_ok b d c n ws W sn1 -> exists sn1', sn_value lu1 sn1 tau = Ok (ctotal ws E, sn1')) /\
    (forall k w lu1 sn1, In (k, w) ws -> exact_solver lu1 -> sn_ok b d c n [(k, 1)] W sn1 -> exists sn1', sn_value lu1 sn1 tau = Ok (E k, sn1')).
Proof.
  intros b d c n ws W sn tau tf lu Hs O Ex V P.
  destruct (value_ok b d c n ws W sn tau tf lu Hs O Ex V P) as (cf & sn' & Ev & S & Hs').
  pose proof Hs as (_ & _ & _ & _ & _ & Re). pose proof Re as (B & Evn & Hn & _). pose proof pos6.
  assert (Un : forall cf', interpolates d c n 0 tf W cf' -> forall j, (j < d_dim d * c * n)%nat -> cf' j = cf j).
  { intros cf' S'. apply (C52_unique b d c n 0 tf W); auto. intros i Hi. specialize (P i Hi). lra. }
  exists (fun k => bform (d_dim d) c n (fun iv => gramQ d k (tf iv)) cf cf), sn'. rewrite <- bform_ctot. split; auto. split; auto. split.
  - intros lu1 sn1 X1 H1. destruct (value_ok b d c n ws W sn1 tau tf lu1 H1 O X1 V P) as (cf1 & sn1' & E1 & S1 & _). exists sn1'. rewrite E1.
    do 2 f_equal. apply bform_coef; apply Un; auto.
  - intros k w lu1 sn1 I X1 H1. destruct (value_ok b d c n [(k, 1)] W sn1 tau tf lu1 H1) as (cf1 & sn1' & E1 & S1 & _); auto.
    { intros k' w' [X|[]]. injection X as <- <-. exact (O k w I). }
    exists sn1'. rewrite E1. do 2 f_equal. rewrite value_single. apply bform_coef; apply Un; auto.
Qed.
(** which is the weighted sum as soon as all weights after the first are 1; in particular for a single weight *)
Theorem C45_weights : forall k w ws E, (forall k' w', In (k', w') ws -> w' = 1) -> ctotal ((k, w) :: ws) E = wtotal ((k, w) :: ws) E.
Proof. intros. apply ctotal_later. auto. Qed.
(** FINDING: otherwise in general not; for two weights exactly when ... *)
Theorem C45_weights_refuted : forall k1 w1 k2 w2 E, ctotal [(k1, w1); (k2, w2)] E = wtotal [(k1, w1); (k2, w2)] E <-> w1 * E k1 = 0 \/ w2 = 1.
Proof.
  intros k1 w1 k2 w2 E. cbn [ctotal wtotal wprod]. split.
  - intros H. assert (Z : w1 * E k1 * (w2 - 1) = 0) by lra. apply Rmult_integral in Z. destruct Z; [auto|right; lra].
  - intros [Z | ->]; [|ring]. replace (w1 * (w2 * 1) * E k1) with (w1 * E k1 * w2) by ring. rewrite Z. lra.
Qed.

(** ** what the terms are: integrals over the domain of the spline *)
Lemma leg_energy dim c n tf k x y : (1 <= dim)%nat -> (forall i, (i < n)%nat -> 0 < tf i) -> k = 0%nat \/ (dim <= k)%nat ->
  is_energy (DLeg dim) c n 0 tf k x y (bform dim c n (fun iv => gramQ (DLeg dim) k (tf iv)) x y).
Proof.
  intros Hd P Hk. apply (energy_of_gram (DLeg dim) c n 0 tf k x y (fun iv => gramQ (DLeg dim) k (tf iv)) P). intros iv i j Hi Hi' Hj. cbn [gramQ d_dim] in *.
  apply (proj2 (leg_gram_iff dim (tf iv) k Hd (P iv Hi)) Hk); auto.
Qed.
Lemma b01_energy a c n tf k x y : 0 < a < 1 -> (forall i, (i < n)%nat -> 0 < tf i) -> k = 1%nat \/ k = 3%nat ->
  let a' := alpha_scaled a (b01K a / b01_kq a) in b01K a' = b01_kq a /\
  is_energy (D01 a') c n 0 tf k x y (bform 6 c n (fun iv => gramQ (D01 a) k (tf iv)) x y).
Proof.
  intros Ha P Hk a'. pose proof (b01_kq_pos a Ha) as Kp. pose proof (b01K_pos a) as Kp'.
  assert (Ek : b01K a' = b01_kq a). { unfold a'. rewrite alpha_scaled_K by (apply Rdiv_lt_0_compat; auto). field. split; lra. }
  split; auto. apply (energy_of_gram (D01 a') c n 0 tf k x y (fun iv => gramQ (D01 a) k (tf iv)) P). intros iv i j Hi Hi' Hj. cbn [d_dim] in *.
  assert (Ht : tf iv <> 0) by (apply Rgt_not_eq, P; auto). unfold tphi. cbn [phi]. rewrite Ek.
  destruct Hk as [-> | ->]; cbn [gramQ]; [apply (Qd1_gram (b01_kq a) (tf iv) i j)|apply (Qd3_gram (b01_kq a) (tf iv) i j)]; auto; lra.
Qed.
(** Legendre, order 0 (and orders where the derivatives vanish) *)
Theorem C45_integral : forall b dim c n k W sn tau tf lu, sn_ok b (DLeg dim) c n [(k, 1)] W sn -> k = 0%nat \/ (dim <= k)%nat -> exact_solver lu ->
  vec_is tau n tf -> (forall i, (i < n)%nat -> / 10 ^ 6 <= tf i) ->
  exists v cf sn', sn_value lu sn tau = Ok (v, sn') /\ interpolates (DLeg dim) c n 0 tf W cf /\ is_energy (DLeg dim) c n 0 tf k cf cf v.
Proof.
  intros b dim c n k W sn tau tf lu Hs Hk Ex V P. destruct (value_ok b (DLeg dim) c n _ W sn tau tf lu Hs ltac:(intros; exact I) Ex V P) as (cf & sn' & E & S & _).
  rewrite value_single in E. eexists _, cf, sn'. split; [exact E|]. split; auto. pose proof pos6.
  pose proof Hs as (_ & _ & _ & _ & _ & (B & _)). apply is_basis_pos in B. apply leg_energy; auto. intros i Hi. specialize (P i Hi). lra.
Qed.
(** exponential-trigonometric basis, orders 1 and 3: the integral for the functions with the factor written as a decimal literal (C21) *)
Theorem C45_integral_0101 : forall b a c n k W sn tau tf lu, sn_ok b (D01 a) c n [(k, 1)] W sn -> k = 1%nat \/ k = 3%nat -> exact_solver lu ->
  vec_is tau n tf -> (forall i, (i < n)%nat -> / 10 ^ 6 <= tf i) ->
  exists v cf sn' a', sn_value lu sn tau = Ok (v, sn') /\ interpolates (D01 a) c n 0 tf W cf /\ is_energy (D01 a') c n 0 tf k cf cf v /\
    Rabs (b01K a' / b01K a - 1) < 1 / 10000000000000000.
Proof.
  intros b a c n k W sn tau tf lu Hs Hk Ex V P.
  destruct (value_ok b (D01 a) c n _ W sn tau tf lu Hs) as (cf & sn' & E & S & _); auto.
  { intros k' w' [X|[]]. injection X as <- <-. cbn. lia. }
  pose proof Hs as (_ & _ & _ & _ & _ & (B & _)). destruct b; cbn in B; try contradiction. destruct B as (-> & Ha). pose proof pos6.
  rewrite value_single in E. destruct (b01_energy a c n tf k cf cf Ha) as (Ek & En); [intros i Hi; specialize (P i Hi); lra|auto|].
  eexists _, cf, sn', _. split; [exact E|]. split; auto. split; [exact En|]. rewrite Ek. apply b01_kq_close. auto.
Qed.
(** FINDING: for the Legendre basis the inner product of two splines is the integral of the product of their k-th derivatives exactly when k = 0 or
    the derivatives vanish (C14) *)
Theorem C45_integral_iff : forall b dim c n k W sn tau tf, sn_ok b (DLeg dim) c n [(k, 1)] W sn -> (1 <= c)%nat ->
  vec_is tau n tf -> (forall i, (i < n)%nat -> 0 < tf i) ->
  ((forall v1 v2 x y, vec_is v1 (dim * c * n) x -> vec_is v2 (dim * c * n) y -> exists v, sn_inner sn tau v1 v2 = Ok v /\ is_energy (DLeg dim) c n 0 tf k x y v)
   <-> k = 0%nat \/ (dim <= k)%nat).
Proof.
  intros b dim c n k W sn tau tf (Eb & En & Ec & Ew & _ & Re) Hc V P. pose proof Re as (B & _ & Hn & _).
  assert (Hd : (1 <= dim)%nat) by (apply is_basis_pos in B; exact B). pose proof (is_basis_dim _ _ B) as Ed. cbn [d_dim] in Ed.
  assert (In : forall v1 v2 x y, vec_is v1 (dim * c * n) x -> vec_is v2 (dim * c * n) y ->
    sn_inner sn tau v1 v2 = Ok (bform dim c n (fun iv => gramQ (DLeg dim) k (tf iv)) x y)).
  { intros v1 v2 x y V1 V2. rewrite <- Ed in V1, V2.
    rewrite (inner_ok b c n [(k, 1)] (gramQ (DLeg dim)) sn tau tf v1 x v2 y Eb En Ec Ew); auto.
    - rewrite bform_ctot. cbn [ctotal wprod]. rewrite Ed. f_equal. ring.
    - intros t _. apply (gram_adds b (DLeg dim)); auto. intros; exact I. }
  split.
  - intros H. apply (proj1 (leg_gram_iff dim (tf 0%nat) k Hd (P 0%nat ltac:(lia)))). intros i j Hi Hj.
    set (e := fun (a l : nat) => if Nat.eqb l a then 1 else 0).
    assert (Ve : forall a, vec_is (mkvec (dim * c * n) (fun l => Some (e a l))) (dim * c * n) (e a)) by (intros a; split; [reflexivity|]; intros; reflexivity).
    set (T := fun iv i j => (2 / tf iv) ^ (2 * k) * (tf iv / 2 * RInt (fun x => LD k i x * LD k j x) (-1) 1)).
    assert (GT : forall iv i j, (iv < n)%nat -> is_RInt (leg_dprod (tf iv) k i j) 0 (tf iv) (T iv i j)).
    { intros iv i' j' Hi'. apply leg_gram_RInt; auto. apply i_exists. intros x. apply c_mult; apply LD_continuous. }
    destruct (H _ _ _ _ (Ve i) (Ve j)) as (v & E & En'). rewrite (In _ _ _ _ (Ve i) (Ve j)) in E. injection E as <-.
    pose proof (energy_of_gram (DLeg dim) c n 0 tf k (e i) (e j) T P) as EG. specialize (EG (fun iv i j Hi _ _ => GT iv i j Hi)).
    pose proof (energy_unique _ _ _ _ _ _ _ _ _ _ En' EG) as Eq. cbn [d_dim] in Eq.
    assert (NE : forall a p, (1 <= a)%nat -> (a * dim + p)%nat <> i) by (intros a p Ha; assert (1 * dim <= a * dim)%nat by (apply Nat.mul_le_mono_r; auto); lia).
    assert (Sel : forall G, bform dim c n G (e i) (e j) = G 0%nat i j).
    { intros G. unfold bform. rewrite (Rsum_delta n 0) by (try lia; intros iv Hiv Hne; apply Rsum_zero; intros cc Hcc; apply Rsum_zero; intros p Hp; apply Rsum_zero; intros q Hq;
        unfold e; destruct (Nat.eqb_spec ((iv * c + cc) * dim + p) i) as [X|]; try ring; exfalso; revert X; apply NE; nia).
      rewrite (Rsum_delta c 0) by (try lia; intros cc Hcc Hne; apply Rsum_zero; intros p Hp; apply Rsum_zero; intros q Hq;
        unfold e; destruct (Nat.eqb_spec ((0 * c + cc) * dim + p) i) as [X|]; try ring; exfalso; revert X; apply NE; lia).
      rewrite (Rsum_delta dim i) by (try assumption; intros p Hp Hne; apply Rsum_zero; intros q Hq; unfold e; destruct (Nat.eqb_spec ((0 * c + 0) * dim + p) i); solve [lia|ring]).
      rewrite (Rsum_delta dim j) by (try assumption; intros q Hq Hne; unfold e; destruct (Nat.eqb_spec ((0 * c + 0) * dim + q) j); solve [lia|ring]).
      unfold e. cbn [Nat.mul Nat.add]. rewrite !Nat.eqb_refl. ring. }
    rewrite !Sel in Eq. cbn [gramQ] in Eq. rewrite Eq. apply GT. lia.
  - intros Hk v1 v2 x y V1 V2. eexists. split; [apply (In v1 v2 x y V1 V2)|]. apply leg_energy; auto.
Qed.

(** ** the gradient: entry idx of what deriv_wrt_interval_len writes is the derivative, with respect to that length, of what operator() returns, for every weight list *)
Theorem C45_gradient : forall b d c n ws W sn tau tf lu buff, sn_ok b d c n ws W sn -> (forall k w, In (k, w) ws -> order_tau_ok d k) -> exact_solver lu ->
  vec_is tau n tf -> (forall i, (i < n)%nat -> / 10 ^ 6 <= tf i) -> vlen buff = n ->
  exists v gf sn', sn_grad lu sn tau buff = Ok (v, sn') /\ vec_is v n gf /\ sn_ok b d c n ws W sn' /\
    forall idx, (idx < n)%nat -> / 10 ^ 6 < tf idx -> exists N : R -> R,
      locally (tf idx) (fun x => forall tau', vec_is tau' n (set_len tf idx x) -> exists sn'', sn_value lu sn tau' = Ok (N x, sn'')) /\
      is_derive N (tf idx) (gf idx).
Proof. exact grad_ok. Qed.

(** ** refusals *)
Theorem C45_short_interval : forall lu lu' (sn : sobnorm R) tau k tf buff, vec_is tau k tf -> (exists i, (i < k)%nat /\ tf i < / 10 ^ 6) ->
  sn_value lu sn tau = Throw InvalidArgument /\ sn_grad lu' sn tau buff = Throw InvalidArgument.
Proof. intros lu lu' sn tau k tf buff V S. unfold sn_value, sn_grad. rewrite !(short_solve _ _ tau k tf _ V S). auto. Qed.
Theorem C45_wrong_count : forall b d c n ws W sn lu lu' tau k tf buff, sn_ok b d c n ws W sn -> vec_is tau k tf -> (forall i, (i < k)%nat -> / 10 ^ 6 <= tf i) -> k <> n ->
  sn_value lu sn tau = Throw LogicError /\ sn_grad lu' sn tau buff = Throw LogicError.
Proof.
  intros b d c n ws W sn lu lu' tau k tf buff (_ & _ & _ & _ & _ & Re) V P Ne. rewrite <- (reached_n _ _ _ _ _ Re) in Ne.
  unfold sn_value, sn_grad. rewrite !(count_solve _ _ tau k tf _ V P Ne). auto.
Qed.
(** an order the exponential-trigonometric basis does not support: one past 3 for the value, any but 1 and 3 for the gradient *)
Lemma weighted_throw add dim ws A pre k w : adds add dim pre A -> (forall m, add k m = Throw InvalidArgument) -> ws = pre ++ [(k, w)] \/ (exists r, ws = pre ++ (k, w) :: r) ->
  forall m M, mat_is m dim dim M -> weighted add ws m = Throw InvalidArgument.
Proof.
  intros Ad T Hw. assert (Hr : exists r, ws = pre ++ (k, w) :: r) by (destruct Hw as [->|X]; [exists []; reflexivity|auto]). destruct Hr as (r & ->). clear Hw.
  induction pre as [|[k' w'] p IH]; intros m M Mm; cbn [app weighted].
  - now rewrite T.
  - destruct (Ad k' w' m M (or_introl eq_refl) Mm) as (m1 & E & M1). rewrite E. cbn [bind]. eapply IH; [|apply mscale_is; exact M1].
    intros k0 w0 m0 M0 I. apply Ad with w0. now right.
Qed.
Theorem C45_unsupported : forall b a c n pre k w post W sn tau tf lu buff, sn_ok b (D01 a) c n (pre ++ (k, w) :: post) W sn -> exact_solver lu ->
  vec_is tau n tf -> (forall i, (i < n)%nat -> / 10 ^ 6 <= tf i) ->
  ((3 < k)%nat -> (forall k' w', In (k', w') pre -> (k' <= 3)%nat) -> sn_value lu sn tau = Throw InvalidArgument) /\
  (k <> 1%nat -> k <> 3%nat -> (forall k' w', In (k', w') pre -> k' = 1%nat \/ k' = 3%nat) -> sn_grad lu sn tau buff = Throw InvalidArgument).
Proof.
  intros b a c n pre k w post W sn tau tf lu buff (Eb & En & Ec & Ew & Rd & Re) Ex V P. pose proof Re as (B & _ & Hn & _).
  destruct (solve_ok b (D01 a) c n _ tau tf _ W lu Re Ex V P Rd) as (r & cf & ip' & E & Vr & _ & Re').
  assert (Hb : b = B0101 a) by (destruct b; cbn in B; try contradiction; destruct B as (-> & _); reflexivity).
  destruct n as [|n]; [lia|]. split.
  - intros Hk Hp. unfold sn_value. rewrite E. cbn [bind]. unfold sn_inner. rewrite Eb, En, Ew. unfold for_. cbn [Nat.sub for_n]. rewrite (vread_ok tau _ tf 0 V) by lia. cbn [bind].
    erewrite (weighted_throw _ (b_dim b) _ (fun k => gramQ (D01 a) k (tf 0%nat)) pre k w); [reflexivity| | |right; exists post; reflexivity|apply mzero_isR].
    + apply (gram_adds b (D01 a)); auto.
    + intros m. rewrite Hb. apply C21_unsupported. auto.
  - intros H1 H3 Hp. unfold sn_grad. rewrite E. cbn [bind]. rewrite En. unfold for_. cbn [Nat.sub for_n]. unfold sn_grad_step.
    destruct (coeff_tau_exact b (D01 a) c (S n) ip' r cf tau tf 0 lu Re' Ex V P ltac:(lia) Vr) as (dy & rf & ip2 & E2 & _). rewrite E2. cbn [bind].
    rewrite (vread_ok tau _ tf 0 V) by lia. cbn [bind]. rewrite Eb, Ew.
    erewrite (weighted_throw _ (b_dim b) _ (fun k => gramB (D01 a) k (tf 0%nat)) pre k w); [reflexivity| | |right; exists post; reflexivity|apply mzero_isR].
    + apply (gram_tau_adds b (D01 a)); auto.
    + intros m. rewrite Hb. apply C21_unsupported; auto.
Qed.

(** ** the value is not negative *)
Lemma quad_legL dim (A : fmat) x : Rsum dim (fun i => Rsum dim (fun j => mprod dim (mprod dim A legL) (mT A) i j * x i * x j)) =
  Rsum dim (fun p => 2 / (2 * INR p + 1) * (Rsum dim (fun i => A i p * x i)) ^ 2).
Proof.
  transitivity (Rsum dim (fun i => Rsum dim (fun j => Rsum dim (fun p => A i p * (2 / (2 * INR p + 1)) * A j p * x i * x j)))).
  - apply Rsum_ext; intros i Hi; apply Rsum_ext; intros j Hj. unfold mprod at 1. rewrite <- !Rsum_scal_r. apply Rsum_ext. intros p Hp.
    unfold mprod, mT. rewrite (Rsum_delta dim p) by (try assumption; intros q Hq Ne; unfold legL; destruct (Nat.eqb_spec q p); solve [congruence|ring]).
    unfold legL. rewrite Nat.eqb_refl. ring.
  - rewrite (Rsum_ext dim _ (fun i => Rsum dim (fun p => Rsum dim (fun j => A i p * (2 / (2 * INR p + 1)) * A j p * x i * x j)))) by (intros; apply Rsum_swap).
    rewrite Rsum_swap. apply Rsum_ext. intros p Hp. cbn [pow]. rewrite Rmult_1_r, Rsum_prod, <- Rsum_scal.
    apply Rsum_ext. intros i _. rewrite <- Rsum_scal. apply Rsum_ext. intros j _. ring.
Qed.
Lemma legG_psd dim k x : 0 <= Rsum dim (fun i => Rsum dim (fun j => legG dim k i j * x i * x j)).
Proof.
  destruct k as [|k].
  - unfold legG. apply Rsum_nonneg. intros i Hi. rewrite (Rsum_delta dim i) by (try assumption; intros q Hq Ne; unfold legL; destruct (Nat.eqb_spec i q); solve [congruence|ring]).
    unfold legL. rewrite Nat.eqb_refl. rewrite Rmult_assoc. apply Rmult_le_pos; [|apply Rle_0_sqr]. apply Rlt_le, Rdiv_lt_0_compat; [lra|]. pose proof (pos_INR i). lra.
  - unfold legG. rewrite quad_legL. apply Rsum_nonneg. intros p _. apply Rmult_le_pos; [|apply pow2_ge_0]. apply Rlt_le, Rdiv_lt_0_compat; [lra|]. pose proof (pos_INR p). lra.
Qed.
Lemma leg_scale_pos tau k : 0 < tau -> 0 < leg_scale tau k.
Proof. intros Ht. unfold leg_scale. destruct k; [lra|]. apply pow_lt, Rdiv_lt_0_compat; lra. Qed.
Lemma energy_nonneg d c n tf k x v : (forall i, (i < n)%nat -> 0 < tf i) -> is_energy d c n 0 tf k x x v -> 0 <= v.
Proof.
  intros P H. rewrite <- (is_RInt_unique _ _ _ _ H). apply RInt_ge_0.
  - unfold bp. rewrite Rplus_0_l. apply Rsum_nonneg. intros i Hi. specialize (P i Hi). lra.
  - exists v. exact H.
  - intros t _. apply Rsum_nonneg. intros cc _. apply Rle_0_sqr.
Qed.
Lemma ctotal_nonneg ws E : (forall k w, In (k, w) ws -> 0 <= w /\ 0 <= E k) -> 0 <= ctotal ws E.
Proof.
  intros H. assert (K : 0 <= wprod ws /\ 0 <= ctotal ws E).
  { induction ws as [|[k w] r IH]; cbn [wprod ctotal]; [lra|]. destruct (IH (fun k w I => H k w (or_intror I))) as (A & B). destruct (H k w (or_introl eq_refl)) as (C & D).
    split; [apply Rmult_le_pos; auto|]. apply Rplus_le_le_0_compat; auto. apply Rmult_le_pos; auto. apply Rmult_le_pos; auto. }
  apply K.
Qed.
Theorem C45_nonneg : forall b d c n ws W sn tau tf lu, sn_ok b d c n ws W sn -> (forall k w, In (k, w) ws -> order_tau_ok d k /\ 0 <= w) -> exact_solver lu ->
  vec_is tau n tf -> (forall i, (i < n)%nat -> / 10 ^ 6 <= tf i) -> exists v sn', sn_value lu sn tau = Ok (v, sn') /\ 0 <= v.
Proof.
  intros b d c n ws W sn tau tf lu Hs O Ex V P. pose proof pos6.
  assert (Pt : forall i, (i < n)%nat -> 0 < tf i) by (intros i Hi; specialize (P i Hi); lra).
  destruct (value_ok b d c n ws W sn tau tf lu Hs (fun k w I => order_tau d k (proj1 (O k w I))) Ex V P) as (cf & sn' & E & _).
  eexists _, sn'. split; [exact E|]. rewrite bform_ctot. apply ctotal_nonneg. intros k w I. destruct (O k w I) as (Ok & Hw). split; auto.
  pose proof Hs as (_ & _ & _ & _ & _ & (B & _)). destruct b as [dim g|pts bw g|a], d as [dim'|m x|a']; cbn in B; try contradiction; cbn [order_tau_ok] in Ok; try contradiction.
  - cbn [d_dim]. unfold bform. apply Rsum_nonneg. intros iv Hi. apply Rsum_nonneg. intros cc _. cbn [gramQ].
    replace (Rsum dim' _) with (leg_scale (tf iv) k * Rsum dim' (fun i => Rsum dim' (fun j => leg_added dim' k i j * cf ((iv * c + cc) * dim' + i)%nat * cf ((iv * c + cc) * dim' + j)%nat))).
    + apply Rmult_le_pos; [apply Rlt_le, leg_scale_pos; auto|]. unfold leg_added. destruct Nat.leb.
      * apply (legG_psd dim' k (fun i => cf ((iv * c + cc) * dim' + i)%nat)).
      * apply Rsum_nonneg; intros; apply Rsum_nonneg; intros. lra.
    + rewrite <- Rsum_scal. apply Rsum_ext. intros i _. rewrite <- Rsum_scal. apply Rsum_ext. intros j _. ring.
  - destruct B as (-> & Ha). destruct (b01_energy a' c n tf k cf cf Ha Pt Ok) as (_ & En). exact (energy_nonneg _ _ _ _ _ _ _ Pt En).
Qed.

(** ** cases *)
Example C45_case : exists b sn tau, let tf := fun i => nth i [1; 2; 3 / 2] 0 in let W := fun i j => INR (i * i) - 3 * INR j in
  sn_ok b (DLeg 4) 2 3 [(2%nat, 1 / 2); (0%nat, 3)] W sn /\ (forall k w, In (k, w) [(2%nat, 1 / 2); (0%nat, 3)] -> order_tau_ok (DLeg 4) k /\ 0 <= w) /\ exact_solver gauss_lu /\ vec_is tau 3 tf /\ (forall i, (i < 3)%nat -> / 10 ^ 6 < tf i) /\ vlen (vnew (T:=R) 3) = 3%nat.
Proof.
  destruct ex_interp as (b & ip & tau & wp & Re & V & P & M). exists b, (mksn b 3 2 ip [(2%nat, 1 / 2); (0%nat, 3)] wp), tau. cbv zeta.
  split; [exact (conj eq_refl (conj eq_refl (conj eq_refl (conj eq_refl (conj (reads_mat _ _ _ _ M) Re)))))|].
  split; [intros k w [X|[X|[]]]; injection X as <- <-; (split; [exact I|lra])|]. split; [apply gauss_lu_exact|]. split; auto. split; [|reflexivity].
  intros [|[|[|i]]] Hi; try lia; cbn [nth]; apply Rle_lt_trans with (/ 10 ^ 1); try (simpl; lra); apply Rinv_le_contravar; try (apply pow_lt; lra); apply Rle_pow; try lra; lia.
Qed.
Example C45_case_0101 : exists sn tau, let tf := fun i => nth i [1; 2] 0 in let W := fun i j => INR i - INR j in
  sn_ok (B0101 (1 / 3)) (D01 (1 / 3)) 1 2 [(1%nat, 1 / 3); (3%nat, 2 / 3)] W sn /\ (forall k w, In (k, w) [(1%nat, 1 / 3); (3%nat, 2 / 3)] -> order_tau_ok (D01 (1 / 3)) k /\ 0 <= w) /\ vec_is tau 2 tf /\ (forall i, (i < 2)%nat -> / 10 ^ 6 <= tf i) /\ exists sn5, sn_ok (B0101 (1 / 3)) (D01 (1 / 3)) 1 2 ([(1%nat, 1)] ++ (5%nat, 1) :: []) W sn5.
Proof.
  assert (B : is_basis (B0101 (1 / 3)) (D01 (1 / 3))) by (split; [reflexivity|lra]).
  assert (Ct : forall ws, exists sn, sn_ctor (mkmat 3 1 (fun i j => Some (INR i - INR j))) (B0101 (1 / 3)) (bs_init (B0101 (1 / 3))) ws = Ok sn /\ sn_ok (B0101 (1 / 3)) (D01 (1 / 3)) 1 2 ws (fun i j => INR i - INR j) sn).
  { intros ws. apply (C45_constructor (B0101 (1 / 3)) (D01 (1 / 3)) 1 2 []); auto; [exists 3%nat; reflexivity|exact I|exact I|repeat split]. }
  destruct (Ct [(1%nat, 1 / 3); (3%nat, 2 / 3)]) as (sn & _ & H). destruct (Ct [(1%nat, 1); (5%nat, 1)]) as (sn5 & _ & H5).
  exists sn, (vec_of_list [1; 2]). cbv zeta. split; auto. split; [intros k w [X|[X|[]]]; injection X as <- <-; cbn; (split; [lia|lra])|].
  split; [apply vec_of_list_is|]. split; [intros [|[|i]] Hi; try lia; apply six_le; cbn; lra|]. exists sn5. exact H5.
Qed.

(** two waypoints, one component, one interval of length 2, straight lines: what the norm gives with given weights *)
Definition line_cf (W : nat -> nat -> R) (i : nat) : R := if Nat.eqb i 0 then (W 0%nat 0%nat + W 1%nat 0%nat) / 2 else (W 1%nat 0%nat - W 0%nat 0%nat) / 2.
Lemma line_value ws W : exists b sn tau sn', sn_ok b (DLeg 2) 1 1 ws W sn /\ vec_is tau 1 (fun _ => 2) /\ interpolates (DLeg 2) 1 1 0 (fun _ => 2) W (line_cf W) /\
  sn_value gauss_lu sn tau = Ok (ctotal ws (fun k => bform 2 1 1 (fun iv => gramQ (DLeg 2) k 2) (line_cf W) (line_cf W)), sn').
Proof.
  destruct (leg_basis 2 ltac:(lia)) as (b & B & _).
  destruct (C45_constructor b (DLeg 2) 1 1 [] (bs_init b) ws (mkmat 2 1 (fun i j => Some (W i j))) W B) as (sn & _ & Hs); auto; [exists 1%nat; reflexivity|exact I|exact I|repeat split|].
  assert (V : vec_is (vec_of_list [2]) 1 (fun _ => 2)).
  { eapply vec_is_ext; [exact (vec_of_list_is [2] 0)|]. intros [|i] Hi; [reflexivity|cbn in Hi; lia]. }
  assert (P : forall i : nat, (i < 1)%nat -> / 10 ^ 6 <= 2) by (intros; apply six_le; lra).
  destruct (value_ok b (DLeg 2) 1 1 ws W sn (vec_of_list [2]) (fun _ => 2) gauss_lu Hs ltac:(intros; exact I) gauss_lu_exact V P) as (cf & sn' & E & Sol & _).
  assert (Sx : interpolates (DLeg 2) 1 1 0 (fun _ => 2) W (line_cf W)).
  { intros q Hq. destruct q as [iv cc|iv cc|iv cc e|cc e|cc e]; cbn [cond_ok d_dim] in Hq; cbn in Hq; try lia; destruct Hq as (Hi & Hc);
    replace iv with 0%nat by lia; replace cc with 0%nat by lia; unfold residual, piece, bp, tphi, phi, window, line_cf; cbn; field. }
  exists b, sn, (vec_of_list [2]), sn'. split; auto. split; auto. split; auto. rewrite E. do 2 f_equal. rewrite bform_ctot. apply ctotal_ext. intros k w _.
  assert (U : forall j, (j < 2 * 1 * 1)%nat -> cf j = line_cf W j) by (apply (C52_unique b (DLeg 2) 1 1 0 (fun _ => 2) W cf (line_cf W)); auto; [exists 1%nat; reflexivity|intros; lra]).
  exact (bform_coef 2 1 1 _ _ _ _ _ U U).
Qed.
(** FINDING: the waypoints 0 and 1 with weight 1 at order 1: the norm is 1/6, the integral of the squared derivative 1/2 *)
Theorem C45_energy_refuted : exists b sn tau sn' cf, sn_ok b (DLeg 2) 1 1 [(1%nat, 1)] (fun i _ => INR i) sn /\ vec_is tau 1 (fun _ => 2) /\
  interpolates (DLeg 2) 1 1 0 (fun _ => 2) (fun i _ => INR i) cf /\ sn_value gauss_lu sn tau = Ok (1 / 6, sn') /\ is_energy (DLeg 2) 1 1 0 (fun _ => 2) 1 cf cf (1 / 2).
Proof.
  destruct (line_value [(1%nat, 1)] (fun i _ => INR i)) as (b & sn & tau & sn' & Hs & V & I & E). exists b, sn, tau, sn', (line_cf (fun i _ => INR i)).
  split; auto. split; auto. split; auto. split.
  - rewrite E. do 2 f_equal. unfold bform, line_cf, gramQ, leg_added, legG, legL, leg_scale, mpow, mprod, mI, legT, mT, Dent, lodd; simpl. field.
  - pose proof (energy_of_gram (DLeg 2) 1 1 0 (fun _ => 2) 1 (line_cf (fun i _ => INR i)) (line_cf (fun i _ => INR i)) (fun _ i j => if andb (Nat.eqb i 1) (Nat.eqb j 1) then 2 else 0)) as G.
    match type of G with ?A -> ?B -> is_energy _ _ _ _ _ _ _ _ ?v => replace (1 / 2) with v by (unfold bform, line_cf; simpl; field); apply G end.
    + intros; lra.
    + intros iv i j _ Hi Hj. cbn [d_dim] in Hi, Hj.
      assert (K : is_RInt (fun _ : R => if andb (Nat.eqb i 1) (Nat.eqb j 1) then 1 else 0) 0 2 (if andb (Nat.eqb i 1) (Nat.eqb j 1) then 2 else 0)).
      { pose proof (is_RInt_const 0 2 (if andb (Nat.eqb i 1) (Nat.eqb j 1) then 1 else 0)) as K. unfold scal in K; simpl in K; unfold mult in K; simpl in K.
        assert (Q : (2 - 0) * (if andb (Nat.eqb i 1) (Nat.eqb j 1) then 1 else 0) = if andb (Nat.eqb i 1) (Nat.eqb j 1) then 2 else 0) by (destruct andb; ring). rewrite Q in K. exact K. }
      eapply i_ext; [|exact K]. intros t. symmetry. transitivity (leg_dprod 2 1 i j t); [reflexivity|]. rewrite leg_dprod_eq.
      destruct i as [|[|i]], j as [|[|j]]; try lia; rewrite ?LD_1_1, ?LD_S_0; simpl; field.
Qed.
(** FINDING: constant waypoints 1, weight 1 at order 0 and weight 2 at order 2: the norm is 4, the weighted sum 1 * 2 + 2 * 0 = 2 *)
Theorem C45_two_weights_refuted : exists b sn tau sn' cf, sn_ok b (DLeg 2) 1 1 [(0%nat, 1); (2%nat, 2)] (fun _ _ => 1) sn /\ vec_is tau 1 (fun _ => 2) /\
  interpolates (DLeg 2) 1 1 0 (fun _ => 2) (fun _ _ => 1) cf /\ sn_value gauss_lu sn tau = Ok (4, sn') /\
  is_energy (DLeg 2) 1 1 0 (fun _ => 2) 0 cf cf 2 /\ is_energy (DLeg 2) 1 1 0 (fun _ => 2) 2 cf cf 0.
Proof.
  destruct (line_value [(0%nat, 1); (2%nat, 2)] (fun _ _ => 1)) as (b & sn & tau & sn' & Hs & V & I & E). exists b, sn, tau, sn', (line_cf (fun _ _ => 1)).
  assert (Z : forall k, bform 2 1 1 (fun _ => gramQ (DLeg 2) k 2) (line_cf (fun _ _ => 1)) (line_cf (fun _ _ => 1)) = gramQ (DLeg 2) k 2 0%nat 0%nat).
  { intros k. unfold bform, line_cf. generalize (gramQ (DLeg 2) k 2). intros G. simpl. field. }
  assert (Z0 : gramQ (DLeg 2) 0 2 0%nat 0%nat = 2) by (cbn; unfold leg_scale, legL; simpl; field).
  assert (Z2 : gramQ (DLeg 2) 2 2 0%nat 0%nat = 0) by (cbn; unfold leg_added; simpl; try ring).
  split; auto. split; auto. split; auto. split; [|split].
  - rewrite E. do 2 f_equal. cbn [ctotal wprod]. rewrite !Z, Z0, Z2. ring.
  - pose proof (leg_energy 2 1 1 (fun _ => 2) 0 (line_cf (fun _ _ => 1)) (line_cf (fun _ _ => 1)) ltac:(lia) ltac:(intros; lra) ltac:(lia)) as H. cbv beta in H. rewrite (Z 0%nat), Z0 in H. exact H.
  - pose proof (leg_energy 2 1 1 (fun _ => 2) 2 (line_cf (fun _ _ => 1)) (line_cf (fun _ _ => 1)) ltac:(lia) ltac:(intros; lra) ltac:(lia)) as H. cbv beta in H. rewrite (Z 2%nat), Z2 in H. exact H.
Qed.
