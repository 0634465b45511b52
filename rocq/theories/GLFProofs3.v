(** The collocation Sobolev distance. *)
From Coquelicot Require Import Coquelicot.
From Coq Require Import List Arith Lia Bool ZArith Reals Lra.
From Verif Require Import Num Outcome LinAlg RSum RPoly RDeriv LegendreSpec LegendreModel LagrangeSpec LagrangeModel LagrangeMath LagrangeProofs
  Basis0101Model BasisModel SplineSpec BasisFn BasisProofs BasisProofs2 BasisProofs3
  ToolsModel FunModel GSplineModel GSplineProofs GSplineProofs2 GSplineProofs4 GLSpec GLModel GLProofs GLProofs2 GLProps GLLModel GLLProofs GLLProofs2 GLLProofs3 GLFModel GLFProofs GLFProofs2.
Import ListNotations.
Local Opaque gl_iters.
Local Open Scope R_scope.

Section S.
Variable fresh : nat -> nat -> option R.
Variable nglp : nat.
Hypothesis Hn : (2 <= nglp)%nat.
Variable x : nat -> R.
Hypothesis Gx : forall p, gl_points nglp = Ok p -> vec_is p nglp x.
Hypothesis Dx : distinct nglp x.
Let D := DLag nglp x.

Lemma gll_is_basis : exists b, gll_basis fresh nglp = Ok b /\ is_basis b D.
Proof.
  destruct (gll_basis_ok fresh nglp Hn) as (p & bw & gr & E & Ep & _ & W & _). eexists. split; [exact E|]. cbn. split; [apply Gx; exact Ep|]. split; [lia|]. split; [exact Dx|exact W].
Qed.
Lemma rep_shape (g : gspline R) n codom t0 t1 tf cf : rep g D n codom t0 t1 tf cf -> gs_n g = n /\ gs_dim g = nglp /\ gs_codom g = codom /\ vec_is (gs_coef g) (n * nglp * codom) cf.
Proof. intros (B & _ & C & V & K & _). split; [apply V|]. split; [apply (is_basis_dim _ _ B)|]. auto. Qed.
Lemma rep_ext (g : gspline R) n codom t0 t1 tf cf cf' : rep g D n codom t0 t1 tf cf -> (forall k, (k < n * nglp * codom)%nat -> cf k = cf' k) -> rep g D n codom t0 t1 tf cf'.
Proof. intros (B & Do & C & V & K & L & Hh) E. unfold rep. repeat (split; [assumption|]). split; [|auto]. eapply vec_is_ext; [exact K|]. exact E. Qed.

Lemma lf_spline_rep (m : mat R) M (g : gspline R) n rows cols t0 t1 tf cf : mat_is m (n * nglp * rows) (n * nglp * cols) M ->
  rep g D n cols t0 t1 tf cf -> (1 <= n)%nat ->
  exists r, lf_spline fresh m g = Ok r /\ rep r D n rows t0 t1 tf (fun k => Rsum (n * nglp * cols) (fun j => M k j * cf j)).
Proof.
  intros Mm Rg H1. destruct (rep_shape _ _ _ _ _ _ _ Rg) as (Sn & Sd & Sc & V). unfold lf_spline.
  destruct (mvmul_is m _ _ _ _ _ Mm V) as (w & E & W). rewrite E. cbn [bind]. rewrite Sn, Sd. destruct (Nat.eqb_spec n 0); [lia|]. destruct (Nat.eqb_spec nglp 0); [lia|]. cbn [orb].
  replace (mrows m / n / nglp)%nat with rows.
  2:{ replace (mrows m) with (n * nglp * rows)%nat by (symmetry; apply Mm). rewrite Nat.div_div by lia. rewrite Nat.mul_comm, Nat.div_mul by lia. reflexivity. }
  unfold gll_make. destruct gll_is_basis as (b & -> & B). cbn [bind]. pose proof Rg as (_ & Ed & _ & Vt & _).
  destruct (ctor_rep b D [] (bs_init b) (gs_dom g) rows n w (gs_tau g) _ tf B eq_refl Vt W) as (r & Er & Rr). exists r. split; [exact Er|].
  rewrite Ed in Rr. eapply rep_ext; [exact Rr|]. intros k Hk. now rewrite nsum_R.
Qed.

Section V.
Variables (s : sdist R) (g : gspline R) (n codom : nat) (t0 t1 a0 a1 b0 b1 : R) (tf A B c : nat -> R) (Dm : nat -> nat -> R) (W : nat -> R).
Hypothesis H1 : (1 <= n)%nat.
Hypothesis Ra : rep (sd_approx s) D n codom a0 a1 tf A.
Hypothesis Rb : rep (sd_approx_d s) D n codom b0 b1 tf B.
Hypothesis Md : mat_is (sd_der s) (n * nglp * codom) (n * nglp * codom) Dm.
Hypothesis Mi : mat_is (sd_int s) 1 (n * nglp) (fun _ k => W k).
Hypothesis Rg : rep g D n codom t0 t1 tf c.

(** error of the derivative *)
Definition dcoef (c : nat -> R) (k : nat) : R := Rsum (n * nglp * codom) (fun j => Dm k j * c j).

Lemma parts_ok : exists e T1 ed T2, sd_parts fresh s g = Ok (e, T1, ed, T2) /\
  rep e D n codom a0 a1 tf (fun k => A k - c k) /\ rep ed D n codom t0 t1 tf (fun k => B k - dcoef c k) /\
  mat_is (tl_mat T1) (n * nglp * 1) (n * nglp * codom) (tmat codom nglp n (fun k => A k - c k)) /\
  mat_is (tl_mat T2) (n * nglp * 1) (n * nglp * codom) (tmat codom nglp n (fun k => B k - dcoef c k)).
Proof.
  unfold sd_parts. destruct (minus_R LL _ _ _ _ _ _ _ _ _ _ _ _ Ra Rg) as (e & -> & Re). cbn [bind dom_of] in *.
  destruct (rep_shape _ _ _ _ _ _ _ Re) as (S1 & S2 & S3 & Ve). destruct (tlm_of_gen e n codom nglp _ S1 S2 S3 Ve) as (T1 & -> & _ & _ & _ & M1). cbn [bind].
  destruct (lf_spline_rep _ _ _ _ _ _ _ _ _ _ Md Rg H1) as (dg & -> & Rdg). cbn [bind].
  destruct (minus_R LR _ _ _ _ _ _ _ _ _ _ _ _ Rb Rdg) as (ed & -> & Red). cbn [bind dom_of] in *.
  destruct (rep_shape _ _ _ _ _ _ _ Red) as (S1' & S2' & S3' & Ved). destruct (tlm_of_gen ed n codom nglp _ S1' S2' S3' Ved) as (T2 & -> & _ & _ & _ & M2). cbn [bind].
  exists e, T1, ed, T2. auto 10.
Qed.

Lemma sq_spline T1 (e : gspline R) l r E : mat_is T1 (n * nglp * 1) (n * nglp * codom) (tmat codom nglp n E) -> rep e D n codom l r tf E ->
  exists p P, lf_spline fresh T1 e = Ok p /\ rep p D n 1 l r tf P /\
    forall iv i, (iv < n)%nat -> (i < nglp)%nat -> P (iv * nglp + i)%nat = Rsum codom (fun cc => E ((iv * codom + cc) * nglp + i)%nat * E ((iv * codom + cc) * nglp + i)%nat).
Proof.
  intros M R1. destruct (lf_spline_rep _ _ _ _ _ _ _ _ _ _ M R1 H1) as (p & Ep & Rp). exists p. eexists. split; [exact Ep|]. split; [exact Rp|].
  intros iv i Hiv Hi. cbn beta. apply tmat_row; auto.
Qed.

Definition jn (c : nat -> R) : R := Rsum n (fun iv => Rsum nglp (fun i => W (iv * nglp + i)%nat * Rsum codom (fun cc =>
  let k := ((iv * codom + cc) * nglp + i)%nat in (A k - c k) ^ 2 + (B k - dcoef c k) ^ 2))).

Lemma value_ok : exists v, sd_value fresh s g = Ok v /\ vec_is v 1 (fun _ => jn c).
Proof.
  unfold sd_value. destruct parts_ok as (e & T1 & ed & T2 & -> & Re & Red & M1 & M2). cbn [bind].
  destruct (sq_spline _ _ _ _ _ M1 Re) as (p & P & -> & Rp & EP). cbn [bind]. destruct (sq_spline _ _ _ _ _ M2 Red) as (q & Q & -> & Rq & EQ). cbn [bind].
  destruct (plus_R RR _ _ _ _ _ _ _ _ _ _ _ _ Rp Rq) as (r & -> & Rr). cbn [bind]. destruct (rep_shape _ _ _ _ _ _ _ Rr) as (_ & _ & _ & Vr).
  assert (Mi' : mat_is (sd_int s) 1 (n * nglp * 1) (fun _ k => W k)) by (rewrite Nat.mul_1_r; exact Mi).
  destruct (mvmul_is _ _ _ _ _ _ Mi' Vr) as (v & Ev & Vv). exists v. split; [exact Ev|]. eapply vec_is_ext; [exact Vv|]. intros k _. cbn beta.
  rewrite nsum_R. rewrite Nat.mul_1_r, Rsum_mul. unfold jn. apply Rsum_ext. intros iv Hiv. apply Rsum_ext. intros i Hi. rnum. f_equal.
  rewrite EP, EQ by auto. rewrite <- Rsum_plus. apply Rsum_ext. intros cc Hc. cbn zeta. ring.
Qed.

Lemma diff_ok : exists m G, sd_diff_matrix fresh s g = Ok m /\ mat_is m 1 (n * nglp * codom) (fun _ j => G j) /\
  forall u, Rsum (n * nglp * codom) (fun j => G j * u j) = - 2 * Rsum n (fun iv => Rsum nglp (fun i => W (iv * nglp + i)%nat * Rsum codom (fun cc =>
    let k := ((iv * codom + cc) * nglp + i)%nat in (A k - c k) * u k + (B k - dcoef c k) * dcoef u k))).
Proof.
  unfold sd_diff_matrix. destruct parts_ok as (e & T1 & ed & T2 & -> & _ & _ & M1 & M2). cbn [bind].
  destruct (mmul_is _ _ _ _ _ _ _ M2 Md) as (p & Ep & Mp). unfold lf_mul, lf_add. rewrite Ep. cbn [bind].
  destruct (mzip_is nadd _ _ _ _ _ _ M1 Mp) as (q & Eq & Mq). rewrite Eq. cbn [bind].
  assert (Ms : mat_is (lf_scale (- (nofZ 2))%num (sd_int s)) 1 (n * nglp * 1) (fun _ k => - 2 * W k)).
  { rewrite Nat.mul_1_r. eapply mat_is_ext; [exact (mscale_is _ _ _ _ _ Mi)|]. intros i j _ _. cbn beta. rnum. ring. }
  destruct (mmul_is _ _ _ _ _ _ _ Ms Mq) as (m & Em & Mm). exists m. eexists. split; [exact Em|]. split; [eapply mat_is_ext; [exact Mm|]; intros i j _ _; reflexivity|].
  intros u. cbn beta. rewrite (Rsum_ext (n * nglp * codom) _ (fun j => Rsum (n * nglp) (fun l => (- 2 * W l) * (tmat codom nglp n (fun k => A k - c k) l j * u j
      + Rsum (n * nglp * codom) (fun k => tmat codom nglp n (fun k => B k - dcoef c k) l k * Dm k j) * u j)))).
  2:{ intros j Hj. rewrite nsum_R, Nat.mul_1_r. rewrite <- Rsum_scal_r. apply Rsum_ext. intros l Hl. rnum. rewrite (nsum_R (n * nglp * codom)).
      match goal with |- ?a * (?b + ?X) * ?d = ?a * (?b * ?d + ?Y * ?d) => replace X with Y by reflexivity end. ring. }
  rewrite Rsum_swap, Rsum_mul, <- Rsum_scal. apply Rsum_ext. intros iv Hiv. rewrite <- Rsum_scal. apply Rsum_ext. intros i Hi.
  rewrite Rsum_scal, Rsum_plus, tmat_row by auto. rewrite Rmult_assoc. f_equal. f_equal.
  rewrite (Rsum_ext (n * nglp * codom) _ (fun j => Rsum (n * nglp * codom) (fun k => tmat codom nglp n (fun k => B k - dcoef c k) (iv * nglp + i) k * (Dm k j * u j)))).
  2:{ intros j Hj. rewrite <- Rsum_scal_r. apply Rsum_ext. intros k Hk. ring. }
  rewrite Rsum_swap. rewrite (Rsum_ext (n * nglp * codom) _ (fun k => tmat codom nglp n (fun k => B k - dcoef c k) (iv * nglp + i) k * dcoef u k)).
  2:{ intros k Hk. unfold dcoef. now rewrite Rsum_scal. }
  rewrite tmat_row by auto. now rewrite <- Rsum_plus.
Qed.

Lemma dcoef_line u h k : dcoef (fun j => c j + h * u j) k = dcoef c k + h * dcoef u k.
Proof. unfold dcoef. rewrite <- Rsum_scal, <- Rsum_plus. apply Rsum_ext. intros; ring. Qed.
Lemma jn_line u h : jn (fun j => c j + h * u j) = jn c +
  h * (- 2 * Rsum n (fun iv => Rsum nglp (fun i => W (iv * nglp + i)%nat * Rsum codom (fun cc => let k := ((iv * codom + cc) * nglp + i)%nat in (A k - c k) * u k + (B k - dcoef c k) * dcoef u k)))) +
  h * h * Rsum n (fun iv => Rsum nglp (fun i => W (iv * nglp + i)%nat * Rsum codom (fun cc => let k := ((iv * codom + cc) * nglp + i)%nat in u k ^ 2 + dcoef u k ^ 2))).
Proof.
  unfold jn. rewrite <- !Rsum_scal, <- !Rsum_plus. apply Rsum_ext. intros iv Hiv. rewrite <- !Rsum_scal, <- !Rsum_plus. apply Rsum_ext. intros i Hi.
  rewrite (Rsum_ext codom _ (fun cc => let k := ((iv * codom + cc) * nglp + i)%nat in ((A k - c k) ^ 2 + (B k - dcoef c k) ^ 2) + (h * (- 2) * ((A k - c k) * u k + (B k - dcoef c k) * dcoef u k) + h * h * (u k ^ 2 + dcoef u k ^ 2)))).
  2:{ intros cc Hc. cbn zeta. rewrite dcoef_line. ring. }
  cbn zeta. rewrite !Rsum_plus, !Rsum_scal. rewrite !Rsum_plus. ring.
Qed.
Lemma jn_derive u : is_derive (fun h => jn (fun j => c j + h * u j)) 0 (- 2 * Rsum n (fun iv => Rsum nglp (fun i => W (iv * nglp + i)%nat * Rsum codom (fun cc =>
    let k := ((iv * codom + cc) * nglp + i)%nat in (A k - c k) * u k + (B k - dcoef c k) * dcoef u k)))).
Proof.
  eapply is_derive_ext; [intros h; symmetry; apply jn_line|]. match goal with |- is_derive (fun h => ?a + h * ?b + h * h * ?d) _ _ => generalize a b d end.
  intros a b d. auto_derive; [auto|]. ring.
Qed.
Lemma jn_pos : (forall k, (k < n * nglp)%nat -> 0 <= W k) -> 0 <= jn c.
Proof.
  intros HW. unfold jn. apply Rsum_nonneg. intros iv Hiv. apply Rsum_nonneg. intros i Hi. apply Rmult_le_pos; [apply HW; apply row_lt; auto|].
  apply Rsum_nonneg. intros cc _. cbn zeta. apply Rplus_le_le_0_compat; apply pow2_ge_0.
Qed.
End V.

(** *** the object *)
Lemma len_eq lb rb n : (1 <= n)%nat -> (fun _ : nat => nmul n1 (ndiv (nsub rb lb) (nofnat n))) = (fun _ : nat => (rb - lb) / INR n).
Proof. intros H1. apply FunctionalExtensionality.functional_extensionality. intros _. rewrite nofnat_INR. rnum. ring. Qed.
Lemma node_eq i : (i < nglp)%nat -> x i = gpoint (nglp - 1) i.
Proof. intros Hi. destruct (gl_points_ok (T := R) nglp Hn) as (p & E & P). eapply gl_points_is; eauto. Qed.
Lemma approx_rep (f : fobj R) F lb rb n : pointwise f F -> fo_dom f = (lb, rb) -> (1 <= n)%nat -> let len := (rb - lb) / INR n in
  exists a, gll_approximate fresh f nglp n = Ok a /\ rep a D n (fo_codom f) lb rb (fun _ => len) (nidx (fo_codom f) nglp (fun iv cc i => F cc (on_interval (lb + INR iv * len) len (x i)))).
Proof.
  intros HF Ed H1 len. destruct (approx_ok fresh f F nglp n Hn HF) as (a & E & Es & C). rewrite Ed in C. cbn [fst snd] in C. exists a. split; [exact E|].
  rewrite (len_eq lb rb n H1) in C. pose proof C as (D1 & D2 & D3 & _ & _ & D5 & p & bw & gr & Eb & Ep & Ew).
  assert (HI : (0 < INR n)) by (apply lt_0_INR; lia).
  unfold rep. split. { rewrite Eb. cbn. split; [apply Gx; exact Ep|]. split; [lia|]. split; [exact Dx|exact Ew]. }
  split; [exact D1|]. split; [exact D2|]. split; [exact D3|]. split.
  { eapply vec_is_ext; [exact (colloc_vec _ _ _ _ _ _ _ C)|]. intros k Hk. destruct (nidx_split n (fo_codom f) nglp k Hk) as (iv & cc & i & A & B & I & ->).
    rewrite !nidx_at by auto. f_equal. rewrite node_eq by auto. unfold on_interval, len, c2. rewrite !nofnat_INR. rnum. field. lra. }
  split; [exact D5|]. exists [RCopy]. rewrite Es. reflexivity.
Qed.
Lemma dop_ok (g : gspline R) n codom lb rb len cf : rep g D n codom lb rb (fun _ => len) cf -> len <> 0 ->
  exists d Dm, dop_of fresh g = Ok d /\ mat_is (do_mat d) (n * nglp * codom) (n * nglp * codom) Dm /\
  forall c iv cc t, (iv < n)%nat -> (cc < codom)%nat ->
    Derive (piece D codom lb (fun _ => len) c iv cc) t = piece D codom lb (fun _ => len) (fun k => Rsum (n * nglp * codom) (fun j => Dm k j * c j)) iv cc t.
Proof.
  intros Rg Hl. destruct (rep_shape _ _ _ _ _ _ _ Rg) as (S1 & S2 & S3 & _). pose proof Rg as (_ & _ & _ & Vt & _).
  unfold dop_of, dop_ctor. rewrite S2. destruct gll_is_basis as (b & -> & B). cbn [bind]. unfold dop_set.
  assert (Et : vlen (gs_tau g) = n) by apply Vt. rewrite Et, S3.
  assert (X : forall c, exists m s', gspline_derivative_matrix b n codom 1 (gs_tau g) (bs_init b) = Ok (m, s') /\
    srows m = (n * codom * d_dim D)%nat /\ scols m = (n * codom * d_dim D)%nat /\
    (forall iv cc t, (iv < n)%nat -> (cc < codom)%nat -> Derive_n (piece D codom lb (fun _ => len) c iv cc) 1 t = piece D codom lb (fun _ => len) (smul m c) iv cc t)).
  { intros c. apply (der_matrix_after b D n codom 1 (gs_tau g) (fun _ => len) lb c [] (bs_init b)); auto. intros a E; discriminate E. }
  destruct (X (fun _ => 0)) as (m & s' & Em & Rm & Cm & _). rewrite Em. cbn [bind]. eexists.
  exists (fun k j => match sget m k j with Some v => v | None => 0 end). split; [reflexivity|]. cbn [do_mat d_dim D] in *. split.
  - split; [cbn; rewrite Rm; cbn; lia|]. split; [cbn; rewrite Cm; cbn; lia|]. intros i j _ _. cbn. destruct (sget m i j); reflexivity.
  - intros c iv cc t Hiv Hc. destruct (X c) as (m' & s2 & Em' & _ & _ & P). rewrite Em in Em'. injection Em' as <- <-.
    change (Derive_n (piece D codom lb (fun _ => len) c iv cc) 1 t = piece D codom lb (fun _ => len) (fun k => Rsum (n * nglp * codom) (fun j => match sget m k j with Some v => v | None => 0 end * c j)) iv cc t).
    rewrite P by auto. unfold piece. apply Rsum_ext. intros i Hi. f_equal. unfold smul. rewrite Cm. cbn. replace (n * codom * nglp)%nat with (n * nglp * codom)%nat by lia.
    apply Rsum_ext. intros j _. destruct (sget m _ j); ring.
Qed.

(** distance in terms of the functions *)
Definition sdj (W : nat -> R) (n codom : nat) (lb len : R) (F F' : nat -> R -> R) (c : nat -> R) : R :=
  Rsum n (fun iv => Rsum nglp (fun i => let t := on_interval (lb + INR iv * len) len (x i) in
    W i * (len / 2) * Rsum codom (fun cc => (F cc t - piece (DLag nglp x) codom lb (fun _ => len) c iv cc t) ^ 2 + (F' cc t - Derive (piece (DLag nglp x) codom lb (fun _ => len) c iv cc) t) ^ 2))).

Lemma sdist_ok (f fd : fobj R) F F' lb rb n w wf : pointwise f F -> pointwise fd F' -> fo_dom f = (lb, rb) -> fo_dom fd = (lb, rb) -> fo_codom fd = fo_codom f -> lb < rb -> (1 <= n)%nat ->
  gl_weights nglp = Ok w -> vec_is w nglp wf ->
  let len := (rb - lb) / INR n in let codom := fo_codom f in
  exists s, sd_ctor fresh f fd nglp n = Ok s /\ forall g c, rep g D n codom lb rb (fun _ => len) c ->
    (exists v, sd_value fresh s g = Ok v /\ vec_is v 1 (fun _ => sdj wf n codom lb len F F' c)) /\
    ((forall i, (i < nglp)%nat -> 0 <= wf i) -> 0 <= sdj wf n codom lb len F F' c) /\
    exists m G, sd_diff_matrix fresh s g = Ok m /\ mat_is m 1 (n * nglp * codom) (fun _ j => G j) /\
      forall u, is_derive (fun h => sdj wf n codom lb len F F' (fun j => c j + h * u j)) 0 (Rsum (n * nglp * codom) (fun j => G j * u j)).
Proof.
  intros HF HF' Ed Ed' Ec Hlt H1 Ew Vw len codom. assert (HI : 0 < INR n) by (apply lt_0_INR; lia).
  assert (Hl : 0 < len) by (apply Rdiv_lt_0_compat; lra).
  unfold sd_ctor. destruct (approx_rep f F lb rb n HF Ed H1) as (a & -> & Ra). destruct (approx_rep fd F' lb rb n HF' Ed' H1) as (ad & -> & Rad). rewrite Ec in Rad. cbn [bind]. fold len in Ra, Rad. fold codom in Ra, Rad.
  destruct (rep_shape _ _ _ _ _ _ _ Ra) as (S1 & S2 & S3 & _). unfold int_of, int_ctor. replace (gs_dom a) with (lb, rb) by (symmetry; apply Ra). rewrite S1, S2. cbn [fst snd].
  destruct (C40_weights lb rb nglp n w wf Hn H1 Ew Vw) as (r & rf & Er & Vr & Hr & _). rewrite Er. cbn [bind].
  destruct (dop_ok a n codom lb rb len _ Ra ltac:(lra)) as (d & Dm & Edop & Md & Der). rewrite Edop. cbn [bind]. eexists. split; [reflexivity|]. intros g c Rg.
  set (s := mksd a ad (row_of r) (do_mat d)).
  assert (Mi : mat_is (sd_int s) 1 (n * nglp) (fun _ k => rf k)).
  { split; [reflexivity|]. split; [cbn; apply Vr|]. intros i j _ Hj. cbn. destruct Vr as [_ Vr]. auto. }
  set (A := nidx codom nglp (fun iv cc i => F cc (on_interval (lb + INR iv * len) len (x i)))) in *.
  set (B := nidx codom nglp (fun iv cc i => F' cc (on_interval (lb + INR iv * len) len (x i)))) in *.
  assert (EJ : forall c, sdj wf n codom lb len F F' c = jn n codom A B Dm rf c).
  { intros c'. unfold sdj, jn. apply Rsum_ext. intros iv Hiv. apply Rsum_ext. intros i Hi. cbn zeta. rewrite Hr by auto. fold len. f_equal.
    apply Rsum_ext. intros cc Hc. pose proof (piece_node nglp x codom lb (fun _ => len) c' iv cc i Dx Hi ltac:(lra)) as PN. rewrite bp_const in PN. rewrite PN.
    fold D. rewrite Der by auto. pose proof (piece_node nglp x codom lb (fun _ => len) (fun k => Rsum (n * nglp * codom) (fun j => Dm k j * c' j)) iv cc i Dx Hi ltac:(lra)) as PN'.
    rewrite bp_const in PN'. fold D in PN'. rewrite PN'. unfold A, B. rewrite !nidx_at by auto. reflexivity. }
  split; [|split].
  - rewrite EJ. exact (value_ok s g n codom lb rb lb rb lb rb (fun _ => len) A B c Dm rf H1 Ra Rad Md Mi Rg).
  - intros HW. rewrite EJ. apply jn_pos. intros k Hk. assert (Hm : (k mod nglp < nglp)%nat) by (apply Nat.mod_upper_bound; lia).
    assert (Hq : (k / nglp < n)%nat) by (apply Nat.div_lt_upper_bound; lia). rewrite (Nat.div_mod k nglp), (Nat.mul_comm nglp) by lia. rewrite Hr by auto.
    apply Rmult_le_pos; [auto|]. fold len. lra.
  - destruct (diff_ok s g n codom lb rb lb rb lb rb (fun _ => len) A B c Dm rf H1 Ra Rad Md Mi Rg) as (m & G & Em & Mm & HG).
    exists m, G. split; [exact Em|]. split; [exact Mm|]. intros u. rewrite HG. eapply is_derive_ext; [intros h; symmetry; apply EJ|]. apply jn_derive.
Qed.
End S.
