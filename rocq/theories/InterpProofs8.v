(** Derivatives of the interpolating coefficients, failures, the free functions. *)
From Coquelicot Require Import Coquelicot.
From Coq Require Import List Arith Lia Bool ZArith Reals Lra.
From Verif Require Import Num Outcome LinAlg RSum RMat RDeriv RPoly RGauss
  LegendreModel LegendreSpec LagrangeSpec Basis0101Spec BasisModel SplineSpec BasisFn
  BasisProofs BasisProofs2 BasisProofs3 ToolsModel GSplineModel GSplineProofs GSplineProofs2 GSplineProofs3 GSplineProofs4
  InterpModel InterpSpec SolverSpec
  InterpProofs InterpProofs2 InterpProofs3 InterpProofs4 InterpProofs5 InterpMath InterpMath2 InterpProofs6 InterpProofs7.
Import ListNotations.
Local Open Scope R_scope.

Lemma reached_half b d c n ip : reached b d c n ip -> exists h, (1 <= h)%nat /\ d_dim d = (2 * h)%nat.
Proof. intros Re. destruct (reached_inv _ _ _ _ _ Re) as (h & Hh & Hd & _). eauto. Qed.
Lemma reached_fresh b d c n hist s : is_basis b d -> Nat.Even (d_dim d) -> (1 <= n)%nat -> exact_pt d (-1) -> exact_pt d 1 ->
  serve_all b hist (bs_init b) = Ok s -> exists ip, ip_ctor c n b s = Ok ip /\ reached b d c n ip.
Proof.
  intros B (h & Hd) Hn XL XR Hs. assert (Hh : (1 <= h)%nat) by (pose proof (is_basis_pos _ _ B); lia).
  destruct (ctor_inv b d h c n B Hh Hn Hd hist s Hs) as (ip & E & _). exists ip. split; auto.
  split; auto. split; [exists h; auto|]. repeat split; auto. exists hist, s, ip, []. auto.
Qed.

(** ** sensitivity *)
Theorem coeff_tau_exact b d c n ip coef cf tau tf idx lu : reached b d c n ip -> exact_solver lu ->
  vec_is tau n tf -> (forall i, (i < n)%nat -> / 10 ^ 6 <= tf i) -> (idx < n)%nat -> vec_is coef (d_dim d * c * n) cf ->
  exists r rf ip', ip_coeff_tau lu ip coef tau idx = Ok (r, ip') /\ vec_is r (d_dim d * c * n) rf /\ reached b d c n ip' /\
    forall t0 W q, cond_ok (d_dim d) c n q ->
      is_derive (fun x => residual d c n t0 (set_len tf idx x) W cf q) (tf idx) (- residual d c n t0 tf (fun _ _ => 0) rf q).
Proof.
  intros Re Ex V Ht Hi Vc. destruct (reached_inv _ _ _ _ _ Re) as (h & Hh & Hd & I). pose proof Re as (B & _ & Hn & XL & XR & _).
  pose proof pos6 as P6. rewrite Hd in *.
  destruct (coeff_tau_spec b d h c n B Hh Hn Hd XL XR lu ip coef cf tau tf idx I V Ht Hi Vc) as (A & p & (RA & CA & _) & (pf & Vp & G) & F).
  assert (Ns : nonsing (2 * h * c * n) (entry A)).
  { apply (system_nonsing b d h c n B Hh Hn Hd A tf); [intros i Hi'; specialize (Ht i Hi'); lra|]. intros t0 W x q Ok. apply (G q Ok). }
  destruct (Ex _ A (conj RA CA) Ns) as (f & El & Sf). rewrite El in F. destruct F as (ip' & E & _ & _).
  destruct (Sf p pf Vp) as (yf & Vy & Sy).
  exists (vscale (f p) (- n1)%num), (fun j => - yf j), ip'. split; auto. split; [|split].
  - destruct Vy as [Ly Gy]. split; [exact Ly|]. intros j Hj. cbn [vscale vget]. rewrite Gy by auto. cbn. f_equal. rnum. ring.
  - apply (reached_after b d c n ip lu (CallTau coef tau idx)); auto. unfold ip_after. now rewrite E.
  - intros t0 W q Ok. eapply is_derive_eq; [apply residual_derive; auto; [intros i Hi'; specialize (Ht i Hi'); lra|rewrite Hd; auto]|].
    destruct (G q Ok) as (Gp & Gr). rewrite <- (Gr t0 (fun _ _ => 0) (fun j => - yf j)).
    transitivity (- - Rsum (2 * h * c * n) (fun j => entry A (rowof (2 * h) c n q) j * yf j)).
    + rewrite (Sy _ (row_lt h c n Hh Hn q Ok)), Gp. ring.
    + rewrite <- (Rsum_opp _ (fun j => entry A (rowof (2 * h) c n q) j * yf j)). rewrite <- (Rminus_0_r (Rsum _ (fun i => - _))).
      f_equal. f_equal; [apply Rsum_ext; intros; ring|]. destruct q; reflexivity.
Qed.
Theorem coeff_tau_derives b d c n ip coef tau tf idx lu t0 W X : reached b d c n ip -> exact_solver lu ->
  vec_is tau n tf -> (forall i, (i < n)%nat -> / 10 ^ 6 <= tf i) -> (idx < n)%nat ->
  locally (tf idx) (fun x => interpolates d c n t0 (set_len tf idx x) W (X x)) -> vec_is coef (d_dim d * c * n) (X (tf idx)) ->
  exists r rf ip', ip_coeff_tau lu ip coef tau idx = Ok (r, ip') /\ vec_is r (d_dim d * c * n) rf /\ reached b d c n ip' /\
    forall j, (j < d_dim d * c * n)%nat -> is_derive (fun x => X x j) (tf idx) (rf j).
Proof.
  intros Re Ex V Ht Hi SX Vc. destruct (coeff_tau_exact b d c n ip coef _ tau tf idx lu Re Ex V Ht Hi Vc) as (r & rf & ip' & E & Vr & Re' & D).
  exists r, rf, ip'. split; auto. split; auto. split; auto. destruct (reached_half _ _ _ _ _ Re) as (h & Hh & Hd).
  pose proof Re as (B & _ & Hn & _). pose proof pos6 as P6.
  apply (interp_derive d h c n t0 (is_basis_desc _ _ B) Hh Hn Hd tf idx W X rf); auto.
  intros i Hi'. specialize (Ht i Hi'). lra.
Qed.

(** ** failures *)
Lemma short_solve lu ip tau k tf wp : vec_is tau k tf -> (exists i, (i < k)%nat /\ tf i < / 10 ^ 6) -> ip_solve lu ip tau wp = Throw InvalidArgument.
Proof.
  intros V (i & Hi & L). unfold ip_solve. destruct (any_below_some tau k tf (ten_m 6) V) as (bad & E & B). rewrite E. cbn [bind].
  rewrite (proj2 B); auto. exists i. rewrite ten_m6. auto.
Qed.
Lemma short_tau lu ip coef tau k tf idx : vec_is tau k tf -> (exists i, (i < k)%nat /\ tf i < / 10 ^ 6) -> ip_coeff_tau lu ip coef tau idx = Throw InvalidArgument.
Proof.
  intros V (i & Hi & L). unfold ip_coeff_tau. destruct (any_below_some tau k tf (ten_m 6) V) as (bad & E & B). rewrite E. cbn [bind].
  rewrite (proj2 B); auto. exists i. rewrite ten_m6. auto.
Qed.
Lemma not_short tau k tf : vec_is tau k tf -> (forall i, (i < k)%nat -> / 10 ^ 6 <= tf i) -> any_below tau (ten_m 6) = Ok false.
Proof.
  intros V P. destruct (any_below_some tau k tf (ten_m 6) V) as (bad & E & B). rewrite E. destruct bad; auto.
  destruct (proj1 B eq_refl) as (i & Hi & L). rewrite ten_m6 in L. specialize (P i Hi). lra.
Qed.
Lemma count_solve lu (ip : interp R) tau k tf wp : vec_is tau k tf -> (forall i, (i < k)%nat -> / 10 ^ 6 <= tf i) -> k <> ip_n ip -> ip_solve lu ip tau wp = Throw LogicError.
Proof.
  intros V P Ne. unfold ip_solve. rewrite (not_short tau k tf V P). cbn [bind]. unfold fill_matrix.
  replace (vlen tau) with k by (symmetry; apply V). destruct (Nat.eqb_spec k (ip_n ip)); [contradiction|reflexivity].
Qed.
Lemma count_tau lu (ip : interp R) coef tau k tf idx : vec_is tau k tf -> (forall i, (i < k)%nat -> / 10 ^ 6 <= tf i) ->
  k <> ip_n ip \/ (ip_n ip <= idx)%nat -> ip_coeff_tau lu ip coef tau idx = Ok (ip_coef ip, ip).
Proof.
  intros V P Ne. unfold ip_coeff_tau. rewrite (not_short tau k tf V P). cbn [bind]. replace (vlen tau) with k by (symmetry; apply V).
  destruct (Nat.eqb_spec k (ip_n ip)), (Nat.leb_spec (ip_n ip) idx); try reflexivity. lia.
Qed.
Lemma reached_n b d c n ip : reached b d c n ip -> ip_n ip = n.
Proof. intros Re. destruct (reached_inv _ _ _ _ _ Re) as (h & _ & _ & (_ & _ & E & _)). exact E. Qed.

(** a failed factorisation keeps what the last successful one left *)
Theorem failed_solve b d c n ip tau tf wp W lu : reached b d c n ip -> vec_is tau n tf -> (forall i, (i < n)%nat -> / 10 ^ 6 <= tf i) -> reads wp n c W ->
  (forall A, lu A = None) -> exists ip', ip_solve lu ip tau wp = Ok (ip_sol ip, ip') /\ reached b d c n ip' /\ ip_sol ip' = ip_sol ip.
Proof.
  intros Re V P Rd F. destruct (solve_system b d c n ip tau tf wp W Re V P Rd lu) as (A & v & bf & ip' & E & _ & _ & _ & Re' & Es).
  rewrite F in *. eauto.
Qed.
Lemma ctor_sol {T} `{Num T} c n (b : basis T) s ip : ip_ctor c n b s = Ok ip -> ip_sol ip = vnew 0.
Proof. unfold ip_ctor. destruct negb; [discriminate|]. destruct Nat.ltb; [discriminate|]. intros E. now injection E as <-. Qed.
Lemma ctor_odd {T} `{Num T} c n (b : basis T) s : Nat.Odd (b_dim b) -> ip_ctor c n b s = Throw InvalidArgument.
Proof. intros (k & E). unfold ip_ctor. rewrite E. replace ((2 * k + 1) mod 2)%nat with 1%nat; [reflexivity|]. rewrite Nat.add_comm, Nat.mul_comm, Nat.mod_add by lia. reflexivity. Qed.

Theorem stale b d c n ip tau1 tf1 wp1 W1 lu1 tau2 tf2 wp2 W2 lu2 :
  reached b d c n ip -> exact_solver lu1 -> vec_is tau1 n tf1 -> (forall i, (i < n)%nat -> / 10 ^ 6 <= tf1 i) -> reads wp1 n c W1 ->
  vec_is tau2 n tf2 -> (forall i, (i < n)%nat -> / 10 ^ 6 <= tf2 i) -> reads wp2 n c W2 -> (forall A, lu2 A = None) ->
  exists r cf ip1 ip2, ip_solve lu1 ip tau1 wp1 = Ok (r, ip1) /\ ip_solve lu2 ip1 tau2 wp2 = Ok (r, ip2) /\
    vec_is r (d_dim d * c * n) cf /\ interpolates d c n 0 tf1 W1 cf.
Proof.
  intros Re Ex V1 P1 R1 V2 P2 R2 F. destruct (solve_system b d c n ip tau1 tf1 wp1 W1 Re V1 P1 R1 lu1) as (A & v & bf & ip1 & E & Vv & Sy & Ns & Re1 & Es).
  destruct (Ex _ A (proj1 (Sy 0)) Ns) as (f & El & Sf). destruct (Sf v bf Vv) as (xf & Vx & Sx). rewrite El in *.
  destruct (failed_solve b d c n ip1 tau2 tf2 wp2 W2 lu2 Re1 V2 P2 R2 F) as (ip2 & E2 & _ & _). rewrite Es in E2.
  exists (f v), xf, ip1, ip2. repeat split; auto; try apply Vx. apply (is_system_solves d c n 0 tf1 W1 A bf xf (Sy 0)). exact Sx.
Qed.
Theorem fresh_failed b d c n hist s ip tau tf wp W lu : is_basis b d -> Nat.Even (d_dim d) -> (1 <= n)%nat -> (1 <= c)%nat -> exact_pt d (-1) -> exact_pt d 1 ->
  serve_all b hist (bs_init b) = Ok s -> ip_ctor c n b s = Ok ip -> vec_is tau n tf -> (forall i, (i < n)%nat -> / 10 ^ 6 <= tf i) -> reads wp n c W ->
  (forall A, lu A = None) -> ip_interpolate lu ip tau wp = Throw InvalidArgument.
Proof.
  intros B Ev Hn Hc XL XR Hs Ec V P Rd F. destruct (reached_fresh b d c n hist s B Ev Hn XL XR Hs) as (ip0 & E0 & Re). rewrite Ec in E0. injection E0 as <-.
  destruct (failed_solve b d c n ip tau tf wp W lu Re V P Rd F) as (ip' & E & Re' & Es). unfold ip_interpolate. rewrite E. cbn [bind].
  replace (vlen tau) with n by (symmetry; apply V). rewrite (osum_some n _ tf) by (apply V). cbn [of_option bind].
  destruct (reached_inv _ _ _ _ _ Re') as (h & Hh & Hd & (Ib & Ic & In & _)). rewrite (ctor_sol _ _ _ _ _ Ec), Ib, Ic, In.
  unfold gs_ctor. cbn [vlen vnew]. destruct (Nat.eqb_spec 0 (n * b_dim b * c)) as [Z|]; [|reflexivity].
  rewrite (is_basis_dim _ _ B), Hd in Z. symmetry in Z. apply Nat.eq_mul_0 in Z. nia.
Qed.

(** what a successful call says about its arguments *)
Theorem solve_success b d c n ip tau wp lu r ip' : reached b d c n ip -> ip_solve lu ip tau wp = Ok (r, ip') ->
  (exists tf, vec_is tau n tf /\ forall i, (i < n)%nat -> / 10 ^ 6 <= tf i) /\ exists W, reads wp n c W.
Proof.
  intros Re E. destruct (reached_inv _ _ _ _ _ Re) as (h & Hh & Hd & (Ib & Ic & In & _)). pose proof Re as (B & _ & Hn & _).
  unfold ip_solve in E. apply bind_ok in E. destruct E as (bad & Eb & E). destruct bad; [discriminate|].
  destruct (any_below_inv _ _ _ Eb) as (tf & V). destruct (any_below_some tau _ tf (ten_m 6) V) as (bad & Eb' & Bad).
  rewrite Eb in Eb'. injection Eb' as <-. apply bind_ok in E. destruct E as ([[pos der] m] & Em & E).
  assert (L : vlen tau = n).
  { rewrite <- In. unfold fill_matrix in Em. destruct (Nat.eqb_spec (vlen tau) (ip_n ip)); [auto|discriminate]. }
  rewrite L in *. split.
  - exists tf. split; auto. intros i Hi. destruct (Rle_lt_dec (/ 10 ^ 6) (tf i)) as [|Lt]; auto. exfalso.
    assert (false = true); [apply Bad; exists i; rewrite ten_m6; auto|discriminate].
  - apply bind_ok in E. destruct E as (v & Ev & _). rewrite Ic, In in Ev. unfold ip_dim in Ev. rewrite Ib in Ev.
    eapply fill_vector_inv; eauto.
Qed.

(** ** the free function *)
Theorem interpolate_free b d c n tau tf wp W lu hist s : is_basis b d -> Nat.Even (d_dim d) -> (1 <= n)%nat -> exact_pt d (-1) -> exact_pt d 1 ->
  serve_all b hist (bs_init b) = Ok s -> exact_solver lu -> vec_is tau n tf -> (forall i, (i < n)%nat -> / 10 ^ 6 <= tf i) -> mat_is wp (S n) c W ->
  exists g cf, interpolate lu tau wp b s = Ok g /\ rep g d n c 0 (Rsum n tf) tf cf /\ interpolates d c n 0 tf W cf.
Proof.
  intros B Ev Hn XL XR Hs Ex V P M. destruct (reached_fresh b d c n hist s B Ev Hn XL XR Hs) as (ip & Ec & Re).
  assert (Rd : reads wp n c W).
  { intros w cc Hw Hc. destruct M as (Mr & Mc & Mg). unfold mread. rewrite Mr, Mc.
    destruct (Nat.ltb_spec w (S n)); [|lia]. destruct (Nat.ltb_spec cc c); [|lia]. simpl. rewrite Mg by lia. reflexivity. }
  destruct (interpolate_exact b d c n ip tau tf wp W lu Re Ex V P Rd) as (g & ip' & cf & E & Rg & Sol & _).
  exists g, cf. split; auto. unfold interpolate. destruct M as (-> & -> & _). cbn [usub1 of_option bind]. rewrite Ec. cbn [bind]. rewrite E. reflexivity.
Qed.

(** ** random_gspline *)
Lemma phi_scaled d f tau i s : 0 < f -> phi (d_scaled d f) (tau * f) i s = phi d tau i s.
Proof. intros Hf. destruct d as [dim|n x|a]; cbn [d_scaled phi]; auto. rewrite alpha_scaled_K by auto. f_equal. field. lra. Qed.
Lemma bp_scaled tf f k : bp 0 (fun i => tf i * f) k = f * bp 0 tf k.
Proof. unfold bp. rewrite Rsum_scal_r. ring. Qed.
Lemma sfun_scaled_bp d c n tf cf cc f k : (1 <= n)%nat -> (forall i, (i < n)%nat -> 0 < tf i) -> 0 < f -> (k <= n)%nat ->
  sfun (d_scaled d f) c n 0 (fun i => tf i * f) cf cc (bp 0 (fun i => tf i * f) k) = sfun d c n 0 tf cf cc (bp 0 tf k).
Proof.
  intros Hn P Hf Hk. unfold sfun. rewrite !locate_bp; auto; [|intros i Hi; apply Rmult_lt_0_compat; auto].
  unfold piece, tphi. rewrite d_scaled_dim. apply Rsum_ext. intros i Hi. f_equal. rewrite phi_scaled by auto. f_equal.
  rewrite !bp_scaled. specialize (P (k - 1)%nat ltac:(lia)). unfold window. field. split; lra.
Qed.
Lemma draws n rt rf : vec_is rt n rf -> vec_is (mkvec n (fun i => option_map (fun x => (c2 + x / c2)%num) (vget rt i))) n (fun i => 2 + rf i / 2).
Proof. intros [L G]. split; [reflexivity|]. intros i Hi. cbn [vget]. rewrite G by auto. cbn [option_map]. reflexivity. Qed.
Theorem random_R b d c n rt rf rw rwf lu hist s dom : is_basis b d -> Nat.Even (d_dim d) -> (1 <= n)%nat -> exact_pt d (-1) -> exact_pt d 1 ->
  serve_all b hist (bs_init b) = Ok s -> exact_solver lu -> vec_is rt n rf -> (forall i, (i < n)%nat -> -1 <= rf i <= 1) -> mat_is rw (S n) c rwf ->
  (snd dom < / 10 ^ 8 -> random_gspline lu dom c b s n rt rw = Throw InvalidArgument) /\
  (/ 10 ^ 8 <= snd dom -> exists g d' tf cf, random_gspline lu dom c b s n rt rw = Ok g /\ rep g d' n c 0 (snd dom) tf cf /\
     (forall i, (i < n)%nat -> 0 < tf i) /\ bp 0 tf n = snd dom /\
     forall k cc, (k <= n)%nat -> (cc < c)%nat -> sfun d' c n 0 tf cf cc (bp 0 tf k) = 3 * rwf k cc).
Proof.
  intros B Ev Hn XL XR Hs Ex V Rg M. pose proof (draws n rt rf V) as Vt.
  set (tau := mkvec n (fun i => option_map (fun x => (c2 + x / c2)%num) (vget rt i))) in *.
  set (wp := mkmat (S n) c (fun i j => option_map (fun x => (nofZ 3%Z * x)%num) (mget rw i j))).
  assert (Mw : mat_is wp (S n) c (fun i j => 3 * rwf i j)).
  { split; [reflexivity|]. split; [reflexivity|]. intros i j Hi Hj. unfold wp. cbn [mget]. destruct M as (_ & _ & G). rewrite G by auto. cbn [option_map]. f_equal. }
  assert (Q : forall x : R, -1 <= x <= 1 -> / 10 ^ 6 <= 2 + x / 2).
  { intros x Hx. assert (/ 10 ^ 6 <= 1); [|lra]. rewrite <- Rinv_1. apply Rinv_le_contravar; [lra|]. apply pow_R1_Rle. lra. }
  destruct (interpolate_free b d c n tau _ wp _ lu hist s B Ev Hn XL XR Hs Ex Vt (fun i Hi => Q _ (Rg i Hi)) Mw) as (g & cf & E & Rp & Sol).
  unfold random_gspline. fold tau. fold wp. rewrite E. cbn [bind]. split.
  - apply linear_scaling_small.
  - intros Hb. set (tf := fun i => 2 + rf i / 2) in *.
    assert (Pt : forall i, (i < n)%nat -> 0 < tf i) by (intros i Hi; specialize (Rg i Hi); unfold tf; lra).
    assert (Ps : 0 < Rsum n tf). { apply Rlt_le_trans with (tf 0%nat); [apply Pt; lia|]. apply Rsum_term; [intros i Hi; left; auto|lia]. }
    assert (Pb : 0 < snd dom). { eapply Rlt_le_trans; [|exact Hb]. apply Rinv_0_lt_compat, pow_lt. lra. }
    destruct (linear_scaling_R g d n c 0 (Rsum n tf) tf cf (snd dom) Rp Ps Hb) as (g' & E' & R' & (Pk & Sp)).
    set (s' := snd dom / (Rsum n tf - 0)) in *. rewrite Rplus_0_l in R'.
    exists g', (d_scaled d s'), (fun i => tf i * s'), cf. split; auto. split; auto.
    assert (Ks : 0 < s') by (unfold s'; apply Rdiv_lt_0_compat; lra).
    split; [intros i Hi; apply Rmult_lt_0_compat; auto|].
    assert (Bk : forall k, bp 0 (fun i => tf i * s') k = 0 + s' * (bp 0 tf k - 0)).
    { intros k. rewrite bp_scaled. ring. }
    split. { rewrite Bk. unfold bp, s'. field. lra. }
    intros k cc Hk Hc. rewrite sfun_scaled_bp by auto. apply (sfun_bp d c n 0 tf cf (fun i j => 3 * rwf i j) k cc); auto.
Qed.

(** ** an exact solver *)
Definition gauss_lu (A : smat R) : option (vec R -> vec R) :=
  Some (fun b => mkvec (srows A) (fun i => Some (gauss (srows A) (entry A) (fun j => match vget b j with Some x => x | None => 0 end) i))).
Lemma gauss_lu_exact : exact_solver gauss_lu.
Proof.
  intros N A (Rw & Cl) Ns. eexists. split; [reflexivity|]. intros b bf (Lb & Gb). rewrite Rw. eexists. split; [split; [reflexivity|intros i Hi; reflexivity]|].
  intros i Hi. cbv beta. rewrite (gauss_solves N (entry A) _ Ns i Hi), Gb by auto. reflexivity.
Qed.
