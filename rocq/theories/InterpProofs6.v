(** The interpolator object: what every sequence of calls leaves intact, and what a call computes. *)
From Coquelicot Require Import Coquelicot.
From Coq Require Import List Arith Lia Bool ZArith Reals Lra.
From Verif Require Import Num Outcome LinAlg RSum RMat RDeriv RPoly RGauss
  LegendreSpec LagrangeSpec Basis0101Spec BasisModel SplineSpec BasisFn
  BasisProofs BasisProofs2 BasisProofs3 ToolsModel GSplineModel GSplineProofs2 InterpModel InterpSpec SolverSpec
  InterpProofs InterpProofs2 InterpProofs3 InterpProofs4 InterpProofs5 InterpMath.
Import ListNotations.
Local Open Scope R_scope.

Lemma ten_m6 : ten_m 6 = / 10 ^ 6.
Proof. unfold ten_m. rewrite npown_pow. rnum. unfold Rdiv. ring. Qed.

(** ** the check of the interval lengths *)
Lemma any_below_some (tau : vec R) m tf x : vec_is tau m tf ->
  exists bad, any_below tau x = Ok bad /\ (bad = true <-> exists i, (i < m)%nat /\ tf i < x).
Proof.
  intros V. unfold any_below. replace (vlen tau) with m by (symmetry; apply V).
  match goal with |- context [for_ 0 m ?f ?s] =>
    destruct (for_ok (fun k (acc : bool) => acc = true <-> exists i, (i < k)%nat /\ tf i < x) f 0 m s) as (bad & E & I)
  end.
  - lia.
  - split; [discriminate|]. intros (i & Hi & _). lia.
  - intros k acc Hk I. rewrite (vread_ok _ _ _ _ V) by lia. cbn [bind]. eexists. split; [reflexivity|].
    rewrite orb_true_iff, I. change (tf k <? x)%num with (if Rlt_dec (tf k) x then true else false). split.
    + intros [(i & Hi & L)|L]; [exists i; split; [lia|auto]|]. destruct (Rlt_dec (tf k) x); [|discriminate]. exists k. split; [lia|auto].
    + intros (i & Hi & L). destruct (Nat.eq_dec i k) as [->|]; [right; destruct (Rlt_dec (tf k) x); [auto|lra]|].
      left. exists i. split; [lia|auto].
  - eauto.
Qed.
Lemma any_below_inv (tau : vec R) x bad : any_below tau x = Ok bad -> exists tf, vec_is tau (vlen tau) tf.
Proof.
  intros E. exists (fun i => match vget tau i with Some y => y | None => 0 end). split; [reflexivity|].
  unfold any_below in E.
  refine (for_inv (fun k (_ : bool) => forall i, (i < k)%nat -> vget tau i = Some (match vget tau i with Some y => y | None => 0 end))
    _ _ _ _ _ (Nat.le_0_l _) _ _ E); [intros; lia|].
  intros k a b' Hk I Eb i Hi. destruct (Nat.eq_dec i k) as [->|]; [|apply I; lia].
  apply bind_ok in Eb. destruct Eb as (y & Ey & _). unfold vread in Ey. destruct (Nat.ltb k (vlen tau)); [|discriminate].
  destruct (vget tau k); [reflexivity|discriminate].
Qed.

(** ** the waypoints that are read *)
Lemma for_each {S} (f : nat -> S -> outcome S) lo hi s s' : (lo <= hi)%nat -> for_ lo hi f s = Ok s' ->
  forall i, (lo <= i < hi)%nat -> exists a b, f i a = Ok b.
Proof.
  intros Hle E. refine (for_inv (fun k _ => forall i, (lo <= i < k)%nat -> exists a b, f i a = Ok b) _ _ _ _ _ Hle _ _ E).
  - intros; lia.
  - intros k a b Hk I Eb i Hi. destruct (Nat.eq_dec i k) as [->|]; [eauto|]. apply I. lia.
Qed.
Lemma put_waypoint_inv {T} c (wp : mat T) w st st' : put_waypoint c wp w st = Ok st' -> forall cc, (cc < c)%nat -> exists x, mread wp w cc = Ok x.
Proof.
  intros E cc Hc. unfold put_waypoint in E. destruct (for_each _ _ _ _ _ (Nat.le_0_l c) E cc ltac:(lia)) as ([p v] & b & Eb).
  apply bind_ok in Eb. destruct Eb as (x & Ex & _). eauto.
Qed.
Lemma fill_vector_inv c dim n (wp : mat R) v v' : (1 <= n)%nat -> fill_vector c dim n wp v = Ok v' ->
  exists W, reads wp n c W.
Proof.
  intros Hn E. exists (fun w cc => match mread wp w cc with Ok x => x | _ => 0 end).
  enough (G : forall w, (w <= n)%nat -> forall cc, (cc < c)%nat -> exists x, mread wp w cc = Ok x).
  { intros w cc Hw Hc. destruct (G w Hw cc Hc) as (x & Ex). now rewrite Ex. }
  unfold fill_vector in E. apply bind_ok in E. destruct E as (s1 & E1 & E). apply bind_ok in E. destruct E as (s2 & E2 & E).
  pose proof (put_waypoint_inv _ _ _ _ _ E1) as R0. pose proof (put_waypoint_inv _ _ _ _ _ E2) as R1.
  destruct (Nat.eqb_spec n 1) as [->|Ne].
  - intros [|[|w]] Hw; auto; lia.
  - apply bind_ok in E. destruct E as (s3 & E3 & E). apply bind_ok in E. destruct E as (s4 & E4 & E).
    apply bind_ok in E. destruct E as (s5 & E5 & E).
    pose proof (put_waypoint_inv _ _ _ _ _ E4) as R4. pose proof (put_waypoint_inv _ _ _ _ _ E5) as R5.
    intros w Hw. destruct (Nat.eq_dec w n) as [->|]; auto. destruct (Nat.eq_dec w (n - 1)) as [->|]; auto.
    destruct (Nat.eq_dec w 0) as [->|]; auto.
    destruct (for_each _ 1 (n - 1) _ _ ltac:(lia) E3 w ltac:(lia)) as (a & b & Eb).
    apply bind_ok in Eb. destruct Eb as (a' & Ea & _). exact (put_waypoint_inv _ _ _ _ _ Ea).
Qed.

(** ** the object *)
Section Obj.
Variables (b : basis R) (d : bdesc) (h c n : nat).
Hypothesis Hb : is_basis b d.
Hypothesis Hh : (1 <= h)%nat.
Hypothesis Hn : (1 <= n)%nat.
Hypothesis Hd : d_dim d = (2 * h)%nat.
Hypothesis XL : exact_pt d (-1).
Hypothesis XR : exact_pt d 1.
Let N := (2 * h * c * n)%nat.

Definition mat_inv (P : nat -> Prop) (m : smat R) : Prop := srows m = N /\ scols m = N /\ clean h c n P m.
Definition ip_inv (ip : interp R) : Prop :=
  ip_basis ip = b /\ ip_codom ip = c /\ ip_n ip = n /\ bufs_shape (2 * h) (ip_pos ip, ip_der ip) /\
  mat_inv (fun iv => (iv < n)%nat) (ip_mat ip) /\ rhs_clean h c n (ip_rhs ip) /\
  (length (ip_ders ip) = n /\ forall i m, nth_error (ip_ders ip) i = Some m -> mat_inv (fun iv => iv = i) m) /\
  exists hist, serve_all b hist (bs_init b) = Ok (ip_bst ip).

Lemma dim_b : b_dim b = (2 * h)%nat.
Proof. rewrite (is_basis_dim _ _ Hb). exact Hd. Qed.
Lemma ord_ends k : (k <= 2 * h - 2)%nat -> ord_ok d k.
Proof. intros Hk. destruct d; simpl in *; auto. lia. Qed.
Lemma neg1 : (- n1)%num = -1 :> R.
Proof. rnum. lra. Qed.
Lemma evL_ok tf iv : ev_ok (2 * h) (b_eval_deriv b) (- n1)%num (tf iv) (Lv d tf iv).
Proof.
  intros k buff Hk Lb. rewrite neg1. destruct (eval_wD b d (-1) (tf iv) k buff Hb (ord_ends k Hk) XL ltac:(congruence)) as (v & E & V).
  rewrite Hd in V. eauto.
Qed.
Lemma evR_ok tf iv : ev_ok (2 * h) (b_eval_deriv b) n1 (tf iv) (Rv d tf iv).
Proof.
  intros k buff Hk Lb. destruct (eval_wD b d 1 (tf iv) k buff Hb (ord_ends k Hk) XR ltac:(congruence)) as (v & E & V).
  rewrite Hd in V. eauto.
Qed.
Lemma evLt_ok tf iv : ev_ok (2 * h) (b_eval_deriv_tau b) (- n1)%num (tf iv) (Lvt d tf iv).
Proof.
  intros k buff Hk Lb. rewrite neg1. destruct (eval_wDt b d (-1) (tf iv) k buff Hb (ord_ends k Hk) XL ltac:(congruence)) as (v & E & V).
  rewrite Hd in V. eauto.
Qed.
Lemma evRt_ok tf iv : ev_ok (2 * h) (b_eval_deriv_tau b) n1 (tf iv) (Rvt d tf iv).
Proof.
  intros k buff Hk Lb. destruct (eval_wDt b d 1 (tf iv) k buff Hb (ord_ends k Hk) XR ltac:(congruence)) as (v & E & V).
  rewrite Hd in V. eauto.
Qed.

Lemma smul_entry A cf i : scols A = N -> smul A cf i = Rsum N (fun j => entry A i j * cf j).
Proof. intros C. unfold smul. rewrite C. apply Rsum_ext. intros j Hj. unfold entry. destruct (sget A i j); ring. Qed.

(** the matrix is assembled *)
Lemma assemble tau tf bufs m : vec_is tau n tf -> (forall i, (i < n)%nat -> 0 < tf i) -> bufs_shape (2 * h) bufs ->
  mat_inv (fun iv => (iv < n)%nat) m ->
  exists bufs' A, fill_matrix b c n tau bufs m = Ok (bufs', A) /\ bufs_shape (2 * h) bufs' /\ mat_inv (fun iv => (iv < n)%nat) A /\
    forall t0 W cf q, cond_ok (2 * h) c n q ->
      Rsum N (fun j => entry A (rowof (2 * h) c n q) j * cf j) - rhs_of W q = residual d c n t0 tf W cf q.
Proof.
  intros V Ht Sh (R & C & Cl).
  destruct (fill_matrix_ok h c n Hh Hn (Lv d tf) (Rv d tf) b dim_b tau tf V bufs m
     (fun iv _ => evL_ok tf iv) (fun iv _ => evR_ok tf iv) Sh R C) as (bufs' & A & E & Sh' & R' & C' & Wr).
  exists bufs', A. split; auto. split; auto. split.
  - split; auto. split; auto. exact (clean_wrote h c n _ _ _ _ _ Cl Wr).
  - intros t0 W cf q Ok. rewrite <- smul_entry by exact C'.
    apply (row_residual d h c n Hh Hn Hd tf) with (m := m); auto.
    intros i Hi. specialize (Ht i Hi). lra.
Qed.
Lemma rhs_filled wp W v : reads wp n c W -> rhs_clean h c n v ->
  exists v', fill_vector c (2 * h) n wp v = Ok v' /\ rhs_clean h c n v' /\
    forall q, cond_ok (2 * h) c n q -> vget v' (rowof (2 * h) c n q) = Some (rhs_of W q).
Proof.
  intros Rd Cl. destruct (fill_vector_ok h c n Hh Hn wp W Rd v (proj1 Cl)) as (v' & E & L & Wr).
  exists v'. split; auto. exact (rhs_content h c n Hh Hn W v v' Cl Wr).
Qed.

(** constructor *)
Lemma ctor_inv hist s : serve_all b hist (bs_init b) = Ok s -> exists ip, ip_ctor c n b s = Ok ip /\ ip_inv ip.
Proof.
  intros Hs. unfold ip_ctor. rewrite dim_b. rewrite (Nat.mul_comm 2 h), Nat.mod_mul by lia. simpl negb. cbv iota.
  destruct (Nat.ltb_spec (h * 2) 2); [lia|]. rewrite (Nat.mul_comm h 2).
  eexists. split; [reflexivity|]. unfold ip_inv. cbn [ip_basis ip_codom ip_n ip_pos ip_der ip_mat ip_rhs ip_ders ip_bst].
  split; auto. split; auto. split; auto. split; [repeat split|]. split; [|split; [|split]].
  - split; [reflexivity|]. split; [reflexivity|]. apply clean_snew.
  - split; [reflexivity|]. intros q Ok _. unfold vconst. cbn [vget]. reflexivity.
  - split; [apply repeat_length|]. intros i m E. apply nth_error_In in E. apply repeat_spec in E. subst m.
    split; [reflexivity|]. split; [reflexivity|]. apply clean_snew.
  - exists (hist ++ [RCopy]). rewrite (serve_all_app b hist [RCopy] _ _ Hs). reflexivity.
Qed.

(** one call of solve_interpolation *)
Lemma solve_spec lu ip tau tf wp W : ip_inv ip -> vec_is tau n tf -> (forall i, (i < n)%nat -> / 10 ^ 6 <= tf i) -> reads wp n c W ->
  exists A v ip', ip_solve lu ip tau wp = Ok (match lu A with None => ip_sol ip | Some f => f v end, ip') /\
    ip_inv ip' /\ ip_sol ip' = match lu A with None => ip_sol ip | Some f => f v end /\
    mat_inv (fun iv => (iv < n)%nat) A /\ vlen v = N /\
    forall q, cond_ok (2 * h) c n q -> vget v (rowof (2 * h) c n q) = Some (rhs_of W q) /\
      forall t0 cf, Rsum N (fun j => entry A (rowof (2 * h) c n q) j * cf j) - rhs_of W q = residual d c n t0 tf W cf q.
Proof.
  intros (Ib & Ic & In & Sh & M & Rc & Ds & Hs) V Ht Rd. unfold ip_solve, ip_dim.
  destruct (any_below_some tau n tf (ten_m 6) V) as (bad & Eb & Bad). rewrite Eb. cbn [bind].
  destruct bad.
  { exfalso. destruct (proj1 Bad eq_refl) as (i & Hi & L). rewrite ten_m6 in L. specialize (Ht i Hi). lra. }
  assert (P6 : 0 < / 10 ^ 6) by (apply Rinv_0_lt_compat, pow_lt; lra).
  rewrite Ib, Ic, In, dim_b.
  destruct (assemble tau tf _ _ V ltac:(intros i Hi; specialize (Ht i Hi); lra) Sh M) as ([pos der] & A & E & Sh' & MA & Rw).
  rewrite E. cbn [bind]. destruct (rhs_filled wp W _ Rd Rc) as (v & Ev & Rc' & Gv). rewrite Ev. cbn [bind].
  exists A, v. eexists. split; [reflexivity|]. split.
  - unfold ip_inv. cbn [ip_basis ip_codom ip_n ip_pos ip_der ip_mat ip_rhs ip_ders ip_bst]. auto 10.
  - cbn [ip_sol]. split; auto. split; auto. split; [apply Rc'|]. intros q Ok. split; [apply Gv; auto|]. intros. apply Rw; auto.
Qed.
Lemma solve_inv lu ip tau wp r ip' : ip_inv ip -> ip_solve lu ip tau wp = Ok (r, ip') -> ip_inv ip'.
Proof.
  intros I E. pose proof I as (Ib & Ic & In & _). pose proof E as E0. unfold ip_solve in E.
  apply bind_ok in E. destruct E as (bad & Eb & E). destruct bad; [discriminate|].
  destruct (any_below_inv _ _ _ Eb) as (tf & V). destruct (any_below_some tau _ tf (ten_m 6) V) as (bad & Eb' & Bad).
  rewrite Eb in Eb'. injection Eb' as <-. apply bind_ok in E. destruct E as ([[pos der] m] & Em & E).
  apply bind_ok in E. destruct E as (v & Ev & _). rewrite Ic, In in Ev.
  destruct (fill_vector_inv _ _ _ _ _ _ Hn Ev) as (W & Rd).
  assert (L : vlen tau = n).
  { unfold fill_matrix in Em. rewrite In in Em. destruct (Nat.eqb_spec (vlen tau) n); [auto|discriminate]. }
  rewrite L in V, Bad.
  destruct (solve_spec lu ip tau tf wp W I V) as (A & v' & ip'' & E' & I' & _); auto.
  - intros i Hi. destruct (Rle_lt_dec (/ 10 ^ 6) (tf i)) as [|Lt]; auto. exfalso.
    assert (false = true); [apply Bad; exists i; rewrite ten_m6; auto|discriminate].
  - rewrite E0 in E'. injection E' as _ <-. exact I'.
Qed.

(** one call of get_coeff_derivative_wrt_tau *)
Lemma smvmul_R A coef cf : srows A = N -> scols A = N -> vec_is coef N cf ->
  exists p, smvmul A coef = Ok p /\ vec_is p N (fun i => Rsum N (fun j => entry A i j * cf j)).
Proof.
  intros R C V. unfold smvmul. rewrite C. replace (vlen coef) with N by (symmetry; apply V). rewrite Nat.eqb_refl.
  eexists. split; [reflexivity|]. split; [exact R|]. intros i Hi. cbn [vget].
  assert (G : forall k, (k <= N)%nat -> srow_dot A coef i k = Some (Rsum k (fun j => entry A i j * cf j))).
  { induction k as [|k IH]; intros Hk; [reflexivity|]. simpl. rewrite IH by lia. unfold entry. destruct (sget A i k); simpl.
    - destruct V as [_ V]. rewrite V by lia. simpl. rnum. reflexivity.
    - f_equal. ring. }
  rewrite G by lia. reflexivity.
Qed.
Lemma nth_list_set {A} (l : list A) i x j y : nth_error (list_set l i x) j = Some y -> (j = i /\ y = x) \/ nth_error l j = Some y.
Proof.
  revert i j. induction l as [|z l IH]; intros i j; simpl; [auto|].
  destruct i as [|i], j as [|j]; simpl; auto.
  - intros E. injection E as <-. auto.
  - intros E. destruct (IH i j E) as [[-> ->]|E']; auto.
Qed.
Lemma list_set_length {A} (l : list A) i x : length (list_set l i x) = length l.
Proof. revert i. induction l as [|z l IH]; intros [|i]; simpl; auto. Qed.

Lemma coeff_tau_gen lu ip coef tau tf idx : ip_inv ip -> vec_is tau n tf -> (forall i, (i < n)%nat -> / 10 ^ 6 <= tf i) -> (idx < n)%nat ->
  exists A m', mat_inv (fun iv => (iv < n)%nat) A /\ srows m' = N /\ scols m' = N /\
    (forall q, cond_ok (2 * h) c n q ->
      (forall cf, smul m' cf (rowof (2 * h) c n q) = dform d c n cf tf idx q) /\
      forall t0 W x, Rsum N (fun j => entry A (rowof (2 * h) c n q) j * x j) - rhs_of W q = residual d c n t0 tf W x q) /\
    forall p, smvmul m' coef = Ok p ->
    match lu A with
    | None => ip_coeff_tau lu ip coef tau idx = UB
    | Some f => exists ip', ip_coeff_tau lu ip coef tau idx = Ok (vscale (f p) (- n1)%num, ip') /\ ip_inv ip' /\ ip_coef ip' = vscale (f p) (- n1)%num
    end.
Proof.
  intros (Ib & Ic & In & Sh & M & Rc & (Ld & Ds) & Hs) V Ht Hi. unfold ip_coeff_tau.
  destruct (any_below_some tau n tf (ten_m 6) V) as (bad & Eb & Bad). rewrite Eb. cbn [bind].
  destruct bad.
  { exfalso. destruct (proj1 Bad eq_refl) as (i & Hi' & L). rewrite ten_m6 in L. specialize (Ht i Hi'). lra. }
  assert (P6 : 0 < / 10 ^ 6) by (apply Rinv_0_lt_compat, pow_lt; lra).
  assert (Ht0 : forall i, (i < n)%nat -> 0 < tf i) by (intros i Hi'; specialize (Ht i Hi'); lra).
  rewrite Ib, Ic, In. replace (vlen tau) with n by (symmetry; apply V). rewrite Nat.eqb_refl.
  destruct (Nat.leb_spec n idx); [lia|]. cbn [negb orb].
  destruct (nth_error (ip_ders ip) idx) as [m|] eqn:Em; [|apply nth_error_None in Em; lia]. cbn [of_option bind].
  destruct (Ds idx m Em) as (Rm & Cm & Clm).
  destruct (fill_matrix_tau_ok h c n Hh Hn (Lvt d tf) (Rvt d tf) b dim_b tau tf V idx (ip_pos ip, ip_der ip) m Hi
     (fun iv _ => evLt_ok tf iv) (fun iv _ => evRt_ok tf iv) Sh Rm Cm) as (bufs' & m' & E & Sh' & R' & C' & Wr).
  rewrite E. cbn [bind].
  assert (Wr' : wrote m m' (fun i j x => exists iv, iv = idx /\ EI h c n (Lvt d tf) (Rvt d tf) iv i j x)).
  { eapply wrote_iff; [exact Wr|]. intros i j x. split; [intros X; exists idx; auto|intros (iv & -> & X); exact X]. }
  destruct (assemble tau tf bufs' _ V Ht0 Sh' M) as ([pos der] & A & EA & ShA & MA & Rw).
  exists A, m'. split; auto. split; auto. split; auto. split.
  - intros q Ok. split; [|intros; apply Rw; auto]. intros cf.
    apply (row_dform d h c n Hh Hn Hd tf idx m m' C' Clm Wr'). exact Ok.
  - intros p Ep. rewrite Ep. cbn [bind]. rewrite EA. cbn [bind].
    destruct (lu A) as [f|]; [|reflexivity]. eexists. split; [reflexivity|]. split; [|reflexivity].
    unfold ip_inv. cbn [ip_basis ip_codom ip_n ip_pos ip_der ip_mat ip_rhs ip_ders ip_bst].
    split; auto. split; auto. split; auto. split; auto. split; auto. split; auto. split; auto.
    split; [now rewrite list_set_length|]. intros i m1 E1. apply nth_list_set in E1. destruct E1 as [[-> ->]|E1]; auto.
    split; auto. split; auto. exact (clean_wrote h c n _ _ _ _ _ Clm Wr').
Qed.
Lemma coeff_tau_spec lu ip coef cf tau tf idx : ip_inv ip -> vec_is tau n tf -> (forall i, (i < n)%nat -> / 10 ^ 6 <= tf i) -> (idx < n)%nat ->
  vec_is coef N cf ->
  exists A p, mat_inv (fun iv => (iv < n)%nat) A /\ (exists pf, vec_is p N pf /\
    forall q, cond_ok (2 * h) c n q -> pf (rowof (2 * h) c n q) = dform d c n cf tf idx q /\
      forall t0 W x, Rsum N (fun j => entry A (rowof (2 * h) c n q) j * x j) - rhs_of W q = residual d c n t0 tf W x q) /\
    match lu A with
    | None => ip_coeff_tau lu ip coef tau idx = UB
    | Some f => exists ip', ip_coeff_tau lu ip coef tau idx = Ok (vscale (f p) (- n1)%num, ip') /\ ip_inv ip' /\ ip_coef ip' = vscale (f p) (- n1)%num
    end.
Proof.
  intros I V Ht Hi Vc. destruct (coeff_tau_gen lu ip coef tau tf idx I V Ht Hi) as (A & m' & MA & R' & C' & G & F).
  destruct (smvmul_R m' coef cf R' C' Vc) as (p & Ep & Vp). exists A, p. split; auto. split; [|exact (F p Ep)].
  eexists. split; [exact Vp|]. intros q Ok. destruct (G q Ok) as (G1 & G2). split; [|exact G2].
  rewrite <- smul_entry by exact C'. apply G1.
Qed.
Lemma smvmul_inv (A : smat R) v r : smvmul A v = Ok r -> vlen v = scols A.
Proof. unfold smvmul. destruct (Nat.eqb_spec (scols A) (vlen v)); [auto|discriminate]. Qed.
Lemma smvmul_len (A : smat R) v : vlen v = scols A -> exists r, smvmul A v = Ok r.
Proof. intros E. unfold smvmul. rewrite E, Nat.eqb_refl. eauto. Qed.
Lemma coeff_tau_inv lu ip coef tau idx r ip' : ip_inv ip -> ip_coeff_tau lu ip coef tau idx = Ok (r, ip') -> ip_inv ip'.
Proof.
  intros I E. pose proof I as (Ib & Ic & In & _). pose proof E as E0. unfold ip_coeff_tau in E.
  apply bind_ok in E. destruct E as (bad & Eb & E). destruct bad; [discriminate|].
  destruct (any_below_inv _ _ _ Eb) as (tf & V). destruct (any_below_some tau _ tf (ten_m 6) V) as (bad & Eb' & Bad).
  rewrite Eb in Eb'. injection Eb' as <-. rewrite In in E.
  destruct (Nat.eqb_spec (vlen tau) n) as [L|]; [|cbn [negb orb] in E; injection E as _ <-; exact I].
  destruct (Nat.leb_spec n idx); cbn [negb orb] in E; [injection E as _ <-; exact I|].
  rewrite L in V, Bad. destruct (coeff_tau_gen lu ip coef tau tf idx I V) as (A & m' & MA & R' & C' & G & F); auto.
  { intros i Hi. destruct (Rle_lt_dec (/ 10 ^ 6) (tf i)) as [|Lt]; auto. exfalso.
    assert (false = true); [apply Bad; exists i; rewrite ten_m6; auto|discriminate]. }
  apply bind_ok in E. destruct E as (m & Em & E). apply bind_ok in E. destruct E as ([bufs m1] & Et & E).
  apply bind_ok in E. destruct E as (p & Ep & _).
  assert (Lc : vlen coef = N).
  { rewrite (smvmul_inv _ _ _ Ep). pose proof I as (_ & _ & _ & Sh & _ & _ & (_ & Ds) & _).
    destruct (nth_error (ip_ders ip) idx) as [mm|] eqn:En; [|discriminate]. cbn [of_option] in Em. injection Em as <-.
    destruct (Ds idx mm En) as (Rm & Cm & _).
    destruct (fill_matrix_tau_ok h c n Hh Hn (Lvt d tf) (Rvt d tf) b dim_b tau tf V idx (ip_pos ip, ip_der ip) mm H
     (fun iv _ => evLt_ok tf iv) (fun iv _ => evRt_ok tf iv) Sh Rm Cm) as (bufs' & m2 & E2 & _ & _ & C2 & _).
    rewrite Ib, Ic, E2 in Et. injection Et as _ <-. exact C2. }
  destruct (smvmul_len m' coef) as (p' & Ep'); [congruence|]. specialize (F p' Ep').
  destruct (lu A); [|congruence]. destruct F as (ip2 & E2 & I2 & _). rewrite E0 in E2. injection E2 as _ ->. exact I2.
Qed.

(** every sequence of calls *)
Lemma run_inv l : forall ip ip', ip_inv ip -> ip_run l ip = Ok ip' -> ip_inv ip'.
Proof.
  induction l as [|[lu q] l IH]; intros ip ip' I E; simpl in E.
  - injection E as <-. exact I.
  - apply bind_ok in E. destruct E as (ip1 & E1 & E). apply (IH ip1); auto. unfold ip_after in E1.
    destruct q as [tau wp|coef tau idx].
    + destruct (ip_solve lu ip tau wp) as [[r ip2]|e|] eqn:Es; [|injection E1 as <-; exact I|discriminate].
      injection E1 as <-. eapply solve_inv; eauto.
    + destruct (ip_coeff_tau lu ip coef tau idx) as [[r ip2]|e|] eqn:Es; [|injection E1 as <-; exact I|discriminate].
      injection E1 as <-. eapply coeff_tau_inv; eauto.
Qed.

(** ** solvability *)
Lemma system_nonsing (A : smat R) tf : (forall i, (i < n)%nat -> 0 < tf i) ->
  (forall t0 W cf q, cond_ok (2 * h) c n q -> Rsum N (fun j => entry A (rowof (2 * h) c n q) j * cf j) - rhs_of W q = residual d c n t0 tf W cf q) ->
  nonsing N (entry A).
Proof.
  intros Ht Rw x Z. apply (kernel d h c n 0 tf x (is_basis_desc _ _ Hb) Hh Hn Hd Ht).
  intros q Ok. rewrite Hd in Ok. rewrite <- (Rw 0 (fun _ _ => 0) x q Ok). rewrite Z by (apply (row_lt h c n Hh Hn); auto).
  destruct q; simpl; rnum; ring.
Qed.
Lemma system_solution (A : smat R) tf W x bf : (forall q, cond_ok (2 * h) c n q -> bf (rowof (2 * h) c n q) = rhs_of W q) ->
  (forall t0 W cf q, cond_ok (2 * h) c n q -> Rsum N (fun j => entry A (rowof (2 * h) c n q) j * cf j) - rhs_of W q = residual d c n t0 tf W cf q) ->
  solves N A x bf -> forall t0, interpolates d c n t0 tf W x.
Proof.
  intros Gb Rw S t0 q Ok. rewrite Hd in Ok. rewrite <- (Rw t0 W x q Ok). rewrite S by (apply (row_lt h c n Hh Hn); auto).
  rewrite Gb by auto. ring.
Qed.
Lemma system_is (A : smat R) tf W t0 bf : srows A = N -> scols A = N -> (forall q, cond_ok (2 * h) c n q -> bf (rowof (2 * h) c n q) = rhs_of W q) ->
  (forall t0 W cf q, cond_ok (2 * h) c n q -> Rsum N (fun j => entry A (rowof (2 * h) c n q) j * cf j) - rhs_of W q = residual d c n t0 tf W cf q) ->
  is_system d c n t0 tf W A bf.
Proof.
  intros R C Gb Rw. unfold is_system. rewrite Hd. fold N. split; [split; auto|]. exists (rowof (2 * h) c n).
  split; [intros; apply (row_lt h c n Hh Hn); auto|]. split; [intros; apply (row_inj h c n Hh Hn); auto|].
  split; [intros i Hi; apply (row_surj h c n Hh Hn); auto|]. intros q x Ok. rewrite Gb by auto. apply Rw. auto.
Qed.
End Obj.
