(** The interpolator object in any arithmetic: what every sequence of calls leaves intact, and the system a call assembles. *)
From Coq Require Import List Arith Lia Bool ZArith.
From Verif Require Import Num Outcome LinAlg LegendreModel LegendreProofs BasisModel ToolsModel GSplineModel BasisProofs InterpModel InterpSpec
  InterpProofs InterpProofs2 InterpProofs3 InterpProofs6.
Import ListNotations.

Section Gen.
Context {T : Type} {HN : Num T}.

Lemma any_below_gen (tau : vec T) m tf x : vec_is tau m tf ->
  exists bad, any_below tau x = Ok bad /\ (bad = true <-> exists i, i < m /\ nltb (tf i) x = true).
Proof.
  intros V. unfold any_below. replace (vlen tau) with m by (symmetry; apply V).
  match goal with |- context [for_ 0 m ?f ?s] =>
    destruct (for_ok (fun k (acc : bool) => acc = true <-> exists i, i < k /\ nltb (tf i) x = true) f 0 m s) as (bad & E & I)
  end.
  - lia.
  - split; [discriminate|]. intros (i & Hi & _). lia.
  - intros k acc Hk I. rewrite (vread_ok _ _ _ _ V) by lia. cbn [bind]. eexists. split; [reflexivity|].
    rewrite orb_true_iff, I. split.
    + intros [(i & Hi & L)|L]; [exists i; split; [lia|auto]|]. exists k. split; [lia|auto].
    + intros (i & Hi & L). destruct (Nat.eq_dec i k) as [->|]; [right; auto|]. left. exists i. split; [lia|auto].
  - eauto.
Qed.
Lemma any_below_inv_gen (tau : vec T) x bad : any_below tau x = Ok bad -> exists tf, vec_is tau (vlen tau) tf.
Proof.
  intros E. exists (fun i => match vget tau i with Some y => y | None => n0 end). split; [reflexivity|].
  unfold any_below in E.
  refine (for_inv (fun k (_ : bool) => forall i, i < k -> vget tau i = Some (match vget tau i with Some y => y | None => n0 end))
    _ _ _ _ _ (Nat.le_0_l _) _ _ E); [intros; lia|].
  intros k a b' Hk I Eb i Hi. destruct (Nat.eq_dec i k) as [->|]; [|apply I; lia].
  apply bind_ok in Eb. destruct Eb as (y & Ey & _). unfold vread in Ey. destruct (Nat.ltb k (vlen tau)); [|discriminate].
  destruct (vget tau k); [reflexivity|discriminate].
Qed.
Lemma fill_vector_inv_gen c dim n (wp : mat T) v v' : 1 <= n -> fill_vector c dim n wp v = Ok v' ->
  exists W, reads wp n c W.
Proof.
  intros Hn E. exists (fun w cc => match mread wp w cc with Ok x => x | _ => n0 end).
  enough (G : forall w, w <= n -> forall cc, cc < c -> exists x, mread wp w cc = Ok x).
  { intros w cc Hw Hc. destruct (G w Hw cc Hc) as (x & Ex). now rewrite Ex. }
  unfold fill_vector in E. apply bind_ok in E. destruct E as (s1 & E1 & E). apply bind_ok in E. destruct E as (s2 & E2 & E).
  pose proof (put_waypoint_inv _ _ _ _ _ E1) as R0. pose proof (put_waypoint_inv _ _ _ _ _ E2) as R1.
  destruct (Nat.eqb_spec n 1) as [->|Ne].
  - intros [|[|w]] Hw; auto; lia.
  - apply bind_ok in E. destruct E as (s3 & E3 & E). apply bind_ok in E. destruct E as (s4 & E4 & E).
    apply bind_ok in E. destruct E as (s5 & E5 & E).
    pose proof (put_waypoint_inv _ _ _ _ _ E4) as R4. pose proof (put_waypoint_inv _ _ _ _ _ E5) as R5.
    intros w Hw. destruct (Nat.eq_dec w n) as [->|]; auto. destruct (Nat.eq_dec w (n - 1)) as [->|]; auto.
    destruct (Nat.eq_dec w 0) as [->|]; auto.
    destruct (for_each _ 1 (n - 1) _ _ ltac:(lia) E3 w ltac:(lia)) as (a & b & Eb).
    apply bind_ok in Eb. destruct Eb as (a' & Ea & _). exact (put_waypoint_inv _ _ _ _ _ Ea).
Qed.

(** ** the object *)
Section Obj.
Variables (b : basis T) (h c n : nat).
Hypothesis Hh : 1 <= h.
Hypothesis Hn : 1 <= n.
Hypothesis Hd : b_dim b = 2 * h.
(** values of the derivatives at both ends, as functions of the interval length *)
Variables LV RV LVt RVt : T -> nat -> nat -> T.
Hypothesis evL : forall tau, ev_ok (2 * h) (b_eval_deriv b) (nopp n1) tau (LV tau).
Hypothesis evR : forall tau, ev_ok (2 * h) (b_eval_deriv b) n1 tau (RV tau).
Hypothesis evLt : forall tau, ev_ok (2 * h) (b_eval_deriv_tau b) (nopp n1) tau (LVt tau).
Hypothesis evRt : forall tau, ev_ok (2 * h) (b_eval_deriv_tau b) n1 tau (RVt tau).
Let N := 2 * h * c * n.

Definition gmat_inv (P : nat -> Prop) (m : smat T) : Prop := srows m = N /\ scols m = N /\ clean h c n P m.
Definition gip_inv (ip : interp T) : Prop :=
  ip_basis ip = b /\ ip_codom ip = c /\ ip_n ip = n /\ bufs_shape (2 * h) (ip_pos ip, ip_der ip) /\
  gmat_inv (fun iv => iv < n) (ip_mat ip) /\ rhs_clean h c n (ip_rhs ip) /\
  (length (ip_ders ip) = n /\ forall i m, nth_error (ip_ders ip) i = Some m -> gmat_inv (fun iv => iv = i) m).

(** what is stored: the entries of the conditions and nothing else *)
Definition gcontent (tf : nat -> T) (A : smat T) : Prop :=
  forall q iv cc bb, cond_ok (2 * h) c n q -> iv < n -> cc < c -> bb < 2 * h ->
   (forall f, ent n (fun iv => LV (tf iv)) (fun iv => RV (tf iv)) q iv cc f -> sget A (rowof (2 * h) c n q) ((iv * c + cc) * (2 * h) + bb) = Some (f bb)) /\
   ((forall f, ~ ent n (fun iv => LV (tf iv)) (fun iv => RV (tf iv)) q iv cc f) -> sget A (rowof (2 * h) c n q) ((iv * c + cc) * (2 * h) + bb) = None).

Lemma gassemble tau tf bufs m : vec_is tau n tf -> bufs_shape (2 * h) bufs -> gmat_inv (fun iv => iv < n) m ->
  exists bufs' A, fill_matrix b c n tau bufs m = Ok (bufs', A) /\ bufs_shape (2 * h) bufs' /\ gmat_inv (fun iv => iv < n) A /\ gcontent tf A.
Proof.
  intros V Sh (R & C & Cl).
  destruct (fill_matrix_ok h c n Hh Hn (fun iv => LV (tf iv)) (fun iv => RV (tf iv)) b Hd tau tf V bufs m
     (fun iv _ => evL (tf iv)) (fun iv _ => evR (tf iv)) Sh R C) as (bufs' & A & E & Sh' & R' & C' & Wr).
  exists bufs', A. split; auto. split; auto. split.
  - split; auto. split; auto. exact (clean_wrote h c n _ _ _ _ _ Cl Wr).
  - intros q iv cc bb Ok Hiv Hc Hb. destruct (content h c n Hh Hn _ _ _ m A Cl Wr q iv cc bb Ok Hc Hb) as (G1 & G2). auto.
Qed.
Lemma grhs_filled wp W v : reads wp n c W -> rhs_clean h c n v ->
  exists v', fill_vector c (2 * h) n wp v = Ok v' /\ rhs_clean h c n v' /\
    forall q, cond_ok (2 * h) c n q -> vget v' (rowof (2 * h) c n q) = Some (rhs_of W q).
Proof.
  intros Rd Cl. destruct (fill_vector_ok h c n Hh Hn wp W Rd v (proj1 Cl)) as (v' & E & L & Wr).
  exists v'. split; auto. exact (rhs_content h c n Hh Hn W v v' Cl Wr).
Qed.
Lemma gctor_inv s : exists ip, ip_ctor c n b s = Ok ip /\ gip_inv ip.
Proof.
  unfold ip_ctor. rewrite Hd. rewrite (Nat.mul_comm 2 h), Nat.mod_mul by lia. simpl negb. cbv iota.
  destruct (Nat.ltb_spec (h * 2) 2); [lia|]. rewrite (Nat.mul_comm h 2).
  eexists. split; [reflexivity|]. unfold gip_inv. cbn [ip_basis ip_codom ip_n ip_pos ip_der ip_mat ip_rhs ip_ders ip_bst].
  split; auto. split; auto. split; auto. split; [repeat split|]. split; [|split].
  - split; [reflexivity|]. split; [reflexivity|]. apply clean_snew.
  - split; [reflexivity|]. intros q Ok _. unfold vconst. cbn [vget]. reflexivity.
  - split; [apply repeat_length|]. intros i m E. apply nth_error_In in E. apply repeat_spec in E. subst m.
    split; [reflexivity|]. split; [reflexivity|]. apply clean_snew.
Qed.

Definition passes (tf : nat -> T) : Prop := forall i, i < n -> nltb (tf i) (ten_m 6) = false.

Lemma gsolve_spec ip tau tf wp W : gip_inv ip -> vec_is tau n tf -> passes tf -> reads wp n c W ->
  exists A v, gmat_inv (fun iv => iv < n) A /\ gcontent tf A /\ vlen v = N /\
    (forall q, cond_ok (2 * h) c n q -> vget v (rowof (2 * h) c n q) = Some (rhs_of W q)) /\
    forall lu, let sol := match lu A with None => ip_sol ip | Some f => f v end in
    exists ip', ip_solve lu ip tau wp = Ok (sol, ip') /\ gip_inv ip' /\ ip_sol ip' = sol.
Proof.
  intros (Ib & Ic & In & Sh & M & Rc & Ds) V Ht Rd. unfold ip_solve, ip_dim.
  destruct (any_below_gen tau n tf (ten_m 6) V) as (bad & Eb & Bad). rewrite Eb. cbn [bind].
  destruct bad.
  { exfalso. destruct (proj1 Bad eq_refl) as (i & Hi & L). rewrite (Ht i Hi) in L. discriminate. }
  rewrite Ib, Ic, In, Hd. destruct (gassemble tau tf _ _ V Sh M) as ([pos der] & A & E & Sh' & MA & Rw).
  rewrite E. cbn [bind]. destruct (grhs_filled wp W _ Rd Rc) as (v & Ev & Rc' & Gv). rewrite Ev. cbn [bind].
  exists A, v. split; auto. split; auto. split; [apply Rc'|]. split; [exact Gv|]. intros lu. eexists. split; [reflexivity|].
  split; [|reflexivity]. unfold gip_inv. cbn [ip_basis ip_codom ip_n ip_pos ip_der ip_mat ip_rhs ip_ders ip_bst]. auto 10.
Qed.
Lemma gsolve_inv lu ip tau wp r ip' : gip_inv ip -> ip_solve lu ip tau wp = Ok (r, ip') -> gip_inv ip'.
Proof.
  intros I E. pose proof I as (Ib & Ic & In & _). pose proof E as E0. unfold ip_solve in E.
  apply bind_ok in E. destruct E as (bad & Eb & E). destruct bad; [discriminate|].
  destruct (any_below_inv_gen _ _ _ Eb) as (tf & V). destruct (any_below_gen tau _ tf (ten_m 6) V) as (bad & Eb' & Bad).
  rewrite Eb in Eb'. injection Eb' as <-. apply bind_ok in E. destruct E as ([[pos der] m] & Em & E).
  apply bind_ok in E. destruct E as (v & Ev & _). rewrite Ic, In in Ev.
  destruct (fill_vector_inv_gen _ _ _ _ _ _ Hn Ev) as (W & Rd).
  assert (L : vlen tau = n).
  { unfold fill_matrix in Em. rewrite In in Em. destruct (Nat.eqb_spec (vlen tau) n); [auto|discriminate]. }
  rewrite L in V, Bad.
  destruct (gsolve_spec ip tau tf wp W I V) as (A & v' & _ & _ & _ & _ & G); auto.
  - intros i Hi. destruct (nltb (tf i) (ten_m 6)) eqn:El; auto. assert (false = true); [apply Bad; eauto|discriminate].
  - destruct (G lu) as (ip'' & E' & I' & _). rewrite E0 in E'. injection E' as _ <-. exact I'.
Qed.
Lemma gcoeff_inv lu ip coef tau idx r ip' : gip_inv ip -> ip_coeff_tau lu ip coef tau idx = Ok (r, ip') -> gip_inv ip'.
Proof.
  intros I E. pose proof I as (Ib & Ic & In & Sh & M & Rc & (Ld & Ds)). unfold ip_coeff_tau in E.
  apply bind_ok in E. destruct E as (bad & Eb & E). destruct bad; [discriminate|].
  destruct (any_below_inv_gen _ _ _ Eb) as (tf & V). rewrite Ib, Ic, In in E.
  destruct (Nat.eqb_spec (vlen tau) n) as [L|]; [|cbn [negb orb] in E; injection E as _ <-; exact I].
  destruct (Nat.leb_spec n idx); cbn [negb orb] in E; [injection E as _ <-; exact I|]. rewrite L in V.
  destruct (nth_error (ip_ders ip) idx) as [m|] eqn:Em; [|discriminate]. cbn [of_option bind] in E.
  destruct (Ds idx m Em) as (Rm & Cm & Clm).
  destruct (fill_matrix_tau_ok h c n Hh Hn (fun iv => LVt (tf iv)) (fun iv => RVt (tf iv)) b Hd tau tf V idx (ip_pos ip, ip_der ip) m H
     (fun iv _ => evLt (tf iv)) (fun iv _ => evRt (tf iv)) Sh Rm Cm) as (bufs' & m' & E1 & Sh' & R' & C' & Wr).
  rewrite E1 in E. cbn [bind] in E.
  assert (Wr' : wrote m m' (fun i j x => exists iv, iv = idx /\ EI h c n (fun iv => LVt (tf iv)) (fun iv => RVt (tf iv)) iv i j x)).
  { eapply wrote_iff; [exact Wr|]. intros i j x. split; [intros X; exists idx; auto|intros (iv & -> & X); exact X]. }
  apply bind_ok in E. destruct E as (p & _ & E).
  destruct (gassemble tau tf bufs' _ V Sh' M) as ([pos der] & A & EA & ShA & MA & Rw). rewrite EA in E. cbn [bind] in E.
  destruct (lu A) as [f|]; [|discriminate]. injection E as _ <-.
  unfold gip_inv. cbn [ip_basis ip_codom ip_n ip_pos ip_der ip_mat ip_rhs ip_ders ip_bst].
  split; auto. split; auto. split; auto. split; auto. split; auto. split; auto.
  split; [now rewrite list_set_length|]. intros i m1 E2. apply nth_list_set in E2. destruct E2 as [[-> ->]|E2]; auto.
  split; auto. split; auto. exact (clean_wrote h c n _ _ _ _ _ Clm Wr').
Qed.
Lemma grun_inv l : forall ip ip', gip_inv ip -> ip_run l ip = Ok ip' -> gip_inv ip'.
Proof.
  induction l as [|[lu q] l IH]; intros ip ip' I E; simpl in E.
  - injection E as <-. exact I.
  - apply bind_ok in E. destruct E as (ip1 & E1 & E). apply (IH ip1); auto. unfold ip_after in E1.
    destruct q as [tau wp|coef tau idx].
    + destruct (ip_solve lu ip tau wp) as [[r ip2]|e|] eqn:Es; [|injection E1 as <-; exact I|discriminate].
      injection E1 as <-. eapply gsolve_inv; eauto.
    + destruct (ip_coeff_tau lu ip coef tau idx) as [[r ip2]|e|] eqn:Es; [|injection E1 as <-; exact I|discriminate].
      injection E1 as <-. eapply gcoeff_inv; eauto.
Qed.
End Obj.

(** ** the Legendre basis *)
Definition legL (tau : T) (k i : nat) : T := nmul (gld (nopp n1) k i) (gmult tau k).
Definition legR (tau : T) (k i : nat) : T := nmul (gld n1 k i) (gmult tau k).
Definition legLt (tau : T) (k i : nat) : T := nmul (legL tau k i) (nmul (nmul (nopp nhalf) (nofnat k)) (ndiv c2 tau)).
Definition legRt (tau : T) (k i : nat) : T := nmul (legR tau k i) (nmul (nmul (nopp nhalf) (nofnat k)) (ndiv c2 tau)).
Lemma leg_ev h g s tau : 1 <= h -> ev_ok (2 * h) (b_eval_deriv (BLegendre (2 * h) g)) s tau (fun k i => nmul (gld s k i) (gmult tau k)).
Proof. intros Hh k buff Hk Lb. exact (leg_eval_deriv_gen (2 * h) s tau k buff ltac:(lia) ltac:(lia) Lb). Qed.
Lemma leg_evt h g s tau : 1 <= h -> ev_ok (2 * h) (b_eval_deriv_tau (BLegendre (2 * h) g)) s tau
  (fun k i => nmul (nmul (gld s k i) (gmult tau k)) (nmul (nmul (nopp nhalf) (nofnat k)) (ndiv c2 tau))).
Proof.
  intros Hh k buff Hk Lb. destruct (leg_eval_deriv_gen (2 * h) s tau k buff ltac:(lia) ltac:(lia) Lb) as (v & E & V).
  cbn [b_eval_deriv_tau]. unfold leg_eval_deriv_tau. rewrite E. cbn [bind]. eexists. split; [reflexivity|]. apply vscale_is. exact V.
Qed.
End Gen.
