(** get_coeff_derivative_wrt_tau applied to its own result: zero. *)
From Coquelicot Require Import Coquelicot.
From Coq Require Import List Arith Lia Bool ZArith Reals Lra.
From Verif Require Import Num Outcome LinAlg RSum RMat RDeriv RPoly RGauss
  LegendreModel LegendreSpec LagrangeSpec Basis0101Spec BasisModel SplineSpec BasisFn
  BasisProofs BasisProofs2 BasisProofs3 ToolsModel GSplineModel GSplineProofs GSplineProofs2 GSplineProofs3 GSplineProofs4
  InterpModel InterpSpec SolverSpec
  InterpProofs InterpProofs2 InterpProofs3 InterpProofs4 InterpProofs5 InterpMath InterpMath2 InterpProofs6 InterpProofs7 InterpProofs8
  RefModel RefSpec RefProofs RefProofs2.
Import ListNotations.
Local Open Scope R_scope.

Lemma acc_cols_self (m : smat R) n : forall i, acc_cols m (fun d => d) n i = Some 0.
Proof.
  induction n as [|n IH]; intros i; cbn [acc_cols]; [reflexivity|]. rewrite !IH. destruct (sget m i n) as [x|]; [|reflexivity].
  cbn [option_map olift2]. f_equal. rnum. ring.
Qed.

Lemma self_zero b d c n ip tau tf idx lu : reached b d c n ip -> exact_solver lu ->
  vec_is tau n tf -> (forall i, (i < n)%nat -> / 10 ^ 6 <= tf i) -> (idx < n)%nat -> vlen (ip_coef ip) = (d_dim d * c * n)%nat ->
  exists r ip', ip_coeff_tau_self lu ip tau idx = Ok (r, ip') /\ vec_is r (d_dim d * c * n) (fun _ => 0).
Proof.
  intros Re Ex V Ht Hi Hl. destruct (reached_inv _ _ _ _ _ Re) as (h & Hh & Hd & Iv). pose proof Re as (B & _ & Hn & XL & XR & _).
  destruct Iv as (Ib & Ic & In & Sh & M & Rc & (Ld & Ds) & Hs). rewrite Hd in *. unfold ip_coeff_tau_self.
  destruct (any_below_some tau n tf (ten_m 6) V) as (bad & Eb & Bad). rewrite Eb. cbn [bind].
  destruct bad.
  { exfalso. destruct (proj1 Bad eq_refl) as (i & Hi' & L). rewrite ten_m6 in L. specialize (Ht i Hi'). lra. }
  pose proof pos6 as P6.
  assert (Ht0 : forall i, (i < n)%nat -> 0 < tf i) by (intros i Hi'; specialize (Ht i Hi'); lra).
  rewrite Ib, Ic, In. replace (vlen tau) with n by (symmetry; apply V). rewrite Nat.eqb_refl.
  destruct (Nat.leb_spec n idx); [lia|]. cbn [negb orb].
  destruct (nth_error (ip_ders ip) idx) as [m|] eqn:Em; [|apply nth_error_None in Em; lia]. cbn [of_option bind].
  destruct (Ds idx m Em) as (Rm & Cm & Clm).
  destruct (fill_matrix_tau_ok h c n Hh Hn (Lvt d tf) (Rvt d tf) b (dim_b b d h B Hd) tau tf V idx (ip_pos ip, ip_der ip) m Hi
     (fun iv _ => evLt_ok b d h c n B Hh Hn Hd XL XR tf iv) (fun iv _ => evRt_ok b d h c n B Hh Hn Hd XL XR tf iv) Sh Rm Cm) as (bufs' & m' & E & Sh' & R' & C' & Wr).
  rewrite E. cbn [bind]. rewrite C', Hl, Nat.eqb_refl. cbn [bind].
  destruct (assemble b d h c n B Hh Hn Hd XL XR tau tf bufs' _ V Ht0 Sh' M) as ([pos der] & A & EA & ShA & (RA & CA & _) & Rw).
  rewrite EA. cbn [bind].
  assert (Ns : nonsing (2 * h * c * n) (entry A)).
  { apply (system_nonsing b d h c n B Hh Hn Hd A tf); [exact Ht0|]. intros; apply Rw; auto. }
  destruct (Ex _ A (conj RA CA) Ns) as (f & El & Sf). rewrite El.
  set (p := mkvec _ _). assert (Vp : vec_is p (2 * h * c * n) (fun _ => 0)).
  { split; [exact R'|]. intros j _. cbn [p vget]. apply acc_cols_self. }
  destruct (Sf p _ Vp) as (yf & [Ly Gy] & Sy). eexists. eexists. split; [reflexivity|]. split; [exact Ly|].
  intros j Hj. cbn [vscale vget]. rewrite Gy by exact Hj. cbn. f_equal. rewrite (Ns yf Sy j Hj). rnum. ring.
Qed.
