(** Symmetries of the interpolating spline: constant data, reversed data, fewer
    waypoints, longer durations.  All of them from the least cost. *)
From Coquelicot Require Import Coquelicot.
From Coq Require Import List Arith Lia Bool ZArith Reals Lra.
From Verif Require Import Num Outcome LinAlg RSum RDeriv RGauss LegendreSpec LagrangeSpec BasisModel SplineSpec BasisFn BasisProofs3
  ToolsModel GSplineModel GSplineProofs GSplineProofs2 GSplineProofs5 InterpModel InterpSpec SolverSpec InterpProofs3 InterpProofs4 InterpProofs5 InterpMath InterpMath2 InterpProofs7 InterpProofs8
  OptProofs EnergySpec EnergyMath EnergyProofs EnergyProps InterpDep.
Import ListNotations.
Local Open Scope R_scope.

Lemma Rsum_rev n f : Rsum n (fun i => f (n - 1 - i)%nat) = Rsum n f.
Proof.
  induction n as [|n IH]; [reflexivity|]. rewrite Rsum_first. cbn [Rsum]. rewrite Rplus_comm. f_equal; [|f_equal; lia].
  rewrite <- IH. apply Rsum_ext. intros i Hi. f_equal. lia.
Qed.
Lemma Rsum_split n k f : (k <= n)%nat -> Rsum n f = Rsum k f + Rsum (n - k) (fun i => f (k + i)%nat).
Proof. intros Hk. rewrite <- Rsum_app. f_equal. lia. Qed.
Lemma Derive_n_flip f T k t : (forall j x, ex_derive_n f j x) -> Derive_n (fun u => f (T - u)) k t = (-1) ^ k * Derive_n f k (T - t).
Proof.
  intros Ex. rewrite (Derive_n_ext _ (fun u => (fun v => f (v + T)) (- u))) by (intros; f_equal; ring).
  rewrite (Derive_n_comp_opp (fun v => f (v + T))).
  - f_equal. rewrite Derive_n_comp_trans. f_equal. ring.
  - apply filter_forall. intros y j _. apply ex_derive_n_comp_trans. apply Ex.
Qed.
Lemma sq_sign k x : ((-1) ^ k * x) ^ 2 = x ^ 2.
Proof. rewrite Rpow_mult_distr. replace (((-1) ^ k) ^ 2) with 1; [ring|]. rewrite <- pow_mult, Nat.mul_comm, pow_mult. replace ((-1) ^ 2) with 1 by ring. rewrite pow1. reflexivity. Qed.
Lemma cost_flip w h f T t : (forall j x, ex_derive_n f j x) -> cost_at w h (fun u => f (T - u)) t = cost_at w h f (T - t).
Proof. intros Ex. unfold cost_at. apply Rsum_ext. intros k _. rewrite Derive_n_flip by auto. rewrite sq_sign. reflexivity. Qed.
Lemma RInt_flip (g : R -> R) (T a b l : R) : is_RInt g a b l -> is_RInt (fun t => g (T - t)) (T - b) (T - a) l.
Proof.
  intros H. assert (K : is_RInt (fun y => scal (-1) (g (-1 * y + T))) (T - a) (T - b) l).
  { apply (is_RInt_comp_lin g (-1) T (T - a) (T - b) l). replace (-1 * (T - a) + T) with a by ring. replace (-1 * (T - b) + T) with b by ring. exact H. }
  apply is_RInt_swap in K. apply (is_RInt_scal _ _ _ (-1)) in K.
  match type of K with is_RInt _ _ _ ?x => change x with (-1 * - l) in K end. replace (-1 * - l) with l in K by ring.
  eapply is_RInt_ext; [|exact K]. intros x _. unfold scal; simpl; unfold mult; simpl. rewrite <- Rmult_assoc. replace (-1 * -1) with 1 by ring. rewrite Rmult_1_l. f_equal. ring.
Qed.
Lemma bp_flip n tf tf' k : (forall i, (i < n)%nat -> tf' i = tf (n - 1 - i)%nat) -> (k <= n)%nat -> bp 0 tf' k = Rsum n tf - bp 0 tf (n - k).
Proof.
  intros E Hk. unfold bp. rewrite (Rsum_split n (n - k) tf) by lia. replace (n - (n - k))%nat with k by lia.
  enough (Rsum k tf' = Rsum k (fun i => tf (n - k + i)%nat)) by lra.
  rewrite <- (Rsum_rev k). apply Rsum_ext. intros i Hi. rewrite E by lia. f_equal. lia.
Qed.

Section Sym.
Variables (d : bdesc) (h n : nat).
Hypothesis Od : desc_ok d.
Hypothesis Hh : (1 <= h)%nat.
Hypothesis Hn : (1 <= n)%nat.
Hypothesis Hd : d_dim d = (2 * h)%nat.
Let w := cost_weight d.
Lemma weight0 : w 0 = 0.
Proof.
  unfold w, cost_weight. assert (E : (d_dim d / 2)%nat = h) by (rewrite Hd, Nat.mul_comm; apply Nat.div_mul; lia). rewrite E.
  destruct d; try (destruct (Nat.eqb_spec 0 h); [lia|reflexivity]).
Qed.
Lemma const_derive k (x t : R) : (1 <= k)%nat -> Derive_n (fun _ => x) k t = 0.
Proof. intros Hk. destruct k as [|k]; [lia|]. apply Derive_n_const. Qed.
Lemma cost_const x t : cost_at w h (fun _ => x) t = 0.
Proof.
  unfold cost_at. apply Rsum_zero. intros [|k] _; [rewrite weight0; ring|]. rewrite const_derive by lia. ring.
Qed.
Lemma cost_nonneg f t : 0 <= cost_at w h f t.
Proof. unfold cost_at. apply Rsum_nonneg. intros k _. apply Rmult_le_pos; [apply weight_nonneg; auto|apply pow2_ge_0]. Qed.
Lemma b_lt t0 tf iv : (forall i, (i < n)%nat -> 0 < tf i) -> (iv < n)%nat -> bp t0 tf iv < bp t0 tf (S iv).
Proof. intros P Hi. unfold bp. cbn [Rsum]. specialize (P iv Hi). lra. Qed.

(** ** constant waypoints give a constant *)
Theorem interp_const c t0 tf W cf cc x t : (forall i, (i < n)%nat -> 0 < tf i) -> interpolates d c n t0 tf W cf -> (cc < c)%nat ->
  (forall k, (k <= n)%nat -> W k cc = x) -> t0 <= t <= bp t0 tf n -> sfun d c n t0 tf cf cc t = x.
Proof.
  intros P S0 Hc E Ht.
  assert (Cp : piecewise_competitor h n (bp t0 tf) (fun k => W k cc) (fun _ _ => x)).
  { split; [|split].
    - intros iv Hi. split; [split|split; symmetry; apply E; lia].
      + intros j u _. destruct j as [|j].
        * exists 0. apply (is_derive_const x).
        * apply (ex_derive_ext (fun _ => 0)); [intros; symmetry; apply const_derive; lia|]. exists 0. apply (is_derive_const 0).
      + intros u. apply (continuous_ext (fun _ => 0)); [intros; symmetry; apply const_derive; lia|apply continuous_const].
    - intros iv j Hi Hj. rewrite !const_derive by lia. reflexivity.
    - intros j Hj. rewrite !const_derive by lia. auto. }
  destruct (least_pieces d h c n t0 tf cf W cc Od Hh Hn Hd P S0 Hc _ Cp) as (Vs & Vp & I1 & I2 & L & U).
  destruct (which_piece d h c n t0 tf cc Hh Hn Hd Hc t Ht) as (iv & Hi & Hv).
  rewrite (sfun_on d h c n t0 tf cf W cc) with (iv := iv); auto. symmetry. apply (U); auto.
  assert (Zp : Rsum n Vp = 0).
  { apply Rsum_zero. intros i Hi'. pose proof (I2 i Hi') as J. apply (@is_RInt_unique R_CompleteNormedModule) in J. rewrite <- J.
    rewrite (RInt_ext _ (fun _ => 0)) by (intros; apply cost_const). rewrite RInt_const. unfold scal; simpl; unfold mult; simpl. ring. }
  assert (0 <= Rsum n Vs).
  { apply Rsum_nonneg. intros i Hi'. pose proof (b_lt t0 tf i P Hi') as Lt.
    apply (is_RInt_le (fun _ => 0) (cost_at w h (piece d c t0 tf cf i cc)) (bp t0 tf i) (bp t0 tf (S i)) 0 (Vs i)); [lra| |apply I1; auto|].
    - pose proof (@is_RInt_const R_NormedModule (bp t0 tf i) (bp t0 tf (S i)) 0) as J. unfold scal in J; simpl in J; unfold mult in J; simpl in J. rewrite Rmult_0_r in J. exact J.
    - intros; apply cost_nonneg. }
  lra.
Qed.
Theorem interp_shift c t0 tf W W' cf cf' cc x t : (forall i, (i < n)%nat -> 0 < tf i) -> interpolates d c n t0 tf W cf -> interpolates d c n t0 tf W' cf' -> (cc < c)%nat ->
  (forall k, (k <= n)%nat -> W' k cc = W k cc + x) -> t0 <= t <= bp t0 tf n -> sfun d c n t0 tf cf' cc t = sfun d c n t0 tf cf cc t + x.
Proof.
  intros P S0 S1 Hc E Ht. destruct (interp_exists d h 1 n t0 Od Hh Hn Hd tf (fun _ _ => x) P) as (cx & Sx).
  pose proof (only_interpolates d h n t0 tf Hh Hn Hd c cc cf W Hc S0) as O0. pose proof (only_interpolates d h n t0 tf Hh Hn Hd c cc cf' W' Hc S1) as O1.
  pose proof (interp_linear_fun d h n t0 tf Od Hh Hn Hd P 1 _ _ _ _ _ _ 1 1 0 t ltac:(lia) O0 Sx O1) as K. cbv beta in K.
  assert (K1 : forall cc0 cfx, sfun d 1 n t0 tf (only d c cc0 cfx) 0 t = sfun d c n t0 tf cfx cc0 t) by (intros; apply (piece_only d h n t0 tf Hh Hn Hd)).
  rewrite !K1 in K. rewrite K.
  - rewrite (interp_const 1 t0 tf (fun _ _ => x) cx 0 x t); auto; ring.
  - intros k e Hk _. rewrite E by auto. ring.
Qed.

(** ** reversed waypoints and lengths *)
Lemma flip_cost c tf tf' W W' cf cf' cc : (forall i, (i < n)%nat -> 0 < tf i) -> (forall i, (i < n)%nat -> tf' i = tf (n - 1 - i)%nat) ->
  (forall k, (k <= n)%nat -> W' k cc = W (n - k)%nat cc) -> interpolates d c n 0 tf W cf -> interpolates d c n 0 tf' W' cf' -> (cc < c)%nat ->
  exists Vs Vs' : nat -> R,
  (forall iv, (iv < n)%nat -> is_RInt (cost_at w h (piece d c 0 tf cf iv cc)) (bp 0 tf iv) (bp 0 tf (S iv)) (Vs iv)) /\
  (forall iv, (iv < n)%nat -> is_RInt (cost_at w h (piece d c 0 tf' cf' iv cc)) (bp 0 tf' iv) (bp 0 tf' (S iv)) (Vs' iv)) /\
  Rsum n Vs' <= Rsum n Vs /\
  (Rsum n Vs = Rsum n Vs' -> forall iv t, (iv < n)%nat -> bp 0 tf' iv <= t <= bp 0 tf' (S iv) -> piece d c 0 tf cf (n - 1 - iv) cc (Rsum n tf - t) = piece d c 0 tf' cf' iv cc t).
Proof.
  intros P Et EW S0 S1 Hc. set (T := Rsum n tf).
  assert (P' : forall i, (i < n)%nat -> 0 < tf' i) by (intros i Hi; rewrite Et by auto; apply P; lia).
  assert (Ex : forall iv j x, (iv < n)%nat -> ex_derive_n (piece d c 0 tf cf iv cc) j x) by (intros; apply (piece_ex d c n); auto).
  assert (Eb : forall k, (k <= n)%nat -> T - bp 0 tf' k = bp 0 tf (n - k)) by (intros k Hk; rewrite (bp_flip n tf tf' k Et Hk); unfold T; ring).
  destruct (C77_admissible d h c n 0 tf cf W cc) as (Adm & _); auto.
  set (p := fun iv t => piece d c 0 tf cf (n - 1 - iv) cc (T - t)).
  assert (Dp : forall iv k t, (iv < n)%nat -> Derive_n (p iv) k t = (-1) ^ k * Derive_n (piece d c 0 tf cf (n - 1 - iv) cc) k (T - t)).
  { intros iv k t Hi. unfold p. apply (Derive_n_flip (piece d c 0 tf cf (n - 1 - iv) cc)). intros; apply Ex; lia. }
  destruct Adm as (A1 & A2 & A3).
  assert (Cp : piecewise_competitor h n (bp 0 tf') (fun k => W' k cc) p).
  { split; [|split].
    - intros iv Hi. destruct (A1 (n - 1 - iv)%nat ltac:(lia)) as (_ & B1 & B2). split; [split|split].
      + intros j t _. apply (ex_derive_ext (fun u => (-1) ^ j * Derive_n (piece d c 0 tf cf (n - 1 - iv) cc) j (T - u))); [intros; symmetry; apply Dp; auto|].
        apply @ex_derive_scal. apply (ex_derive_comp (Derive_n (piece d c 0 tf cf (n - 1 - iv) cc) j) (fun u => T - u)); [|auto_derive; auto].
        apply (Ex (n - 1 - iv)%nat (S j)). lia.
      + intros t. apply (continuous_ext (fun u => (-1) ^ h * Derive_n (piece d c 0 tf cf (n - 1 - iv) cc) h (T - u))); [intros; symmetry; apply Dp; auto|].
        apply (@ex_derive_continuous R_AbsRing R_NormedModule). apply @ex_derive_scal. apply (ex_derive_comp (Derive_n (piece d c 0 tf cf (n - 1 - iv) cc) h) (fun u => T - u)); [|auto_derive; auto].
        apply (Ex (n - 1 - iv)%nat (S h)). lia.
      + unfold p. rewrite Eb by lia. rewrite EW by lia. replace (n - iv)%nat with (S (n - 1 - iv)) by lia. exact B2.
      + unfold p. rewrite Eb by lia. rewrite EW by lia. replace (n - S iv)%nat with (n - 1 - iv)%nat by lia. exact B1.
    - intros iv j Hi Hj. rewrite !Dp by lia. f_equal. rewrite Eb by lia. replace (n - 1 - iv)%nat with (S (n - 1 - S iv)) by lia. replace (n - S iv)%nat with (S (n - 1 - S iv)) by lia.
      symmetry. apply A2; lia.
    - intros j Hj. destruct (A3 j Hj) as (B1 & B2). rewrite !Dp by lia. rewrite !Eb by lia. replace (n - 1 - 0)%nat with (n - 1)%nat by lia. replace (n - 1 - (n - 1))%nat with 0%nat by lia.
      replace (n - 0)%nat with n by lia. rewrite Nat.sub_diag, B1, B2. split; ring. }
  destruct (least_pieces d h c n 0 tf' cf' W' cc Od Hh Hn Hd P' S1 Hc p Cp) as (Vs' & Vp & I1 & I2 & L & U).
  destruct (least_pieces d h c n 0 tf cf W cc Od Hh Hn Hd P S0 Hc (fun iv => piece d c 0 tf cf iv cc) (conj A1 (conj A2 A3))) as (Vs & _ & I3 & _ & _ & _).
  assert (EV : Rsum n Vp = Rsum n Vs).
  { rewrite <- (Rsum_rev n Vs). apply Rsum_ext. intros i Hi. pose proof (I2 i Hi) as J. apply (@is_RInt_unique R_CompleteNormedModule) in J. rewrite <- J. apply (@is_RInt_unique R_CompleteNormedModule).
    pose proof (RInt_flip _ T _ _ _ (I3 (n - 1 - i)%nat ltac:(lia))) as K.
    replace (bp 0 tf' i) with (T - bp 0 tf (S (n - 1 - i))) by (replace (S (n - 1 - i)) with (n - i)%nat by lia; rewrite <- Eb by lia; ring).
    replace (bp 0 tf' (S i)) with (T - bp 0 tf (n - 1 - i)) by (replace (n - 1 - i)%nat with (n - S i)%nat by lia; rewrite <- Eb by lia; ring).
    eapply is_RInt_ext; [|exact K]. intros t _. symmetry. unfold p. apply (cost_flip w h (piece d c 0 tf cf (n - 1 - i) cc)). intros; apply Ex; lia. }
  exists Vs, Vs'. split; auto. split; auto. rewrite EV in *. split; auto.
Qed.

Lemma RInt_sums (g : nat -> R -> R) (a b V V' : nat -> R) : (forall i, (i < n)%nat -> is_RInt (g i) (a i) (b i) (V i)) -> (forall i, (i < n)%nat -> is_RInt (g i) (a i) (b i) (V' i)) -> Rsum n V = Rsum n V'.
Proof.
  intros I J. apply Rsum_ext. intros i Hi. pose proof (I i Hi) as A. pose proof (J i Hi) as B.
  apply (@is_RInt_unique R_CompleteNormedModule) in A. apply (@is_RInt_unique R_CompleteNormedModule) in B. rewrite <- A, <- B. reflexivity.
Qed.
Theorem interp_flip c tf tf' W W' cf cf' cc t : (forall i, (i < n)%nat -> 0 < tf i) -> (forall i, (i < n)%nat -> tf' i = tf (n - 1 - i)%nat) ->
  (forall k, (k <= n)%nat -> W' k cc = W (n - k)%nat cc) -> interpolates d c n 0 tf W cf -> interpolates d c n 0 tf' W' cf' -> (cc < c)%nat ->
  0 <= t <= Rsum n tf -> sfun d c n 0 tf' cf' cc t = sfun d c n 0 tf cf cc (Rsum n tf - t).
Proof.
  intros P Et EW S0 S1 Hc Ht.
  assert (P' : forall i, (i < n)%nat -> 0 < tf' i) by (intros i Hi; rewrite Et by auto; apply P; lia).
  assert (ET : Rsum n tf' = Rsum n tf) by (rewrite <- (Rsum_rev n tf); apply Rsum_ext; auto).
  destruct (flip_cost c tf tf' W W' cf cf' cc P Et EW S0 S1 Hc) as (V & V' & I & I' & L & U).
  destruct (flip_cost c tf' tf W' W cf' cf cc P') as (V2' & V2 & I2' & I2 & L2 & _); auto.
  { intros i Hi. rewrite Et by lia. f_equal. lia. }
  { intros k Hk. rewrite EW by lia. f_equal. lia. }
  assert (E1 : Rsum n V = Rsum n V2) by (exact (RInt_sums _ _ _ V V2 I I2)). assert (E2 : Rsum n V' = Rsum n V2') by (exact (RInt_sums _ _ _ V' V2' I' I2')).
  assert (E : Rsum n V = Rsum n V') by lra. specialize (U E).
  destruct (which_piece d h c n 0 tf' cc Hh Hn Hd Hc t) as (iv & Hi & Hv); [unfold bp; lra|].
  rewrite (sfun_on d h c n 0 tf' cf' W' cc) with (iv := iv); auto.
  rewrite (sfun_on d h c n 0 tf cf W cc) with (iv := (n - 1 - iv)%nat); auto; try lia.
  - symmetry. apply U; auto.
  - pose proof (bp_flip n tf tf' iv Et ltac:(lia)) as B1. pose proof (bp_flip n tf tf' (S iv) Et ltac:(lia)) as B2.
    replace (S (n - 1 - iv)) with (n - iv)%nat by lia. replace (n - 1 - iv)%nat with (n - S iv)%nat by lia. lra.
Qed.
End Sym.

(** ** fewer waypoints *)
Theorem interp_fewer d h n m c c' tf tf' W W' cf cf' cc cc' (sel : nat -> nat) : desc_ok d -> (2 <= h)%nat -> (1 <= n)%nat -> (1 <= m)%nat -> d_dim d = (2 * h)%nat ->
  (forall i, (i < n)%nat -> 0 < tf i) -> (forall i, (i < m)%nat -> (sel i < sel (S i))%nat) -> sel 0%nat = 0%nat -> sel m = n ->
  (forall i, (i < m)%nat -> tf' i = bp 0 tf (sel (S i)) - bp 0 tf (sel i)) -> (forall k, (k <= m)%nat -> W' k cc' = W (sel k) cc) ->
  interpolates d c n 0 tf W cf -> (cc < c)%nat -> interpolates d c' m 0 tf' W' cf' -> (cc' < c')%nat ->
  exists V V', is_RInt (cost_at (cost_weight d) h (sfun d c n 0 tf cf cc)) 0 (Rsum n tf) V /\
    is_RInt (cost_at (cost_weight d) h (sfun d c' m 0 tf' cf' cc')) 0 (Rsum n tf) V' /\ V' <= V.
Proof.
  intros Od H2 Hn Hm Hd P Mo Z0 Zm Et EW S0 Hc S1 Hc'.
  assert (Mn : forall i, (i <= m)%nat -> (sel i <= n)%nat).
  { assert (K : forall j, (j <= m)%nat -> (sel (m - j) <= n)%nat).
    { induction j as [|j IH]; intros Hj; [rewrite Nat.sub_0_r; lia|]. specialize (Mo (m - S j)%nat ltac:(lia)). replace (S (m - S j)) with (m - j)%nat in Mo by lia. specialize (IH ltac:(lia)). lia. }
    intros i Hi. specialize (K (m - i)%nat ltac:(lia)). replace (m - (m - i))%nat with i in K by lia. exact K. }
  assert (P' : forall i, (i < m)%nat -> 0 < tf' i).
  { intros i Hi. rewrite Et by auto. pose proof (Mo i Hi) as Hl. pose proof (Mn (S i) ltac:(lia)) as Hu.
    pose proof (bp_mono 0 tf n (S (sel i)) (sel (S i)) P ltac:(lia) Hu) as M. rewrite bp_S in M. pose proof (P (sel i) ltac:(lia)). lra. }
  assert (B' : forall k, (k <= m)%nat -> bp 0 tf' k = bp 0 tf (sel k)).
  { intros k Hk. unfold bp at 1. induction k as [|k IH]; [rewrite Z0; unfold bp; simpl; ring|]. cbn [Rsum]. rewrite <- Rplus_assoc, IH by lia. rewrite Et by lia. ring. }
  pose proof (EnergyProps.C77_admissible d h c n 0 tf cf W cc ltac:(lia) Hn Hd P S0 Hc) as (_ & Adm). specialize (Adm H2). destruct Adm as (A1 & A2 & A3).
  destruct (least_function d h c' m 0 tf' cf' W' cc' Od ltac:(lia) Hm Hd P' S1 Hc' (sfun d c n 0 tf cf cc)) as (V' & V & I1 & I2 & L & _).
  - split; auto. split.
    + intros k Hk. rewrite B', EW by auto. apply A2. apply Mn; auto.
    + intros j Hj. rewrite !B' by lia. rewrite Z0, Zm. apply A3; auto.
  - rewrite B' in I1, I2 by lia. rewrite Zm in I1, I2. unfold bp in I1, I2. rewrite Rplus_0_l in I1, I2. exists V, V'. auto.
Qed.

(** ** longer durations *)
Theorem interp_slower d h n c tf W cf cf' cc f : desc_ok d -> (forall a, d <> D01 a) -> (1 <= h)%nat -> (1 <= n)%nat -> d_dim d = (2 * h)%nat ->
  (forall i, (i < n)%nat -> 0 < tf i) -> 0 < f -> interpolates d c n 0 tf W cf -> interpolates d c n 0 (fun i => tf i * f) W cf' -> (cc < c)%nat ->
  exists V V', is_RInt (fun t => (Derive_n (sfun d c n 0 tf cf cc) h t) ^ 2) 0 (Rsum n tf) V /\
    is_RInt (fun t => (Derive_n (sfun d c n 0 (fun i => tf i * f) cf' cc) h t) ^ 2) 0 (Rsum n tf * f) V' /\ V' * f ^ (2 * h - 1) = V.
Proof.
  intros Od Np Hh Hn Hd P Hf S0 S1 Hc.
  assert (P' : forall i, (i < n)%nat -> 0 < tf i * f) by (intros; apply Rmult_lt_0_compat; auto).
  assert (Ed : d_scaled d f = d) by (destruct d as [| |a]; auto; now elim (Np a)).
  pose proof (interpolates_scaled d c n tf W cf f Hn P Hf S0) as S2. rewrite Ed in S2.
  pose proof (interp_unique d h c n 0 Od Hh Hn Hd _ W cf' cf P' S1 S2) as Ec.
  assert (Ef : forall t, sfun d c n 0 (fun i => tf i * f) cf' cc t = sfun d c n 0 (fun i => tf i * f) cf cc t) by (intros; eapply same_coef_fun; eauto).
  destruct (EnergyProps.C77_admissible d h c n 0 tf cf W cc Hh Hn Hd P S0 Hc) as (Adm & _).
  destruct (least_pieces d h c n 0 tf cf W cc Od Hh Hn Hd P S0 Hc _ Adm) as (V & _ & I & _).
  assert (Ex : forall iv j x, (iv < n)%nat -> ex_derive_n (piece d c 0 tf cf iv cc) j x) by (intros; apply (piece_ex d c n); auto).
  assert (CP : forall g t, cost_at (cost_weight d) h g t = (Derive_n g h t) ^ 2) by (intros; apply EnergyProps.C77_polynomial; auto).
  assert (I' : forall iv, (iv < n)%nat -> is_RInt (cost_at (cost_weight d) h (piece d c 0 (fun i => tf i * f) cf iv cc)) (bp 0 (fun i => tf i * f) iv) (bp 0 (fun i => tf i * f) (S iv)) (V iv * / f ^ (2 * h - 1))).
  { intros iv Hi. rewrite !bp_scaled.
    assert (K : is_RInt (fun y => / f * cost_at (cost_weight d) h (piece d c 0 tf cf iv cc) (/ f * y + 0)) (f * bp 0 tf iv) (f * bp 0 tf (S iv)) (V iv)).
    { apply (@is_RInt_comp_lin R_NormedModule (cost_at (cost_weight d) h (piece d c 0 tf cf iv cc)) (/ f) 0 (f * bp 0 tf iv) (f * bp 0 tf (S iv)) (V iv)).
      replace (/ f * (f * bp 0 tf iv) + 0) with (bp 0 tf iv) by (field; lra). replace (/ f * (f * bp 0 tf (S iv)) + 0) with (bp 0 tf (S iv)) by (field; lra). apply I; auto. }
    pose proof (@is_RInt_scal R_NormedModule (fun y => / f * cost_at (cost_weight d) h (piece d c 0 tf cf iv cc) (/ f * y + 0)) (f * bp 0 tf iv) (f * bp 0 tf (S iv)) (/ f ^ (2 * h - 1)) (V iv) K) as K2.
    change (is_RInt (fun y => / f ^ (2 * h - 1) * (/ f * cost_at (cost_weight d) h (piece d c 0 tf cf iv cc) (/ f * y + 0))) (f * bp 0 tf iv) (f * bp 0 tf (S iv)) (/ f ^ (2 * h - 1) * V iv)) in K2.
    rewrite (Rmult_comm (V iv)). clear K. rename K2 into K.
    eapply is_RInt_ext; [|exact K]. intros t _. rewrite !CP. change (/ f ^ (2 * h - 1) * (/ f * Derive_n (piece d c 0 tf cf iv cc) h (/ f * t + 0) ^ 2) = Derive_n (piece d c 0 (fun i => tf i * f) cf iv cc) h t ^ 2).
    pose proof (Derive_n_scaled d c n tf cf iv cc f h (/ f * t) P Hi Hf) as E. rewrite Ed in E. replace (f * (/ f * t)) with t in E by (field; lra).
    rewrite Rplus_0_r, <- E. rewrite Rpow_mult_distr, <- pow_mult. replace (h * 2)%nat with (S (2 * h - 1)) by lia. cbn [pow]. field. split; [|apply pow_nonzero]; lra. }
  pose proof (cost_spline d h c n 0 tf cf cc Hh Hn Hd P Hc V I) as J.
  pose proof (cost_spline d h c n 0 (fun i => tf i * f) cf cc Hh Hn Hd P' Hc _ I') as J'.
  unfold bp in J, J'. rewrite Rplus_0_l in J, J'. rewrite (Rsum_scal_r n f tf) in J'.
  exists (Rsum n V), (Rsum n V * / f ^ (2 * h - 1)). split; [|split].
  - eapply is_RInt_ext; [|exact J]. intros. apply CP.
  - rewrite (Rsum_scal_r n (/ f ^ (2 * h - 1)) V) in J'. eapply is_RInt_ext; [|exact J']. intros t _. rewrite CP. f_equal. apply Derive_n_ext. intros. symmetry. apply Ef.
  - field. apply pow_nonzero. lra.
Qed.
