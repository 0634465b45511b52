(** C82: what the vectors handed out by an interpolator hold later on. *)
From Coquelicot Require Import Coquelicot.
From Coq Require Import List Arith Lia Bool ZArith Reals Lra.
From Verif Require Import Num Outcome LinAlg RSum RDeriv RGauss LegendreSpec LegendreMath LagrangeSpec LagrangeModel LagrangeProofs Basis0101Spec BasisModel SplineSpec BasisFn BasisProofs3
  ToolsModel GSplineModel GSplineProofs GSplineProofs2 GSplineProofs3 GSplineProofs5 GSplineProofs6 GSplineProps
  InterpModel InterpSpec SolverSpec InterpProofs3 InterpMath InterpMath2 InterpProofs4 InterpProofs7 InterpProofs8 InterpProps
  RefModel RefSpec RefProofs RefProofs2 RefProofs3.
Import ListNotations.
Local Open Scope R_scope.

(** a program that uses results only while they are good cannot tell them from copies *)
Theorem C82_values : forall T (HN : Num T) (p : list (stmt T)), disciplined p ->
  match run p [], vrun p [] with
  | Ok st, Ok vst => forall x, good p x (length p) -> read st x = vread_var vst x
  | Throw e, Throw e' => e = e'
  | UB, UB => True
  | _, _ => False
  end.
Proof. intros T HN p. apply discipline. Qed.

(** SobolevNorm::deriv_wrt_interval_len is such a program: the coefficients, then one sensitivity per interval, each
    read before the next is asked for *)
Definition gradient_calls {T} `{Num T} lu c n b bst (tau : vec T) wp (k : nat) : list (stmt T) :=
  New c n b bst :: Solve lu 0 tau wp :: map (fun i => Tau lu 0 (Var 1) tau i) (seq 0 k).
Lemma gradient_nth {T} `{Num T} lu c n b bst (tau : vec T) wp k j s : nth_error (gradient_calls lu c n b bst tau wp k) (S (S j)) = Some s ->
  s = Tau lu 0 (Var 1) tau j /\ (j < k)%nat.
Proof.
  cbn [gradient_calls nth_error]. intros E. pose proof (nth_lt _ _ _ E) as L. rewrite map_length, seq_length in L. split; [|exact L].
  rewrite nth_error_map in E. rewrite (nth_error_nth' (seq 0 k) 0%nat) in E by (rewrite seq_length; exact L).
  rewrite seq_nth in E by exact L. cbn in E. congruence.
Qed.
Theorem C82_gradient : forall T (HN : Num T) lu c n b bst (tau : vec T) wp k,
  match run (gradient_calls lu c n b bst tau wp k) [], vrun (gradient_calls lu c n b bst tau wp k) [] with
  | Ok st, Ok vst => read st 1 = vread_var vst 1 /\ read st (S k) = vread_var vst (S k)
  | Throw e, Throw e' => e = e'
  | UB, UB => True
  | _, _ => False
  end.
Proof.
  intros T HN lu c n b bst tau wp k. set (p := gradient_calls lu c n b bst tau wp k).
  assert (N1 : forall k', good p 1 k').
  { intros k' s q i E B j s' Hj Ej. cbn in E. injection E as <-. destruct B as (-> & <-). destruct j as [|[|j]]; try lia.
    apply gradient_nth in Ej. destruct Ej as (-> & _). cbn. intros (X & _). discriminate. }
  assert (D : disciplined p).
  { intros [|[|j]] s x E U L; [cbn in E; injection E as <-; destruct U|cbn in E; injection E as <-; destruct U|].
    apply gradient_nth in E. destruct E as (-> & _). cbn in U. subst x. apply N1. }
  pose proof (C82_values T HN p D) as V. destruct (run p []) as [st| |], (vrun p []) as [vst| |]; auto.
  split; apply V; [apply N1|]. destruct k as [|k]; [apply N1|].
  intros s q i E B j s' Hj Ej. exfalso. pose proof (nth_lt _ _ _ Ej) as L. unfold p, gradient_calls in L, Hj.
  cbn [length] in *. rewrite map_length, seq_length in *. lia.
Qed.

(** FINDING: all results of one function of one interpolator are one and the same vector: the last call rewrites the
    earlier results *)
Theorem C82_one_vector_refuted : forall T (HN : Num T) p (st : list (cell T)) x y sx sy q i,
  (forall s lu, In s p -> solver_of s = Some lu -> sized lu) ->
  run p [] = Ok st -> nth_error p x = Some sx -> nth_error p y = Some sy -> belongs sx q i -> belongs sy q i ->
  read st x = read st y \/ (q = Solutions /\ (read st x = Ok (vnew 0) \/ read st y = Ok (vnew 0))).
Proof. intros T HN. apply one_vector. Qed.

Lemma solve_reads b d c n ip tau tf wp W lu : reached b d c n ip -> exact_solver lu -> vec_is tau n tf -> (forall i, (i < n)%nat -> / 10 ^ 6 <= tf i) -> reads wp n c W ->
  exists r cf ip', ip_solve lu ip tau wp = Ok (r, ip') /\ vec_is r (d_dim d * c * n) cf /\ interpolates d c n 0 tf W cf /\ reached b d c n ip'.
Proof.
  intros Re Ex V P Rd. destruct (solve_system b d c n ip tau tf wp W Re V P Rd lu) as (A & v & bf & ip1 & E & Vv & Sy & Ns & Re1 & Es).
  destruct (Ex _ A (proj1 (Sy 0)) Ns) as (f & El & Sf). destruct (Sf v bf Vv) as (xf & Vx & Sx). rewrite El in *.
  exists (f v), xf, ip1. split; auto. split; auto. split; auto. apply (is_system_solves d c n 0 tf W A bf xf (Sy 0)). exact Sx.
Qed.

(** two interpolations, one after the other: the first result now solves the second problem, and not the first *)
Theorem C82_overwritten_refuted : forall b d c n hist s tau tf wp1 W1 wp2 W2 lu, is_basis b d -> Nat.Even (d_dim d) -> (1 <= n)%nat -> exact_pt d (-1) -> exact_pt d 1 ->
  serve_all b hist (bs_init b) = Ok s -> exact_solver lu -> vec_is tau n tf -> (forall i, (i < n)%nat -> / 10 ^ 6 <= tf i) -> reads wp1 n c W1 -> reads wp2 n c W2 ->
  (exists k j, (k <= n)%nat /\ (j < c)%nat /\ W1 k j <> W2 k j) ->
  let p := [New c n b s; Solve lu 0 tau wp1; Solve lu 0 tau wp2] in
  exists st vst r cf v vf, run p [] = Ok st /\ vrun p [] = Ok vst /\
    read st 1 = Ok r /\ read st 2 = Ok r /\ vec_is r (d_dim d * c * n) cf /\ interpolates d c n 0 tf W2 cf /\ ~ interpolates d c n 0 tf W1 cf /\
    vread_var vst 1 = Ok v /\ vec_is v (d_dim d * c * n) vf /\ interpolates d c n 0 tf W1 vf.
Proof.
  intros b d c n hist s tau tf wp1 W1 wp2 W2 lu B Ev Hn XL XR Hs Ex V P R1 R2 (k & j & Hk & Hj & Ne) p.
  destruct (reached_fresh b d c n hist s B Ev Hn XL XR Hs) as (ip & Ec & Re).
  destruct (solve_reads b d c n ip tau tf wp1 W1 lu Re Ex V P R1) as (r1 & cf1 & ip1 & E1 & V1 & I1 & Re1).
  destruct (solve_reads b d c n ip1 tau tf wp2 W2 lu Re1 Ex V P R2) as (r2 & cf2 & ip2 & E2 & V2 & I2 & Re2).
  destruct (solve_keeps _ _ _ _ _ _ E2) as (K & _).
  eexists. eexists. exists r2, cf2, r1, cf1.
  split; [unfold p; cbn [run exec]; rewrite Ec; cbn [bind app object nth_error]; rewrite E1; cbn [bind list_set app run exec object nth_error]; rewrite E2; reflexivity|].
  split; [unfold p; cbn [vrun vstep]; rewrite Ec; cbn [bind app vobject nth_error]; rewrite E1; cbn [bind list_set app vrun vstep vobject nth_error]; rewrite E2; reflexivity|].
  cbn [bind read nth_error list_set app vread_var]. unfold through. rewrite K.
  replace (vlen r1) with (d_dim d * c * n)%nat by (symmetry; apply V1). replace (vlen r2) with (d_dim d * c * n)%nat by (symmetry; apply V2).
  rewrite Nat.eqb_refl. repeat (split; [first [reflexivity|assumption]|]).
  split; [|repeat (split; [first [reflexivity|assumption]|]); assumption].
  intros I1'. apply Ne. destruct (Nat.eq_dec k n) as [->|Nk].
  - assert (Ok : cond_ok (d_dim d) c n (CEnd (n - 1) j)) by (cbn; lia).
    pose proof (I1' _ Ok) as A1. pose proof (I2 _ Ok) as A2. cbn [residual] in A1, A2. replace (S (n - 1)) with n in * by lia. lra.
  - assert (Ok : cond_ok (d_dim d) c n (CStart k j)) by (cbn; lia).
    pose proof (I1' _ Ok) as A1. pose proof (I2 _ Ok) as A2. cbn [residual] in A1, A2. lra.
Qed.

(** FINDING: a sensitivity passed back to the function that returned it is first overwritten with zeros: the answer is
    zero, for every interpolator, solver and vector [c0]; with a copy it solves the differentiated conditions for that
    sensitivity *)
Theorem C82_feedback_refuted : forall b d c n hist s tau tf lu c0 cf0 i j, is_basis b d -> Nat.Even (d_dim d) -> (1 <= n)%nat -> exact_pt d (-1) -> exact_pt d 1 ->
  serve_all b hist (bs_init b) = Ok s -> exact_solver lu -> vec_is tau n tf -> (forall i, (i < n)%nat -> / 10 ^ 6 <= tf i) -> (i < n)%nat -> (j < n)%nat ->
  vec_is c0 (d_dim d * c * n) cf0 ->
  let p := [New c n b s; Tau lu 0 (Val c0) tau i; Tau lu 0 (Var 1) tau j] in
  let sens idx cf rf := forall t0 W q, cond_ok (d_dim d) c n q ->
      is_derive (fun x => residual d c n t0 (set_len tf idx x) W cf q) (tf idx) (- residual d c n t0 tf (fun _ _ => 0) rf q) in
  exists st vst r v1 v2 f1 f2, run p [] = Ok st /\ vrun p [] = Ok vst /\
    read st 2 = Ok r /\ vec_is r (d_dim d * c * n) (fun _ => 0) /\
    vread_var vst 1 = Ok v1 /\ vread_var vst 2 = Ok v2 /\ vec_is v1 (d_dim d * c * n) f1 /\ vec_is v2 (d_dim d * c * n) f2 /\
    sens i cf0 f1 /\ sens j f1 f2.
Proof.
  intros b d c n hist s tau tf lu c0 cf0 i j B Ev Hn XL XR Hs Ex V P Hi Hj Vc p sens.
  destruct (reached_fresh b d c n hist s B Ev Hn XL XR Hs) as (ip & Ec & Re).
  destruct (coeff_tau_exact b d c n ip c0 cf0 tau tf i lu Re Ex V P Hi Vc) as (r1 & f1 & ip1 & E1 & V1 & Re1 & S1).
  destruct (coeff_tau_exact b d c n ip1 r1 f1 tau tf j lu Re1 Ex V P Hj V1) as (r2 & f2 & ip2 & E2 & V2 & Re2 & S2).
  destruct (tau_keeps _ _ _ _ _ _ _ E1) as (K1 & _).
  assert (L1 : vlen (ip_coef ip1) = (d_dim d * c * n)%nat) by (rewrite K1; apply V1).
  destruct (self_zero b d c n ip1 tau tf j lu Re1 Ex V P Hj L1) as (r & ip3 & E3 & V3).
  destruct (self_keeps _ _ _ _ _ _ E3) as (K3 & _).
  eexists. eexists. exists r, r1, r2, f1, f2.
  split; [unfold p; cbn [run exec]; rewrite Ec; cbn [bind app object nth_error tau_call]; rewrite E1; cbn [bind list_set app run exec object tau_call nth_error Nat.eqb andb];
    replace (vlen r1) with (d_dim d * c * n)%nat by (symmetry; apply V1); rewrite L1, Nat.eqb_refl, E3; reflexivity|].
  split; [unfold p; cbn [vrun vstep]; rewrite Ec; cbn [bind app vobject nth_error]; rewrite E1; cbn [bind list_set app vrun vstep vobject nth_error vread_var]; rewrite E2; reflexivity|].
  cbn [bind read nth_error list_set app vread_var]. unfold through. rewrite K3, Nat.eqb_refl.
  repeat (split; [first [reflexivity|assumption]|]). assumption.
Qed.

(** a straight line of waypoints, then another one *)
Example C82_overwritten_case : exists p st r, (forall s lu, In s p -> solver_of s = Some lu -> sized lu) /\
  nth_error p 1 = Some (Solve gauss_lu 0 (vec_of_list [1; 1]) (mkmat 3 1 (fun i _ => Some (INR i)))) /\
  run p [] = Ok st /\ read st 1 = Ok r /\ read st 2 = Ok r /\ vlen r = 8%nat.
Proof.
  destruct (leg_basis 4 ltac:(lia)) as (b & B & _).
  destruct (C82_overwritten_refuted b (DLeg 4) 1 2 [] (bs_init b) (vec_of_list [1; 1]) (fun i => nth i [1; 1] 0)
     (mkmat 3 1 (fun i _ => Some (INR i))) (fun i _ => INR i) (mkmat 3 1 (fun i _ => Some (2 * INR i))) (fun i _ => 2 * INR i) gauss_lu B)
    as (st & vst & r & cf & v & vf & E & _ & R1 & R2 & [L _] & _).
  - exists 2%nat. reflexivity.
  - lia.
  - exact Logic.I.
  - exact Logic.I.
  - reflexivity.
  - apply gauss_lu_exact.
  - apply vec_of_list_is.
  - intros [|[|i]] Hi; try lia; apply six_le; cbn; lra.
  - apply reads_mat. repeat split; reflexivity.
  - apply reads_mat. repeat split; reflexivity.
  - exists 1%nat, 0%nat. cbn. split; [lia|]. split; [lia|]. lra.
  - eexists. exists st, r. split; [|split; [|split; [exact E|auto]]]; [|reflexivity].
    assert (S : sized gauss_lu) by (intros A f x X; injection X as <-; reflexivity).
    intros s lu [<-|[<-|[<-|[]]]] X; cbn in X; [discriminate| |]; injection X as <-; exact S.
Qed.

(** one interval of length 2, the coefficients of the identity: zero instead of a vector that is not *)
Lemma slope_first x W cf : 0 < x -> residual (DLeg 4) 1 1 0 (set_len (fun _ => 2) 0 x) W cf (CFirst 0 0) =
  2 / x * Rsum 4 (fun bb => LD 1 bb (-1) * cf bb).
Proof.
  intros Hx. cbn [residual]. rewrite piece_left by (unfold set_len; cbn; lra). unfold set_len. cbn [Nat.eqb].
  rewrite <- Rsum_scal. cbn [d_dim wD]. apply Rsum_ext. intros bb _. cbn [Nat.mul Nat.add]. simpl pow. ring.
Qed.
Lemma slope_step W cf rf : is_derive (fun x => residual (DLeg 4) 1 1 0 (set_len (fun _ => 2) 0 x) W cf (CFirst 0 0)) 2
    (- residual (DLeg 4) 1 1 0 (fun _ => 2) (fun _ _ => 0) rf (CFirst 0 0)) ->
  Rsum 4 (fun bb => LD 1 bb (-1) * rf bb) = / 2 * Rsum 4 (fun bb => LD 1 bb (-1) * cf bb).
Proof.
  intros D. set (g := Rsum 4 (fun bb => LD 1 bb (-1) * cf bb)).
  assert (D' : is_derive (fun x => 2 / x * g) 2 (- (/ 2 * g))).
  { auto_derive; [lra|]. field. }
  assert (E : - residual (DLeg 4) 1 1 0 (fun _ => 2) (fun _ _ => 0) rf (CFirst 0 0) = - (/ 2 * g)).
  { apply (is_derive_unique (fun x => 2 / x * g)) in D'. rewrite <- D'. symmetry. apply is_derive_unique.
    eapply is_derive_ext_loc; [|exact D]. exists (mkposreal 1 Rlt_0_1). intros y By. change (Rabs (y - 2) < 1) in By. apply Rabs_def2 in By.
    apply slope_first. lra. }
  assert (F : residual (DLeg 4) 1 1 0 (fun _ => 2) (fun _ _ => 0) rf (CFirst 0 0) = Rsum 4 (fun bb => LD 1 bb (-1) * rf bb)).
  { cbn [residual]. rewrite piece_left by lra. cbn [d_dim wD]. apply Rsum_ext. intros bb _. cbn [Nat.mul Nat.add]. simpl pow. field. }
  lra.
Qed.
Example C82_feedback_case : exists p st vst r v vf k, run p [] = Ok st /\ vrun p [] = Ok vst /\ read st 2 = Ok r /\ vec_is r 4 (fun _ => 0) /\
  vread_var vst 2 = Ok v /\ vec_is v 4 vf /\ (k < 4)%nat /\ vf k <> 0.
Proof.
  destruct (leg_basis 4 ltac:(lia)) as (b & B & _).
  destruct (C82_feedback_refuted b (DLeg 4) 1 1 [] (bs_init b) (vec_of_list [2]) (fun _ => 2) gauss_lu (vec_of_list [0; 1; 0; 0]) (fun i => nth i [0; 1; 0; 0] 0) 0 0 B)
    as (st & vst & r & v1 & v2 & f1 & f2 & E1 & E2 & Rr & Vr & _ & Rv & _ & Vv & S1 & S2).
  - exists 2%nat. reflexivity.
  - lia.
  - exact Logic.I.
  - exact Logic.I.
  - reflexivity.
  - apply gauss_lu_exact.
  - split; [reflexivity|]. intros [|i] Hi; [reflexivity|lia].
  - intros i _. apply six_le. lra.
  - lia.
  - lia.
  - apply vec_of_list_is.
  - assert (Ok : cond_ok (d_dim (DLeg 4)) 1 1 (CFirst 0 0)) by (cbn; lia).
    pose proof (slope_step _ _ _ (S1 0 (fun _ _ => 0) _ Ok)) as G1. pose proof (slope_step _ _ _ (S2 0 (fun _ _ => 0) _ Ok)) as G2.
    assert (G0 : Rsum 4 (fun bb => LD 1 bb (-1) * nth bb [0; 1; 0; 0] 0) = 1).
    { cbn [Rsum nth]. unfold LD, LDpair, legP. cbn. field. }
    pose proof (eq_trans G1 (f_equal (Rmult (/ 2)) G0)) as G1'. pose proof (eq_trans G2 (f_equal (Rmult (/ 2)) G1')) as G2'.
    assert (X : exists k, (k < 4)%nat /\ f2 k <> 0).
    { destruct (Req_dec (f2 0%nat) 0) as [Z0|]; [|exists 0%nat; split; [lia|auto]].
      destruct (Req_dec (f2 1%nat) 0) as [Z1|]; [|exists 1%nat; split; [lia|auto]].
      destruct (Req_dec (f2 2%nat) 0) as [Z2|]; [|exists 2%nat; split; [lia|auto]].
      destruct (Req_dec (f2 3%nat) 0) as [Z3|]; [|exists 3%nat; split; [lia|auto]].
      exfalso. cbn [Rsum] in G2'. rewrite Z0, Z1, Z2, Z3 in G2'. lra. }
    destruct X as (k & Hk & Nk). eexists. exists st, vst, r, v2, f2, k.
    split; [exact E1|]. split; [exact E2|]. split; [exact Rr|]. split; [exact Vr|]. split; [exact Rv|]. split; [exact Vv|]. split; [exact Hk|exact Nk].
Qed.
