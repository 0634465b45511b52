(** * C71: what the plotting functions draw *)
From Coquelicot Require Import Coquelicot.
From Coq Require Import List Reals Lra Lia Bool Arith ZArith.
From Verif Require Import Num Outcome RSum SplineSpec BasisModel BasisFn GSplineModel GSplineProofs GSplineProofs2 GSplineProofs5 GSplineProps
  PlotModel PlotSpec PlotProofs.
Import ListNotations.
Local Open Scope R_scope.

(** Into given axes, one row per order and one column per component, whatever
    they already hold: every order and component is drawn. *)
Theorem C71_axes : forall q up_to F D dt m, plottable q up_to F D -> 0 < dt -> ready (q_codom q) up_to m ->
  exists m', plot_derivatives_in_axes q dt up_to m = Ok m' /\ drawn_grid q F D dt up_to m m'.
Proof.
  intros q up_to F D dt m Hp Hd Hr. destruct (plot_in_axes_ok q up_to F D dt Hp Hd m Hr) as (m' & E & Hg & _). eauto.
Qed.

(** plot: for objects with two or more components, and for the graph alone of
    those with one. *)
Theorem C71_plot : forall q up_to F D dt, plottable q up_to F D -> 0 < dt -> (2 <= q_codom q)%nat \/ up_to = O ->
  exists m, plot q up_to dt = Ok m /\ drawn_grid q F D dt up_to (repeat (repeat new_axis (q_codom q)) (up_to + 1)) m.
Proof.
  intros q up_to F D dt Hp Hd Hc. unfold plot.
  rewrite subplots_good; [|destruct Hc; [left|right]; lia|lia|apply (p_codom _ _ _ _ Hp)].
  apply C71_axes; auto. apply repeat_ready. lia.
Qed.

(** plot_compare: one after the other *)
Inductive drawn_all (up_to : nat) (F : nat -> nat -> R -> list R) (D : nat -> nat -> R * R) (dt : R)
  : nat -> list plotted -> list (list axis) -> list (list axis) -> Prop :=
| da_nil k m : drawn_all up_to F D dt k [] m m
| da_cons k q qs m m' m'' : drawn_grid q (F k) (D k) dt up_to m m' -> drawn_all up_to F D dt (S k) qs m' m'' ->
    drawn_all up_to F D dt k (q :: qs) m m''.
Lemma draw_all_ok up_to F D codom : forall qs k m,
  (forall i q, nth_error qs i = Some q -> q_codom q = codom /\ plottable q up_to (F (k + i)%nat) (D (k + i)%nat)) ->
  ready codom up_to m ->
  exists m', draw_all up_to qs m = Ok m' /\ drawn_all up_to F D (1 / 100) k qs m m' /\ ready codom up_to m' /\ length m' = length m.
Proof.
  induction qs as [|q qs IH]; intros k m Hq Hr; cbn [draw_all].
  - exists m. split; [reflexivity|]. split; [apply da_nil|]. split; [exact Hr|reflexivity].
  - destruct (Hq O q eq_refl) as [Ec Hp]. rewrite Nat.add_0_r in Hp. rewrite <- Ec in Hr.
    destruct (plot_in_axes_ok q up_to (F k) (D k) (1 / 100) Hp ltac:(lra) m Hr) as (m1 & -> & Hg & Hr1). cbn [bind].
    rewrite Ec in Hr1. destruct (IH (S k) m1) as (m2 & E & Ha & Hr2 & L2); [|exact Hr1|].
    + intros i q' Hi. destruct (Hq (S i) q' Hi) as [E' P']. replace (S k + i)%nat with (k + S i)%nat by lia. auto.
    + exists m2. split; [exact E|]. split; [econstructor; eassumption|]. split; [exact Hr2|].
      rewrite L2. apply Hg.
Qed.
Theorem C71_compare : forall qs up_to F D dt codom, qs <> [] -> (2 <= codom)%nat -> (1 <= up_to)%nat ->
  (forall i q, nth_error qs i = Some q -> q_codom q = codom /\ plottable q up_to (F i) (D i)) ->
  exists m, plot_compare qs up_to dt = Ok m /\
    drawn_all up_to F D (1 / 100) 0 qs (repeat (repeat new_axis codom) (up_to + 1)) m.
Proof.
  intros qs up_to F D dt codom Hne Hc Hu Hq. destruct qs as [|q0 qs]; [congruence|].
  unfold plot_compare. cbn [index nth_error bind]. destruct (Hq O q0 eq_refl) as [Ec Hp]. rewrite Ec.
  assert (Eg : subplots (up_to + 1) codom = G2 (repeat (repeat new_axis codom) (up_to + 1))).
  { destruct up_to as [|u]; [lia|]. destruct codom as [|[|c]]; [lia|lia|].
    replace (S u + 1)%nat with (S (S u)) by lia. reflexivity. }
  rewrite Eg. cbn [atleast_2d].
  destruct (draw_all_ok up_to F D codom (q0 :: qs) 0 _ Hq (repeat_ready codom up_to (up_to + 1) ltac:(lia))) as (m & -> & Ha & [Lm Hr] & _).
  cbn [bind].
  rewrite (mapM_map _ (fun j => nth j (nth 0 m []) new_axis)).
  2:{ intros j Hj. apply in_seq in Hj. rewrite (index_ok m 0 []) by lia. cbn [bind]. apply index_ok.
      destruct (Hr O ltac:(lia)) as [-> _]. lia. }
  cbn [bind]. rewrite (mapM_map _ (fun i => nth 0 (nth i m []) new_axis)).
  2:{ intros i Hi. apply in_seq in Hi. rewrite (index_ok m i []) by lia. cbn [bind]. apply index_ok.
      destruct (Hr i ltac:(lia)) as [-> _]. lia. }
  cbn [bind]. eauto.
Qed.

(** the path of a plane curve: its two components at the sampled times, and its waypoints *)
Definition shown_path (q : plotted) (f : R -> list R) (ts : list R) : line * option (list R * list R) :=
  (mkline (map (fun t => nth 0 (f t) 0) ts) (map (fun t => nth 1 (f t) 0) ts),
   option_map (fun wp => (map (fun r => nth 0 r 0) wp, map (fun r => nth 1 r 0) wp)) (waypoints_of q)).
Lemma draw_path_ok q up_to F D dt : plottable q up_to F D -> 0 < dt -> q_codom q = 2%nat ->
  exists ts, samples (fst (D O)) (snd (D O)) dt ts /\ draw_path q dt = Ok (shown_path q (F O) ts).
Proof.
  intros Hp Hd Hc. unfold draw_path.
  destruct (p_deriv _ _ _ _ Hp O ltac:(lia)) as (c & -> & Ec & Ed & Ev & _). cbn [bind]. rewrite Ed.
  destruct (arange_ok (fst (D O)) (snd (D O)) dt Hd) as (ts & -> & Hs). cbn [bind]. rewrite Ev. cbn [bind].
  pose proof (vals_ok q up_to F D Hp O ts ltac:(lia)) as Hv.
  rewrite (column_ok _ _ 0 Hv), (column_ok _ _ 1 Hv) by lia. cbn [bind]. exists ts. split; [exact Hs|].
  unfold shown_path, waypoints_of. pose proof (p_spline _ _ _ _ Hp) as Sp. destruct (q_spline q) as [[[n bps] wp]|]; cbn [bind option_map].
  - destruct (Sp n bps wp eq_refl) as (_ & _ & Hw). rewrite (column_ok _ _ 0 Hw), (column_ok _ _ 1 Hw) by lia. cbn [bind].
    rewrite !map_map. reflexivity.
  - rewrite !map_map. reflexivity.
Qed.
(** plot2d with the default number of derivatives *)
Theorem C71_plane : forall q F D dt, plottable q 3 F D -> 0 < dt -> q_codom q = 2%nat ->
  exists ts m, samples (fst (D O)) (snd (D O)) dt ts /\
    plot2d q 3 dt = Ok (Some (shown_path q (F O) ts, m)) /\
    drawn_grid q F D (1 / 100) 3 (repeat (repeat new_axis 2) 4) m.
Proof.
  intros q F D dt Hp Hd Hc. unfold plot2d. rewrite Hc. cbn [Nat.eqb negb].
  destruct (draw_path_ok q 3 F D dt Hp Hd Hc) as (ts & Hs & ->). cbn [bind].
  destruct (C71_axes q 3 F D (1 / 100) (repeat (repeat new_axis 2) 4) Hp ltac:(lra)) as (m & Em & Hg).
  { rewrite Hc. apply repeat_ready. lia. }
  change (1 + 3)%nat with 4%nat. rewrite Em. cbn [bind]. exists ts, m. auto.
Qed.
(** plot2d_compare: every path with its waypoints, all components of all curves
    with step 1/100, and names that go to the paths in order. *)
Lemma paths_ok up_to F D dt : 0 < dt -> forall qs k,
  (forall i q, nth_error qs i = Some q -> q_codom q = 2%nat /\ plottable q up_to (F (k + i)%nat) (D (k + i)%nat)) ->
  exists ps, mapM (fun q => draw_path q dt) qs = Ok ps /\ length ps = length qs /\
    forall i q, nth_error qs i = Some q -> exists ts, samples (fst (D (k + i)%nat O)) (snd (D (k + i)%nat O)) dt ts /\ nth_error ps i = Some (shown_path q (F (k + i)%nat O) ts).
Proof.
  intros Hd. induction qs as [|q qs IH]; intros k Hq; cbn [mapM].
  - exists []. split; [reflexivity|]. split; [reflexivity|]. intros [|i] q E; discriminate E.
  - destruct (Hq O q eq_refl) as [Ec Hp]. rewrite Nat.add_0_r in Hp. destruct (draw_path_ok q up_to _ _ dt Hp Hd Ec) as (ts & Hs & ->). cbn [bind].
    destruct (IH (S k)) as (ps & -> & Lp & Hn).
    { intros i q' E. replace (S k + i)%nat with (k + S i)%nat by lia. apply Hq. exact E. }
    cbn [bind]. eexists. split; [reflexivity|]. split; [cbn; congruence|]. intros [|i] q' E.
    + injection E as <-. exists ts. rewrite Nat.add_0_r. auto.
    + cbn in E |- *. replace (k + S i)%nat with (S k + i)%nat by lia. apply Hn. exact E.
Qed.
Theorem C71_plane_compare : forall (A : Type) qs up_to F D dt (names : list A), qs <> [] -> 0 < dt ->
  (forall i q, nth_error qs i = Some q -> q_codom q = 2%nat /\ plottable q up_to (F i) (D i)) ->
  exists ps m, plot2d_compare qs up_to dt = Ok (Some (ps, m)) /\ length ps = length qs /\
    (forall i q, nth_error qs i = Some q ->
       exists ts, samples (fst (D i O)) (snd (D i O)) dt ts /\ nth_error ps i = Some (shown_path q (F i O) ts)) /\
    drawn_all up_to F D (1 / 100) 0 qs (repeat (repeat new_axis 2) (1 + up_to)) m /\
    legend (path_axis ps) names = combine (map fst ps) names.
Proof.
  intros A qs up_to F D dt names Hne Hd Hq. unfold plot2d_compare.
  replace (forallb (fun q => Nat.eqb (q_codom q) 2) qs) with true.
  2:{ symmetry. apply forallb_forall. intros q Hin. apply In_nth_error in Hin. destruct Hin as (i & E). destruct (Hq i q E) as [-> _]. reflexivity. }
  cbn [negb]. destruct (paths_ok up_to F D dt Hd qs 0 Hq) as (ps & -> & Lp & Hn). cbn [bind].
  destruct (draw_all_ok up_to F D 2 qs 0 (repeat (repeat new_axis 2) (1 + up_to)) Hq) as (m & -> & Ha & Hr & Lm).
  { apply repeat_ready. lia. }
  cbn [bind]. destruct qs as [|q0 qs]; [congruence|]. cbn [index nth_error bind]. destruct (Hq O q0 eq_refl) as [-> _].
  rewrite repeat_length in Lm. destruct Hr as (_ & Hr).
  rewrite (mapM_map _ (fun j => nth j (nth 0 m []) new_axis)).
  2:{ intros j Hj. apply in_seq in Hj. rewrite (index_ok m 0 []) by lia. cbn [bind]. apply index_ok.
      destruct (Hr O ltac:(lia)) as [-> _]. lia. }
  cbn [bind]. rewrite (mapM_map _ (fun i => nth 0 (nth i m []) new_axis)).
  2:{ intros i Hi. apply in_seq in Hi. rewrite (index_ok m i []) by lia. cbn [bind]. apply index_ok.
      destruct (Hr i ltac:(lia)) as [-> _]. lia. }
  cbn [bind]. exists ps, m. split; [reflexivity|]. split; [exact Lp|]. split; [exact Hn|]. split; [exact Ha|reflexivity].
Qed.
(** one curve that is not plane suppresses all; REFUTED: an empty list draws nothing (it raises) *)
Theorem C71_plane_compare_refused : forall qs up_to dt, (exists q, In q qs /\ q_codom q <> 2%nat) -> plot2d_compare qs up_to dt = Ok None.
Proof.
  intros qs up_to dt (q & Hin & Hq). unfold plot2d_compare. destruct (forallb _ qs) eqn:E; [|reflexivity].
  rewrite forallb_forall in E. specialize (E q Hin). apply Nat.eqb_eq in E. contradiction.
Qed.
Theorem C71_plane_compare_empty_refuted : forall up_to dt, plot2d_compare [] up_to dt = Throw OutOfRange.
Proof. reflexivity. Qed.
Theorem C71_not_plane : forall q up_to dt, q_codom q <> 2%nat -> plot2d q up_to dt = Ok None.
Proof. intros q up_to dt H. unfold plot2d. apply Nat.eqb_neq in H. now rewrite H. Qed.

(** ** Splines *)
Lemma vec_list_ok v n f : vec_is v n f -> vec_list v = Ok (map f (seq 0 n)).
Proof.
  intros V. unfold vec_list. rewrite (proj1 V). apply mapM_map. intros i Hi. apply in_seq in Hi. eapply vread_ok; [exact V|lia].
Qed.
Lemma mat_list_ok m r c f : mat_is m r c f -> mat_list m = Ok (map (fun i => map (f i) (seq 0 c)) (seq 0 r)).
Proof.
  intros M. pose proof M as (Er & Ec & _). unfold mat_list. rewrite Er, Ec. apply mapM_map. intros i Hi. apply in_seq in Hi.
  apply mapM_map. intros j Hj. apply in_seq in Hj. eapply mread_ok; [exact M|lia|lia].
Qed.
(** values of order i of all components at t, one-sided at breakpoints *)
Definition orders (d : bdesc) (n codom : nat) (t0 : R) (tf cf : nat -> R) (i : nat) (t : R) : list R :=
  map (fun j => Derive_n (piece d codom t0 tf cf (locate t0 tf n t) j) i t) (seq 0 codom).

(** Every Legendre spline can be plotted up to any order, every spline of the
    exponential-trigonometric basis up to order 2. *)
Theorem C71_spline : forall g d n codom t0 t1 tf cf up_to, rep g d n codom t0 t1 tf cf -> (forall i, (i <= up_to)%nat -> blk_ok d i) ->
  (forall s, exact_pt d s) -> (1 <= n)%nat -> (1 <= codom)%nat -> (forall i, (i < n)%nat -> 0 < tf i) -> t0 < t1 ->
  exists q, plotted_gspline g = Ok q /\ q_codom q = codom /\
    plottable q up_to (orders d n codom t0 tf cf) (fun _ => (t0, t1)) /\
    breaks_of q = map (bp t0 tf) (seq 0 (S n)) /\
    waypoints_of q = Some (map (fun k => orders d n codom t0 tf cf 0 (bp t0 tf k)) (seq 0 (S n))).
Proof.
  intros g d n codom t0 t1 tf cf up_to Rg Hb He Hn Hc P Ht. unfold plotted_gspline.
  destruct (C26_breakpoints g d n codom t0 t1 tf cf Rg) as (b & -> & Vb). cbn [bind].
  rewrite (vec_list_ok _ _ _ Vb). cbn [bind].
  destruct (C26_waypoints g d n codom t0 t1 tf cf Rg Hn P ltac:(intros; apply He)) as (w & -> & Mw). cbn [bind].
  rewrite (mat_list_ok _ _ _ _ Mw). cbn [bind].
  pose proof Rg as (_ & _ & Ecod & Vt & _). assert (En : gs_n g = n) by (apply (proj1 Vt)). rewrite En, Ecod.
  eexists. split; [reflexivity|]. split; [reflexivity|]. split; [|split; reflexivity]. split; cbn [q_codom q_deriv q_spline].
  - exact Hc.
  - intros i Hi. destruct (C27_one_sided g d n codom t0 t1 tf cf i Rg (Hb i Hi) P Hn) as (g' & cf' & -> & R' & D').
    cbn [bind]. unfold curve_of_gspline.
    destruct (C26_breakpoints g' d n codom t0 t1 tf cf' R') as (b' & -> & Vb'). cbn [bind].
    rewrite (vec_list_ok _ _ _ Vb'). cbn [bind]. eexists. split; [reflexivity|]. cbn [c_codom c_dom c_eval c_breaks].
    pose proof R' as (_ & Ed' & Ec' & _). rewrite Ed', Ec'. repeat split; auto.
    intros ts. destruct (value_R g' d n codom t0 t1 tf cf' (vec_of_list ts) (fun k => nth k ts 0) (length ts) R' Hn P) as (m & -> & Mm).
    { apply vec_of_list_is. } { intros; apply He. }
    cbn [bind]. rewrite (mat_list_ok _ _ _ _ Mm). f_equal.
    transitivity (map (fun k => orders d n codom t0 tf cf i (nth k ts 0)) (seq 0 (length ts))).
    + apply map_ext_in. intros k _. unfold orders. apply map_ext_in. intros j Hj. apply in_seq in Hj.
      symmetry. apply is_derive_n_unique. apply D'. lia.
    + clear. rewrite <- (map_map (fun k => nth k ts 0) (orders d n codom t0 tf cf i)). f_equal.
      induction ts as [|t ts IH]; [reflexivity|]. cbn [length seq map nth]. f_equal. rewrite <- seq_shift, map_map. exact IH.
  - intros i t _. unfold orders. rewrite map_length, seq_length. reflexivity.
  - intros i _. exact Ht.
  - intros n' bps wp E.
    assert (E1 : n' = n) by congruence.
    assert (E2 : bps = map (fun k => t0 + Rsum k tf) (seq 0 (S n))) by congruence.
    assert (E3 : wp = map (fun k => orders d n codom t0 tf cf 0 (bp t0 tf k)) (seq 0 (S n))).
    { transitivity (map (fun k => map (fun cc => sfun d codom n t0 tf cf cc (bp t0 tf k)) (seq 0 codom)) (seq 0 (S n))); [congruence|reflexivity]. }
    rewrite E1, E2, E3, !map_length, !seq_length. split; [lia|]. split; [lia|].
    apply Forall_forall. intros r Hr. apply in_map_iff in Hr. destruct Hr as (k & <- & _). unfold orders. rewrite map_length, seq_length. reflexivity.
Qed.

(** a Legendre spline of two intervals and two components, all orders up to 3 *)
Example C71_case : exists g q m, rep g (DLeg 3) 2 2 1 4 (fun i => nth i [1; 2] 0) (fun i => nth i [1; 2; 3; 0; -1; 0; 2; 0; 1; 5; 5; 5] 0) /\
  plotted_gspline g = Ok q /\ plot q 3 (1 / 100) = Ok m /\ breaks_of q = [1; 2; 4] /\
  drawn_grid q (orders (DLeg 3) 2 2 1 (fun i => nth i [1; 2] 0) (fun i => nth i [1; 2; 3; 0; -1; 0; 2; 0; 1; 5; 5; 5] 0))
    (fun _ => (1, 4)) (1 / 100) 3 (repeat (repeat new_axis 2) 4) m.
Proof.
  destruct ex_spline as (g & Rg & P).
  destruct (C71_spline g (DLeg 3) 2 2 1 4 _ _ 3 Rg ltac:(intros; exact I) ltac:(intros; exact I) ltac:(lia) ltac:(lia) P ltac:(lra))
    as (q & Eq & Ec & Hp & Hb & _).
  destruct (C71_plot q 3 _ _ (1 / 100) Hp ltac:(lra) ltac:(lia)) as (m & Em & Hg).
  exists g, q, m. split; [exact Rg|]. split; [exact Eq|]. split; [exact Em|]. split.
  - rewrite Hb. unfold bp. cbn [seq map Rsum nth]. repeat (f_equal; try lra).
  - rewrite Ec in Hg. exact Hg.
Qed.

(** ** What fails *)
(** REFUTED: derivatives of an object with one component are never plotted: the
    column that subplots returns is turned into a row. *)
Theorem C71_scalar_refuted : forall q up_to F D dt, plottable q up_to F D -> 0 < dt -> q_codom q = 1%nat -> (1 <= up_to)%nat ->
  plot q up_to dt = Throw InvalidArgument.
Proof.
  intros q up_to F D dt Hp Hd Hc Hu. unfold plot. rewrite Hc.
  assert (Eg : atleast_2d (subplots (up_to + 1) 1) = [repeat new_axis (up_to + 1)]).
  { destruct up_to as [|u]; [lia|]. replace (S u + 1)%nat with (S (S u)) by lia. reflexivity. }
  rewrite Eg. unfold plot_derivatives_in_axes, for_. rewrite Nat.sub_0_r. cbn [for_n index nth_error bind].
  unfold plot_row. destruct (p_deriv _ _ _ _ Hp O ltac:(lia)) as (c & -> & Ec & Ed & Ev & _). cbn [bind]. rewrite Ed.
  destruct (arange_ok (fst (D O)) (snd (D O)) dt Hd) as (ts & -> & Hs). cbn [bind]. rewrite Ev. cbn [bind].
  unfold curve_lines. rewrite Ec, Hc, repeat_length.
  destruct (up_to + 1)%nat as [|[|u]] eqn:E; [lia|lia|]. reflexivity.
Qed.
(** A step that is not positive gives no samples: np.arange refuses 0, and the
    extremes of an empty list raise ValueError. *)
Theorem C71_bad_step : forall q up_to F D dt, plottable q up_to F D -> dt <= 0 ->
  plot q up_to dt = Throw InvalidArgument.
Proof.
  intros q up_to F D dt Hp Hd. unfold plot.
  assert (Eg : exists k m, atleast_2d (subplots (up_to + 1) (q_codom q)) = repeat new_axis (S k) :: m).
  { pose proof (p_codom _ _ _ _ Hp) as Hc. rewrite Nat.add_comm. destruct up_to as [|u], (q_codom q) as [|[|c]]; try lia.
    - exists O, []. reflexivity.
    - exists (S c), []. reflexivity.
    - exists (S u), []. reflexivity.
    - exists (S c). eexists. reflexivity. }
  destruct Eg as (k & m & ->).
  unfold plot_derivatives_in_axes, for_. rewrite Nat.sub_0_r. cbn [for_n index nth_error bind].
  enough (E : plot_row q dt 0 (repeat new_axis (S k)) = Throw InvalidArgument) by (rewrite E; reflexivity).
  unfold plot_row. destruct (p_deriv _ _ _ _ Hp O ltac:(lia)) as (c & -> & Ec & Ed & Ev & Eb). cbn [bind]. rewrite Ed.
  unfold arange. destruct (Req_EM_T dt 0) as [|N]; [reflexivity|]. cbn [bind].
  assert (Ez : Z.to_nat (ceil ((snd (D O) - fst (D O)) / dt)) = O).
  { pose proof (p_domain _ _ _ _ Hp O ltac:(lia)) as Hab.
    assert (X : (snd (D O) - fst (D O)) / dt < 0).
    { unfold Rdiv. rewrite <- (Rmult_0_r (snd (D O) - fst (D O))).
      apply Rmult_lt_compat_l; [lra|]. apply Rinv_lt_0_compat. lra. }
    assert (0 < up (- ((snd (D O) - fst (D O)) / dt)))%Z.
    { apply lt_IZR. destruct (archimed (- ((snd (D O) - fst (D O)) / dt))). lra. }
    unfold ceil. lia. }
  rewrite Ez. cbn [seq map]. rewrite Ev. cbn [map bind].
  unfold curve_lines. rewrite Ec, repeat_length.
  destruct (Nat.eqb (q_codom q) (S k)) eqn:Ek; [|reflexivity]. cbn [negb]. apply Nat.eqb_eq in Ek. rewrite Ek.
  cbn [seq mapM column bind]. 
  assert (Er : exists cs, mapM (column []) (seq 1 k) = Ok cs /\ length cs = k).
  { exists (map (fun _ => []) (seq 1 k)). split; [apply mapM_map; reflexivity|]. rewrite map_length, seq_length. reflexivity. }
  destruct Er as (cs & -> & Lc). cbn [bind repeat combine map].
  rewrite Eb. destruct (q_spline q) as [[[n bps] wp]|].
  - destruct (negb _); reflexivity.
  - cbn [bind]. unfold on_first. destruct (Nat.ltb _ _) eqn:El; [|reflexivity].
    apply Nat.ltb_lt in El. cbn [List.length] in El.
    rewrite map_length, combine_length, repeat_length in El. lia.
Qed.
(** REFUTED: plot_compare ignores its step, and fails whenever subplots returns
    less than a matrix. *)
Theorem C71_compare_refuted : forall qs up_to dt, 
  (forall dt', plot_compare qs up_to dt = plot_compare qs up_to dt') /\
  (forall q F D, qs = [q] -> plottable q 0 F D -> up_to = O -> plot_compare qs up_to dt = Throw OutOfRange).
Proof.
  intros qs up_to dt. split; [reflexivity|]. intros q F D -> Hp ->. unfold plot_compare. cbn [index nth_error bind].
  change (0 + 1)%nat with 1%nat. cbn [draw_all].
  destruct (C71_axes q 0 F D (1 / 100) (atleast_2d (subplots 1 (q_codom q))) Hp ltac:(lra)) as (m & -> & _).
  { rewrite subplots_good; [|auto|lia|apply (p_codom _ _ _ _ Hp)]. apply repeat_ready. lia. }
  cbn [bind]. destruct (q_codom q) as [|[|c]]; reflexivity.
Qed.

(** the loop over the orders of derivation, up to a row that is missing *)
Lemma rows_missing q F D up_to u dt : plottable q up_to F D -> 0 < dt -> (u < up_to)%nat ->
  plot_derivatives_in_axes q dt up_to (repeat (repeat new_axis (q_codom q)) (1 + u)) = Throw OutOfRange.
Proof.
  intros Hp Hd Hu. unfold plot_derivatives_in_axes, for_. rewrite Nat.sub_0_r.
  set (body := fun i m => _). replace (S up_to) with ((1 + u) + S (up_to - u - 1))%nat by lia. rewrite for_n_app.
  set (m := repeat _ _).
  destruct (for_n_ok (fun i (m' : list (list axis)) => length m' = length m /\ forall k, (i <= k)%nat -> nth k m' [] = nth k m []) body (1 + u) 0 m)
    as (m' & -> & Lm & _).
  - split; [reflexivity|auto].
  - intros i mi Hi [Li Ui]. unfold body.
    assert (Lm : length m = (1 + u)%nat) by (unfold m; apply repeat_length).
    rewrite (index_ok mi i []) by lia. cbn [bind]. rewrite (Ui i) by lia.
    unfold m. rewrite (nth_repeat_lt (repeat new_axis (q_codom q)) [] (1 + u) i) by lia.
    destruct (plot_row_ok q up_to F D dt Hp Hd i (repeat new_axis (q_codom q)) ltac:(lia)) as (row & -> & _ & _).
    + apply repeat_length.
    + intros a Ha. apply repeat_spec in Ha. subst a. intros l [].
    + cbn [bind]. eexists. split; [reflexivity|]. split; [rewrite set_nth_length; fold m; exact Li|].
      intros k Hk. rewrite set_nth_other by lia. apply Ui. lia.
  - cbn [bind for_n]. unfold body at 1. unfold index at 1.
    assert (Lm' : length m' = (1 + u)%nat) by (rewrite Lm; apply repeat_length).
    rewrite (proj2 (nth_error_None m' (0 + (1 + u)))) by lia. reflexivity.
Qed.
(** REFUTED: plot2d draws four rows whatever number of derivatives is asked for:
    with fewer it raises, with more the remaining rows stay empty. *)
Theorem C71_plane_refuted : forall q F D dt up_to, plottable q 3 F D -> 0 < dt -> q_codom q = 2%nat ->
  ((up_to < 3)%nat -> plot2d q up_to dt = Throw OutOfRange) /\
  ((3 < up_to)%nat -> exists l m, plot2d q up_to dt = Ok (Some (l, m)) /\
     forall i, (3 < i <= up_to)%nat -> nth i m [] = [new_axis; new_axis]).
Proof.
  intros q F D dt up_to Hp Hd Hc. unfold plot2d. rewrite Hc. cbn [Nat.eqb negb].
  destruct (draw_path_ok q 3 F D dt Hp Hd Hc) as (ts & Hs & ->). cbn [bind]. split; intros Hu.
  - pose proof (rows_missing q F D 3 up_to (1 / 100) Hp ltac:(lra) Hu) as X. rewrite Hc in X. rewrite X. reflexivity.
  - destruct (C71_axes q 3 F D (1 / 100) (repeat (repeat new_axis 2) (1 + up_to)) Hp ltac:(lra)) as (m & -> & Hg).
    { rewrite Hc. apply repeat_ready. lia. }
    cbn [bind]. eexists _, _. split; [reflexivity|]. intros i Hi. destruct Hg as (_ & _ & _ & U). rewrite U by lia.
    apply (nth_repeat_lt [new_axis; new_axis]). lia.
Qed.

(** REFUTED: the limits do not enclose the waypoints: the end of the domain is
    not sampled, and the waypoints are drawn after the limits are set.  On the
    line t -> (t, t), t in [0, 1], drawn with step 1/2. *)
Definition ex_line_curve (i : nat) : curve := mkcurve 2 (0, 1)
  (fun ts => Ok (map (fun t => match i with O => [t; t] | 1%nat => [1; 1] | _ => [0; 0] end) ts)) (Some [0; 1]).
Definition ex_line : plotted := mkplotted 2 (fun i => Ok (ex_line_curve i)) (Some (1%nat, [0; 1], [[0; 0]; [1; 1]])).
Definition ex_line_fun (i : nat) (t : R) : list R := match i with O => [t; t] | 1%nat => [1; 1] | _ => [0; 0] end.
Lemma ex_line_ok up_to : plottable ex_line up_to ex_line_fun (fun _ => (0, 1)).
Proof.
  split; cbn [ex_line q_codom q_deriv q_spline].
  - lia.
  - intros i _. eexists. split; [reflexivity|]. repeat split.
  - intros [|[|i]] t _; reflexivity.
  - intros; cbn; lra.
  - intros n bps wp E. inversion E; subst. cbn. repeat constructor.
Qed.
Theorem C71_waypoint_refuted : exists m a l x y, plot ex_line 0 (1 / 2) = Ok m /\ a = nth 0 (nth 0 m []) new_axis /\
  In l (a_lines a) /\ l = mkline [0; 1] [0; 1] /\ a_lim a = Some (x, y) /\ snd y < 1.
Proof.
  destruct (C71_plot ex_line 0 _ _ (1 / 2) (ex_line_ok 0) ltac:(lra) ltac:(auto)) as (m & Em & _ & _ & Hd & _).
  destruct (Hd O O ltac:(lia) ltac:(cbn; lia)) as (ts & lo & hi & Hs & Hlo & Hhi & El & (x & y & Ey & _ & (ylo & yhi & Hylo & Hyhi & _ & E2))).
  set (a := nth 0 (nth 0 m []) new_axis) in *.
  exists m, a, (mkline [0; 1] [0; 1]), x, y. split; [exact Em|]. split; [reflexivity|].
  split. { rewrite El. apply in_or_app. right. cbn. left. reflexivity. }
  split; [reflexivity|]. split; [exact Ey|]. rewrite E2.
  cbn [fst snd] in Hs.
  assert (T : forall t, In t ts -> 0 <= t <= / 2).
  { intros t Ht. destruct (In_nth _ _ 0 Ht) as (k & Hk & <-). destruct (Hs k) as [H1 H2]. rewrite H2 by exact Hk.
    destruct k as [|[|k]]; [cbn; lra|cbn; lra|exfalso]. apply H1 in Hk. rewrite !S_INR in Hk. pose proof (pos_INR k). lra. }
  assert (B : forall v, In v (ys_of ([] ++ [graph (ex_line_fun 0) 0 ts])) -> 0 <= v <= / 2).
  { intros v Hv. cbn in Hv. rewrite app_nil_r in Hv. apply in_map_iff in Hv. destruct Hv as (t & <- & Ht). apply T, Ht. }
  destruct (nth_repeat_lt (repeat new_axis 2) [] 1 0 ltac:(lia)).
  cbn [ex_line q_codom repeat Nat.add nth a_lines new_axis] in Hlo, Hhi, Hylo, Hyhi.
  pose proof (B _ (proj1 Hlo)) as Blo. pose proof (B _ (proj1 Hhi)) as Bhi.
  assert (A : forall v, In v (ys_of ([] ++ graph (ex_line_fun 0) 0 ts :: map (fun t => mkline [t; t] [lo; hi]) (breaks_of ex_line))) -> 0 <= v <= / 2).
  { intros v Hv. unfold ys_of in Hv. cbn [app map concat breaks_of ex_line q_spline ly] in Hv.
    apply in_app_or in Hv. destruct Hv as [Hv|Hv].
    - apply B. unfold ys_of. cbn [app map concat]. rewrite app_nil_r. exact Hv.
    - cbn in Hv. intuition subst; lra. }
  pose proof (A _ (proj1 Hylo)). pose proof (A _ (proj1 Hyhi)). lra.
Qed.

(** REFUTED: the legend names the lines of the axes in order, and a spline has
    more than one: with two splines the second name goes to a vertical line of
    the first. *)
Theorem C71_legend_refuted : forall (A : Type) (n1 n2 : A), exists m a lo hi l1,
  plot_compare [ex_line; ex_line] 1 (1 / 100) = Ok m /\ a = nth 0 (nth 0 m []) new_axis /\
  legend a [n1; n2] = [(l1, n1); (mkline [0; 0] [lo; hi], n2)] /\ (3 < length (a_lines a))%nat.
Proof.
  intros A n1 n2.
  destruct (C71_compare [ex_line; ex_line] 1 (fun _ => ex_line_fun) (fun _ _ => (0, 1)) (1 / 100) 2) as (m & Em & Ha).
  - discriminate.
  - lia.
  - lia.
  - intros [|[|[|i]]] q E; inversion E; subst; (split; [reflexivity|apply ex_line_ok]).
  - inversion Ha as [|k q qs m0 m1 m2 G1 Ha1]; subst. inversion Ha1 as [|k q qs m0 m3 m4 G2 Ha2]; subst. inversion Ha2; subst.
    destruct G1 as (_ & _ & H1 & _). destruct G2 as (_ & _ & H2 & _).
    destruct (H1 O O ltac:(lia) ltac:(cbn; lia)) as (ts & lo & hi & _ & _ & _ & E1 & _).
    destruct (H2 O O ltac:(lia) ltac:(cbn; lia)) as (ts' & lo' & hi' & _ & _ & _ & E2 & _).
    rewrite E1 in E2. exists m, (nth 0 (nth 0 m []) new_axis), lo, hi, (graph (ex_line_fun 0) 0 ts).
    split; [exact Em|]. split; [reflexivity|]. unfold legend. rewrite E2. split; [reflexivity|].
    rewrite !app_length. cbn. lia.
Qed.
(** whereas functions without breakpoints give one line each *)
Theorem C71_legend : forall (A : Type) qs up_to F D dt codom (names : list A) i j, qs <> [] -> (2 <= codom)%nat -> (1 <= up_to)%nat ->
  (forall i q, nth_error qs i = Some q -> q_spline q = None /\ q_codom q = codom /\ plottable q up_to (F i) (D i)) ->
  length names = length qs -> (i <= up_to)%nat -> (j < codom)%nat ->
  exists m tss, plot_compare qs up_to dt = Ok m /\ length tss = length qs /\
    legend (nth j (nth i m []) new_axis) names = combine (map (fun k => graph (F k i) j (nth k tss [])) (seq 0 (length qs))) names.
Proof.
  intros A qs up_to F D dt codom names i j Hne Hc Hu Hq Hl Hi Hj.
  destruct (C71_compare qs up_to F D dt codom Hne Hc Hu) as (m & Em & Ha).
  { intros k q Hk. destruct (Hq k q Hk) as (_ & E & P). auto. }
  assert (G : forall qs k m0 m1, (forall i q, nth_error qs i = Some q -> q_spline q = None /\ q_codom q = codom) ->
     drawn_all up_to F D (1 / 100) k qs m0 m1 -> exists tss, length tss = length qs /\
       a_lines (nth j (nth i m1 []) new_axis) = a_lines (nth j (nth i m0 []) new_axis) ++
         map (fun k' => graph (F (k + k')%nat i) j (nth k' tss [])) (seq 0 (length qs))).
  { clear - Hi Hj. induction qs as [|q qs IH]; intros k m0 m1 Hq Ha; inversion Ha; subst.
    - exists []. cbn. rewrite app_nil_r. auto.
    - destruct (Hq O q eq_refl) as [Es Ec].
      match goal with HG : drawn_grid _ _ _ _ _ _ _, HA : drawn_all _ _ _ _ _ _ _ _ |- _ =>
        destruct HG as (_ & _ & HG & _); destruct (HG i j Hi ltac:(lia)) as (ts & lo & hi & _ & _ & _ & E & _);
        destruct (IH (S k) _ _ (fun i q' X => Hq (S i) q' X) HA) as (tss & Lt & Et) end.
      exists (ts :: tss). cbn [length]. split; [congruence|]. rewrite Et, E. unfold breaks_of, waypoints_of. rewrite Es.
      cbn [map seq nth]. replace (match i with O => [] | _ => [] end) with (@nil line) by (destruct i; reflexivity).
      rewrite app_nil_r, <- app_assoc. f_equal. cbn [app]. rewrite Nat.add_0_r. f_equal.
      rewrite <- seq_shift, map_map. apply map_ext. intros k'. cbn [nth]. replace (S k + k')%nat with (k + S k')%nat by lia. reflexivity. }
  destruct (G qs O _ m (fun i q X => ltac:(destruct (Hq i q X) as (E & E' & _); split; [exact E|exact E'])) Ha) as (tss & Lt & Et).
  exists m, tss. split; [exact Em|]. split; [exact Lt|]. unfold legend. rewrite Et.
  rewrite (nth_repeat_lt (repeat new_axis codom) [] (up_to + 1) i) by lia.
  rewrite (nth_repeat_lt new_axis new_axis codom j) by lia. reflexivity.
Qed.
(** two plain functions, two names *)
Definition ex_plain : plotted := mkplotted 2
  (fun i => Ok (mkcurve 2 (0, 1) (fun ts => Ok (map (ex_line_fun i) ts)) None)) None.
Example C71_legend_case : exists m t1 t2, plot_compare [ex_plain; ex_plain] 1 (1 / 10) = Ok m /\
  legend (nth 1 (nth 1 m []) new_axis) [true; false] =
    [(graph (ex_line_fun 1) 1 t1, true); (graph (ex_line_fun 1) 1 t2, false)].
Proof.
  destruct (C71_legend bool [ex_plain; ex_plain] 1 (fun _ => ex_line_fun) (fun _ _ => (0, 1)) (1 / 10) 2 [true; false] 1 1)
    as (m & tss & Em & _ & El); try discriminate; try lia; try reflexivity.
  - assert (P : plottable ex_plain 1 ex_line_fun (fun _ => (0, 1))).
    { split; cbn [ex_plain q_codom q_deriv q_spline]; try discriminate.
      - lia.
      - intros i _. eexists. split; [reflexivity|]. repeat split.
      - intros [|[|i]] t _; reflexivity.
      - intros; cbn; lra. }
    intros [|[|[|i]]] q E; inversion E; subst; (split; [reflexivity|]; split; [reflexivity|exact P]).
  - exists m, (nth 0 tss []), (nth 1 tss []). split; [exact Em|]. exact El.
Qed.
(** the step goes the wrong way *)
Example C71_bad_step_case : plot ex_plain 1 (- (1 / 10)) = Throw InvalidArgument.
Proof.
  apply (C71_bad_step ex_plain 1 ex_line_fun (fun _ => (0, 1))); [|lra].
  split; cbn [ex_plain q_codom q_deriv q_spline]; try discriminate.
  - lia.
  - intros i _. eexists. split; [reflexivity|]. repeat split.
  - intros [|[|i]] t _; reflexivity.
  - intros; cbn; lra.
Qed.
(** a spline and a plain function in one picture *)
Example C71_plane_compare_case : exists ps m, plot2d_compare [ex_line; ex_plain] 2 (1 / 10) = Ok (Some (ps, m)) /\ length ps = 2%nat /\
  option_map snd (nth_error ps 0) = Some (Some ([0; 1], [0; 1])) /\ option_map snd (nth_error ps 1) = Some None /\
  map snd (legend (path_axis ps) [true; false]) = [true; false].
Proof.
  assert (P : plottable ex_plain 2 ex_line_fun (fun _ => (0, 1))).
  { split; cbn [ex_plain q_codom q_deriv q_spline]; try discriminate.
    - lia.
    - intros i _. eexists. split; [reflexivity|]. repeat split.
    - intros [|[|i]] t _; reflexivity.
    - intros; cbn; lra. }
  destruct (C71_plane_compare bool [ex_line; ex_plain] 2 (fun _ => ex_line_fun) (fun _ _ => (0, 1)) (1 / 10) [true; false]) as (ps & m & E & L & H & _ & Lg);
    [discriminate|lra| |].
  - intros [|[|[|i]]] q X; inversion X; subst; (split; [reflexivity|]); [apply (ex_line_ok 2)|exact P].
  - exists ps, m. split; [exact E|]. split; [exact L|].
    destruct (H O ex_line eq_refl) as (t0 & _ & E0). destruct (H 1%nat ex_plain eq_refl) as (t1 & _ & E1). rewrite E0, E1.
    split; [reflexivity|]. split; [reflexivity|]. rewrite Lg.
    destruct ps as [|p0 [|p1 [|p2 ps]]]; try discriminate L. reflexivity.
Qed.
