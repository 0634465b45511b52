From Coq Require Import List Reals Lra Lia Bool Arith ZArith.
From Verif Require Import Num Outcome PlotModel PlotSpec.
Import ListNotations.
Local Open Scope R_scope.

(** ** Sampling *)
Lemma ceil_spec x : IZR (ceil x) - 1 < x <= IZR (ceil x).
Proof.
  unfold ceil. destruct (archimed (- x)) as [A B]. rewrite minus_IZR. lra.
Qed.

Lemma arange_ok a b dt : 0 < dt -> exists ts, arange a b dt = Ok ts /\ samples a b dt ts.
Proof.
  intros Hd. unfold arange. destruct (Req_EM_T dt 0) as [e|_]; [lra|].
  eexists. split; [reflexivity|]. intros k. rewrite map_length, seq_length.
  assert (K : (k < Z.to_nat (ceil ((b - a) / dt)))%nat <-> a + INR k * dt < b).
  { set (x := (b - a) / dt). assert (Ex : x * dt = b - a) by (unfold x; field; lra).
    destruct (ceil_spec x) as [C1 C2]. rewrite INR_IZR_INZ. split; intros H.
    - assert (H' : (Z.of_nat k < ceil x)%Z) by lia.
      assert (IZR (Z.of_nat k) <= IZR (ceil x) - 1).
      { rewrite <- minus_IZR. apply IZR_le. lia. }
      assert (IZR (Z.of_nat k) * dt < x * dt) by (apply Rmult_lt_compat_r; lra). lra.
    - assert (H' : IZR (Z.of_nat k) < x).
      { apply (Rmult_lt_reg_r dt); lra. }
      assert (IZR (Z.of_nat k) < IZR (ceil x)) by lra. apply lt_IZR in H0. lia. }
  split; [exact K|]. intros H.
  set (f := fun k : nat => a + INR k * dt).
  rewrite (nth_indep _ 0 (f O)) by (rewrite map_length, seq_length; exact H).
  rewrite map_nth, seq_nth by exact H. reflexivity.
Qed.

Lemma samples_ne a b dt ts : a < b -> samples a b dt ts -> ts <> [].
Proof.
  intros H Hs ->. destruct (Hs O) as [[_ X] _]. cbn in X. lapply X; [lia|]. cbn. lra.
Qed.

(** ** Extrema *)
Lemma fold_max l : forall x, is_max (fold_left Rmax l x) (x :: l).
Proof.
  induction l as [|y l IH]; intros x; cbn [fold_left].
  - split; [left; reflexivity|]. intros z [<-|[]]. lra.
  - destruct (IH (Rmax x y)) as [I B]. split.
    + destruct I as [I|I]; [|right; right; exact I]. rewrite <- I. unfold Rmax. destruct (Rle_dec x y); [right; left|left]; reflexivity.
    + intros z [<-|[<-|Hz]]; [| |apply B; right; exact Hz];
        (eapply Rle_trans; [|apply B; left; reflexivity]); [apply Rmax_l|apply Rmax_r].
Qed.
Lemma fold_min l : forall x, is_min (fold_left Rmin l x) (x :: l).
Proof.
  induction l as [|y l IH]; intros x; cbn [fold_left].
  - split; [left; reflexivity|]. intros z [<-|[]]. lra.
  - destruct (IH (Rmin x y)) as [I B]. split.
    + destruct I as [I|I]; [|right; right; exact I]. rewrite <- I. unfold Rmin. destruct (Rle_dec x y); [left|right; left]; reflexivity.
    + intros z [<-|[<-|Hz]]; [| |apply B; right; exact Hz];
        (eapply Rle_trans; [apply B; left; reflexivity|]); [apply Rmin_l|apply Rmin_r].
Qed.
Lemma fold_ne_max l : l <> [] -> exists m, fold_ne Rmax l = Ok m /\ is_max m l.
Proof. destruct l as [|x l]; [congruence|]. intros _. eexists. split; [reflexivity|]. apply fold_max. Qed.
Lemma fold_ne_min l : l <> [] -> exists m, fold_ne Rmin l = Ok m /\ is_min m l.
Proof. destruct l as [|x l]; [congruence|]. intros _. eexists. split; [reflexivity|]. apply fold_min. Qed.

(** the extremum of the extrema *)
Lemma maxes_ok {A} (p : A -> list R) : forall ls, (forall l, In l ls -> p l <> []) ->
  exists ms, mapM (fun l => fold_ne Rmax (p l)) ls = Ok ms /\ Forall2 (fun l m => is_max m (p l)) ls ms.
Proof.
  induction ls as [|l ls IH]; intros H; cbn [mapM]; [exists []; auto|].
  destruct (fold_ne_max (p l)) as (m & -> & Hm); [apply H; left; reflexivity|].
  destruct IH as (ms & -> & Hms); [intros; apply H; right; assumption|]. cbn [bind]. eauto.
Qed.
Lemma mins_ok {A} (p : A -> list R) : forall ls, (forall l, In l ls -> p l <> []) ->
  exists ms, mapM (fun l => fold_ne Rmin (p l)) ls = Ok ms /\ Forall2 (fun l m => is_min m (p l)) ls ms.
Proof.
  induction ls as [|l ls IH]; intros H; cbn [mapM]; [exists []; auto|].
  destruct (fold_ne_min (p l)) as (m & -> & Hm); [apply H; left; reflexivity|].
  destruct IH as (ms & -> & Hms); [intros; apply H; right; assumption|]. cbn [bind]. eauto.
Qed.
Lemma F2_in_r {A B} (P : A -> B -> Prop) la lb : Forall2 P la lb -> forall b, In b lb -> exists a, In a la /\ P a b.
Proof.
  induction 1; intros z []; subst; [exists x; split; [left|]; auto|].
  destruct (IHForall2 z H1) as (a & Ha & Hp). exists a. split; [right|]; auto.
Qed.
Lemma F2_in_l {A B} (P : A -> B -> Prop) la lb : Forall2 P la lb -> forall a, In a la -> exists b, In b lb /\ P a b.
Proof.
  induction 1; intros z []; subst; [exists y; split; [left|]; auto|].
  destruct (IHForall2 z H1) as (b & Hb & Hp). exists b. split; [right|]; auto.
Qed.
Lemma in_concat_map {A} (p : A -> list R) ls x : In x (concat (map p ls)) <-> exists l, In l ls /\ In x (p l).
Proof.
  rewrite <- flat_map_concat_map. apply in_flat_map.
Qed.

Lemma max_of_maxes {A} (p : A -> list R) ls : ls <> [] -> (forall l, In l ls -> p l <> []) ->
  exists ms m, mapM (fun l => fold_ne Rmax (p l)) ls = Ok ms /\ fold_ne Rmax ms = Ok m /\ is_max m (concat (map p ls)).
Proof.
  intros Hn H. destruct (maxes_ok p ls H) as (ms & E & HF).
  destruct (fold_ne_max ms) as (m & Em & [Hi Hb]). { intros ->. inversion HF. congruence. }
  exists ms, m. split; [exact E|]. split; [exact Em|]. split.
  - apply in_concat_map. destruct (F2_in_r _ _ _ HF m Hi) as (l & Hl & [HI _]). eauto.
  - intros x Hx. apply in_concat_map in Hx. destruct Hx as (l & Hl & Hx).
    destruct (F2_in_l _ _ _ HF l Hl) as (m' & Hm' & [_ HB]). eapply Rle_trans; [apply HB, Hx|apply Hb, Hm'].
Qed.
Lemma min_of_mins {A} (p : A -> list R) ls : ls <> [] -> (forall l, In l ls -> p l <> []) ->
  exists ms m, mapM (fun l => fold_ne Rmin (p l)) ls = Ok ms /\ fold_ne Rmin ms = Ok m /\ is_min m (concat (map p ls)).
Proof.
  intros Hn H. destruct (mins_ok p ls H) as (ms & E & HF).
  destruct (fold_ne_min ms) as (m & Em & [Hi Hb]). { intros ->. inversion HF. congruence. }
  exists ms, m. split; [exact E|]. split; [exact Em|]. split.
  - apply in_concat_map. destruct (F2_in_r _ _ _ HF m Hi) as (l & Hl & [HI _]). eauto.
  - intros x Hx. apply in_concat_map in Hx. destruct Hx as (l & Hl & Hx).
    destruct (F2_in_l _ _ _ HF l Hl) as (m' & Hm' & [_ HB]). eapply Rle_trans; [apply Hb, Hm'|apply HB, Hx].
Qed.

(** ** One axis *)
Lemma fix_ok a : a_lines a <> [] -> filled a ->
  exists a', fix_to_lines a = Ok a' /\ a_lines a' = a_lines a /\ framed (a_lines a) (a_lim a').
Proof.
  intros Hn Hf. unfold fix_to_lines.
  destruct (max_of_maxes lx (a_lines a) Hn ltac:(intros; apply Hf; assumption)) as (? & xM & -> & HxM & MxM).
  destruct (min_of_mins lx (a_lines a) Hn ltac:(intros; apply Hf; assumption)) as (? & xm & -> & Hxm & Mxm).
  destruct (max_of_maxes ly (a_lines a) Hn ltac:(intros; apply Hf; assumption)) as (? & yM & -> & HyM & MyM).
  destruct (min_of_mins ly (a_lines a) Hn ltac:(intros; apply Hf; assumption)) as (? & ym & -> & Hym & Mym).
  cbn [bind]. rewrite HxM, Hxm, HyM, Hym. cbn [bind].
  eexists. split; [reflexivity|]. cbn [a_lines a_lim]. split; [reflexivity|].
  eexists _, _. split; [reflexivity|]. split.
  - exists xm, xM. split; [exact Mxm|]. split; [exact MxM|]. cbn [fst snd]. lra.
  - exists ym, yM. split; [exact Mym|]. split; [exact MyM|]. cbn [fst snd]. lra.
Qed.

Lemma filter_filled a : filled a -> filter (fun l => negb (Nat.eqb (length (ly l)) 0)) (a_lines a) = a_lines a.
Proof.
  unfold filled. induction (a_lines a) as [|l ls IH]; intros H; [reflexivity|]. cbn [filter].
  destruct (H l (or_introl eq_refl)) as [_ N]. destruct (ly l) as [|y r] eqn:E; [congruence|].
  cbn [length Nat.eqb negb]. f_equal. apply IH. intros; apply H; right; assumption.
Qed.

Lemma vertical_ok n bps a : a_lines a <> [] -> filled a -> length bps = n ->
  exists lo hi, vertical_lines n bps a =
      Ok (mkaxis (a_lines a ++ map (fun t => mkline [t; t] [lo; hi]) bps) (a_lim a)) /\
    is_min lo (ys_of (a_lines a)) /\ is_max hi (ys_of (a_lines a)).
Proof.
  intros Hn Hf Hl. unfold vertical_lines. rewrite (filter_filled a Hf).
  destruct (max_of_maxes ly (a_lines a) Hn ltac:(intros; apply Hf; assumption)) as (? & yM & -> & HyM & MyM).
  destruct (min_of_mins ly (a_lines a) Hn ltac:(intros; apply Hf; assumption)) as (? & ym & -> & Hym & Mym).
  cbn [bind]. rewrite HyM, Hym. cbn [bind]. rewrite Hl.
  replace (n <? n)%nat with false by (symmetry; apply Nat.ltb_ge; lia).
  rewrite Nat.sub_diag. cbn [repeat]. rewrite app_nil_r. eauto.
Qed.

(** ** One row *)
Lemma mapM_nth {A B} (f : A -> outcome B) (P : A -> B -> Prop) :
  forall l, (forall a, In a l -> exists b, f a = Ok b /\ P a b) ->
  exists r, mapM f l = Ok r /\ Forall2 P l r.
Proof.
  induction l as [|a l IH]; intros H; cbn [mapM]; [exists []; auto|].
  destruct (H a (or_introl eq_refl)) as (b & -> & Hb).
  destruct IH as (r & -> & Hr); [intros; apply H; right; assumption|]. cbn [bind]. eauto.
Qed.
Lemma F2_nth {A B} (P : A -> B -> Prop) da db l r : Forall2 P l r ->
  forall j, (j < length l)%nat -> P (nth j l da) (nth j r db).
Proof.
  induction 1; intros j Hj; cbn in *; [lia|]. destruct j; [assumption|]. apply IHForall2. lia.
Qed.
Lemma F2_length {A B} (P : A -> B -> Prop) l r : Forall2 P l r -> length l = length r.
Proof. induction 1; cbn; congruence. Qed.

Lemma column_ok (vals : list (list R)) c j : Forall (fun r => length r = c) vals -> (j < c)%nat ->
  column vals j = Ok (map (fun r => nth j r 0) vals).
Proof.
  intros H Hj. unfold column. apply mapM_map. intros r Hr. rewrite Forall_forall in H. specialize (H r Hr).
  unfold index. rewrite (nth_error_nth' r 0) by lia. reflexivity.
Qed.

Lemma curve_lines_ok c row ts vals : length row = c -> Forall (fun r => length r = c) vals ->
  exists row', curve_lines c row ts vals = Ok row' /\ length row' = c /\
    forall j, (j < c)%nat -> nth j row' new_axis = add_line (mkline ts (map (fun r => nth j r 0) vals)) (nth j row new_axis).
Proof.
  intros Hl Hv. unfold curve_lines. rewrite Hl, Nat.eqb_refl. cbn [negb].
  rewrite (mapM_map _ (fun j => map (fun r => nth j r 0) vals)).
  2:{ intros j Hj. apply in_seq in Hj. apply (column_ok vals c); auto. lia. }
  cbn [bind]. eexists. split; [reflexivity|].
  assert (L : length (combine row (map (fun j => map (fun r => nth j r 0) vals) (seq 0 c))) = c).
  { rewrite combine_length, map_length, seq_length. lia. }
  rewrite map_length, L. split; [reflexivity|]. intros j Hj.
  set (f := fun ac : axis * list R => _).
  rewrite (nth_indep _ new_axis (f (new_axis, map (fun r => nth O r 0) vals))) by (rewrite map_length, L; exact Hj).
  rewrite map_nth. rewrite combine_nth by (rewrite map_length, seq_length; exact Hl).
  unfold f. cbn [fst snd]. f_equal. f_equal.
  change (map (fun r => nth 0 r 0) vals) with ((fun j => map (fun r : list R => nth j r 0) vals) O).
  rewrite map_nth, seq_nth by exact Hj. reflexivity.
Qed.

(** an axis after one order of one curve, before the waypoints *)
Definition half_drawn (q : plotted) (F : nat -> R -> list R) (D : nat -> R * R) (dt : R) (i j : nat) (old new : axis) : Prop :=
  exists ts lo hi, samples (fst (D i)) (snd (D i)) dt ts /\
    is_min lo (ys_of (a_lines old ++ [graph (F i) j ts])) /\
    is_max hi (ys_of (a_lines old ++ [graph (F i) j ts])) /\
    a_lines new = a_lines old ++ graph (F i) j ts :: map (fun t => mkline [t; t] [lo; hi]) (breaks_of q) /\
    framed (a_lines new) (a_lim new).

Lemma filled_add l a : filled a -> lx l <> [] -> ly l <> [] -> filled (add_line l a).
Proof. intros H X Y l' Hl. cbn in Hl. apply in_app_or in Hl. destruct Hl as [Hl|[<-|[]]]; auto. Qed.

Lemma half_filled q F D dt i j old new : fst (D i) < snd (D i) -> filled old -> half_drawn q F D dt i j old new -> filled new.
Proof.
  intros Hd Hf (ts & lo & hi & Hs & _ & _ & E & _) l Hl. rewrite E in Hl.
  pose proof (samples_ne _ _ _ _ Hd Hs) as N.
  apply in_app_or in Hl. destruct Hl as [Hl|[<-|Hl]]; auto.
  - cbn. split; [exact N|]. intros Z. apply map_eq_nil in Z. congruence.
  - apply in_map_iff in Hl. destruct Hl as (t & <- & _). cbn. split; discriminate.
Qed.

Section Row.
  Variables (q : plotted) (up_to : nat) (F : nat -> R -> list R) (D : nat -> R * R) (dt : R).
  Hypothesis Hp : plottable q up_to F D.
  Hypothesis Hdt : 0 < dt.

  Lemma vals_ok i ts : (i <= up_to)%nat -> Forall (fun r => length r = q_codom q) (map (F i) ts).
  Proof.
    intros Hi. apply Forall_forall. intros r Hr. apply in_map_iff in Hr. destruct Hr as (t & <- & _).
    apply (p_length _ _ _ _ Hp); exact Hi.
  Qed.

  Lemma plot_row_ok i row : (i <= up_to)%nat -> length row = q_codom q -> (forall a, In a row -> filled a) ->
    exists row', plot_row q dt i row = Ok row' /\ length row' = q_codom q /\
      forall j, (j < q_codom q)%nat -> half_drawn q F D dt i j (nth j row new_axis) (nth j row' new_axis).
  Proof.
    intros Hi Hl Hf. unfold plot_row.
    destruct (p_deriv _ _ _ _ Hp i Hi) as (c & -> & Ec & Ed & Ev & Eb). cbn [bind]. rewrite Ed.
    destruct (arange_ok (fst (D i)) (snd (D i)) dt Hdt) as (ts & -> & Hs). cbn [bind].
    rewrite Ev. cbn [bind]. rewrite Ec.
    pose proof (samples_ne _ _ _ _ (p_domain _ _ _ _ Hp i Hi) Hs) as N.
    destruct (curve_lines_ok (q_codom q) row ts (map (F i) ts) Hl (vals_ok i ts Hi)) as (row1 & -> & L1 & N1).
    cbn [bind].
    assert (G1 : forall j, (j < q_codom q)%nat ->
       a_lines (nth j row1 new_axis) = a_lines (nth j row new_axis) ++ [graph (F i) j ts] /\ filled (nth j row1 new_axis)).
    { intros j Hj. rewrite N1 by exact Hj. cbn [add_line a_lines]. rewrite map_map. split; [reflexivity|].
      apply filled_add; [apply Hf, nth_In; lia|exact N|]. cbn. intros Z. apply map_eq_nil in Z. congruence. }
    set (P := fun a a' : axis => exists lo hi, is_min lo (ys_of (a_lines a)) /\ is_max hi (ys_of (a_lines a)) /\
       a_lines a' = a_lines a ++ map (fun t => mkline [t; t] [lo; hi]) (breaks_of q)).
    assert (In1 : forall a, In a row1 -> a_lines a <> [] /\ filled a).
    { intros a Ha. destruct (In_nth _ _ new_axis Ha) as (j & Hj & <-). rewrite L1 in Hj. destruct (G1 j Hj) as [E K].
      split; [|exact K]. rewrite E. intros Z. apply app_eq_nil in Z. destruct Z; discriminate. }
    match goal with |- context [bind ?X _] => assert (R2 : exists row2, X = Ok row2 /\ Forall2 P row1 row2) end.
    { rewrite Eb. unfold P, breaks_of. destruct (q_spline q) as [[[n bps] wp]|] eqn:Es.
      - rewrite L1, Nat.eqb_refl. cbn [negb]. destruct (p_spline _ _ _ _ Hp _ _ _ Es) as (Lb & _ & _).
        apply mapM_nth. intros a Ha. destruct (In1 a Ha) as [Na Fa].
        destruct (vertical_ok (n + 1) bps a Na Fa Lb) as (lo & hi & E & Hlo & Hhi).
        eexists. split; [exact E|]. exists lo, hi. auto.
      - eexists. split; [reflexivity|]. clear - In1. induction row1 as [|a l IH]; constructor.
        + destruct (In1 a (or_introl eq_refl)) as [Na Fa].
          destruct (vertical_ok 0 [] a Na Fa eq_refl) as (lo & hi & _ & Hlo & Hhi).
          exists lo, hi. cbn [map]. rewrite app_nil_r. auto.
        + apply IH. intros; apply In1; right; assumption. }
    destruct R2 as (row2 & -> & F2). cbn [bind].
    assert (L2 : length row2 = q_codom q) by (rewrite <- (F2_length _ _ _ F2); exact L1).
    unfold on_first. replace (length row2 <? q_codom q)%nat with false by (symmetry; apply Nat.ltb_ge; lia).
    rewrite firstn_all2, skipn_all2 by lia.
    destruct (mapM_nth fix_to_lines (fun a a' => a_lines a' = a_lines a /\ framed (a_lines a) (a_lim a')) row2) as (row3 & -> & F3).
    { intros a Ha. destruct (F2_in_r _ _ _ F2 a Ha) as (a0 & Ha0 & (lo & hi & _ & _ & E)).
      destruct (In1 a0 Ha0) as [N0 F0].
      destruct (fix_ok a) as (a' & ? & ? & ?); [| |eauto].
      - rewrite E. intros Z. apply app_eq_nil in Z. tauto.
      - intros l Hl'. rewrite E in Hl'. apply in_app_or in Hl'. destruct Hl' as [Hl'|Hl']; [apply F0, Hl'|].
        apply in_map_iff in Hl'. destruct Hl' as (t & <- & _). split; discriminate. }
    cbn [bind]. rewrite app_nil_r. eexists. split; [reflexivity|].
    assert (L3 : length row3 = q_codom q) by (rewrite <- (F2_length _ _ _ F3); exact L2).
    split; [exact L3|]. intros j Hj.
    destruct (F2_nth _ new_axis new_axis _ _ F3 j ltac:(lia)) as [E3 Fr].
    destruct (F2_nth _ new_axis new_axis _ _ F2 j ltac:(lia)) as (lo & hi & Hlo & Hhi & E2).
    destruct (G1 j Hj) as [E1 _]. rewrite E1 in Hlo, Hhi, E2.
    exists ts, lo, hi. split; [exact Hs|]. split; [exact Hlo|]. split; [exact Hhi|].
    rewrite E3. split; [|exact Fr]. rewrite E2, <- app_assoc. reflexivity.
  Qed.

  (** ** The grid *)
  Lemma set_nth_length {A} (l : list A) i x : length (set_nth l i x) = length l.
  Proof. revert i; induction l as [|y l IH]; intros [|i]; cbn; auto. Qed.
  Lemma set_nth_same {A} (l : list A) i x d : (i < length l)%nat -> nth i (set_nth l i x) d = x.
  Proof. revert i; induction l as [|y l IH]; intros [|i] H; cbn in *; try lia; auto. apply IH. lia. Qed.
  Lemma set_nth_other {A} (l : list A) i k x d : i <> k -> nth k (set_nth l i x) d = nth k l d.
  Proof. revert i k; induction l as [|y l IH]; intros [|i] [|k] H; cbn; auto; try congruence. Qed.

  Lemma index_ok {A} (l : list A) i d : (i < length l)%nat -> index l i = Ok (nth i l d).
  Proof. intros H. unfold index. now rewrite (nth_error_nth' l d H). Qed.

  Lemma plot_in_axes_ok m : ready (q_codom q) up_to m ->
    exists m', plot_derivatives_in_axes q dt up_to m = Ok m' /\ drawn_grid q F D dt up_to m m' /\
      ready (q_codom q) up_to m'.
  Proof.
    intros [Hlen Hrow]. unfold plot_derivatives_in_axes.
    set (I := fun (n : nat) (m' : list (list axis)) => length m' = length m /\
      (forall i, (i < n)%nat -> length (nth i m' []) = q_codom q /\
         forall j, (j < q_codom q)%nat -> half_drawn q F D dt i j (nth j (nth i m []) new_axis) (nth j (nth i m' []) new_axis)) /\
      (forall i, (n <= i)%nat -> nth i m' [] = nth i m [])).
    destruct (for_ok I (fun i m => row <- index m i ;; row <- plot_row q dt i row ;; Ok (set_nth m i row)) 0 (S up_to) m) as (m1 & -> & L1 & D1 & U1).
    - lia.
    - split; [reflexivity|]. split; [intros; lia|auto].
    - intros i mi Hi (Li & Di & Ui).
      rewrite (index_ok mi i []) by lia. cbn [bind]. rewrite (Ui i) by lia.
      destruct (Hrow i ltac:(lia)) as [Hl Hf].
      destruct (plot_row_ok i (nth i m []) ltac:(lia) Hl Hf) as (row' & -> & L' & D'). cbn [bind].
      eexists. split; [reflexivity|]. split; [rewrite set_nth_length; exact Li|]. split.
      + intros k Hk. destruct (Nat.eq_dec k i) as [->|Hne].
        * rewrite set_nth_same by lia. split; assumption.
        * rewrite set_nth_other by congruence. apply Di. lia.
      + intros k Hk. rewrite set_nth_other by lia. apply Ui. lia.
    - cbn [bind]. rewrite (index_ok m1 0 []) by lia. cbn [bind].
      destruct (D1 O ltac:(lia)) as [L10 D10].
      assert (W : exists m2, (match q_spline q with
               | Some (_, bps, wp) => row0 <- curve_lines (length (hd [] wp)) (nth 0 m1 []) bps wp ;; Ok (set_nth m1 0 row0)
               | None => Ok m1 end) = Ok m2 /\ length m2 = length m /\
            (forall i, (0 < i)%nat -> nth i m2 [] = nth i m1 []) /\ length (nth 0 m2 []) = q_codom q /\
            forall j, (j < q_codom q)%nat -> a_lim (nth j (nth 0 m2 []) new_axis) = a_lim (nth j (nth 0 m1 []) new_axis) /\
              a_lines (nth j (nth 0 m2 []) new_axis) = a_lines (nth j (nth 0 m1 []) new_axis) ++
                match waypoints_of q with Some wp => [mkline (breaks_of q) (map (fun r => nth j r 0) wp)] | None => [] end).
      { unfold waypoints_of, breaks_of. destruct (q_spline q) as [[[n bps] wp]|] eqn:Es.
        - destruct (p_spline _ _ _ _ Hp _ _ _ Es) as (Lb & Lw & Fw).
          assert (Hh : length (hd [] wp) = q_codom q).
          { destruct wp as [|w wp]; [cbn in Lw; lia|]. inversion Fw; assumption. }
          rewrite Hh. destruct (curve_lines_ok (q_codom q) (nth 0 m1 []) bps wp L10 Fw) as (r0 & -> & Lr & Nr).
          cbn [bind]. eexists. split; [reflexivity|]. rewrite set_nth_length, set_nth_same by lia.
          split; [exact L1|]. split; [intros i Hi; rewrite set_nth_other by lia; reflexivity|]. split; [exact Lr|].
          intros j Hj. rewrite Nr by exact Hj. split; reflexivity.
        - eexists. split; [reflexivity|]. split; [exact L1|]. split; [auto|]. split; [exact L10|].
          intros j Hj. rewrite app_nil_r. split; reflexivity. }
      destruct W as (m2 & -> & L2 & O2 & L20 & N2). cbn [bind].
      rewrite (mapM_map _ (fun j => nth j (nth 0 m1 []) new_axis)).
      2:{ intros j Hj. apply in_seq in Hj. apply index_ok. lia. }
      cbn [bind].
      assert (Len : forall i, (i <= up_to)%nat -> length (nth i m2 []) = q_codom q).
      { intros [|i] Hi; [exact L20|]. rewrite O2 by lia. apply D1. lia. }
      rewrite (mapM_map _ (fun i => nth 0 (nth i m2 []) new_axis)).
      2:{ intros i Hi. apply in_seq in Hi. rewrite (index_ok m2 i []) by lia. cbn [bind]. apply index_ok.
          rewrite Len by lia. exact (p_codom _ _ _ _ Hp). }
      cbn [bind]. eexists. split; [reflexivity|].
      assert (Dr : drawn_grid q F D dt up_to m m2).
      { split; [exact L2|]. split; [exact Len|]. split.
        - intros i j Hi Hj. destruct (D1 i ltac:(lia)) as [_ Dij]. destruct (Dij j Hj) as (ts & lo & hi & Hs & Hlo & Hhi & E & Fr).
          exists ts, lo, hi. split; [exact Hs|]. split; [exact Hlo|]. split; [exact Hhi|]. cbv zeta. rewrite <- E.
          destruct i as [|i].
          + destruct (N2 j Hj) as [-> ->]. split; [reflexivity|exact Fr].
          + rewrite O2 by lia. rewrite app_nil_r. split; [reflexivity|exact Fr].
        - intros i Hi. rewrite O2 by lia. apply U1. lia. }
      split; [exact Dr|]. split; [lia|]. intros i Hi. split; [apply Len, Hi|].
      intros a Ha. destruct (In_nth _ _ new_axis Ha) as (j & Hj & <-). rewrite (Len i Hi) in Hj.
      destruct (D1 i ltac:(lia)) as [L1i D1i]. destruct (Hrow i Hi) as [Lmi Fmi].
      assert (Fj : filled (nth j (nth i m1 []) new_axis)).
      { eapply half_filled; [apply (p_domain _ _ _ _ Hp i Hi)| |apply D1i, Hj]. apply Fmi, nth_In. lia. }
      destruct i as [|i]; [|rewrite O2 by lia; exact Fj].
      intros l Hl. destruct (N2 j Hj) as [_ EN]. rewrite EN in Hl. apply in_app_or in Hl. destruct Hl as [Hl|Hl]; [apply Fj, Hl|].
      unfold waypoints_of, breaks_of in Hl. destruct (q_spline q) as [[[n bps] wp]|] eqn:Es; [|destruct Hl].
      destruct Hl as [<-|[]]. destruct (p_spline _ _ _ _ Hp _ _ _ Es) as (Lb & Lw & _). cbn. split.
      + intros ->. cbn in Lb. lia.
      + intros Z. apply map_eq_nil in Z. subst wp. cbn in Lw. lia.
  Qed.
End Row.

(** ** Grids made by subplots *)
Lemma nth_repeat_lt {A} (x d : A) n i : (i < n)%nat -> nth i (repeat x n) d = x.
Proof. revert i. induction n as [|n IH]; intros i H; [lia|]. destruct i; [reflexivity|]. apply IH. lia. Qed.

Lemma repeat_ready c u n : (u < n)%nat -> ready c u (repeat (repeat new_axis c) n).
Proof.
  intros H. split; [rewrite repeat_length; exact H|]. intros i Hi.
  rewrite (nth_repeat_lt (repeat new_axis c) [] n i) by lia. rewrite repeat_length. split; [reflexivity|].
  intros a Ha. apply repeat_spec in Ha. subst a. intros l [].
Qed.

Lemma subplots_good r c : (2 <= c)%nat \/ r = 1%nat -> (1 <= r)%nat -> (1 <= c)%nat ->
  atleast_2d (subplots r c) = repeat (repeat new_axis c) r.
Proof.
  intros H Hr Hc. destruct r as [|[|r]]; [lia| |]; (destruct c as [|[|c]]; [lia| |]); try reflexivity. lia.
Qed.
