(** C92: what is drawn after repeated updates. *)
From Coq Require Import List Arith Bool Reals Lia Lra.
From Verif Require Import Num Outcome PlotModel UpdateModel.
Import ListNotations.
Local Open Scope R_scope.

(** ** Specification *)
Definition lowest (l : list R) (x : R) : Prop := In x l /\ forall y, In y l -> x <= y.
Definition highest (l : list R) (x : R) : Prop := In x l /\ forall y, In y l -> y <= x.
(** the values of the curves after a program, read off its text *)
Fixpoint put {A} (l : list A) (k : nat) (x : A) : list A :=
  match l, k with [], _ => [] | _ :: r, O => x :: r | y :: r, S k' => y :: put r k' x end.
Definition shown_after (cur : list (list R)) (o : pop) : list (list R) := match o with PSet k _ ys => put cur k ys | PMark _ => cur end.
(** every value that was shown by a curve at some call that set vertical lines *)
Fixpoint ever (cur : list (list R)) (l : list pop) : list R :=
  match l with [] => [] | o :: r => (match o with PMark (_ :: _) => concat cur | _ => [] end) ++ ever (shown_after cur o) r end.
Definition nothing (n : nat) : list (list R) := repeat [] n.

(** ** Proofs *)
Lemma fold_max l : forall x, highest (x :: l) (fold_left Rmax l x).
Proof.
  induction l as [|a l IH]; intros x; cbn.
  - split; [left; reflexivity|]. intros y [->|[]]. lra.
  - destruct (IH (Rmax x a)) as (A & B). split.
    + destruct A as [A|A]; [|right; right; exact A]. rewrite <- A. unfold Rmax. destruct (Rle_dec x a); [right; left; reflexivity|left; reflexivity].
    + pose proof (B _ (or_introl eq_refl)) as M. intros y [<-|[<-|Y]]; [pose proof (Rmax_l x a); lra|pose proof (Rmax_r x a); lra|apply B; right; exact Y].
Qed.
Lemma fold_min l : forall x, lowest (x :: l) (fold_left Rmin l x).
Proof.
  induction l as [|a l IH]; intros x; cbn.
  - split; [left; reflexivity|]. intros y [->|[]]. lra.
  - destruct (IH (Rmin x a)) as (A & B). split.
    + destruct A as [A|A]; [|right; right; exact A]. rewrite <- A. unfold Rmin. destruct (Rle_dec x a); [left; reflexivity|right; left; reflexivity].
    + pose proof (B _ (or_introl eq_refl)) as M. intros y [<-|[<-|Y]]; [pose proof (Rmin_l x a); lra|pose proof (Rmin_r x a); lra|apply B; right; exact Y].
Qed.
Lemma put_ly l : forall k ts ys, map ly (set_nth l k (mkline ts ys)) = put (map ly l) k ys.
Proof. induction l as [|a l IH]; intros [|k] ts ys; cbn; try reflexivity. now rewrite IH. Qed.
(** the first vertical line spans everything that was ever recorded, the others at most that *)
Definition spans (p : panel) (H : list R) : Prop :=
  (H = [] /\ Forall (fun m => ly m = []) (p_marks p)) \/
  exists lo hi m r, lowest H lo /\ highest H hi /\ p_marks p = m :: r /\ ly m = [lo; hi] /\ Forall (fun m => forall y, In y (ly m) -> lo <= y <= hi) r.
Lemma drawn_split p : drawn p = concat (map ly (p_curves p)) ++ concat (map ly (p_marks p)).
Proof. unfold drawn. rewrite flat_map_app, !flat_map_concat_map. reflexivity. Qed.
Lemma empty_concat (l : list line) : Forall (fun m => ly m = []) l -> concat (map ly l) = [].
Proof. induction 1 as [|a l A B IH]; [reflexivity|]. cbn. rewrite A, IH. reflexivity. Qed.
Lemma fold_ne_spec l : l = [] \/ exists lo hi, fold_ne Rmin l = Ok lo /\ fold_ne Rmax l = Ok hi /\ lowest l lo /\ highest l hi.
Proof. destruct l as [|x l]; [auto|]. right. do 2 eexists. split; [reflexivity|]. split; [reflexivity|]. split; [apply fold_min|apply fold_max]. Qed.
Lemma mark_spans p H b bps : (1 <= length (p_marks p))%nat -> spans p H -> spans (fst (update_marks (b :: bps) p)) (H ++ concat (map ly (p_curves p))).
Proof.
  intros L X. set (C := concat (map ly (p_curves p))). unfold update_marks.
  assert (Eq : forall lo hi, lowest (drawn p) lo -> highest (drawn p) hi -> lowest (H ++ C) lo /\ highest (H ++ C) hi /\ (forall m y, In m (p_marks p) -> In y (ly m) -> lo <= y <= hi)).
  { intros lo hi Lo Hi. rewrite drawn_split in Lo, Hi. fold C in Lo, Hi.
    assert (In1 : forall m y, In m (p_marks p) -> In y (ly m) -> In y (C ++ concat (map ly (p_marks p)))).
    { intros m y Hm Hy. apply in_or_app. right. apply in_concat. exists (ly m). split; [apply in_map; exact Hm|exact Hy]. }
    assert (T3 : forall m y, In m (p_marks p) -> In y (ly m) -> lo <= y <= hi) by (intros m y Hm Hy; split; [apply Lo|apply Hi]; eapply In1; eauto).
    destruct X as [(-> & E)|(l0 & h0 & m & r & L0 & H0 & Em & Ey & Fr)].
    - rewrite (empty_concat _ E), app_nil_r in Lo, Hi. cbn [app]. auto.
    - assert (B : forall y, In y (concat (map ly (p_marks p))) -> l0 <= y <= h0).
      { intros y Hy. apply in_concat in Hy. destruct Hy as (z & Hz & Hy). apply in_map_iff in Hz. destruct Hz as (q & <- & Hq). rewrite Em in Hq. destruct Hq as [<-|Hq].
        - rewrite Ey in Hy. destruct L0 as (I0 & _). destruct H0 as (_ & J0). pose proof (J0 _ I0). destruct Hy as [<-|[<-|[]]]; lra.
        - rewrite Forall_forall in Fr. apply (Fr q Hq y Hy). }
      assert (Ml : In l0 (C ++ concat (map ly (p_marks p)))) by (apply (In1 m); [rewrite Em; left; reflexivity|rewrite Ey; left; reflexivity]).
      assert (Mh : In h0 (C ++ concat (map ly (p_marks p)))) by (apply (In1 m); [rewrite Em; left; reflexivity|rewrite Ey; right; left; reflexivity]).
      split; [|split; [|exact T3]].
      + split.
        * destruct Lo as (I1 & J1). apply in_app_or in I1. apply in_or_app. destruct I1 as [I1|I1]; [right; exact I1|]. left. pose proof (J1 _ Ml). pose proof (B _ I1). replace lo with l0 by lra. apply L0.
        * intros y Hy. apply in_app_or in Hy. destruct Hy as [Hy|Hy]; [pose proof (proj2 L0 y Hy); pose proof (proj2 Lo _ Ml); lra|apply Lo; apply in_or_app; left; exact Hy].
      + split.
        * destruct Hi as (I1 & J1). apply in_app_or in I1. apply in_or_app. destruct I1 as [I1|I1]; [right; exact I1|]. left. pose proof (J1 _ Mh). pose proof (B _ I1). replace hi with h0 by lra. apply H0.
        * intros y Hy. apply in_app_or in Hy. destruct Hy as [Hy|Hy]; [pose proof (proj2 H0 y Hy); pose proof (proj2 Hi _ Mh); lra|apply Hi; apply in_or_app; left; exact Hy]. }
  destruct (fold_ne_spec (drawn p)) as [Z|(lo & hi & E1 & E2 & Lo & Hi)].
  - rewrite Z. cbn [fold_ne fst]. rewrite drawn_split in Z. apply app_eq_nil in Z. destruct Z as (Z1 & Z2). fold C in Z1. rewrite Z1, app_nil_r. exact X.
  - rewrite E1, E2. cbn [fst]. destruct (Eq lo hi Lo Hi) as (A & B & D). right. destruct (p_marks p) as [|m0 r0] eqn:Em; [cbn in L; lia|].
    exists lo, hi. cbn [p_marks length firstn map app skipn]. do 2 eexists. split; [exact A|]. split; [exact B|]. split; [reflexivity|]. split; [reflexivity|].
    apply Forall_forall. intros m Hm y Hy. apply in_app_or in Hm. destruct Hm as [Hm|Hm].
    + apply in_map_iff in Hm. destruct Hm as (t & <- & _). cbn in Hy. assert (lo <= hi) by (destruct A as (_ & A); apply A; apply B). destruct Hy as [<-|[<-|[]]]; lra.
    + assert (Hm' : In m r0) by (rewrite <- (firstn_skipn (length bps) r0); apply in_or_app; right; exact Hm). apply (D m y); [right; exact Hm'|exact Hy].
Qed.
Lemma mark_length bps p : length (p_marks (fst (update_marks bps p))) = length (p_marks p) /\ p_curves (fst (update_marks bps p)) = p_curves p.
Proof.
  unfold update_marks. destruct (fold_ne Rmax (drawn p)); [destruct (fold_ne Rmin (drawn p))| |]; cbn; auto.
  split; [|reflexivity]. rewrite app_length, map_length, firstn_length, skipn_length. lia.
Qed.
Lemma steps_spans l : forall p H, (1 <= length (p_marks p))%nat -> spans p H ->
  spans (psteps p l) (H ++ ever (map ly (p_curves p)) l) /\ (1 <= length (p_marks (psteps p l)))%nat.
Proof.
  induction l as [|o l IH]; intros p H L X; [cbn; rewrite app_nil_r; auto|]. cbn [psteps fold_left ever]. rewrite app_assoc. destruct o as [k ts ys|bps].
  - rewrite app_nil_r. cbn [shown_after]. rewrite <- (put_ly (p_curves p) k ts ys). apply (IH (set_curve k ts ys p) H L X).
  - cbn [shown_after pstep]. destruct (mark_length bps p) as (M1 & M2). rewrite <- M2. apply IH; [rewrite M1; exact L|]. rewrite M2. destruct bps as [|b bps].
    + rewrite app_nil_r. unfold update_marks. destruct (fold_ne Rmax (drawn p)); [destruct (fold_ne Rmin (drawn p))| |]; try exact X. cbn. rewrite firstn_nil. cbn. destruct p; exact X.
    + apply mark_spans; auto.
Qed.
Lemma fresh_spans c m : spans (fresh_panel c m) [].
Proof. left. split; [reflexivity|]. cbn. apply Forall_forall. intros x Hx. apply repeat_spec in Hx. rewrite Hx. reflexivity. Qed.
Lemma fresh_curves c m : map ly (p_curves (fresh_panel c m)) = nothing c.
Proof. cbn. unfold nothing. induction c; [reflexivity|]. cbn. now rewrite IHc. Qed.

(** The vertical lines that a call has set reach from the lowest to the highest value that any curve has shown at this or an earlier
    call. *)
Theorem C92_span curves marks l b bps : (1 <= marks)%nat -> let h := l ++ [PMark (b :: bps)] in let p := psteps (fresh_panel curves marks) h in
  (ever (nothing curves) h = [] /\ Forall (fun m => ly m = []) (p_marks p)) \/
  exists lo hi, lowest (ever (nothing curves) h) lo /\ highest (ever (nothing curves) h) hi /\
  forall k t, nth_error (b :: bps) k = Some t -> (k < marks)%nat -> nth_error (p_marks p) k = Some (mkline [t; t] [lo; hi]).
Proof.
  intros L h p. destruct (steps_spans h (fresh_panel curves marks) []) as (X & _); [cbn; rewrite repeat_length; lia|apply fresh_spans|]. rewrite fresh_curves in X. cbn [app] in X. fold p in X.
  destruct X as [X|(lo & hi & m & r & Lo & Hi & Em & Ey & _)]; [left; exact X|]. right. exists lo, hi. split; [exact Lo|]. split; [exact Hi|]. intros k t Hk Hm.
  assert (Ep : p = fst (update_marks (b :: bps) (psteps (fresh_panel curves marks) l))) by (unfold p, h, psteps; rewrite fold_left_app; reflexivity).
  assert (Ml : forall l' q, length (p_marks (psteps q l')) = length (p_marks q)).
  { induction l' as [|o l' IH]; intros q; [reflexivity|]. cbn [psteps fold_left]. etransitivity; [apply IH|]. destruct o; [reflexivity|apply mark_length]. }
  pose proof (Ml l (fresh_panel curves marks)) as Lm. cbn [fresh_panel p_marks] in Lm. rewrite repeat_length in Lm. set (q := psteps (fresh_panel curves marks) l) in *.
  unfold update_marks in Ep. destruct (fold_ne_spec (drawn q)) as [Z|(lo' & hi' & E1 & E2 & _ & _)].
  - exfalso. rewrite Z in Ep. cbn [fold_ne fst] in Ep. rewrite Ep in Em. rewrite drawn_split in Z. apply app_eq_nil in Z. destruct Z as (_ & Z). rewrite Em in Z. cbn in Z. rewrite Ey in Z. discriminate.
  - rewrite E1, E2 in Ep. cbn [fst] in Ep. assert (F : lo' = lo /\ hi' = hi). { rewrite Ep in Em. cbn [p_marks] in Em. rewrite Lm in Em. destruct marks as [|mk]; [lia|]. cbn in Em. injection Em as Em _. rewrite <- Em in Ey. cbn in Ey. injection Ey as -> ->. auto. }
    destruct F as (-> & ->). rewrite Ep. cbn [p_marks]. rewrite Lm. assert (Lk : (k < length (b :: bps))%nat) by (apply nth_error_Some; congruence).
    rewrite nth_error_app1 by (rewrite map_length, firstn_length; lia). rewrite nth_error_map.
    replace (nth_error (firstn marks (b :: bps)) k) with (Some t); [reflexivity|]. rewrite <- Hk. symmetry. clear -Hm. revert k Hm. generalize (b :: bps). induction marks as [|mk IH]; intros l0 k Hm; [lia|]. destruct l0 as [|x l0]; [reflexivity|]. destruct k; [reflexivity|]. cbn. apply IH. lia.
Qed.
(** At the first call they span what is drawn. *)
Theorem C92_first curves marks l b bps : (1 <= marks)%nat -> (forall o, In o l -> match o with PMark (_ :: _) => False | _ => True end) ->
  let shown := concat (fold_left shown_after l (nothing curves)) in shown <> [] ->
  exists lo hi, lowest shown lo /\ highest shown hi /\ nth_error (p_marks (psteps (fresh_panel curves marks) (l ++ [PMark (b :: bps)]))) 0 = Some (mkline [b; b] [lo; hi]).
Proof.
  intros L N shown Hs. assert (E : forall c, ever c (l ++ [PMark (b :: bps)]) = concat (fold_left shown_after l c)).
  { clear Hs shown. induction l as [|o l IH]; intros c; [cbn; rewrite app_nil_r; reflexivity|]. cbn [app ever fold_left]. rewrite IH by (intros o' Ho'; apply N; right; exact Ho'). pose proof (N o (or_introl eq_refl)) as Q. destruct o as [k ts ys|[|x y]]; [reflexivity|reflexivity|destruct Q]. }
  destruct (C92_span curves marks l b bps L) as [(Z & _)|(lo & hi & Lo & Hi & K)]; rewrite E in *; [contradiction|]. exists lo, hi. split; [exact Lo|]. split; [exact Hi|]. apply K; [reflexivity|lia].
Qed.
(** With as many breakpoints as lines, the lines stand at the breakpoints. *)
Theorem C92_positions p bps p' : update_marks bps p = (p', Ok tt) -> length bps = length (p_marks p) -> map lx (p_marks p') = map (fun t => [t; t]) bps.
Proof.
  unfold update_marks. destruct (fold_ne Rmax (drawn p)) as [hi| |]; [destruct (fold_ne Rmin (drawn p)) as [lo| |]| |]; try discriminate. intros E L. injection E as <- _. cbn [p_marks].
  rewrite <- L, firstn_all, L, skipn_all, app_nil_r, map_map. reflexivity.
Qed.
(** If no axis raises, each is updated. *)
Theorem C92_axes bps l l' : each (update_marks bps) l = (l', Ok tt) -> Forall2 (fun p p' => update_marks bps p = (p', Ok tt)) l l'.
Proof.
  revert l'. induction l as [|p l IH]; intros l' E; [injection E as <-; constructor|]. cbn in E. destruct (update_marks bps p) as [p1 [[]| |]] eqn:Ep; [|discriminate..].
  injection E as <- E. constructor; [exact Ep|]. apply IH. rewrite <- E. apply surjective_pairing.
Qed.
(** REFUTED (the vertical lines span the curve that is shown): the ranges of earlier curves remain in them. *)
Definition two_curves : list pop := [PSet 0 [0; 1] [0; 10]; PMark [1]; PSet 0 [0; 1] [0; 1]; PMark [1]].
Theorem C92_range_refuted : exists p m, p = psteps (fresh_panel 1 1) two_curves /\ map ly (p_curves p) = [[0; 1]] /\ nth_error (p_marks p) 0 = Some m /\ ly m = [0; 10].
Proof.
  destruct (C92_span 1 1 [PSet 0 [0; 1] [0; 10]; PMark [1]; PSet 0 [0; 1] [0; 1]] 1 []) as [(Z & _)|(lo & hi & Lo & Hi & K)]; [lia|discriminate|].
  cbn in Lo, Hi. destruct Lo as (I1 & J1). destruct Hi as (I2 & J2). pose proof (J1 0 ltac:(simpl; auto)) as A. pose proof (J2 10 ltac:(simpl; auto)) as B.
  assert (H : lo = 0 /\ hi = 10) by (split; [clear -I1 A; simpl in I1|clear -I2 B; simpl in I2]; intuition lra). clear I1 J1 I2 J2 A B.
  destruct H as (-> & ->). do 2 eexists. split; [reflexivity|]. split; [|split; [apply (K 0%nat 1); [reflexivity|lia]|reflexivity]].
  unfold two_curves, psteps. cbn [fold_left pstep]. rewrite (proj2 (mark_length _ _)). unfold set_curve. rewrite (proj2 (mark_length _ _)). reflexivity.
Qed.
(** REFUTED (only the breakpoints given last are marked): with fewer breakpoints than before the remaining lines stay. *)
Theorem C92_stale_refuted p bps p' k m : update_marks bps p = (p', Ok tt) -> (length bps <= k)%nat -> nth_error (p_marks p) k = Some m -> nth_error (p_marks p') k = Some m.
Proof.
  unfold update_marks. destruct (fold_ne Rmax (drawn p)) as [hi| |]; [destruct (fold_ne Rmin (drawn p)) as [lo| |]| |]; try discriminate. intros E L M. injection E as <- _. cbn [p_marks].
  assert (Lk : (k < length (p_marks p))%nat) by (apply nth_error_Some; congruence). rewrite nth_error_app2 by (rewrite map_length, firstn_length; lia). rewrite map_length, firstn_length, Nat.min_r by lia.
  rewrite <- M. rewrite <- (firstn_skipn (length bps) (p_marks p)) at 2. rewrite nth_error_app2 by (rewrite firstn_length; lia). rewrite firstn_length, Nat.min_l by lia. reflexivity.
Qed.
(** An axis without data raises, and nothing changes; too many breakpoints raise after all lines have been set. *)
Theorem C92_refusals bps p : (drawn p = [] -> update_marks bps p = (p, Throw InvalidArgument)) /\
  (drawn p <> [] -> (length (p_marks p) < length bps)%nat -> snd (update_marks bps p) = Throw OutOfRange /\ map lx (p_marks (fst (update_marks bps p))) = map (fun t => [t; t]) (firstn (length (p_marks p)) bps)).
Proof.
  split; unfold update_marks.
  - intros ->. reflexivity.
  - intros N L. destruct (fold_ne_spec (drawn p)) as [Z|(lo & hi & E1 & E2 & _ & _)]; [contradiction|]. rewrite E1, E2. cbn [fst snd p_marks]. rewrite (proj2 (Nat.ltb_lt _ _) L). split; [reflexivity|].
    rewrite map_app, map_map, skipn_all2 by lia. cbn. rewrite app_nil_r. reflexivity.
Qed.
Example C92_case : (forall o, In o [PSet 0 [0; 1] [2; 5]] -> match o with PMark (_ :: _) => False | _ => True end) /\ concat (fold_left shown_after [PSet 0 [0; 1] [2; 5]] (nothing 1)) = [2; 5].
Proof. split; [intros o [<-|[]]; exact I|reflexivity]. Qed.
Example C92_stale_case : exists p p' m, update_marks [1] p = (p', Ok tt) /\ nth_error (p_marks p) 1 = Some m /\ lx m = [2; 2].
Proof. exists (mkpanel [mkline [0] [3]] [mkline [1; 1] [3; 3]; mkline [2; 2] [3; 3]]). do 2 eexists. split; [reflexivity|]. split; reflexivity. Qed.
