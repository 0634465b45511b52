(** Threads that evaluate one spline, for any arithmetic. *)
From Coq Require Import List Arith Lia Bool ZArith.
From Verif Require Import Num Outcome LinAlg LegendreModel LagrangeModel Basis0101Model BasisModel ToolsModel GSplineModel GSplineProofs.
Import ListNotations.
Local Open Scope nat_scope.
Local Open Scope num_scope.

Lemma vec_of_list_is {T} (l : list T) (d : T) : vec_is (vec_of_list l) (length l) (fun i => nth i l d).
Proof. split; [reflexivity|]. intros i Hi. unfold vec_of_list. cbn [vget]. apply nth_error_nth'. exact Hi. Qed.

Section G.
Context {T : Type} `{HN : Num T}.

Fixpoint solo (g : gspline T) (k : nat) (st : vec T * thread T) : outcome (vec T * thread T) :=
  match k with O => Ok st | S k' => st <- th_step g st ;; solo g k' st end.
Lemma solo_app g j k st : solo g (j + k) st = (st <- solo g j st ;; solo g k st).
Proof. revert st. induction j as [|j IH]; intros st; cbn [Nat.add solo bind]; auto. destruct (th_step g st); cbn [bind]; auto. Qed.

(** the row of values at t *)
Definition grow (g : gspline T) (n codom : nat) (tf cf : nat -> T) (t : T) : list T :=
  map (gpt (gs_basis g) (fst (gs_dom g)) tf cf n codom t) (seq 0 codom).

(** components computed from a buffer filled for u, with the interval of t *)
Lemma solo_row g n codom tf cf t u ts buf out : gwf g n codom tf cf -> (1 <= n)%nat ->
  gint (fst (gs_dom g)) tf n t = gint (fst (gs_dom g)) tf n u ->
  vec_is buf (gs_dim g) (bval (gs_basis g) (gwin (fst (gs_dom g)) tf (gint (fst (gs_dom g)) tf n u) u) (tf (gint (fst (gs_dom g)) tf n u))) ->
  forall j, (j <= codom)%nat ->
  solo g j (buf, mkth (t :: ts) (Some (gint (fst (gs_dom g)) tf n t, [])) out) =
  Ok (buf, mkth (t :: ts) (Some (gint (fst (gs_dom g)) tf n t, map (gpt (gs_basis g) (fst (gs_dom g)) tf cf n codom u) (seq 0 j))) out).
Proof.
  intros W Hn Eg V. assert (Cg : gs_codom g = codom) by apply W. pose proof (gint_bound (fst (gs_dom g)) tf n t Hn) as Hi.
  induction j as [|j IH]; intros Hj; [reflexivity|].
  replace (S j) with (j + 1)%nat by lia. rewrite solo_app, IH by lia. cbn [bind solo th_step th_todo th_cur th_out].
  rewrite map_length, seq_length, Cg. destruct (Nat.ltb_spec j codom); [|lia].
  rewrite (component_gen g n codom tf cf _ _ _ j W Hi) by (auto; exact V). cbn [bind].
  rewrite seq_app, map_app. cbn [seq map Nat.add]. rewrite Eg. reflexivity.
Qed.
Lemma solo_block g n codom tf cf t ts buf out : gwf g n codom tf cf -> (1 <= n)%nat -> vlen buf = gs_dim g ->
  exists buf', vlen buf' = gs_dim g /\
    solo g (codom + 2) (buf, mkth (t :: ts) None out) = Ok (buf', mkth ts None (out ++ [grow g n codom tf cf t])).
Proof.
  intros W Hn L. assert (Cg : gs_codom g = codom) by apply W.
  destruct (fill_gen g n codom tf cf t buf W Hn L) as (buf' & E & V). exists buf'. split; [apply V|].
  replace (codom + 2)%nat with (1 + (codom + 1))%nat by lia. rewrite solo_app. cbn [solo th_step th_todo th_cur th_out].
  rewrite E. cbn [bind]. rewrite solo_app, (solo_row g n codom tf cf t t) by auto. cbn [bind solo th_step th_todo th_cur th_out].
  rewrite map_length, seq_length, Cg, Nat.ltb_irrefl. reflexivity.
Qed.
Lemma solo_done g k buf c out : solo g k (buf, mkth [] c out) = Ok (buf, mkth [] c out).
Proof. induction k; cbn; auto. Qed.
Lemma solo_all g n codom tf cf : gwf g n codom tf cf -> (1 <= n)%nat -> forall ts buf out k, vlen buf = gs_dim g ->
  ((codom + 2) * length ts <= k)%nat ->
  exists buf', vlen buf' = gs_dim g /\ solo g k (buf, mkth ts None out) = Ok (buf', mkth [] None (out ++ map (grow g n codom tf cf) ts)).
Proof.
  intros W Hn. induction ts as [|t ts IH]; intros buf out k L Hk; cbn [length map] in *.
  - exists buf. rewrite app_nil_r. split; [auto|]. apply solo_done.
  - destruct (solo_block g n codom tf cf t ts buf out W Hn L) as (b1 & L1 & E1).
    destruct (IH b1 (out ++ [grow g n codom tf cf t]) (k - (codom + 2))%nat L1) as (b2 & L2 & E2); [lia|].
    exists b2. split; auto. replace k with (codom + 2 + (k - (codom + 2)))%nat by lia. rewrite solo_app, E1. cbn [bind].
    rewrite E2, <- app_assoc. reflexivity.
Qed.

(** ** shared buffer, whole evaluations *)
Lemma shared_app g s s' st : shared_run g (s ++ s') st = (st <- shared_run g s st ;; shared_run g s' st).
Proof. revert st. induction s as [|w s IH]; intros st; cbn [app shared_run bind]; auto. destruct (shared_step g st w); cbn [bind]; auto. Qed.
Lemma shared_solo_true g k buf a b : shared_run g (repeat true k) (buf, a, b) = ('(buf', a') <- solo g k (buf, a) ;; Ok (buf', a', b)).
Proof.
  revert buf a. induction k as [|k IH]; intros buf a; cbn [repeat shared_run solo bind]; auto. unfold shared_step at 1.
  destruct (th_step g (buf, a)) as [[buf' a']| |]; cbn [bind]; auto.
Qed.
Lemma shared_solo_false g k buf a b : shared_run g (repeat false k) (buf, a, b) = ('(buf', b') <- solo g k (buf, b) ;; Ok (buf', a, b')).
Proof.
  revert buf b. induction k as [|k IH]; intros buf b; cbn [repeat shared_run solo bind]; auto. unfold shared_step at 1.
  destruct (th_step g (buf, b)) as [[buf' b']| |]; cbn [bind]; auto.
Qed.
Lemma one_block g n codom tf cf ts buf out : gwf g n codom tf cf -> (1 <= n)%nat -> vlen buf = gs_dim g ->
  exists buf', vlen buf' = gs_dim g /\ solo g (codom + 2) (buf, mkth ts None out) =
    Ok (buf', mkth (tl ts) None (out ++ map (grow g n codom tf cf) (firstn 1 ts))).
Proof.
  intros W Hn L. destruct ts as [|t ts].
  - exists buf. split; auto. cbn [firstn map tl]. rewrite app_nil_r. apply solo_done.
  - destruct (solo_block g n codom tf cf t ts buf out W Hn L) as (b' & L' & E). exists b'. split; auto.
Qed.
Lemma shared_atomic g n codom tf cf : gwf g n codom tf cf -> (1 <= n)%nat -> forall turns ta tb oa ob buf, vlen buf = gs_dim g ->
  (length ta <= count_occ bool_dec turns true)%nat -> (length tb <= count_occ bool_dec turns false)%nat ->
  exists buf', shared_run g (flat_map (fun w => repeat w (codom + 2)) turns) (buf, mkth ta None oa, mkth tb None ob) =
    Ok (buf', mkth [] None (oa ++ map (grow g n codom tf cf) ta), mkth [] None (ob ++ map (grow g n codom tf cf) tb)).
Proof.
  intros W Hn. induction turns as [|w turns IH]; intros ta tb oa ob buf L Ha Hb.
  - destruct ta, tb; simpl in Ha, Hb; try lia. exists buf. cbn. now rewrite !app_nil_r.
  - cbn [flat_map]. rewrite shared_app. destruct w.
    + rewrite shared_solo_true. destruct (one_block g n codom tf cf ta buf oa W Hn L) as (b1 & L1 & E1). rewrite E1. cbn [bind].
      destruct (IH (tl ta) tb (oa ++ map (grow g n codom tf cf) (firstn 1 ta)) ob b1 L1) as (b2 & E2).
      * cbn [count_occ] in Ha. destruct (bool_dec true true); [|congruence]. destruct ta; cbn in *; lia.
      * cbn [count_occ] in Hb. destruct (bool_dec true false); [congruence|]. lia.
      * exists b2. rewrite E2, <- app_assoc, <- map_app. destruct ta; reflexivity.
    + rewrite shared_solo_false. destruct (one_block g n codom tf cf tb buf ob W Hn L) as (b1 & L1 & E1). rewrite E1. cbn [bind].
      destruct (IH ta (tl tb) oa (ob ++ map (grow g n codom tf cf) (firstn 1 tb)) b1 L1) as (b2 & E2).
      * cbn [count_occ] in Ha. destruct (bool_dec false true); [congruence|]. lia.
      * cbn [count_occ] in Hb. destruct (bool_dec false false); [|congruence]. destruct tb; cbn in *; lia.
      * exists b2. rewrite E2, <- app_assoc, <- map_app. destruct tb; reflexivity.
Qed.
(** the interleaving that goes wrong *)
Lemma shared_race g n codom tf cf t u buf : gwf g n codom tf cf -> (1 <= n)%nat -> vlen buf = gs_dim g ->
  gint (fst (gs_dom g)) tf n t = gint (fst (gs_dom g)) tf n u ->
  exists buf' a b, shared_run g (true :: false :: repeat true (codom + 1)) (buf, th_start [t], th_start [u]) = Ok (buf', a, b) /\
    th_todo a = [] /\ th_out a = [grow g n codom tf cf u].
Proof.
  intros W Hn L Eg. assert (Cg : gs_codom g = codom) by apply W.
  change (true :: false :: repeat true (codom + 1)) with (([true] ++ [false]) ++ repeat true (codom + 1)).
  rewrite shared_app. cbn [app shared_run]. unfold shared_step, th_start. cbn [th_step th_todo th_cur th_out].
  destruct (fill_gen g n codom tf cf t buf W Hn L) as (b1 & E1 & V1). rewrite E1. cbn [bind th_step th_todo th_cur th_out].
  destruct (fill_gen g n codom tf cf u b1 W Hn) as (b2 & E2 & V2); [apply V1|]. rewrite E2. cbn [bind].
  rewrite shared_solo_true, solo_app, (solo_row g n codom tf cf t u) by auto. cbn [bind solo th_step th_todo th_cur th_out].
  rewrite map_length, seq_length, Cg, Nat.ltb_irrefl. cbn [bind]. eexists. eexists. eexists. split; [reflexivity|]. split; reflexivity.
Qed.

(** ** copies *)
Lemma private_solo g h sched : forall a b a' b', solo g (count_occ bool_dec sched true) a = Ok a' ->
  solo h (count_occ bool_dec sched false) b = Ok b' -> private_run g h sched (a, b) = Ok (a', b').
Proof.
  induction sched as [|w sched IH]; intros a b a' b' Ha Hb; cbn [private_run count_occ] in *.
  - cbn in Ha, Hb. congruence.
  - unfold private_step. destruct w.
    + destruct (bool_dec true true); [|congruence]. destruct (bool_dec true false); [congruence|]. cbn [solo] in Ha.
      apply bind_ok in Ha as (a1 & E & Ha). rewrite E. cbn [bind]. auto.
    + destruct (bool_dec false true); [congruence|]. destruct (bool_dec false false); [|congruence]. cbn [solo] in Hb.
      apply bind_ok in Hb as (b1 & E & Hb). rewrite E. cbn [bind]. auto.
Qed.
(** the rows of a matrix *)
Definition rows_of (m : mat T) : list (list (option T)) :=
  map (fun i => map (mget m i) (seq 0 (mcols m))) (seq 0 (mrows m)).
Lemma nth_map_seq {A} (l : list A) (f : A -> list (option T)) (d : A) : map f l = map (fun i => f (nth i l d)) (seq 0 (length l)).
Proof.
  induction l as [|x l IH]; cbn [map length seq nth]; auto. f_equal. rewrite <- seq_shift, map_map. exact IH.
Qed.
Lemma value_rows g n codom tf cf ts : gwf g n codom tf cf -> (1 <= n)%nat ->
  exists m, gs_value g (vec_of_list ts) = Ok m /\ rows_of m = map (map Some) (map (grow g n codom tf cf) ts).
Proof.
  intros W Hn. destruct (value_gen g n codom tf cf _ _ _ W Hn (vec_of_list_is ts n0)) as (m & E & R & C & G).
  exists m. split; auto. unfold rows_of. rewrite R, C, map_map, (nth_map_seq ts _ n0). apply map_ext_in. intros i Hi.
  apply in_seq in Hi. unfold grow. rewrite map_map. apply map_ext_in. intros j Hj. apply in_seq in Hj. apply G; lia.
Qed.
End G.
