From Coq Require Import List Arith Bool Lia Reals.
From Verif Require Import Num Outcome FunModel FunSpec HeapModel HeapSpec HeapProofs HeapProofs2 HeapProofs3.
Import ListNotations.

(** ** Nodes point to older nodes only *)
Section Older.
Context {T : Type} `{N : Num T}.
Definition below (n : nat) (ps : list ptr) : Prop := forall b, In (Some b) ps -> b < n.
Definition node_args (n : node T) : list ptr := match n with NLeaf _ => [] | NExpr _ _ _ ps => ps end.
Definition older (h : heap T) : Prop := forall a n, nth_error h a = Some n -> below a (node_args n).
Definition tidy (s : state T) : Prop :=
  older (st_heap s) /\ forall x o, nth_error (st_vars s) x = Some o -> below (length (st_heap s)) (o_args o).
Lemma below_le n m ps : n <= m -> below n ps -> below m ps.
Proof. intros L B b I. specialize (B b I). lia. Qed.
Lemma below_app n p q : below n p -> below n q -> below n (p ++ q).
Proof. intros A B b I. apply in_app_or in I as [I|I]; auto. Qed.
Lemma below_nil n : below n []. Proof. intros b []. Qed.
Lemma older_new h n : older h -> below (length h) (node_args n) -> older (h ++ [n]).
Proof.
  intros O B a m E. destruct (Nat.lt_ge_cases a (length h)).
  - rewrite nth_error_app1 in E by lia. eauto.
  - rewrite nth_error_app2 in E by lia. destruct (a - length h) as [|[|k]] eqn:Q; try discriminate. injection E as <-.
    apply below_le with (2 := B). lia.
Qed.
Definition fine (h : heap T) (r : heap T * list ptr) : Prop :=
  older (fst r) /\ below (length (fst r)) (snd r) /\ length h <= length (fst r).
Lemma clone_list_fine cl : (forall h p h' q, older h -> cl h p = Ok (h', q) -> fine h (h', [q])) ->
  forall ps h h' qs, older h -> clone_list cl h ps = Ok (h', qs) -> fine h (h', qs).
Proof.
  intros C. induction ps as [|p ps IH]; simpl; intros h h' qs O E.
  - injection E as <- <-. split; auto. split; [apply below_nil|]. simpl. lia.
  - apply bind_ok in E as ((h1 & q) & E1 & E). apply bind_ok in E as ((h2 & qs') & E2 & E). injection E as <- <-.
    apply C in E1 as (O1 & B1 & L1); auto. apply IH in E2 as (O2 & B2 & L2); auto. simpl in *. split; auto. split; simpl; [|lia].
    apply (below_app _ [q] qs'); auto. eapply below_le; eassumption.
Qed.
Lemma clone_n_fine n : forall h p h' q, older h -> clone_n n h p = Ok (h', q) -> fine h (h', [q]).
Proof.
  induction n as [|n IH]; intros h p h' q O E; [discriminate|]. destruct p as [a|]; [|discriminate].
  simpl in E. apply bind_ok in E as (nd & E1 & E). destruct nd as [f|ty d c ps].
  - injection E as <- <-. split; simpl; [|rewrite app_length; simpl; split; [|lia]].
    + apply older_new; auto. apply below_nil.
    + intros b [I|[]]. injection I as <-. lia.
  - apply bind_ok in E as ((h1 & qs) & E2 & E). apply (clone_list_fine _ IH) in E2 as (O1 & B1 & L1); auto. simpl in *.
    injection E as <- <-. split; simpl; [|rewrite app_length; simpl; split; [|lia]].
    + apply older_new; auto.
    + intros b [I|[]]. injection I as <-. lia.
Qed.
Lemma clone_all_fine h ps h' qs : older h -> clone_all h ps = Ok (h', qs) -> fine h (h', qs).
Proof. apply clone_list_fine. intros ? ? ? ?. apply clone_n_fine. Qed.
Definition kept (s : state T) (r : state T * list ptr) : Prop :=
  tidy (fst r) /\ below (length (st_heap (fst r))) (snd r) /\ length (st_heap s) <= length (st_heap (fst r)).
Lemma tidy_set s x o h : tidy s -> older h -> length (st_heap s) <= length h -> below (length h) (o_args o) ->
  tidy (mkstate h (set_nth (st_vars s) x o)).
Proof.
  intros (O & V) Oh L B. split; auto. simpl. intros y p E. destruct (Nat.eq_dec x y) as [<-|ne].
  - destruct (Nat.lt_ge_cases x (length (st_vars s))).
    + rewrite set_nth_same in E by lia. injection E as <-. exact B.
    + apply nth_lt in E. rewrite set_nth_length in E. lia.
  - rewrite set_nth_other in E by exact ne. eapply below_le; [exact L|]. eapply V; eassumption.
Qed.
Lemma tidy_grow s h : tidy s -> older h -> length (st_heap s) <= length h -> tidy (mkstate h (st_vars s)).
Proof. intros (O & V) Oh L. split; auto. simpl. intros y p E. eapply below_le; [exact L|]. eapply V; eassumption. Qed.
Lemma tidy_declare s o : tidy s -> below (length (st_heap s)) (o_args o) -> tidy (declare s o).
Proof.
  intros (O & V) B. split; auto. simpl. intros x p E. destruct (Nat.lt_ge_cases x (length (st_vars s))).
  - rewrite nth_error_app1 in E by lia. eauto.
  - rewrite nth_error_app2 in E by lia. destruct (x - length (st_vars s)) as [|[|k]]; try discriminate. injection E as <-. exact B.
Qed.
Lemma clone_var_kept s x s' q : tidy s -> clone_var s x = Ok (s', q) -> kept s (s', [q]).
Proof.
  intros Ti. unfold clone_var. intros E. apply bind_ok in E as (o & E1 & E). apply bind_ok in E as ((h & qs) & E2 & E).
  apply clone_all_fine in E2 as (O1 & B1 & L1); [|apply Ti]. simpl in *. injection E as <- <-.
  split; simpl; [|rewrite app_length; simpl; split; [|lia]].
  - apply tidy_grow; auto; [apply older_new; auto|rewrite app_length; lia].
  - intros b [I|[]]. injection I as <-. lia.
Qed.
Lemma move_clone_var_kept s x s' q : tidy s -> move_clone_var s x = Ok (s', q) -> kept s (s', [q]).
Proof.
  intros Ti. unfold move_clone_var. intros E. apply bind_ok in E as (o & E1 & E). apply getv_ok in E1. simpl in *. injection E as <- <-.
  split; simpl; [|rewrite app_length; simpl; split; [|lia]].
  - apply tidy_set; auto; [apply older_new; [apply Ti|eapply Ti; eassumption]|rewrite app_length; lia|apply below_nil].
  - intros b [I|[]]. injection I as <-. lia.
Qed.
Lemma below_none n (ps : list ptr) : below n (map (fun _ => None) ps).
Proof. intros b I. apply in_map_iff in I as (? & ? & _). discriminate. Qed.
Lemma take_kept fl s a s' qs : tidy s -> take fl s a = Ok (s', qs) -> kept s (s', qs).
Proof.
  intros Ti. destruct a as (mv, x). unfold take. intros E. apply bind_ok in E as (o & E1 & E). apply getv_ok in E1. destruct (fl (o_ty o)).
  - destruct mv.
    + injection E as <- <-. split; simpl; [|split; [eapply Ti; eassumption|lia]]. apply tidy_set; auto; [apply Ti|apply below_none].
    + apply bind_ok in E as ((h & qs') & E2 & E). injection E as <- <-. apply clone_all_fine in E2 as (O1 & B1 & L1); [|apply Ti].
      split; simpl; auto. apply tidy_grow; auto.
  - apply bind_ok in E as ((s1 & q) & E2 & E). injection E as <- <-.
    destruct mv; [eapply move_clone_var_kept|eapply clone_var_kept]; eassumption.
Qed.
Lemma all_args_kept s a s' qs : tidy s -> all_args s a = Ok (s', qs) -> kept s (s', qs).
Proof.
  intros Ti. unfold all_args. intros E. apply bind_ok in E as (o & E1 & E). apply getv_ok in E1. destruct (fst a).
  - injection E as <- <-. split; simpl; [|split; [eapply Ti; eassumption|lia]]. apply tidy_set; auto; [apply Ti|apply below_nil].
  - apply bind_ok in E as ((h & qs') & E2 & E). injection E as <- <-. apply clone_all_fine in E2 as (O1 & B1 & L1); [|apply Ti].
    split; simpl; auto. apply tidy_grow; auto.
Qed.
Lemma take2_tidy fl s a b s1 s2 p1 p2 : tidy s -> take fl s a = Ok (s1, p1) -> take fl s1 b = Ok (s2, p2) ->
  tidy s2 /\ below (length (st_heap s2)) p1 /\ below (length (st_heap s2)) p2.
Proof.
  intros Ti E1 E2. apply take_kept in E1 as (T1 & B1 & L1); auto. apply take_kept in E2 as (T2 & B2 & L2); auto. simpl in *.
  repeat split; try apply T2; auto. eapply below_le; eassumption.
Qed.
Lemma exec_bin_tidy s a b : tidy s ->
  (forall s', h_add s a b = Ok s' -> tidy s') /\ (forall s', h_mul s a b = Ok s' -> tidy s') /\
  (forall s', h_compose s a b = Ok s' -> tidy s') /\ (forall s', h_concat s a b = Ok s' -> tidy s').
Proof.
  intros Ti. refine (conj _ (conj _ (conj _ _))); intros s' E.
  1-2: unfold h_add, h_mul in E; apply bind_ok in E as (o1 & _ & E); apply bind_ok in E as (o2 & _ & E);
    apply bind_ok in E as (_ & _ & E); apply bind_ok in E as ((s1 & p1) & E1 & E);
    apply bind_ok in E as ((s2 & p2) & E2 & E); injection E as <-;
    destruct (take2_tidy _ _ _ _ _ _ _ _ Ti E1 E2) as (T2 & B1 & B2); apply tidy_declare; auto; apply below_app; auto.
  - unfold h_compose in E. apply bind_ok in E as (o1 & _ & E). apply bind_ok in E as (o2 & _ & E).
    apply bind_ok in E as (_ & _ & E). destruct (fst a && _).
    + apply bind_ok in E as ((s1 & p2) & E2 & E). apply bind_ok in E as (o1' & E3 & E). injection E as <-.
      apply take_kept in E2 as (T2 & B2 & L2); auto. apply getv_ok in E3. simpl in *. apply tidy_declare.
      * apply tidy_set; auto; [apply T2|apply below_nil].
      * apply below_app; auto. eapply T2; eassumption.
    + apply bind_ok in E as ((s1 & p1) & E1 & E). apply bind_ok in E as ((s2 & p2) & E2 & E). injection E as <-.
      destruct (take2_tidy _ _ _ _ _ _ _ _ Ti E1 E2) as (T2 & B1 & B2); apply tidy_declare; auto; apply below_app; auto.
  - unfold h_concat in E. apply bind_ok in E as (o1 & _ & E). apply bind_ok in E as (o2 & _ & E).
    apply bind_ok in E as (_ & _ & E). destruct (fst a); [destruct (ftype_eqb _ _)|].
    + destruct (Nat.eqb _ _); [discriminate|].
      apply bind_ok in E as ((s1 & p2) & E2 & E). apply bind_ok in E as (o1' & E3 & E). injection E as <-.
      apply take_kept in E2 as (T2 & B2 & L2); auto. apply getv_ok in E3. simpl in *. apply tidy_declare.
      * apply tidy_set; auto; [apply T2|apply below_nil].
      * apply below_app; auto. eapply T2; eassumption.
    + apply bind_ok in E as ((s1 & p1) & E1 & E). apply bind_ok in E as ((s2 & p2) & E2 & E). injection E as <-.
      destruct (take2_tidy _ _ _ _ _ _ _ _ Ti E1 E2) as (T2 & B1 & B2); apply tidy_declare; auto; apply below_app; auto.
    + apply bind_ok in E as ((s1 & p1) & E1 & E). apply bind_ok in E as ((s2 & p2) & E2 & E). injection E as <-.
      destruct (take2_tidy _ _ _ _ _ _ _ _ Ti E1 E2) as (T2 & B1 & B2); apply tidy_declare; auto; apply below_app; auto.
Qed.
Lemma h_neg_tidy s a s' : tidy s -> h_neg s a = Ok s' -> tidy s'.
Proof.
  unfold h_neg. intros Ti E. apply bind_ok in E as (o & _ & E). apply bind_ok in E as ((s1 & p) & E1 & E). injection E as <-.
  apply all_args_kept in E1 as (T1 & B1 & _); auto. apply tidy_declare; auto.
Qed.
Lemma h_new_tidy s f s' : tidy s -> h_new s f = Ok s' -> tidy s'.
Proof.
  unfold h_new. intros Ti E. injection E as <-. apply tidy_declare.
  - apply tidy_grow; auto; [apply older_new; [apply Ti|apply below_nil]|rewrite app_length; lia].
  - simpl. rewrite app_length. simpl. intros b [I|[]]. injection I as <-. lia.
Qed.
Lemma h_iop_tidy op s x b s' : tidy s -> h_iop op s x b = Ok s' -> tidy s'.
Proof.
  unfold h_iop. intros Ti E. apply bind_ok in E as (o & E0 & E). apply getv_ok in E0.
  match goal with HH : bind (if fst b then move_clone_var ?S1 _ else _) _ = _ |- _ => set (s1 := S1) in * end.
  assert (M : tidy s1).
  { subst s1. destruct (ftype_eqb (o_ty o) UNIQUE); [|destruct (ftype_eqb (o_ty o) op); [exact Ti|]].
    - apply tidy_set; auto; [apply Ti|]. simpl. apply (proj2 Ti _ _ E0).
    - simpl. apply tidy_set; auto; rewrite ?app_length; cbn [length]; [|lia|].
      + apply older_new; [apply Ti|]. eapply Ti; eassumption.
      + intros c [I|[]]. injection I as <-. lia. }
  clearbody s1. apply bind_ok in E as ((s2 & q) & E2 & E). apply bind_ok in E as (o2 & E3 & E). injection E as <-.
  assert (K : kept s1 (s2, [q])) by (destruct (fst b); [eapply move_clone_var_kept|eapply clone_var_kept]; eassumption).
  destruct K as (T2 & B2 & _). apply getv_ok in E3. simpl in *. apply tidy_set; auto; [apply T2|]. apply below_app; auto. eapply T2; eassumption.
Qed.
Lemma exec_tidy s c s' : tidy s -> exec s c = Ok s' -> tidy s'.
Proof.
  intros Ti. destruct c as [f|a|a|k a b|v b|x b|x b]; simpl.
  - apply h_new_tidy; auto.
  - unfold h_copy. intros E. apply bind_ok in E as (o & _ & E). apply bind_ok in E as ((s1 & p) & E1 & E). injection E as <-.
    apply all_args_kept in E1 as (T1 & B1 & _); auto. apply tidy_declare; auto.
  - apply h_neg_tidy; auto.
  - destruct k; try (apply (exec_bin_tidy s a b Ti)).
    unfold h_sub. intros E. apply bind_ok in E as (o1 & _ & E). apply bind_ok in E as (o2 & _ & E).
    apply bind_ok in E as (_ & _ & E). apply bind_ok in E as (s1 & E1 & E).
    apply h_neg_tidy in E1; auto. exact (proj1 (exec_bin_tidy s1 _ _ E1) _ E).
  - unfold h_scal. intros E. apply bind_ok in E as (o1 & _ & E). apply bind_ok in E as (s1 & E1 & E).
    apply h_new_tidy in E1; auto. exact (proj1 (proj2 (exec_bin_tidy s1 _ _ E1)) _ E).
  - apply h_iop_tidy; auto.
  - apply h_iop_tidy; auto.
Qed.
Lemma run_tidy p : forall s s', tidy s -> run s p = Ok s' -> tidy s'.
Proof.
  induction p as [|c p IH]; simpl; intros s s' Ti E; [injection E as <-; auto|].
  apply bind_ok in E as (s1 & E1 & E). eapply IH; [|eassumption]. eapply exec_tidy; eassumption.
Qed.
Lemma tidy_start : tidy start.
Proof. split; [intros [|a] ?|intros [|a] ?]; discriminate. Qed.
End Older.

(** ** Trees *)
Definition grows (v : option (expr R)) (t : option prog) : Prop :=
  match t, v with Some p, Some e => build p = Ok e | None, None => True | _, _ => False end.
Definition shown := Forall2 grows.
Lemma shown_nth vs ts x p : shown vs ts -> tree_of ts x = Some p -> exists e, value_of vs x = Some e /\ build p = Ok e.
Proof.
  unfold tree_of, value_of. intros F. revert x. induction F as [|v t vs ts G F IH]; intros [|x]; simpl; try discriminate; auto.
  destruct t as [q|]; [|discriminate]. intros E. injection E as ->. destruct v as [e|]; [|destruct G]. simpl in G. eauto.
Qed.
Lemma shown_set vs ts x v t : shown vs ts -> grows v t -> shown (set_nth vs x v) (set_nth ts x t).
Proof. intros F G. revert x. induction F as [|u w us ws K F IH]; intros [|x]; simpl; constructor; auto. apply IH. Qed.
Lemma shown_used vs ts a : shown vs ts -> shown (used a vs) (used a ts).
Proof. intros F. unfold used. destruct (fst a); auto. rewrite !forget_set. apply shown_set; auto. exact I. Qed.
Lemma shown_update vs ts x e p : shown vs ts -> build p = Ok e -> shown (update vs x e) (update ts x p).
Proof. intros F G. rewrite !update_set. apply shown_set; auto. Qed.
Lemma shown_snoc vs ts v t : shown vs ts -> grows v t -> shown (vs ++ [v]) (ts ++ [t]).
Proof. intros F G. apply Forall2_app; auto. Qed.
Lemma bin_tree_build k o p q r e1 e2 x : bin_tree k o p q = Some r -> build p = Ok e1 -> build q = Ok e2 ->
  bin_value k o e1 e2 = Ok x -> build r = Ok x.
Proof.
  intros B P Q X. destruct k; simpl in *.
  1-3: injection B as <-; simpl; rewrite P; simpl; rewrite Q; exact X.
  - destruct q; discriminate.
  - destruct q; try discriminate. injection B as <-. simpl in *. rewrite P. simpl. injection Q as <-. exact X.
Qed.
Lemma tree_step_ok vs ts u ts1 : shown vs ts -> tree_step ts u = Some ts1 ->
  exists r, step vs (lower u) = Some r /\ forall vs1, r = Ok vs1 -> shown vs1 ts1.
Proof.
  intros F. destruct u as [d l|[f|a|a|k a b|v b|x b|x b]]; cbn [tree_step lower step].
  - intros E. injection E as <-. eexists. split; [reflexivity|]. intros vs1 E. injection E as <-. apply shown_snoc; auto. reflexivity.
  - discriminate.
  - destruct (tree_of ts (snd a)) as [p|] eqn:P; [|discriminate]. intros E. injection E as <-.
    destruct (shown_nth _ _ _ _ F P) as (e & V & B). rewrite V. eexists. split; [reflexivity|]. intros vs1 E. injection E as <-.
    apply shown_snoc; [apply shown_used|]; auto.
  - destruct (tree_of ts (snd a)) as [p|] eqn:P; [|discriminate]. destruct p; try discriminate. intros E. injection E as <-.
    destruct (shown_nth _ _ _ _ F P) as (e & V & B). rewrite V. eexists. split; [reflexivity|]. intros vs1 E. injection E as <-.
    apply shown_snoc; [apply shown_used|]; auto. simpl in *. congruence.
  - destruct (tree_of ts (snd a)) as [p|] eqn:P; [|discriminate]. destruct (tree_of ts (snd b)) as [q|] eqn:Q; [|discriminate].
    destruct (shown_nth _ _ _ _ F P) as (e1 & V1 & B1), (shown_nth _ _ _ _ F Q) as (e2 & V2 & B2). rewrite V1, V2.
    destruct (apart a b); [|discriminate]. destruct (bin_tree k (category a b) p q) as [r|] eqn:B; [|discriminate].
    intros E. injection E as <-. eexists. split; [reflexivity|]. intros vs1 E.
    destruct (bin_value k (category a b) e1 e2) as [x| |] eqn:X; cbn [omap] in E; try discriminate. injection E as <-.
    apply Forall2_app; [do 2 apply shown_used; exact F|]. pose proof (bin_tree_build _ _ _ _ _ _ _ _ B B1 B2 X).
    destruct k; simpl; repeat constructor; auto.
  - destruct (tree_of ts (snd b)) as [p|] eqn:P; [|discriminate]. intros E. injection E as <-.
    destruct (shown_nth _ _ _ _ F P) as (e & V & B). rewrite V. eexists. split; [reflexivity|]. intros vs1 E.
    destruct (scal (fst b) v e) as [x| |] eqn:X; cbn [omap] in E; try discriminate. injection E as <-.
    apply Forall2_app; [apply shown_used; exact F|]. repeat constructor. simpl. rewrite B. exact X.
  - destruct (tree_of ts x) as [p|] eqn:P; [|discriminate]. destruct (tree_of ts (snd b)) as [q|] eqn:Q; [|discriminate].
    destruct (shown_nth _ _ _ _ F P) as (e1 & V1 & B1), (shown_nth _ _ _ _ F Q) as (e2 & V2 & B2). rewrite V1, V2.
    destruct (Nat.eqb x (snd b)); [destruct (fst b); [discriminate|]|]; intros E; injection E as <-;
      (eexists; split; [reflexivity|]; intros vs1 E; injection E as <-).
    + apply shown_update; auto. simpl. rewrite B1. reflexivity.
    + apply shown_update; [apply shown_used; auto|]. simpl. rewrite B1. simpl. rewrite B2. reflexivity.
  - destruct (tree_of ts x) as [p|] eqn:P; [|discriminate]. destruct (tree_of ts (snd b)) as [q|] eqn:Q; [|discriminate].
    destruct (shown_nth _ _ _ _ F P) as (e1 & V1 & B1), (shown_nth _ _ _ _ F Q) as (e2 & V2 & B2). rewrite V1, V2.
    destruct (Nat.eqb x (snd b)); [destruct (fst b); [discriminate|]|]; intros E; injection E as <-;
      (eexists; split; [reflexivity|]; intros vs1 E; injection E as <-).
    + apply shown_update; auto. simpl. rewrite B1. reflexivity.
    + apply shown_update; [apply shown_used; auto|]. simpl. rewrite B1. simpl. rewrite B2. reflexivity.
Qed.
Lemma trees_ok us : forall vs ts ts1, shown vs ts -> trees ts us = Some ts1 ->
  exists r, steps vs (map lower us) = Some r /\ forall vs1, r = Ok vs1 -> shown vs1 ts1.
Proof.
  induction us as [|u us IH]; intros vs ts ts1 F; cbn [trees map steps].
  - intros E. injection E as <-. eexists. split; [reflexivity|]. intros vs1 E. injection E as <-. exact F.
  - destruct (tree_step ts u) as [ts2|] eqn:E1; [|discriminate]. intros E2.
    destruct (tree_step_ok _ _ _ _ F E1) as (r & S1 & K). rewrite S1. destruct r as [vs2| |].
    + eapply IH; eauto.
    + eexists. split; [reflexivity|]. discriminate.
    + eexists. split; [reflexivity|]. discriminate.
Qed.
