From Coq Require Import List Arith Bool Lia.
From Verif Require Import Num Outcome FunModel HeapModel HeapSpec HeapProofs HeapProofs2.
Import ListNotations.

Section P.
Context {T : Type} `{N : Num T}.

Lemma shape_is h (o : obj T) e : obj_is h o e ->
  ety (shape o) = ety e /\ edom (shape o) = edom e /\ ecod (shape o) = ecod e.
Proof. intros (A & B & C & _). auto. Qed.
Lemma sum_throw_ext (a b a' b' : expr T) : edom a = edom a' -> edom b = edom b' -> ecod a = ecod a' -> ecod b = ecod b' ->
  sum_throw a b = sum_throw a' b'.
Proof. unfold sum_throw. intros -> -> -> ->. reflexivity. Qed.
Lemma mul_throw_ext (a b a' b' : expr T) : edom a = edom a' -> edom b = edom b' -> ecod a = ecod a' -> ecod b = ecod b' ->
  compatibility_mul a b = compatibility_mul a' b'.
Proof. unfold compatibility_mul. intros -> -> -> ->. reflexivity. Qed.
Lemma comp_throw_ext (a b a' b' : expr T) : ecod b = ecod b' -> comp_throw a b = comp_throw a' b'.
Proof. unfold comp_throw. intros ->. reflexivity. Qed.
Lemma concat_throw_ext (a b a' b' : expr T) : edom a = edom a' -> edom b = edom b' -> ecod a = ecod a' -> ecod b = ecod b' ->
  concat_throw a b = concat_throw a' b'.
Proof. unfold concat_throw. intros -> -> -> ->. reflexivity. Qed.

(* the result of one statement *)
Definition agrees (r : outcome (list (option (expr T)))) (x : outcome (state T)) : Prop :=
  match r with
  | Ok vs => exists s, x = Ok s /\ tracks s vs
  | Throw e => x = Throw e
  | UB => False
  end.
Ltac obj Tr E o K I := destruct (proj1 (proj2 Tr) _ _ E) as (o & K & I).

Lemma declare_ok (s : state T) vs ty d c ps fs (P : tracks s vs) : look_list (look (st_heap s)) ps = Ok fs ->
  tracks (declare s (mkobj ty d c ps)) (vs ++ [Some (mkexpr ty d c fs)]).
Proof. intros L. apply tracks_declare; auto. repeat split; auto. Qed.

Lemma add_ok s vs a b e1 e2 : tracks s vs -> nth_error vs (snd a) = Some (Some e1) -> nth_error vs (snd b) = Some (Some e2) ->
  apart a b = true ->
  agrees (omap (fun r => used b (used a vs) ++ [Some r]) (add (category a b) e1 e2)) (h_add s a b).
Proof.
  intros Tr E1 E2 ap. obj Tr E1 o1 K1 I1. obj Tr E2 o2 K2 I2. unfold h_add. rewrite (getv_of _ _ _ K1), (getv_of _ _ _ K2). cbn [bind].
  destruct (shape_is _ _ _ I1) as (_ & D1 & C1), (shape_is _ _ _ I2) as (_ & D2 & C2).
  rewrite (sum_throw_ext _ _ e1 e2 D1 D2 C1 C2). unfold add. destruct (sum_throw e1 e2) as [[]|x|] eqn:Q; cbn [bind omap agrees]; auto.
  2:{ revert Q. unfold sum_throw. destruct (negb _); [discriminate|]. destruct (negb _); discriminate. }
  destruct (take2_ok (fl_handler SUM) _ _ a b _ _ Tr E1 E2) as (s1 & p1 & s2 & p2 & l & T1 & T2 & _ & L1 & L2 & Tr2).
  { apply apart_ok in ap as [[? _]|?]; auto. }
  rewrite T1. cbn [bind]. rewrite T2. cbn [bind]. eexists. split; [reflexivity|].
  destruct I1 as (A & B & C & _). rewrite B, C.
  replace (match category a b with LL => const_const_handler e1 e2 SUM | LR => const_nonconst_handler e1 e2 SUM
     | RL => nonconst_const_handler e1 e2 SUM | RR => nonconst_nonconst_handler e1 e2 SUM end)
    with (flat_or_clone SUM e1 ++ flat_or_clone SUM e2) by (destruct (category a b); reflexivity).
  apply declare_ok; auto. apply look_list_cat; assumption.
Qed.

Lemma mul_ok s vs a b e1 e2 : tracks s vs -> nth_error vs (snd a) = Some (Some e1) -> nth_error vs (snd b) = Some (Some e2) ->
  apart a b = true ->
  agrees (omap (fun r => used b (used a vs) ++ [Some r]) (mul (category a b) e1 e2)) (h_mul s a b).
Proof.
  intros Tr E1 E2 ap. obj Tr E1 o1 K1 I1. obj Tr E2 o2 K2 I2. unfold h_mul. rewrite (getv_of _ _ _ K1), (getv_of _ _ _ K2). cbn [bind].
  destruct (shape_is _ _ _ I1) as (_ & D1 & C1), (shape_is _ _ _ I2) as (_ & D2 & C2).
  rewrite (mul_throw_ext _ _ e1 e2 D1 D2 C1 C2). unfold mul. destruct (compatibility_mul e1 e2) as [[]|x|] eqn:Q; cbn [bind omap agrees]; auto.
  2:{ revert Q. unfold compatibility_mul. destruct (negb _); [discriminate|]. destruct (_ && _); discriminate. }
  destruct I1 as (A1 & B1 & Co1 & _), I2 as (A2 & B2 & Co2 & _). rewrite Co1, Co2. unfold first_or_max, second_or_min.
  destruct (Nat.leb (ecod e2) (ecod e1)) eqn:Le; cbv zeta; rewrite ?B1, ?B2, ?Co1, ?Co2.
  - destruct (take2_ok (fl_handler MULTIPLICATION) _ _ a b _ _ Tr E1 E2) as (s1 & p1 & s2 & p2 & l & T1 & T2 & _ & L1 & L2 & Tr2).
    { apply apart_ok in ap as [[? _]|?]; auto. }
    rewrite T1. cbn [bind]. rewrite T2. cbn [bind].
    pose proof (look_list_cat _ _ _ _ _ L1 L2) as L12.
    unfold category. destruct (fst a), (fst b); cbn [omap agrees orb]; (eexists; split; [reflexivity|]; apply declare_ok; auto).
  - destruct (take2_ok (fl_handler MULTIPLICATION) _ _ b a _ _ Tr E2 E1) as (s1 & p1 & s2 & p2 & l & T1 & T2 & _ & L1 & L2 & Tr2).
    { apply apart_ok in ap as [[_ ?]|?]; auto. }
    rewrite T1. cbn [bind]. rewrite T2. cbn [bind]. rewrite used_comm in Tr2.
    pose proof (look_list_cat _ _ _ _ _ L1 L2) as L12.
    unfold category. destruct (fst a), (fst b); cbn [omap agrees orb]; (eexists; split; [reflexivity|]; apply declare_ok; auto).
Qed.

(* an rvalue operand extended in place: the other operand first, then everything it holds *)
Lemma inplace_ok fl (s : state T) vs a b e1 e2 o1 : tracks s vs -> nth_error vs (snd a) = Some (Some e1) -> nth_error vs (snd b) = Some (Some e2) ->
  fst a = true -> snd a <> snd b -> nth_error (st_vars s) (snd a) = Some o1 -> obj_is (st_heap s) o1 e1 ->
  exists s1 p2, take fl s b = Ok (s1, p2) /\ getv s1 (snd a) = Ok o1 /\
    look_list (look (st_heap s1)) p2 = Ok (if fl (ety e2) then eargs e2 else [fe e2]) /\
    look_list (look (st_heap s1)) (o_args o1) = Ok (eargs e1) /\
    forall o', o_args o' = [] -> tracks (setv s1 (snd a) o') (used b (used a vs)).
Proof.
  intros Tr E1 E2 mv ne K1 I1. destruct (take_ok fl _ _ b _ Tr E2) as (s1 & p2 & l & T1 & H1 & V1 & L1 & Tr1).
  exists s1, p2. split; [exact T1|]. split. { apply getv_of. rewrite V1; auto. } split; [exact L1|]. split.
  - rewrite H1. apply look_list_app. apply I1.
  - intros o' Z. rewrite <- used_comm. unfold used at 1. rewrite mv, forget_set. unfold setv. rewrite <- (app_nil_r (st_heap s1)).
    apply tracks_set; auto. { rewrite used_length. eapply nth_lt; eassumption. } unfold null_obj. rewrite Z. reflexivity.
Qed.

Lemma compose_ok s vs a b e1 e2 : tracks s vs -> nth_error vs (snd a) = Some (Some e1) -> nth_error vs (snd b) = Some (Some e2) ->
  apart a b = true ->
  agrees (omap (fun r => used b (used a vs) ++ [Some r]) (compose (category a b) e1 e2)) (h_compose s a b).
Proof.
  intros Tr E1 E2 ap. obj Tr E1 o1 K1 I1. obj Tr E2 o2 K2 I2. unfold h_compose. rewrite (getv_of _ _ _ K1), (getv_of _ _ _ K2). cbn [bind].
  destruct (shape_is _ _ _ I1) as (_ & D1 & C1), (shape_is _ _ _ I2) as (_ & D2 & C2).
  rewrite (comp_throw_ext _ _ e1 e2 C2). unfold compose. destruct (comp_throw e1 e2) as [[]|x|] eqn:Q; cbn [bind omap agrees]; auto.
  2:{ revert Q. unfold comp_throw. destruct (Nat.ltb _ _); discriminate. }
  destruct (fst a && ftype_eqb (o_ty o1) COMPOSITION) eqn:IP.
  - apply andb_prop in IP as (mv & ty).
    assert (ne : snd a <> snd b) by (apply apart_ok in ap as [[? _]|?]; auto; congruence).
    destruct (inplace_ok (fl_only COMPOSITION) _ _ a b _ _ _ Tr E1 E2 mv ne K1 I1) as (s1 & p2 & T1 & G1 & L1 & L2 & Tr2).
    rewrite T1. cbn [bind]. rewrite G1. cbn [bind]. destruct I1 as (A1 & B1 & Co1 & _), I2 as (A2 & B2 & Co2 & _).
    rewrite B1, B2, Co1. rewrite A1 in ty. unfold category. rewrite mv, ty.
    pose proof (look_list_cat _ _ _ _ _ L1 L2) as L12.
    destruct (fst b); cbn [omap agrees]; (eexists; split; [reflexivity|]; apply declare_ok; [apply Tr2; reflexivity|exact L12]).
  - destruct (take2_ok (fl_only COMPOSITION) _ _ a b _ _ Tr E1 E2) as (s1 & p1 & s2 & p2 & l & T1 & T2 & _ & L1 & L2 & Tr2).
    { apply apart_ok in ap as [[? _]|?]; auto. }
    rewrite T1. cbn [bind]. rewrite T2. cbn [bind]. destruct I1 as (A1 & B1 & Co1 & _), I2 as (A2 & B2 & Co2 & _). rewrite B2, Co1. rewrite A1 in IP.
    pose proof (look_list_cat _ _ _ _ _ L2 L1) as L12.
    unfold category. destruct (fst a); cbn [andb] in IP.
    + destruct (fst b); rewrite IP; cbn [omap agrees]; (eexists; split; [reflexivity|]; apply declare_ok; auto).
    + destruct (fst b); cbn [omap agrees]; (eexists; split; [reflexivity|]; apply declare_ok; auto).
Qed.

Lemma concat_ok s vs a b e1 e2 : tracks s vs -> nth_error vs (snd a) = Some (Some e1) -> nth_error vs (snd b) = Some (Some e2) ->
  apart a b = true ->
  agrees (omap (fun r => used b (used a vs) ++ [Some r]) (concat_ (category a b) e1 e2)) (h_concat s a b).
Proof.
  intros Tr E1 E2 ap. obj Tr E1 o1 K1 I1. obj Tr E2 o2 K2 I2. unfold h_concat. rewrite (getv_of _ _ _ K1), (getv_of _ _ _ K2). cbn [bind].
  destruct (shape_is _ _ _ I1) as (_ & D1 & C1), (shape_is _ _ _ I2) as (_ & D2 & C2).
  rewrite (concat_throw_ext _ _ e1 e2 D1 D2 C1 C2). unfold concat_. destruct (concat_throw e1 e2) as [[]|x|] eqn:Q; cbn [bind omap agrees]; auto.
  2:{ revert Q. unfold concat_throw. destruct (negb _); [discriminate|]. destruct (_ >? _)%num; discriminate. }
  destruct (fst a) eqn:mv; [destruct (ftype_eqb (o_ty o1) CONCATENATION) eqn:ty|].
  - assert (ne : snd a <> snd b) by (apply apart_ok in ap as [[? _]|?]; auto; congruence).
    rewrite (proj2 (Nat.eqb_neq _ _) ne).
    destruct (inplace_ok (fl_only CONCATENATION) _ _ a b _ _ _ Tr E1 E2 mv ne K1 I1) as (s1 & p2 & T1 & G1 & L1 & L2 & Tr2).
    rewrite T1. cbn [bind]. rewrite G1. cbn [bind]. destruct I1 as (A1 & B1 & Co1 & _), I2 as (A2 & B2 & Co2 & _).
    rewrite B1, Co1. rewrite A1 in ty. unfold category. rewrite mv.
    pose proof (look_list_cat _ _ _ _ _ L2 L1) as L12.
    destruct (fst b); rewrite ty; cbn [omap agrees]; (eexists; split; [reflexivity|]; apply declare_ok; [apply Tr2; reflexivity|exact L12]).
  - assert (ne : snd a <> snd b) by (apply apart_ok in ap as [[? _]|?]; auto; congruence).
    destruct (take2_ok (fl_only CONCATENATION) _ _ b a _ _ Tr E2 E1) as (s1 & p1 & s2 & p2 & l & T1 & T2 & _ & L1 & L2 & Tr2); auto.
    rewrite T1. cbn [bind]. rewrite T2. cbn [bind]. rewrite used_comm in Tr2.
    destruct I1 as (A1 & B1 & Co1 & _), I2 as (A2 & B2 & Co2 & _). rewrite B1, B2, Co1. try rewrite A1 in ty.
    pose proof (look_list_cat _ _ _ _ _ L2 L1) as L12.
    unfold category. rewrite mv. destruct (fst b); rewrite ty; cbn [omap agrees]; (eexists; split; [reflexivity|]; apply declare_ok; auto).
  - destruct (take2_ok (fl_only CONCATENATION) _ _ a b _ _ Tr E1 E2) as (s1 & p1 & s2 & p2 & l & T1 & T2 & _ & L1 & L2 & Tr2); auto.
    rewrite T1. cbn [bind]. rewrite T2. cbn [bind].
    destruct I1 as (A1 & B1 & Co1 & _), I2 as (A2 & B2 & Co2 & _). rewrite B1, B2, Co1. try rewrite A1 in ty.
    pose proof (look_list_cat _ _ _ _ _ L1 L2) as L12.
    unfold category. rewrite mv. destruct (fst b); cbn [omap agrees]; (eexists; split; [reflexivity|]; apply declare_ok; auto).
Qed.

Lemma neg_ok (s : state T) vs a e : tracks s vs -> nth_error vs (snd a) = Some (Some e) ->
  exists s', h_neg s a = Ok s' /\ tracks s' (used a vs ++ [Some (neg e)]) /\
    length (st_vars s') = S (length (st_vars s)) /\
    (forall y, y < length (st_vars s) -> fst a = false \/ y <> snd a -> nth_error (st_vars s') y = nth_error (st_vars s) y).
Proof.
  intros Tr E. obj Tr E o K I0. unfold h_neg. rewrite (getv_of _ _ _ K). cbn [bind].
  destruct (all_args_ok _ _ a _ Tr E) as (s1 & ps & l & A1 & H1 & V1 & L1 & Tr1). rewrite A1. cbn [bind].
  eexists. split; [reflexivity|]. destruct I0 as (_ & B & C & _). rewrite B, C. split; [apply declare_ok; auto|].
  assert (L : length (st_vars s1) = length (st_vars s)) by (rewrite (proj1 Tr), (proj1 Tr1), used_length; reflexivity).
  simpl. rewrite app_length, L. simpl. split; [lia|]. intros y Y F. rewrite nth_error_app1 by lia. auto.
Qed.
Lemma copy_ok (s : state T) vs a e : tracks s vs -> nth_error vs (snd a) = Some (Some e) ->
  exists s', h_copy s a = Ok s' /\ tracks s' (used a vs ++ [Some e]).
Proof.
  intros Tr E. obj Tr E o K I0. unfold h_copy. rewrite (getv_of _ _ _ K). cbn [bind].
  destruct (all_args_ok _ _ a _ Tr E) as (s1 & ps & l & A1 & H1 & V1 & L1 & Tr1). rewrite A1. cbn [bind].
  eexists. split; [reflexivity|]. destruct I0 as (A & B & C & _). apply tracks_declare; auto. repeat split; auto.
Qed.
Lemma new_ok (s : state T) vs f : tracks s vs -> exists s', h_new s f = Ok s' /\ tracks s' (vs ++ [Some (to_expression f)]).
Proof.
  intros Tr. unfold h_new. simpl. eexists. split; [reflexivity|]. apply tracks_declare; [apply tracks_heap; exact Tr|].
  repeat split; auto. simpl. unfold look. rewrite app_length, Nat.add_1_r. simpl. rewrite nth_new. reflexivity.
Qed.

(* *this turned into a sum or product *)
Definition opened (op : ftype) (e : expr T) : expr T :=
  if ftype_eqb (ety e) UNIQUE || ftype_eqb (ety e) op then mkexpr op (edom e) (ecod e) (eargs e)
  else mkexpr op (edom e) (ecod e) [fe e].
Definition appended (e : expr T) (f : fn T) : expr T := mkexpr (ety e) (edom e) (ecod e) (eargs e ++ [f]).
Lemma set_nth_id {A} (l : list A) : forall x a, nth_error l x = Some a -> set_nth l x a = l.
Proof. induction l; intros [|x] b E; simpl in *; try discriminate; [congruence|]. rewrite IHl; auto. Qed.
Lemma set_set {A} (l : list A) : forall x u w, set_nth (set_nth l x u) x w = set_nth l x w.
Proof. induction l; intros [|x] u w; simpl; auto. rewrite IHl. reflexivity. Qed.
Lemma ftype_eqb_eq a b : ftype_eqb a b = true -> a = b.
Proof. destruct a, b; simpl; congruence. Qed.
Lemma iop_ok op (s : state T) vs x b e1 : tracks s vs -> nth_error vs x = Some (Some e1) ->
  forall e2, nth_error (update vs x (opened op e1)) (snd b) = Some (Some e2) -> (fst b = false \/ x <> snd b) ->
  exists s', h_iop op s x b = Ok s' /\ tracks s' (update (used b vs) x (appended (opened op e1) (fe e2))).
Proof.
  intros Tr E1 e2 E2 ap. obj Tr E1 o K I0. unfold h_iop. rewrite (getv_of _ _ _ K). cbn [bind].
  match goal with |- context [if fst b then move_clone_var ?S1 _ else _] => set (s1 := S1) end.
  assert (Tr1 : tracks s1 (update vs x (opened op e1))).
  { pose proof (nth_lt _ _ _ E1) as X. destruct I0 as (A & B & C & D). subst s1. rewrite update_set. unfold opened. rewrite A, B, C.
    destruct (ftype_eqb (ety e1) UNIQUE) eqn:Q1; cbn [orb]; [|destruct (ftype_eqb (ety e1) op) eqn:Q2].
    - unfold setv. rewrite <- (app_nil_r (st_heap s)). apply tracks_set; auto. rewrite app_nil_r. repeat split; auto.
    - apply ftype_eqb_eq in Q2. rewrite set_nth_id; [exact Tr|]. rewrite E1, <- Q2. destruct e1; reflexivity.
    - simpl. apply tracks_set; auto. repeat split; auto. simpl o_args. simpl. rewrite (look_alloc _ _ _ _ _ _ D). reflexivity. }
  clearbody s1.
  assert (X1 : nth_error (update vs x (opened op e1)) x = Some (Some (opened op e1))).
  { rewrite update_set. apply set_nth_same. eapply nth_lt; eassumption. }
  assert (Q : exists s2 q, (if fst b then move_clone_var s1 (snd b) else clone_var s1 (snd b)) = Ok (s2, q) /\
    look (st_heap s2) q = Ok (fe e2) /\ tracks s2 (used b (update vs x (opened op e1)))).
  { unfold used. destruct (fst b).
    - destruct (move_clone_var_ok _ _ _ _ Tr1 E2) as (s2 & q & l & o' & Q1 & _ & _ & Q2 & Q3). eauto.
    - destruct (clone_var_ok _ _ _ _ Tr1 E2) as (s2 & q & l & Q1 & _ & _ & Q2 & Q3). eauto. }
  destruct Q as (s2 & q & Q1 & Q2 & Tr2). rewrite Q1. cbn [bind].
  assert (X2 : nth_error (used b (update vs x (opened op e1))) x = Some (Some (opened op e1))) by (rewrite used_other; auto).
  obj Tr2 X2 o2 K2 I2. rewrite (getv_of _ _ _ K2). cbn [bind]. eexists. split; [reflexivity|].
  replace (update (used b vs) x (appended (opened op e1) (fe e2)))
     with (set_nth (used b (update vs x (opened op e1))) x (Some (appended (opened op e1) (fe e2)))).
  - unfold setv. rewrite <- (app_nil_r (st_heap s2)). apply tracks_set; auto. { eapply nth_lt; eassumption. }
    rewrite app_nil_r. destruct I2 as (A & B & C & D). repeat split; auto. simpl. apply look_list_cat; auto. simpl. rewrite Q2. reflexivity.
  - rewrite !update_set. unfold used. destruct (fst b); [rewrite !forget_set|];
      generalize (Some (opened op e1)) (Some (appended (opened op e1) (fe e2))); intros u w; clear.
    + revert x. generalize (snd b). induction vs; intros [|y] [|x]; simpl; auto; f_equal; [apply set_set|apply IHvs].
    + apply set_set.
Qed.
Lemma iadd_opened (e1 e2 : expr T) : iadd e1 e2 = appended (opened SUM e1) (fe e2).
Proof. unfold iadd, opened, appended. destruct (ety e1); reflexivity. Qed.
Lemma iadd_self_opened (e : expr T) : iadd_self e = appended (opened SUM e) (fe (opened SUM e)).
Proof. unfold iadd_self, opened, appended. destruct (ety e); reflexivity. Qed.
Lemma imul_opened (e1 e2 : expr T) : imul e1 e2 = appended (opened MULTIPLICATION e1) (fe e2).
Proof. unfold imul, opened, appended. destruct (ety e1); reflexivity. Qed.
Lemma imul_self_opened (e : expr T) : imul_self e = appended (opened MULTIPLICATION e) (fe (opened MULTIPLICATION e)).
Proof. unfold imul_self, opened, appended. destruct (ety e); reflexivity. Qed.

Lemma used_app {A} a (vs : list (option A)) v : snd a < length vs -> used a (vs ++ [v]) = used a vs ++ [v].
Proof.
  intros L. unfold used. destruct (fst a); auto. revert L. generalize (snd a). induction vs; intros [|x] L; simpl in *; try lia; auto.
  rewrite IHvs by lia. reflexivity.
Qed.
Lemma used_last {A} mv (vs : list (option A)) v : used (mv, length vs) (vs ++ [v]) = vs ++ [if mv : bool then None else v].
Proof. unfold used. simpl. destruct mv; auto. induction vs; simpl; auto. rewrite IHvs. reflexivity. Qed.

Lemma sub_ok (s : state T) vs a b e1 e2 : tracks s vs -> nth_error vs (snd a) = Some (Some e1) -> nth_error vs (snd b) = Some (Some e2) ->
  apart a b = true ->
  agrees (omap (fun r => used b (used a vs) ++ [None; Some r]) (sub (category a b) e1 e2)) (h_sub s a b).
Proof.
  intros Tr E1 E2 ap. obj Tr E1 o1 K1 I1. obj Tr E2 o2 K2 I2. unfold h_sub. rewrite (getv_of _ _ _ K1), (getv_of _ _ _ K2). cbn [bind].
  destruct (shape_is _ _ _ I1) as (_ & D1 & C1), (shape_is _ _ _ I2) as (_ & D2 & C2).
  rewrite (sum_throw_ext _ _ e1 e2 D1 D2 C1 C2). unfold sub. destruct (sum_throw e1 e2) as [[]|x|] eqn:Q; cbn [bind omap agrees]; auto.
  2:{ revert Q. unfold sum_throw. destruct (negb _); [discriminate|]. destruct (negb _); discriminate. }
  destruct (neg_ok _ _ b _ Tr E2) as (s1 & N1 & Tr1 & Len & _). rewrite N1. cbn [bind].
  set (t := (true, length (st_vars s))). pose proof (nth_lt _ _ _ E1) as X1.
  assert (Z : length (st_vars s) = length (used b vs)) by (rewrite used_length; apply Tr).
  assert (E1' : nth_error (used b vs ++ [Some (neg e2)]) (snd a) = Some (Some e1)).
  { rewrite nth_error_app1 by (rewrite used_length; exact X1). rewrite used_other; auto. apply apart_ok in ap as [[_ ?]|?]; auto. }
  assert (E2' : nth_error (used b vs ++ [Some (neg e2)]) (snd t) = Some (Some (neg e2))).
  { simpl. rewrite Z, nth_error_app2, Nat.sub_diag by lia. reflexivity. }
  assert (ap' : apart a t = true).
  { unfold apart, t. simpl. rewrite orb_true_r. simpl. apply negb_true_iff, Nat.eqb_neq. rewrite (proj1 Tr). lia. }
  pose proof (add_ok _ _ a t _ _ Tr1 E1' E2' ap') as G.
  replace (match category a b with LL | LR => add LR e1 (neg e2) | RL | RR => add RR e1 (neg e2) end) with (add (category a t) e1 (neg e2))
    by (unfold category, t; simpl; destruct (fst a), (fst b); reflexivity).
  destruct (add (category a t) e1 (neg e2)) as [r|x|]; cbn [omap agrees] in *; auto.
  destruct G as (s' & G1 & G2). exists s'. split; [exact G1|].
  rewrite used_app in G2 by (rewrite used_length; exact X1). unfold t in G2. rewrite Z in G2.
  rewrite <- (used_length a (used b vs)) in G2. rewrite used_last, <- app_assoc in G2. simpl in G2. rewrite used_comm in G2. exact G2.
Qed.
Lemma scal_ok (s : state T) vs v b e : tracks s vs -> nth_error vs (snd b) = Some (Some e) ->
  agrees (omap (fun r => used b vs ++ [None; Some r]) (scal (fst b) v e)) (h_scal s v b).
Proof.
  intros Tr E. obj Tr E o K I0. unfold h_scal. rewrite (getv_of _ _ _ K). cbn [bind]. destruct I0 as (A & B & C & D). rewrite B.
  destruct (new_ok _ _ (const_function (edom e) 1 v) Tr) as (s1 & N1 & Tr1). rewrite N1. cbn [bind].
  set (t := (true, length (st_vars s))). pose proof (nth_lt _ _ _ E) as X.
  assert (E' : nth_error (vs ++ [Some (to_expression (const_function (edom e) 1 v))]) (snd b) = Some (Some e)) by (rewrite nth_error_app1; auto).
  assert (Et : nth_error (vs ++ [Some (to_expression (const_function (edom e) 1 v))]) (snd t) = Some (Some (to_expression (const_function (edom e) 1 v)))).
  { simpl. rewrite (proj1 Tr), nth_error_app2, Nat.sub_diag by lia. reflexivity. }
  assert (ap' : apart t b = true).
  { unfold apart, t. simpl. apply negb_true_iff, Nat.eqb_neq. rewrite (proj1 Tr). lia. }
  pose proof (mul_ok _ _ t b _ _ Tr1 Et E' ap') as G. unfold scal.
  replace (if fst b then RR else RL) with (category t b) by (unfold category, t; simpl; destruct (fst b); reflexivity).
  destruct (mul (category t b) _ e) as [r|x|]; cbn [omap agrees] in *; auto.
  destruct G as (s' & G1 & G2). exists s'. split; [exact G1|].
  unfold t in G2. rewrite (proj1 Tr), used_last in G2. rewrite used_app in G2 by exact X. rewrite <- app_assoc in G2. exact G2.
Qed.

Lemma step_ok (s : state T) vs c r : tracks s vs -> step vs c = Some r -> agrees r (exec s c).
Proof.
  intros Tr. destruct c as [f|a|a|k a b|v b|x b|x b]; cbn [step exec].
  - intros E. injection E as <-. apply new_ok. exact Tr.
  - destruct (value_of vs (snd a)) as [e|] eqn:E1; [|discriminate]. apply value_of_ok in E1. intros E. injection E as <-. apply copy_ok; auto.
  - destruct (value_of vs (snd a)) as [e|] eqn:E1; [|discriminate]. apply value_of_ok in E1. intros E. injection E as <-.
    destruct (neg_ok _ _ _ _ Tr E1) as (s' & K1 & K2 & _). exists s'. auto.
  - destruct (value_of vs (snd a)) as [e1|] eqn:E1; [|discriminate]. destruct (value_of vs (snd b)) as [e2|] eqn:E2; [|discriminate].
    apply value_of_ok in E1, E2. destruct (apart a b) eqn:ap; [|discriminate]. intros E. injection E as <-.
    destruct k; cbn [bin_value temporaries app]; [apply add_ok|apply mul_ok|apply compose_ok|apply concat_ok|apply sub_ok]; auto.
  - destruct (value_of vs (snd b)) as [e|] eqn:E1; [|discriminate]. apply value_of_ok in E1. intros E. injection E as <-. apply scal_ok; auto.
  - destruct (value_of vs x) as [e1|] eqn:E1; [|discriminate]. destruct (value_of vs (snd b)) as [e2|] eqn:E2; [|discriminate].
    apply value_of_ok in E1, E2. destruct (Nat.eqb_spec x (snd b)) as [Eq|ne].
    + destruct (fst b) eqn:mv; [discriminate|]. intros E. injection E as <-. cbn [agrees].
      destruct (iop_ok SUM s vs x b e1 Tr E1 (opened SUM e1)) as (s' & K1 & K2); auto.
      { rewrite <- Eq, update_set. apply set_nth_same. eapply nth_lt; eassumption. }
      exists s'. split; [exact K1|]. rewrite iadd_self_opened. unfold used in K2. rewrite mv in K2. exact K2.
    + intros E. injection E as <-. cbn [agrees].
      destruct (iop_ok SUM s vs x b e1 Tr E1 e2) as (s' & K1 & K2); auto.
      { rewrite update_set, set_nth_other by exact ne. exact E2. }
      exists s'. split; [exact K1|]. rewrite iadd_opened. exact K2.
  - destruct (value_of vs x) as [e1|] eqn:E1; [|discriminate]. destruct (value_of vs (snd b)) as [e2|] eqn:E2; [|discriminate].
    apply value_of_ok in E1, E2. destruct (Nat.eqb_spec x (snd b)) as [Eq|ne].
    + destruct (fst b) eqn:mv; [discriminate|]. intros E. injection E as <-. cbn [agrees].
      destruct (iop_ok MULTIPLICATION s vs x b e1 Tr E1 (opened MULTIPLICATION e1)) as (s' & K1 & K2); auto.
      { rewrite <- Eq, update_set. apply set_nth_same. eapply nth_lt; eassumption. }
      exists s'. split; [exact K1|]. rewrite imul_self_opened. unfold used in K2. rewrite mv in K2. exact K2.
    + intros E. injection E as <-. cbn [agrees].
      destruct (iop_ok MULTIPLICATION s vs x b e1 Tr E1 e2) as (s' & K1 & K2); auto.
      { rewrite update_set, set_nth_other by exact ne. exact E2. }
      exists s'. split; [exact K1|]. rewrite imul_opened. exact K2.
Qed.
Lemma steps_ok p : forall (s : state T) vs r, tracks s vs -> steps vs p = Some r -> agrees r (run s p).
Proof.
  induction p as [|c p IH]; intros s vs r Tr; cbn [steps run].
  - intros E. injection E as <-. exists s. auto.
  - destruct (step vs c) as [[vs1|e|]|] eqn:E1; [| | |discriminate]; intros E; pose proof (step_ok _ _ _ _ Tr E1) as G; cbn [agrees] in G.
    + destruct G as (s1 & -> & Tr1). cbn [bind]. eapply IH; eassumption.
    + injection E as <-. rewrite G. reflexivity.
    + destruct G.
Qed.
Lemma tracks_start : tracks (start (T := T)) [].
Proof. split; [reflexivity|]. split; intros [|x]; discriminate. Qed.
Lemma tracks_look (s : state T) vs x e : tracks s vs -> nth_error vs x = Some (Some e) -> look_var s x = Ok (fe e).
Proof.
  intros Tr E. destruct (proj1 (proj2 Tr) _ _ E) as (o & K & (A & B & C & D)). unfold look_var. rewrite (getv_of _ _ _ K). cbn [bind].
  rewrite D. cbn [bind]. rewrite A, B, C. reflexivity.
Qed.
End P.
