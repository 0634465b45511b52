From Coq Require Import List Arith Bool Lia.
From Verif Require Import Num Outcome FunModel HeapModel HeapSpec HeapProofs.
Import ListNotations.

Section P.
Context {T : Type} `{N : Num T}.

(** ** Reading and cloning *)
Lemma look_list_impl (lk lk' : ptr -> outcome (fn T)) ps : forall fs,
  (forall p f, lk p = Ok f -> lk' p = Ok f) -> look_list lk ps = Ok fs -> look_list lk' ps = Ok fs.
Proof.
  induction ps as [|p ps IH]; simpl; intros fs C E; [exact E|].
  apply bind_ok in E as (f & E1 & E). apply bind_ok in E as (fs' & E2 & E).
  rewrite (C _ _ E1). simpl. rewrite (IH _ C E2). exact E.
Qed.
Lemma look_n_mono n : forall n' (h l : heap T) p f, n <= n' -> look_n n h p = Ok f -> look_n n' (h ++ l) p = Ok f.
Proof.
  induction n as [|n IH]; intros n' h l p f L E; [discriminate|]. destruct n' as [|n']; [lia|].
  destruct p as [a|]; [|discriminate]. simpl in *. apply bind_ok in E as (nd & E1 & E).
  destruct (nth_error h a) as [nd'|] eqn:Ea; [|discriminate]. injection E1 as ->.
  rewrite (nth_error_app1 _ _ (proj1 (nth_error_Some h a) ltac:(congruence))), Ea. simpl.
  destruct nd as [g|ty d c ps]; [exact E|]. apply bind_ok in E as (fs & E1 & E).
  rewrite (look_list_impl _ (look_n n' (h ++ l)) _ _ (fun p f => IH n' h l p f ltac:(lia)) E1). exact E.
Qed.
Lemma look_app (h l : heap T) p f : look h p = Ok f -> look (h ++ l) p = Ok f.
Proof. unfold look. apply look_n_mono. rewrite app_length. lia. Qed.
Lemma look_list_app (h l : heap T) ps fs : look_list (look h) ps = Ok fs -> look_list (look (h ++ l)) ps = Ok fs.
Proof. apply look_list_impl. intros. apply look_app. assumption. Qed.
Lemma look_list_cat (lk : ptr -> outcome (fn T)) ps qs fs gs :
  look_list lk ps = Ok fs -> look_list lk qs = Ok gs -> look_list lk (ps ++ qs) = Ok (fs ++ gs).
Proof.
  revert fs. induction ps as [|p ps IH]; simpl; intros fs E1 E2.
  - injection E1 as <-. exact E2.
  - apply bind_ok in E1 as (f & Ef & E1). apply bind_ok in E1 as (fs' & E1 & E3). injection E3 as <-.
    rewrite Ef. simpl. rewrite (IH _ E1 E2). reflexivity.
Qed.
Lemma nth_new (h : heap T) n : nth_error (h ++ [n]) (length h) = Some n.
Proof. rewrite nth_error_app2, Nat.sub_diag by lia. reflexivity. Qed.

Definition copies (n : nat) (h : heap T) (p : ptr) (f : fn T) : Prop :=
  exists l q, clone_n n h p = Ok (h ++ l, q) /\ look_n n (h ++ l) q = Ok f.
Lemma clone_list_ok n : (forall (h : heap T) p f, look_n n h p = Ok f -> copies n h p f) ->
  forall ps (h : heap T) fs, look_list (look_n n h) ps = Ok fs ->
  exists l qs, clone_list (clone_n n) h ps = Ok (h ++ l, qs) /\ look_list (look_n n (h ++ l)) qs = Ok fs.
Proof.
  intros C. induction ps as [|p ps IH]; simpl; intros h fs E.
  - injection E as <-. exists [], []. rewrite app_nil_r. auto.
  - apply bind_ok in E as (f & E1 & E). apply bind_ok in E as (fs' & E2 & E). injection E as <-.
    destruct (C _ _ _ E1) as (l1 & q & K1 & K2).
    pose proof (look_list_impl _ (look_n n (h ++ l1)) _ _ (fun p f => look_n_mono n n h l1 p f (le_n n)) E2) as E2'.
    destruct (IH _ _ E2') as (l2 & qs & K3 & K4). exists (l1 ++ l2), (q :: qs). rewrite K1. simpl. rewrite K3. simpl.
    rewrite app_assoc. split; auto. rewrite (look_n_mono n n _ l2 _ _ (le_n n) K2). simpl. rewrite K4. reflexivity.
Qed.
Lemma clone_n_ok n : forall (h : heap T) p f, look_n n h p = Ok f -> copies n h p f.
Proof.
  induction n as [|n IH]; intros h p f E; [discriminate|]. destruct p as [a|]; [|discriminate].
  simpl in E. apply bind_ok in E as (nd & E1 & E). unfold copies. simpl clone_n. rewrite E1. simpl bind. destruct nd as [g|ty d c ps].
  - injection E as ->. exists [NLeaf f], (Some (length h)). split; [reflexivity|]. simpl. rewrite nth_new. reflexivity.
  - apply bind_ok in E as (fs & E2 & E). injection E as <-.
    destruct (clone_list_ok n IH _ _ _ E2) as (l & qs & K1 & K2). rewrite K1. simpl bind.
    exists (l ++ [NExpr ty d c qs]), (Some (length (h ++ l))). unfold alloc. rewrite app_assoc. split; [reflexivity|].
    simpl. rewrite nth_new. simpl.
    rewrite (look_list_impl _ (look_n n ((h ++ l) ++ [NExpr ty d c qs])) _ _ (fun p f => look_n_mono n n _ _ p f (le_n n)) K2). reflexivity.
Qed.
Lemma clone_ok (h : heap T) p f : look h p = Ok f ->
  exists l q, clone h p = Ok (h ++ l, q) /\ look (h ++ l) q = Ok f.
Proof.
  intros E. destruct (clone_n_ok _ _ _ _ E) as (l & q & K1 & K2). exists l, q. split; [exact K1|].
  unfold look. rewrite <- (app_nil_r (h ++ l)) at 2. apply look_n_mono with (2 := K2). rewrite app_length. lia.
Qed.
Lemma clone_all_ok : forall ps (h : heap T) fs, look_list (look h) ps = Ok fs ->
  exists l qs, clone_all h ps = Ok (h ++ l, qs) /\ look_list (look (h ++ l)) qs = Ok fs.
Proof.
  unfold clone_all. induction ps as [|p ps IH]; simpl; intros h fs E.
  - injection E as <-. exists [], []. rewrite app_nil_r. auto.
  - apply bind_ok in E as (f & E1 & E). apply bind_ok in E as (fs' & E2 & E). injection E as <-.
    destruct (clone_ok _ _ _ E1) as (l1 & q & K1 & K2).
    destruct (IH _ _ (look_list_app _ l1 _ _ E2)) as (l2 & qs & K3 & K4). exists (l1 ++ l2), (q :: qs). rewrite K1. simpl. rewrite K3. simpl.
    rewrite app_assoc. split; auto. rewrite (look_app _ l2 _ _ K2). simpl. rewrite K4. reflexivity.
Qed.
Lemma look_alloc (h : heap T) ty d c ps fs : look_list (look h) ps = Ok fs ->
  look (h ++ [NExpr ty d c ps]) (Some (length h)) = Ok (FExpr ty d c fs).
Proof.
  intros E. unfold look. rewrite app_length. simpl length. rewrite Nat.add_1_r. simpl. rewrite nth_new. simpl.
  rewrite (look_list_impl _ (look_n (length h) (h ++ [NExpr ty d c ps])) _ _ (fun p f => look_n_mono _ _ h _ p f (le_n _)) E). reflexivity.
Qed.

(** ** Variables *)
Definition obj_is (h : heap T) (o : obj T) (e : expr T) : Prop :=
  o_ty o = ety e /\ o_dom o = edom e /\ o_cod o = ecod e /\ look_list (look h) (o_args o) = Ok (eargs e).
Definition null_obj (o : obj T) : Prop := addresses (o_args o) = [].
Definition tracks (s : state T) (vs : list (option (expr T))) : Prop :=
  length (st_vars s) = length vs /\
  (forall x e, nth_error vs x = Some (Some e) -> exists o, nth_error (st_vars s) x = Some o /\ obj_is (st_heap s) o e) /\
  (forall x, nth_error vs x = Some None -> exists o, nth_error (st_vars s) x = Some o /\ null_obj o).
Lemma obj_is_app h l o e : obj_is h o e -> obj_is (h ++ l) o e.
Proof. intros (A & B & C & D). repeat split; auto. apply look_list_app. exact D. Qed.
Lemma set_nth_length {A} (l : list A) : forall x a, length (set_nth l x a) = length l.
Proof. induction l; intros [|x] b; simpl; auto. Qed.
Lemma set_nth_same {A} (l : list A) : forall x a, x < length l -> nth_error (set_nth l x a) x = Some a.
Proof. induction l; intros [|x] b L; simpl in *; try lia; auto. apply IHl. lia. Qed.
Lemma set_nth_other {A} (l : list A) : forall x y a, x <> y -> nth_error (set_nth l x a) y = nth_error l y.
Proof. induction l; intros [|x] [|y] b L; simpl; auto; try lia. Qed.
Lemma forget_set {A} (vs : list (option A)) : forall x, forget vs x = set_nth vs x None.
Proof. induction vs; intros [|x]; simpl; auto. rewrite IHvs. reflexivity. Qed.
Lemma update_set {A} (vs : list (option A)) : forall x a, update vs x a = set_nth vs x (Some a).
Proof. induction vs; intros [|x] b; simpl; auto. rewrite IHvs. reflexivity. Qed.
Lemma value_of_ok (vs : list (option (expr T))) x e : value_of vs x = Some e <-> nth_error vs x = Some (Some e).
Proof. unfold value_of. destruct (nth_error vs x) as [[e'|]|]; split; congruence. Qed.

(* storing into a variable *)
Lemma tracks_set s vs x o v l :
  tracks s vs -> x < length vs ->
  match v with Some e => obj_is (st_heap s ++ l) o e | None => null_obj o end ->
  tracks (mkstate (st_heap s ++ l) (set_nth (st_vars s) x o)) (set_nth vs x v).
Proof.
  intros (L & C & D) X V. split; [simpl; rewrite !set_nth_length; exact L|]. split; intros y; simpl.
  - intros e E. destruct (Nat.eq_dec x y) as [<-|ne].
    + rewrite set_nth_same in E by exact X. injection E as ->. exists o. rewrite set_nth_same by lia. auto.
    + rewrite set_nth_other in E by exact ne. rewrite set_nth_other by exact ne. destruct (C _ _ E) as (o' & K1 & K2). exists o'. split; auto. apply obj_is_app. exact K2.
  - intros E. destruct (Nat.eq_dec x y) as [<-|ne].
    + rewrite set_nth_same in E by exact X. injection E as ->. exists o. rewrite set_nth_same by lia. auto.
    + rewrite set_nth_other in E by exact ne. rewrite set_nth_other by exact ne. auto.
Qed.
Lemma tracks_heap s vs l : tracks s vs -> tracks (mkstate (st_heap s ++ l) (st_vars s)) vs.
Proof.
  intros (L & C & D). split; [exact L|]. split; [|exact D]. intros x e E. destruct (C _ _ E) as (o & K1 & K2). exists o. split; auto.
  apply obj_is_app. exact K2.
Qed.
Lemma tracks_declare s vs o v : tracks s vs ->
  match v with Some e => obj_is (st_heap s) o e | None => null_obj o end -> tracks (declare s o) (vs ++ [v]).
Proof.
  intros (L & C & D) V. split; [simpl; rewrite !app_length; simpl; lia|]. split; intros x; simpl.
  - intros e E. destruct (Nat.lt_ge_cases x (length vs)).
    + rewrite nth_error_app1 in E by lia. rewrite nth_error_app1 by lia. auto.
    + rewrite nth_error_app2 in E by lia. rewrite nth_error_app2 by lia. rewrite L. destruct (x - length vs) as [|[|k]]; try discriminate. injection E as ->. exists o; auto.
  - intros E. destruct (Nat.lt_ge_cases x (length vs)).
    + rewrite nth_error_app1 in E by lia. rewrite nth_error_app1 by lia. auto.
    + rewrite nth_error_app2 in E by lia. rewrite nth_error_app2 by lia. rewrite L. destruct (x - length vs) as [|[|k]]; try discriminate. injection E as ->. exists o; auto.
Qed.
Lemma getv_of (s : state T) x o : nth_error (st_vars s) x = Some o -> getv s x = Ok o.
Proof. unfold getv. intros ->. reflexivity. Qed.
Lemma nth_lt {A} (l : list A) x a : nth_error l x = Some a -> x < length l.
Proof. intros E. apply nth_error_Some. congruence. Qed.

(* an operand contributes its value and is forgotten if moved *)
Lemma clone_var_ok s vs x e : tracks s vs -> nth_error vs x = Some (Some e) ->
  exists s' q l, clone_var s x = Ok (s', q) /\ st_heap s' = st_heap s ++ l /\ st_vars s' = st_vars s /\
    look (st_heap s') q = Ok (fe e) /\ tracks s' vs.
Proof.
  intros Tr E. destruct (proj1 (proj2 Tr) _ _ E) as (o & K & (A & B & C & D)). unfold clone_var. rewrite (getv_of _ _ _ K). simpl bind.
  destruct (clone_all_ok _ _ _ D) as (l & qs & K1 & K2). rewrite K1. simpl.
  eexists _, _, (l ++ [_]). split; [reflexivity|]. rewrite app_assoc. split; [reflexivity|]. split; [reflexivity|]. split.
  - simpl. rewrite (look_alloc _ _ _ _ _ _ K2), A, B, C. reflexivity.
  - rewrite <- app_assoc. apply tracks_heap. exact Tr.
Qed.
Lemma move_clone_var_ok s vs x e : tracks s vs -> nth_error vs x = Some (Some e) ->
  exists s' q l o, move_clone_var s x = Ok (s', q) /\ st_heap s' = st_heap s ++ l /\ st_vars s' = set_nth (st_vars s) x o /\
    look (st_heap s') q = Ok (fe e) /\ tracks s' (forget vs x).
Proof.
  intros Tr E. destruct (proj1 (proj2 Tr) _ _ E) as (o & K & (A & B & C & D)). unfold move_clone_var. rewrite (getv_of _ _ _ K). simpl.
  eexists _, _, [_], _. split; [reflexivity|]. split; [reflexivity|]. split; [reflexivity|]. split.
  - simpl. rewrite (look_alloc _ _ _ _ _ _ D), A, B, C. reflexivity.
  - rewrite forget_set. apply tracks_set; auto. { eapply nth_lt. eassumption. } reflexivity.
Qed.
Lemma take_ok fl s vs a e : tracks s vs -> nth_error vs (snd a) = Some (Some e) ->
  exists s' qs l, take fl s a = Ok (s', qs) /\ st_heap s' = st_heap s ++ l /\
    (forall y, fst a = false \/ y <> snd a -> nth_error (st_vars s') y = nth_error (st_vars s) y) /\
    look_list (look (st_heap s')) qs = Ok (if fl (ety e) then eargs e else [fe e]) /\ tracks s' (used a vs).
Proof.
  destruct a as (mv, x). simpl snd. simpl fst. intros Tr E. destruct (proj1 (proj2 Tr) _ _ E) as (o & K & (A & B & C & D)). unfold take.
  rewrite (getv_of _ _ _ K). simpl bind. rewrite A. destruct (fl (ety e)).
  - destruct mv.
    + eexists _, _, []. split; [reflexivity|]. rewrite app_nil_r. split; [reflexivity|]. split.
      { intros y [?|ne]; [discriminate|]. simpl. apply set_nth_other. auto. }
      split; [exact D|]. unfold used. simpl. rewrite forget_set. unfold setv. rewrite <- (app_nil_r (st_heap s)).
      apply tracks_set; auto. { eapply nth_lt. eassumption. } apply addr_null.
    + destruct (clone_all_ok _ _ _ D) as (l & qs & K1 & K2). rewrite K1. simpl.
      eexists _, _, l. split; [reflexivity|]. split; [reflexivity|]. split; [reflexivity|]. split; [exact K2|]. apply tracks_heap. exact Tr.
  - destruct mv.
    + destruct (move_clone_var_ok _ _ _ _ Tr E) as (s' & q & l & o' & K1 & K2 & K3 & K4 & K5). rewrite K1. simpl bind.
      exists s', [q], l. split; [reflexivity|]. split; [exact K2|]. split.
      { intros y [?|ne]; [discriminate|]. rewrite K3. apply set_nth_other. auto. }
      simpl. rewrite K4. simpl. split; [reflexivity|]. exact K5.
    + destruct (clone_var_ok _ _ _ _ Tr E) as (s' & q & l & K1 & K2 & K3 & K4 & K5). rewrite K1. simpl bind.
      exists s', [q], l. split; [reflexivity|]. split; [exact K2|]. split; [rewrite K3; reflexivity|].
      simpl. rewrite K4. simpl. split; [reflexivity|]. exact K5.
Qed.
Lemma all_args_ok s vs a e : tracks s vs -> nth_error vs (snd a) = Some (Some e) ->
  exists s' qs l, all_args s a = Ok (s', qs) /\ st_heap s' = st_heap s ++ l /\
    (forall y, fst a = false \/ y <> snd a -> nth_error (st_vars s') y = nth_error (st_vars s) y) /\
    look_list (look (st_heap s')) qs = Ok (eargs e) /\ tracks s' (used a vs).
Proof.
  destruct a as (mv, x). simpl snd. simpl fst. intros Tr E. destruct (proj1 (proj2 Tr) _ _ E) as (o & K & (A & B & C & D)). unfold all_args. simpl snd.
  rewrite (getv_of _ _ _ K). simpl. destruct mv.
  - eexists _, _, []. split; [reflexivity|]. rewrite app_nil_r. split; [reflexivity|]. split.
    { intros y [?|ne]; [discriminate|]. simpl. apply set_nth_other. auto. }
    split; [exact D|]. unfold used. simpl. rewrite forget_set. unfold setv. rewrite <- (app_nil_r (st_heap s)).
    apply tracks_set; auto. { eapply nth_lt. eassumption. } reflexivity.
  - destruct (clone_all_ok _ _ _ D) as (l & qs & K1 & K2). rewrite K1. simpl.
    eexists _, _, l. split; [reflexivity|]. split; [reflexivity|]. split; [reflexivity|]. split; [exact K2|]. apply tracks_heap. exact Tr.
Qed.
Lemma used_other {A} (a : bool * nat) (vs : list (option A)) y : fst a = false \/ y <> snd a ->
  nth_error (used a vs) y = nth_error vs y.
Proof.
  unfold used. intros [E|E]; [rewrite E; reflexivity|]. destruct (fst a); [|reflexivity]. rewrite forget_set. apply set_nth_other. auto.
Qed.
Lemma used_length {A} (a : bool * nat) (vs : list (option A)) : length (used a vs) = length vs.
Proof. unfold used. destruct (fst a); auto. rewrite forget_set. apply set_nth_length. Qed.

(* two operands, taken one after the other *)
Lemma take2_ok fl s vs a b e1 e2 : tracks s vs ->
  nth_error vs (snd a) = Some (Some e1) -> nth_error vs (snd b) = Some (Some e2) ->
  fst a = false \/ snd b <> snd a ->
  exists s1 p1 s2 p2 l, take fl s a = Ok (s1, p1) /\ take fl s1 b = Ok (s2, p2) /\ st_heap s2 = st_heap s ++ l /\
    look_list (look (st_heap s2)) p1 = Ok (if fl (ety e1) then eargs e1 else [fe e1]) /\
    look_list (look (st_heap s2)) p2 = Ok (if fl (ety e2) then eargs e2 else [fe e2]) /\
    tracks s2 (used b (used a vs)).
Proof.
  intros Tr E1 E2 ap. destruct (take_ok fl _ _ _ _ Tr E1) as (s1 & p1 & l1 & K1 & H1 & V1 & L1 & T1).
  assert (E2' : nth_error (used a vs) (snd b) = Some (Some e2)) by (rewrite used_other; auto).
  destruct (take_ok fl _ _ _ _ T1 E2') as (s2 & p2 & l2 & K2 & H2 & V2 & L2 & T2).
  exists s1, p1, s2, p2, (l1 ++ l2). repeat split; auto.
  - rewrite H2, H1, app_assoc. reflexivity.
  - rewrite H2. apply look_list_app. exact L1.
  - apply T2. - apply T2. - apply T2.
Qed.
Lemma apart_ok a b : apart a b = true -> (fst a = false /\ fst b = false) \/ snd a <> snd b.
Proof.
  unfold apart. destruct (fst a), (fst b); simpl; auto; destruct (Nat.eqb_spec (snd a) (snd b)); simpl; auto; discriminate.
Qed.
Lemma used_comm {A} a b (vs : list (option A)) : used a (used b vs) = used b (used a vs).
Proof.
  unfold used. destruct (fst a), (fst b); auto. rewrite !forget_set. generalize (snd a) (snd b). induction vs; intros [|x] [|y]; simpl; auto.
  rewrite IHvs. reflexivity.
Qed.
End P.
