From Coq Require Import List Arith Bool Lia.
From Verif Require Import Num Outcome FunModel HeapModel HeapSpec.
Import ListNotations.

Section P.
Context {T : Type} `{N : Num T}.

(** ** Ownership *)
Notation cnt := (count_occ Nat.eq_dec).
Definition inr (a lo hi : nat) : nat := if (lo <=? a) && (a <? hi) then 1 else 0.
Lemma inr_add a lo mid hi : lo <= mid -> mid <= hi -> inr a lo mid + inr a mid hi = inr a lo hi.
Proof.
  unfold inr; intros.
  destruct (Nat.leb_spec lo a), (Nat.ltb_spec a mid), (Nat.leb_spec mid a), (Nat.ltb_spec a hi); simpl; lia.
Qed.
Lemma inr_nil a n : inr a n n = 0.
Proof. unfold inr. destruct (Nat.leb_spec n a), (Nat.ltb_spec a n); simpl; lia. Qed.
Lemma inr_one a n : cnt [n] a = inr a n (S n).
Proof. unfold inr. simpl. destruct (Nat.eq_dec n a), (Nat.leb_spec n a), (Nat.ltb_spec a (S n)); simpl; lia. Qed.
Lemma addr_app p q : addresses (p ++ q) = addresses p ++ addresses q.
Proof. apply flat_map_app. Qed.
Definition hp (h : heap T) : list nat :=
  flat_map (fun n => match n with NLeaf _ => [] | NExpr _ _ _ ps => addresses ps end) h.
Definition vp (vs : list (obj T)) : list nat := flat_map (fun o => addresses (o_args o)) vs.
Lemma hp_app h l : hp (h ++ l) = hp h ++ hp l. Proof. apply flat_map_app. Qed.
Lemma vp_app h l : vp (h ++ l) = vp h ++ vp l. Proof. apply flat_map_app. Qed.
Lemma addr_null (ps : list ptr) : addresses (map (fun _ => None) ps) = [].
Proof. induction ps; simpl; auto. Qed.

(* heap h' with the pointers qs in hand, from heap h *)
Definition grown (h h' : heap T) (qs : list ptr) : Prop :=
  length h <= length h' /\
  forall a, cnt (addresses qs) a + cnt (hp h') a = cnt (hp h) a + inr a (length h) (length h').
Lemma clone_list_grown cl : (forall h p h' q, cl h p = Ok (h', q) -> grown h h' [q]) ->
  forall ps h h' qs, clone_list cl h ps = Ok (h', qs) -> grown h h' qs.
Proof.
  intros C. induction ps as [|p ps IH]; simpl; intros h h' qs E.
  - injection E as <- <-. split; auto. intros. rewrite inr_nil. simpl. lia.
  - apply bind_ok in E as ((h1 & q) & E1 & E). apply bind_ok in E as ((h2 & qs') & E2 & E).
    injection E as <- <-. apply C in E1 as (L1 & G1). apply IH in E2 as (L2 & G2). split; [lia|].
    intros a. specialize (G1 a). specialize (G2 a). pose proof (inr_add a _ _ _ L1 L2).
    change (q :: qs') with ([q] ++ qs'). rewrite addr_app, count_occ_app. lia.
Qed.
Lemma alloc_grown h (n : node T) h' q : alloc h n = (h', q) ->
  length h' = S (length h) /\ (forall a, cnt (addresses [q]) a = inr a (length h) (S (length h))) /\
  h' = h ++ [n].
Proof.
  intros E. injection E as <- <-. rewrite app_length. simpl length. split; [lia|]. split; auto.
  intros. simpl. apply inr_one.
Qed.
Lemma clone_n_grown n : forall h p h' q, clone_n n h p = Ok (h', q) -> grown h h' [q].
Proof.
  induction n as [|n IH]; intros h p h' q E; [discriminate|]. destruct p as [a|]; [|discriminate].
  simpl in E. apply bind_ok in E as (nd & E1 & E). destruct nd as [f|ty d c ps].
  - assert (E' : alloc h (NLeaf f) = (h', q)) by congruence. destruct (alloc_grown _ _ _ _ E') as (L & A & ->). split; [lia|].
    intros x. rewrite A, L, hp_app. simpl hp. rewrite app_nil_r. lia.
  - apply bind_ok in E as ((h1 & qs) & E2 & E). apply (clone_list_grown _ IH) in E2 as (L1 & G).
    assert (E' : alloc h1 (NExpr ty d c qs) = (h', q)) by congruence. destruct (alloc_grown _ _ _ _ E') as (L & A & ->). split; [lia|].
    intros x. rewrite A, L, hp_app. simpl hp. rewrite app_nil_r, count_occ_app. specialize (G x).
    pose proof (inr_add x _ _ (S (length h1)) L1 ltac:(lia)). lia.
Qed.
Lemma clone_all_grown h ps h' qs : clone_all h ps = Ok (h', qs) -> grown h h' qs.
Proof. apply clone_list_grown. intros. eapply clone_n_grown. eassumption. Qed.

(* state s' with the pointers qs in hand, from state s *)
Definition moved (s s' : state T) (qs : list ptr) : Prop :=
  length (st_heap s) <= length (st_heap s') /\
  forall a, cnt (addresses qs) a + cnt (owners s') a
            = cnt (owners s) a + inr a (length (st_heap s)) (length (st_heap s')).
Lemma owners_eq s : owners s = vp (st_vars s) ++ hp (st_heap s). Proof. reflexivity. Qed.
Lemma set_vp vs : forall x (o o' : obj T) a, nth_error vs x = Some o ->
  cnt (vp (set_nth vs x o')) a + cnt (addresses (o_args o)) a
  = cnt (vp vs) a + cnt (addresses (o_args o')) a.
Proof.
  induction vs as [|v vs IH]; intros x o o' a E; destruct x; try discriminate; simpl in *.
  - injection E as ->. unfold vp in *. rewrite ?count_occ_app. lia.
  - unfold vp in *. rewrite ?count_occ_app. specialize (IH _ _ o' a E). lia.
Qed.
Lemma getv_ok (s : state T) x o : getv s x = Ok o -> nth_error (st_vars s) x = Some o.
Proof. unfold getv. destruct (nth_error _ _); simpl; congruence. Qed.
Lemma clone_var_moved s x s' q : clone_var s x = Ok (s', q) -> moved s s' [q].
Proof.
  unfold clone_var. intros E. apply bind_ok in E as (o & E1 & E). apply bind_ok in E as ((h & qs) & E2 & E).
  apply clone_all_grown in E2 as (L & G). destruct (alloc h _) as (h', q') eqn:A. injection E as <- <-.
  destruct (alloc_grown _ _ _ _ A) as (L' & C & ->). split; simpl st_heap; [lia|]. intros a.
  rewrite C, !owners_eq. simpl st_heap. simpl st_vars. rewrite L', hp_app, !count_occ_app. simpl hp. rewrite app_nil_r. specialize (G a).
  pose proof (inr_add a _ _ (S (length h)) L ltac:(lia)). lia.
Qed.
Lemma move_clone_var_moved s x s' q : move_clone_var s x = Ok (s', q) -> moved s s' [q].
Proof.
  unfold move_clone_var. intros E. apply bind_ok in E as (o & E1 & E). apply getv_ok in E1.
  destruct (alloc _ _) as (h', q') eqn:A. injection E as <- <-.
  destruct (alloc_grown _ _ _ _ A) as (L' & C & ->). split; simpl st_heap; [lia|]. intros a.
  rewrite C, !owners_eq. simpl st_heap. simpl st_vars. rewrite L', hp_app, !count_occ_app. simpl hp. rewrite app_nil_r.
  pose proof (set_vp _ _ _ (with_args o []) a E1) as S1. simpl in S1. lia.
Qed.
Lemma take_moved fl s a s' qs : take fl s a = Ok (s', qs) -> moved s s' qs.
Proof.
  destruct a as (mv, x). unfold take. intros E. apply bind_ok in E as (o & E1 & E). destruct (fl (o_ty o)).
  - destruct mv.
    + injection E as <- <-. split; [simpl; lia|]. intros a. simpl st_heap. rewrite inr_nil, !owners_eq, !count_occ_app.
      apply getv_ok in E1. pose proof (set_vp _ _ _ (with_args o (map (fun _ => None) (o_args o))) a E1) as S1.
      simpl o_args in S1. rewrite addr_null in S1. simpl in *. lia.
    + apply bind_ok in E as ((h & qs') & E2 & E). injection E as <- <-. apply clone_all_grown in E2 as (L & G).
      split; [exact L|]. intros a. rewrite !owners_eq, !count_occ_app. specialize (G a). simpl in *. lia.
  - apply bind_ok in E as ((s1 & q) & E2 & E). injection E as <- <-.
    destruct mv; [eapply move_clone_var_moved|eapply clone_var_moved]; eassumption.
Qed.
Lemma all_args_moved s a s' qs : all_args s a = Ok (s', qs) -> moved s s' qs.
Proof.
  unfold all_args. intros E. apply bind_ok in E as (o & E1 & E). destruct (fst a).
  - injection E as <- <-. split; [simpl; lia|]. intros b. simpl st_heap. rewrite inr_nil, !owners_eq, !count_occ_app.
    apply getv_ok in E1. pose proof (set_vp _ _ _ (with_args o []) b E1) as S1. simpl in *. lia.
  - apply bind_ok in E as ((h & qs') & E2 & E). injection E as <- <-. apply clone_all_grown in E2 as (L & G).
    split; [exact L|]. intros b. rewrite !owners_eq, !count_occ_app. specialize (G b). simpl in *. lia.
Qed.
Lemma moved_trans s s1 s2 p q : moved s s1 p -> moved s1 s2 q -> moved s s2 (p ++ q).
Proof.
  intros (L1 & G1) (L2 & G2). split; [lia|]. intros a. specialize (G1 a). specialize (G2 a).
  pose proof (inr_add a _ _ _ L1 L2). rewrite addr_app, count_occ_app. lia.
Qed.
Lemma moved_perm s s' p q : moved s s' (p ++ q) -> moved s s' (q ++ p).
Proof. intros (L & G). split; auto. intros a. specialize (G a). rewrite addr_app, count_occ_app in *. lia. Qed.
Lemma declare_moved s s' t d c qs : moved s s' qs -> moved s (declare s' (mkobj t d c qs)) [].
Proof.
  intros (L & G). split; auto. intros a. specialize (G a). rewrite owners_eq in *. simpl st_vars. simpl st_heap.
  rewrite vp_app. simpl vp. rewrite app_nil_r, !count_occ_app in *. simpl. lia.
Qed.
(* taking everything a variable holds *)
Lemma strip_moved s x o o' : getv s x = Ok o -> o_args o' = [] -> moved s (setv s x o') (o_args o).
Proof.
  intros E E'. apply getv_ok in E. split; [simpl; lia|]. intros a. simpl st_heap. rewrite inr_nil, !owners_eq, !count_occ_app.
  pose proof (set_vp _ _ _ o' a E) as S1. rewrite E' in S1. simpl in *. lia.
Qed.
Lemma moved_refl s : moved s s [].
Proof. split; auto. intros a. rewrite inr_nil. simpl. lia. Qed.
Lemma h_add_moved s a b s' : h_add s a b = Ok s' -> moved s s' [].
Proof.
  unfold h_add. intros E. apply bind_ok in E as (o1 & _ & E). apply bind_ok in E as (o2 & _ & E).
  apply bind_ok in E as (_ & _ & E). apply bind_ok in E as ((s1 & p1) & E1 & E).
  apply bind_ok in E as ((s2 & p2) & E2 & E). injection E as <-.
  apply declare_moved. eapply moved_trans; eapply take_moved; eassumption.
Qed.
Lemma h_mul_moved s a b s' : h_mul s a b = Ok s' -> moved s s' [].
Proof.
  unfold h_mul. intros E. apply bind_ok in E as (o1 & _ & E). apply bind_ok in E as (o2 & _ & E).
  apply bind_ok in E as (_ & _ & E). apply bind_ok in E as ((s1 & p1) & E1 & E).
  apply bind_ok in E as ((s2 & p2) & E2 & E). injection E as <-.
  apply declare_moved. eapply moved_trans; eapply take_moved; eassumption.
Qed.
Lemma h_compose_moved s a b s' : h_compose s a b = Ok s' -> moved s s' [].
Proof.
  unfold h_compose. intros E. apply bind_ok in E as (o1 & _ & E). apply bind_ok in E as (o2 & _ & E).
  apply bind_ok in E as (_ & _ & E). destruct (fst a && _).
  - apply bind_ok in E as ((s1 & p2) & E2 & E). apply bind_ok in E as (o1' & E3 & E). injection E as <-.
    apply declare_moved. eapply moved_trans; [eapply take_moved; eassumption|]. apply strip_moved; auto.
  - apply bind_ok in E as ((s1 & p1) & E1 & E). apply bind_ok in E as ((s2 & p2) & E2 & E). injection E as <-.
    apply declare_moved. apply moved_perm. eapply moved_trans; eapply take_moved; eassumption.
Qed.
Lemma h_concat_moved s a b s' : h_concat s a b = Ok s' -> moved s s' [].
Proof.
  unfold h_concat. intros E. apply bind_ok in E as (o1 & _ & E). apply bind_ok in E as (o2 & _ & E).
  apply bind_ok in E as (_ & _ & E). destruct (fst a); [destruct (ftype_eqb _ _)|].
  - destruct (Nat.eqb _ _); [discriminate|].
    apply bind_ok in E as ((s1 & p2) & E2 & E). apply bind_ok in E as (o1' & E3 & E). injection E as <-.
    apply declare_moved. apply moved_perm. eapply moved_trans; [eapply take_moved; eassumption|]. apply strip_moved; auto.
  - apply bind_ok in E as ((s1 & p1) & E1 & E). apply bind_ok in E as ((s2 & p2) & E2 & E). injection E as <-.
    apply declare_moved. apply moved_perm. eapply moved_trans; eapply take_moved; eassumption.
  - apply bind_ok in E as ((s1 & p1) & E1 & E). apply bind_ok in E as ((s2 & p2) & E2 & E). injection E as <-.
    apply declare_moved. eapply moved_trans; eapply take_moved; eassumption.
Qed.
Lemma h_neg_moved s a s' : h_neg s a = Ok s' -> moved s s' [].
Proof.
  unfold h_neg. intros E. apply bind_ok in E as (o1 & _ & E). apply bind_ok in E as ((s1 & p) & E1 & E). injection E as <-.
  apply declare_moved. eapply all_args_moved; eassumption.
Qed.
Lemma h_copy_moved s a s' : h_copy s a = Ok s' -> moved s s' [].
Proof.
  unfold h_copy. intros E. apply bind_ok in E as (o1 & _ & E). apply bind_ok in E as ((s1 & p) & E1 & E). injection E as <-.
  apply declare_moved. eapply all_args_moved; eassumption.
Qed.
Lemma h_new_moved s f s' : h_new s f = Ok s' -> moved s s' [].
Proof.
  unfold h_new. intros E. injection E as <-. apply (declare_moved s (mkstate (st_heap s ++ [NLeaf f]) (st_vars s))).
  split; simpl st_heap; [rewrite app_length; lia|]. intros a. rewrite !owners_eq. simpl st_heap. simpl st_vars.
  rewrite hp_app, app_length, !count_occ_app. simpl hp. simpl length. rewrite Nat.add_1_r, <- inr_one. simpl. lia.
Qed.
Lemma h_iop_moved op s x b s' : h_iop op s x b = Ok s' -> moved s s' [].
Proof.
  unfold h_iop. intros E. apply bind_ok in E as (o & E0 & E).
  match goal with HH : bind (if fst b then move_clone_var ?S1 _ else _) _ = _ |- _ => set (s1 := S1) in * end.
  assert (M : moved s s1 []).
  { subst s1. destruct (ftype_eqb (o_ty o) UNIQUE); [|destruct (ftype_eqb (o_ty o) op); [apply moved_refl|]].
    - split; [simpl; lia|]. intros a. simpl st_heap. rewrite inr_nil, !owners_eq, !count_occ_app. apply getv_ok in E0.
      pose proof (set_vp _ _ _ (mkobj op (o_dom o) (o_cod o) (o_args o)) a E0) as S1. simpl in *. lia.
    - destruct (alloc _ _) as (h, q) eqn:A. destruct (alloc_grown _ _ _ _ A) as (L' & C & ->).
      split; simpl st_heap; [lia|]. intros a. specialize (C a).
      rewrite !owners_eq. simpl st_heap. simpl st_vars. rewrite L', hp_app, !count_occ_app. simpl hp. rewrite app_nil_r.
      apply getv_ok in E0. pose proof (set_vp _ _ _ (mkobj op (o_dom o) (o_cod o) [q]) a E0) as S1. simpl o_args in S1. simpl in *. lia. }
  clearbody s1. apply bind_ok in E as ((s2 & q) & E2 & E). apply bind_ok in E as (o2 & E3 & E). injection E as <-.
  assert (M2 : moved s1 s2 [q]) by (destruct (fst b); [eapply move_clone_var_moved|eapply clone_var_moved]; eassumption).
  pose proof (moved_trans _ _ _ _ _ M M2) as (L & G). split; [exact L|]. intros a. specialize (G a). apply getv_ok in E3.
  rewrite !owners_eq, !count_occ_app in *. simpl st_heap. simpl st_vars.
  pose proof (set_vp _ _ _ (with_args o2 (o_args o2 ++ [q])) a E3) as S1. simpl o_args in S1. rewrite addr_app, count_occ_app in S1.
  simpl app in G. simpl (cnt (addresses []) a). lia.
Qed.
Lemma moved_trans0 s s1 s2 : moved s s1 [] -> moved s1 s2 [] -> moved s s2 [].
Proof. intros A B. exact (moved_trans _ _ _ _ _ A B). Qed.
Lemma exec_moved s c s' : exec s c = Ok s' -> moved s s' [].
Proof.
  destruct c as [f|a|a|k a b|v b|x b|x b]; simpl.
  - apply h_new_moved.
  - apply h_copy_moved.
  - apply h_neg_moved.
  - destruct k; [apply h_add_moved|apply h_mul_moved|apply h_compose_moved|apply h_concat_moved|].
    unfold h_sub. intros E. apply bind_ok in E as (o1 & _ & E). apply bind_ok in E as (o2 & _ & E).
    apply bind_ok in E as (_ & _ & E). apply bind_ok in E as (s1 & E1 & E).
    eapply moved_trans0; [eapply h_neg_moved|eapply h_add_moved]; eassumption.
  - unfold h_scal. intros E. apply bind_ok in E as (o1 & _ & E). apply bind_ok in E as (s1 & E1 & E).
    eapply moved_trans0; [eapply h_new_moved|eapply h_mul_moved]; eassumption.
  - apply h_iop_moved.
  - apply h_iop_moved.
Qed.
Lemma run_moved p : forall s s', run s p = Ok s' -> moved s s' [].
Proof.
  induction p as [|c p IH]; simpl; intros s s' E.
  - injection E as <-. apply moved_refl.
  - apply bind_ok in E as (s1 & E1 & E). eapply moved_trans0; [eapply exec_moved; eassumption|]. apply IH. exact E.
Qed.
Theorem one_owner p s : run start p = Ok s -> forall a,
  cnt (owners s) a = if a <? length (st_heap s) then 1 else 0.
Proof.
  intros E a. apply run_moved in E as (_ & G). specialize (G a). simpl in G. rewrite G. unfold inr. destruct (a <? _); reflexivity.
Qed.
End P.
