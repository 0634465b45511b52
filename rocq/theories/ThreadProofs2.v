(** Different ways down from variables lead to different heap nodes; two copies at the same time. *)
From Coq Require Import FinFun List Arith Bool Lia.
From Verif Require Import Num Outcome FunModel FunProofs HeapModel HeapSpec HeapProofs HeapProofs2 ThreadModel ThreadSpec ThreadProofs.
Import ListNotations.

Section P.
Context {T : Type} `{Num T}.
Local Notation cnt l a := (count_occ Nat.eq_dec l a).

Lemma cnt_one (ps : list ptr) : forall i a, nth_error ps i = Some (Some a) -> 1 <= cnt (addresses ps) a.
Proof.
  induction ps as [|p ps IH]; intros [|i] a E; try discriminate; cbn [nth_error] in E.
  - injection E as ->. cbn. destruct (Nat.eq_dec a a); [lia|contradiction].
  - specialize (IH _ _ E). change (p :: ps) with ([p] ++ ps). rewrite addr_app, count_occ_app. lia.
Qed.
Lemma cnt_inj (ps : list ptr) a : cnt (addresses ps) a <= 1 -> forall i j, nth_error ps i = Some (Some a) -> nth_error ps j = Some (Some a) -> i = j.
Proof.
  induction ps as [|p ps IH]; intros C i j Ei Ej; [destruct i; discriminate|].
  change (p :: ps) with ([p] ++ ps) in C. rewrite addr_app, count_occ_app in C.
  destruct i as [|i], j as [|j]; cbn [nth_error] in *; auto.
  - injection Ei as ->. pose proof (cnt_one _ _ _ Ej). cbn in C. destruct (Nat.eq_dec a a); [lia|contradiction].
  - injection Ej as ->. pose proof (cnt_one _ _ _ Ei). cbn in C. destruct (Nat.eq_dec a a); [lia|contradiction].
  - f_equal. apply IH; auto. lia.
Qed.
Lemma cnt_list {X} (f : X -> list ptr) (L : list X) : forall x ps i a, nth_error L x = Some ps -> nth_error (f ps) i = Some (Some a) -> 1 <= cnt (flat_map (fun x => addresses (f x)) L) a.
Proof.
  induction L as [|q L IH]; intros [|x] ps i a E Ei; try discriminate; cbn [nth_error flat_map] in *; rewrite count_occ_app.
  - injection E as ->. pose proof (cnt_one _ _ _ Ei). lia.
  - specialize (IH _ _ _ _ E Ei). lia.
Qed.
Lemma cnt_list_inj {X} (f : X -> list ptr) (L : list X) a : cnt (flat_map (fun x => addresses (f x)) L) a <= 1 -> forall x y ps qs i j,
  nth_error L x = Some ps -> nth_error L y = Some qs -> nth_error (f ps) i = Some (Some a) -> nth_error (f qs) j = Some (Some a) -> x = y /\ i = j.
Proof.
  induction L as [|q L IH]; intros C x y ps qs i j Ex Ey Ei Ej; [destruct x; discriminate|]. cbn [flat_map] in C. rewrite count_occ_app in C.
  destruct x as [|x], y as [|y]; cbn [nth_error] in *.
  - injection Ex as ->. injection Ey as ->. split; auto. eapply cnt_inj; eauto. lia.
  - injection Ex as ->. pose proof (cnt_one _ _ _ Ei). pose proof (cnt_list f L _ _ _ _ Ey Ej). lia.
  - injection Ey as ->. pose proof (cnt_one _ _ _ Ej). pose proof (cnt_list f L _ _ _ _ Ex Ei). lia.
  - destruct (IH ltac:(lia) _ _ _ _ _ _ Ex Ey Ei Ej) as (-> & ->). auto.
Qed.
Definition kids (n : node T) : list ptr := match n with NLeaf _ => [] | NExpr _ _ _ ps => ps end.
Lemma owners_kids (s : state T) : owners s = flat_map (fun o => addresses (o_args o)) (st_vars s) ++ flat_map (fun n => addresses (kids n)) (st_heap s).
Proof. unfold owners. f_equal. apply flat_map_ext. intros [f|ty d c ps]; reflexivity. Qed.

Lemma node_inj (s : state T) : (forall a, cnt (owners s) a <= 1) -> forall p x y q a, node_at s (x, p) = Some a -> node_at s (y, q) = Some a -> (x, p) = (y, q).
Proof.
  intros C. assert (V : forall x o i a, nth_error (st_vars s) x = Some o -> nth_error (o_args o) i = Some (Some a) -> forall b n j, nth_error (st_heap s) b = Some n -> nth_error (kids n) j = Some (Some a) -> False).
  { intros x o i a Ex Ei b n j Eb Ej. specialize (C a). rewrite owners_kids, count_occ_app in C. pose proof (cnt_list o_args _ _ _ _ _ Ex Ei). pose proof (cnt_list kids _ _ _ _ _ Eb Ej). lia. }
  assert (N : forall x i up a, node_at s (x, i :: up) = Some a -> (up = [] /\ exists o, nth_error (st_vars s) x = Some o /\ nth_error (o_args o) i = Some (Some a)) \/
     (exists b n, node_at s (x, up) = Some b /\ nth_error (st_heap s) b = Some n /\ nth_error (kids n) i = Some (Some a))).
  { intros x i up a E. unfold node_at in E. cbn [fst snd] in E. destruct up as [|j up]; cbn [elements] in E.
    - left. split; auto. destruct (nth_error (st_vars s) x) as [o|]; [|discriminate]. cbn [option_map] in E. exists o. split; auto. destruct (nth_error (o_args o) i) as [[b|]|]; try discriminate. injection E as ->. reflexivity.
    - right. unfold node_at. cbn [fst snd]. destruct (elements s x up) as [ps|]; [|discriminate]. destruct (nth_error ps j) as [[b|]|]; try discriminate. destruct (nth_error (st_heap s) b) as [[f|ty d c qs]|] eqn:Eb; try discriminate.
      exists b, (NExpr ty d c qs). split; auto. split; auto. cbn [kids]. destruct (nth_error qs i) as [[k|]|]; try discriminate. injection E as ->. reflexivity. }
  induction p as [|i p IH]; intros x y q a Ep Eq; [discriminate|]. destruct q as [|j q]; [discriminate|].
  destruct (N _ _ _ _ Ep) as [(-> & o & Ox & Oi)|(b & n & Nb & Hb & Ki)]; destruct (N _ _ _ _ Eq) as [(-> & o' & Oy & Oj)|(b' & n' & Nb' & Hb' & Kj)].
  - specialize (C a). rewrite owners_kids, count_occ_app in C. destruct (cnt_list_inj o_args (st_vars s) a ltac:(lia) _ _ _ _ _ _ Ox Oy Oi Oj) as (-> & ->). reflexivity.
  - exfalso. eapply V; [exact Ox|exact Oi|exact Hb'|exact Kj].
  - exfalso. eapply V; [exact Oy|exact Oj|exact Hb|exact Ki].
  - specialize (C a). rewrite owners_kids, count_occ_app in C. destruct (cnt_list_inj kids (st_heap s) a ltac:(lia) _ _ _ _ _ _ Hb Hb' Ki Kj) as (<- & ->). assert (X := IH _ _ _ _ Nb Nb'). congruence.
Qed.

(** ** buffers belong to splines *)
Lemma touches_inside {A} (p : prog T A) w P : touches p w -> inside P p -> P (Some w).
Proof. intros X. induction X; cbn [inside]; intros I0; destruct I0; auto. Qed.
Lemma look_list_nth (lk : ptr -> outcome (fn T)) ps : forall fs i p, look_list lk ps = Ok fs -> nth_error ps i = Some p -> exists f, nth_error fs i = Some f /\ lk p = Ok f.
Proof.
  induction ps as [|q ps IH]; intros fs i p E X; [destruct i; discriminate|]. cbn [look_list] in E. apply bind_ok in E as (f & Ef & E). apply bind_ok in E as (fs' & Efs & E). injection E as <-.
  destruct i as [|i]; cbn [nth_error] in *; [injection X as ->; eauto|eauto].
Qed.
Lemma node_tree (s : state T) x f : look_var s x = Ok f -> forall way,
  (forall a, node_at s (x, way) = Some a -> exists g, at_way f way = Some g /\ look (st_heap s) (Some a) = Ok g) /\
  (forall ps, elements s x way = Some ps -> exists ty d c args, at_way f way = Some (FExpr ty d c args) /\ look_list (look (st_heap s)) ps = Ok args).
Proof.
  intros L. induction way as [|i up (IN & IE)].
  - split; [discriminate|]. cbn [elements at_way]. intros ps E. unfold look_var in L. apply bind_ok in L as (o & Lo & L). apply bind_ok in L as (fs & Lf & L). injection L as <-.
    apply getv_ok in Lo. rewrite Lo in E. cbn [option_map] in E. injection E as <-. eauto 8.
  - assert (N : forall a, node_at s (x, i :: up) = Some a -> exists g, at_way f (i :: up) = Some g /\ look (st_heap s) (Some a) = Ok g).
    { intros a E. unfold node_at in E. cbn [fst snd] in E. destruct (elements s x up) as [ps|] eqn:El; [|discriminate]. destruct (IE _ eq_refl) as (ty & d & c & args & Ea & Ll).
      destruct (nth_error ps i) as [[b|]|] eqn:Ei; try discriminate. injection E as ->. destruct (look_list_nth _ _ _ _ _ Ll Ei) as (g & Eg & Lg). exists g. cbn [at_way]. rewrite Ea. auto. }
    split; [exact N|]. intros ps E. cbn [elements] in E. unfold node_at in N. cbn [fst snd] in N. destruct (elements s x up) as [qs|]; [|discriminate]. destruct (nth_error qs i) as [[b|]|]; try discriminate.
    destruct (nth_error (st_heap s) b) as [[h|ty d c rs]|] eqn:Eb; try discriminate. injection E as ->. destruct (N b eq_refl) as (g & Eg & Lg). unfold look in Lg. pose proof (nth_error_Some (st_heap s) b) as X. rewrite Eb in X.
    destruct (length (st_heap s)) as [|n] eqn:En; [discriminate|]. cbn [look_n] in Lg. rewrite Eb in Lg. cbn [of_option bind] in Lg. apply bind_ok in Lg as (fs & Lfs & Lg). injection Lg as <-.
    exists ty, d, c, fs. split; auto. eapply look_list_impl; [|exact Lfs]. intros p' f' Lp. unfold look. rewrite En. pose proof (look_n_mono n (S n) (st_heap s) [] p' f' ltac:(lia) Lp) as M. rewrite app_nil_r in M. exact M.
Qed.

(** ** expressions in a tree *)
Lemma NoDup_app_intro {A} (a b : list A) : NoDup a -> NoDup b -> (forall x, In x a -> In x b -> False) -> NoDup (a ++ b).
Proof.
  induction 1 as [|x a Nx Na IH]; cbn [app]; auto. intros Nb D. constructor; [|apply IH; auto; intros y Y; apply D; right; exact Y].
  rewrite in_app_iff. intros [X|X]; [auto|]. apply (D x); auto. now left.
Qed.
Definition is_expr (f : fn T) (way : list nat) : Prop := exists ty d c args, at_way f way = Some (FExpr ty d c args).
Definition parts (f : fn T) : list (fn T) := match f with FExpr _ _ _ args => args | FDot _ f1 f2 => [f1; f2] | _ => [] end.
Lemma at_way_down f i way : at_way f (way ++ [i]) = match nth_error (parts f) i with Some g => at_way g way | None => None end.
Proof.
  induction way as [|j way IH]; cbn [app at_way].
  - destruct f; cbn [parts]; try (destruct i; reflexivity). + destruct i as [|[|[|i]]]; reflexivity. + destruct (nth_error args i); reflexivity.
  - rewrite IH. destruct (nth_error (parts f) i); reflexivity.
Qed.
Definition counted (P : list nat -> Prop) (n : nat) : Prop := exists ways, NoDup ways /\ (forall way, In way ways <-> P way) /\ length ways = n.
Lemma counted_parts args : Forall (fun g => counted (is_expr g) (expressions g)) args -> forall b,
  counted (fun way => exists i g up, way = up ++ [b + i] /\ nth_error args i = Some g /\ is_expr g up) (list_sum (map expressions args)).
Proof.
  induction 1 as [|g args (ws & Nw & Iw & Lw) F IH]; intros b.
  - exists []. split; [constructor|]. split; [|reflexivity]. intros way. split; [intros []|]. intros (i & g & up & _ & X & _). destruct i; discriminate.
  - destruct (IH (S b)) as (vs & Nv & Iv & Lv). exists (map (fun w => w ++ [b]) ws ++ vs). split; [|split].
    + apply NoDup_app_intro.
      * apply FinFun.Injective_map_NoDup; auto. intros a a' E. apply app_inj_tail in E. apply E.
      * exact Nv.
      * intros way A B. apply in_map_iff in A as (w & <- & _). apply Iv in B as (i & g' & up & E & _). apply app_inj_tail in E. lia.
    + intros way. rewrite in_app_iff, in_map_iff, Iv. split.
      * intros [(w & <- & I0)|(i & g' & up & -> & Ei & X)]; [exists 0, g, w|exists (S i), g', up]; cbn [nth_error]; rewrite ?Nat.add_0_r, <- ?plus_n_Sm; repeat split; auto. now apply Iw.
      * intros ([|i] & g' & up & -> & Ei & X); cbn [nth_error] in Ei.
        -- injection Ei as <-. left. exists up. rewrite Nat.add_0_r. split; auto. now apply Iw.
        -- right. exists i, g', up. rewrite <- plus_n_Sm. auto.
    + rewrite app_length, map_length. unfold list_sum in *. cbn [map fold_right]. lia.
Qed.
Lemma parts_expr f way i : is_expr f (way ++ [i]) <-> exists g, nth_error (parts f) i = Some g /\ is_expr g way.
Proof.
  unfold is_expr. rewrite at_way_down. destruct (nth_error (parts f) i) as [g|].
  - split; [eauto|]. intros (g' & E & X). injection E as <-. exact X.
  - split; [intros (? & ? & ? & ? & ?); discriminate|intros (? & ? & _); discriminate].
Qed.
Lemma expressions_counted (f : fn T) : counted (is_expr f) (expressions f).
Proof.
  assert (Leaf : forall g : fn T, parts g = [] -> (forall ty d c args, g <> FExpr ty d c args) -> counted (is_expr g) 0).
  { intros g K N. exists []. split; [constructor|]. split; [|reflexivity]. intros way. split; [intros []|]. intros X. destruct way as [|i way] using rev_ind.
    - destruct X as (ty & d & c & args & E). injection E as E. apply (N _ _ _ _ E).
    - apply parts_expr in X as (h & E & _). rewrite K in E. destruct i; discriminate. }
  induction f as [d v|d a|d|d|d|d c|d f1 f2 IH1 IH2|d c s k|d c s k|ty d c args IH] using fn_ind'; cbn [expressions]; try (apply Leaf; [reflexivity|discriminate]).
  - destruct (counted_parts [f1; f2] ltac:(auto) 0) as (ws & Nw & Iw & Lw). exists ws. split; auto. split; [|cbn in Lw; lia]. intros way. rewrite Iw. split.
    + intros (i & g & up & -> & E & X). apply parts_expr. eauto.
    + intros X. destruct way as [|i way _] using rev_ind; [destruct X as (? & ? & ? & ? & ?); discriminate|]. apply parts_expr in X as (g & E & X). exists i, g, way. auto.
  - destruct (counted_parts args IH 0) as (ws & Nw & Iw & Lw). exists ([] :: ws). split; [|split; [|cbn; lia]].
    + constructor; auto. intros X. apply Iw in X as (i & g & up & E & _). destruct up; discriminate.
    + intros way. cbn [In]. rewrite Iw. split.
      * intros [<-|(i & g & up & -> & E & X)]; [exists ty, d, c, args; reflexivity|]. apply parts_expr. eauto.
      * intros X. destruct way as [|i way _] using rev_ind; [auto|]. right. apply parts_expr in X as (g & E & X). exists i, g, way. auto.
Qed.

(** ** two copies *)
Lemma steps_app {A} (c c' c'' : list (prog T A) * mem T) : steps c c' -> steps c' c'' -> steps c c''.
Proof. intros S1 S2. induction S1; auto. econstructor; eauto. Qed.
Lemma step_at {A} (l r : list (prog T A)) p p' m m' : act p m = Some (p', m') -> step (l ++ p :: r, m) (l ++ p' :: r, m').
Proof.
  intros E. replace (l ++ p' :: r) with (set_nth (l ++ p :: r) (length l) p').
  - constructor 1 with (p := p); auto. rewrite nth_error_app2, Nat.sub_diag; auto.
  - induction l as [|x l IH]; cbn; congruence.
Qed.
Lemma run_thread {A} (l r : list (prog T A)) p : forall m, steps (l ++ p :: r, m) (l ++ Ret (fst (alone p m)) :: r, snd (alone p m)).
Proof.
  induction p as [x|w v k IH|w k IH|k IH|n k IH]; intros m; cbn [alone fst snd]; try (econstructor; [apply step_at; reflexivity|apply IH]). constructor.
Qed.
Lemma count_alone n f : forall m : mem T, alone (count_calls n f) m = (Ok (Tree f), mkmem (m_buf m) (m_cnt m + n)).
Proof.
  induction n as [|n IH]; intros m; cbn [count_calls alone].
  - destruct m. cbn. f_equal. f_equal. lia.
  - rewrite IH. cbn [m_buf m_cnt]. do 2 f_equal. lia.
Qed.
Lemma count_inside (P : option place -> Prop) n (f : fn T) : P None -> inside P (count_calls n f).
Proof. intros X. induction n; cbn; auto. Qed.
Lemma lost_update n k f g (m : mem T) : 1 <= n -> 1 <= k -> exists c, steps ([count_calls n f; count_calls k g], m) ([Ret (Ok (Tree f)); Ret (Ok (Tree g))], c) /\ m_cnt c = m_cnt m + n.
Proof.
  intros Hn Hk. destruct n as [|n]; [lia|]. eexists. split.
  - cbn [count_calls]. eapply steps_cons; [apply (step_at [] [count_calls k g]); reflexivity|]. cbn [app].
    eapply steps_app; [apply (run_thread [_] [] (count_calls k g))|]. rewrite count_alone. cbn [fst snd app].
    eapply steps_cons; [apply (step_at [] [_]); reflexivity|]. cbn [app]. eapply steps_app; [apply (run_thread [] [_] (count_calls n f))|]. rewrite count_alone. cbn [fst snd app]. constructor.
  - cbn [m_cnt m_buf]. lia.
Qed.
End P.
