(** Concatenation. *)
From Coquelicot Require Import Coquelicot.
From Coq Require Import List Reals Lra Lia Bool Arith.
From Verif Require Import Num Outcome FunModel FunSpec FunProofs FunProofs2.
Import ListNotations.
Local Open Scope R_scope.

(** value of a list of pieces over [a,b] *)
Definition inc (g : fn R) : Prop := fst (fdom g) < snd (fdom g).

Lemma in_dom g t : is_point_in_domain g t = true <-> fst (fdom g) <= t < snd (fdom g).
Proof.
  unfold is_point_in_domain. simpl. rewrite andb_true_iff, Rleb_true, Rltb_true. tauto.
Qed.

Lemma last_snoc_cons {A} (l : list A) x d : last (l ++ [x]) d = x.
Proof. apply last_last. Qed.

Lemma last_app2 {A} (l1 l2 : list A) d : l2 <> [] -> last (l1 ++ l2) d = last l2 d.
Proof.
  intros H. destruct (exists_last H) as (l & x & ->). rewrite app_assoc, !last_last. reflexivity.
Qed.

Definition pstart (l : list (fn R)) : R := match l with [] => 0 | g :: _ => fst (fdom g) end.
Definition pend (l : list (fn R)) : R := match l with [] => 0 | g :: _ => snd (fdom (last l g)) end.

Lemma pend_cons g h l : pend (g :: h :: l) = pend (h :: l).
Proof. unfold pend. f_equal. f_equal. change (last (g :: h :: l) g) with (last (h :: l) g).
  apply last_default. discriminate. Qed.
Lemma pend_snoc l x : pend (l ++ [x]) = snd (fdom x).
Proof.
  unfold pend. destruct (l ++ [x]) eqn:E; [destruct l; discriminate|].
  rewrite <- E, last_last. reflexivity.
Qed.
Lemma pend_app l1 l2 : l1 <> [] -> l2 <> [] -> pend (l1 ++ l2) = pend l2.
Proof.
  intros H1 H2. destruct (exists_last H2) as (l & x & ->). now rewrite app_assoc, !pend_snoc.
Qed.
Lemma pstart_app l1 l2 : l1 <> [] -> pstart (l1 ++ l2) = pstart l1.
Proof. destruct l1; [congruence|reflexivity]. Qed.

Lemma abut_app l1 l2 : l1 <> [] -> l2 <> [] ->
  abut l1 -> abut l2 -> pend l1 = pstart l2 -> abut (l1 ++ l2).
Proof.
  intros H1 H2. induction l1 as [|g l1 IH]; intros A1 A2 E; [congruence|].
  destruct l1 as [|h l1].
  - destruct l2 as [|h l2]; [congruence|]. simpl in *. auto.
  - rewrite pend_cons in E. simpl in A1. destruct A1 as [E1 A1].
    change (snd (fdom g) = fst (fdom h) /\ abut ((h :: l1) ++ l2)). split; auto.
    apply IH; auto. discriminate.
Qed.

(** the first piece containing t is unique, so search order is immaterial *)
Section Find.
Variables (g0 : fn R) (all : list (fn R)) (t : R).
Lemma find_app l1 l2 : Forall (fun g => is_point_in_domain g t = false) l1 ->
  den_find g0 all t (l1 ++ l2) = den_find g0 all t l2.
Proof.
  induction l1 as [|g l1 IH]; intros F; simpl; auto.
  apply Forall_cons_iff in F as [Fg F]. rewrite Fg. auto.
Qed.
End Find.

Lemma pieces_bounds l : l <> [] -> abut l -> Forall inc l ->
  pstart l < pend l /\ Forall (fun g => pstart l <= fst (fdom g) /\ snd (fdom g) <= pend l) l.
Proof.
  intros Hne. induction l as [|g l IH]; [congruence|]. clear Hne. intros A F.
  apply Forall_cons_iff in F as [Ig F]. destruct l as [|h l].
  - unfold inc in *. simpl. split; [lra|]. repeat constructor; simpl; lra.
  - destruct A as [E A]. destruct IH as [B1 B2]; auto; try discriminate.
    rewrite pend_cons. simpl pstart in *. unfold inc in Ig. rewrite E in Ig.
    split; [lra|]. constructor; [cbn [pstart]; lra|].
    eapply Forall_impl; [|exact B2]. intros x. cbn [pstart]. lra.
Qed.

(** inside [start,end) some piece contains t; outside none *)
Lemma pieces_hit l t : l <> [] -> abut l -> Forall inc l -> pstart l <= t < pend l ->
  exists g, In g l /\ is_point_in_domain g t = true.
Proof.
  intros Hne. induction l as [|g l IH]; [congruence|]. clear Hne. intros A F Ht.
  destruct (Rlt_dec t (snd (fdom g))) as [L|L].
  - exists g. split; [simpl; auto|]. apply in_dom. simpl in Ht. lra.
  - destruct l as [|h l].
    + simpl in *. lra.
    + destruct A as [E A]. apply Forall_cons_iff in F as [_ F]. rewrite pend_cons in Ht.
      destruct IH as (x & Hx & Px); auto; try discriminate.
      * simpl pstart. lra.
      * exists x. split; [right; auto|auto].
Qed.
Lemma pieces_miss l t : l <> [] -> abut l -> Forall inc l -> t < pstart l \/ pend l <= t ->
  Forall (fun g => is_point_in_domain g t = false) l.
Proof.
  intros Hne A F Ht. destruct (pieces_bounds l Hne A F) as [_ B].
  eapply Forall_impl; [|exact B]. intros g [B1 B2]. simpl in *.
  destruct (is_point_in_domain g t) eqn:E; auto. apply in_dom in E. lra.
Qed.

(** t in the first block: only that block matters *)
Lemma find_hit g0 all g0' all' t l1 l2 : (exists g, In g l1 /\ is_point_in_domain g t = true) ->
  den_find g0 all t (l1 ++ l2) = den_find g0' all' t l1.
Proof.
  intros (g & Hg & Pg). induction l1 as [|h l1 IH]; [contradiction|]. simpl.
  destruct (is_point_in_domain h t) eqn:E; auto.
  apply IH. destruct Hg as [->|Hg]; [congruence|auto].
Qed.

Lemma find_miss g0 all t l : Forall (fun g => is_point_in_domain g t = false) l ->
  den_find g0 all t l = if Rleb t (fst (fdom g0)) then den g0 (fst (fdom g0))
                        else den_last (snd (fdom (last all g0))) all.
Proof.
  intros F. replace l with (l ++ []) by apply app_nil_r. rewrite find_app; auto.
Qed.

(** block value: [bval l t] is what the concatenation of [l] computes *)
Definition bval (l : list (fn R)) (t : R) : list R :=
  match l with [] => [] | g0 :: _ => den_find g0 l t l end.

Lemma bval_left l t : l <> [] -> abut l -> Forall inc l -> t < pstart l ->
  bval l t = match l with [] => [] | g :: _ => den g (fst (fdom g)) end.
Proof.
  intros Hne A F Ht. destruct l as [|g l]; [congruence|]. unfold bval.
  rewrite find_miss by (apply pieces_miss; auto).
  destruct (Rleb_spec t (fst (fdom g))); auto. simpl in Ht. lra.
Qed.
Lemma bval_right l t : l <> [] -> abut l -> Forall inc l -> pstart l < t -> pend l <= t ->
  bval l t = den_last (pend l) l.
Proof.
  intros Hne A F Ht He. destruct l as [|g l]; [congruence|]. unfold bval.
  rewrite find_miss by (apply pieces_miss; auto).
  destruct (Rleb_spec t (fst (fdom g))); auto. simpl in Ht. lra.
Qed.

(** the concatenation of non-empty blocks *)
Lemma bval_app l1 l2 t : l1 <> [] -> l2 <> [] -> abut l1 -> abut l2 ->
  Forall inc l1 -> Forall inc l2 -> pend l1 = pstart l2 ->
  bval (l1 ++ l2) t =
    if Rlt_dec t (pstart l1) then match l1 with [] => [] | g :: _ => den g (fst (fdom g)) end
    else if Rlt_dec t (pend l1) then bval l1 t
    else if Rlt_dec t (pend l2) then bval l2 t
    else den_last (pend l2) l2.
Proof.
  intros N1 N2 A1 A2 I1 I2 E.
  destruct (pieces_bounds l1 N1 A1 I1) as [B1 _]. destruct (pieces_bounds l2 N2 A2 I2) as [B2 _].
  assert (N : l1 ++ l2 <> []) by (intros X; apply app_eq_nil in X; tauto).
  assert (A : abut (l1 ++ l2)) by (apply abut_app; auto).
  assert (I : Forall inc (l1 ++ l2)) by (apply Forall_app; auto).
  assert (PS : pstart (l1 ++ l2) = pstart l1) by (apply pstart_app; auto).
  assert (PE : pend (l1 ++ l2) = pend l2) by (apply pend_app; auto).
  destruct (Rlt_dec t (pstart l1)) as [C1|C1].
  - rewrite bval_left by (auto; lra). destruct l1; [congruence|reflexivity].
  - destruct (Rlt_dec t (pend l1)) as [C2|C2].
    + destruct l1 as [|g l1']; [congruence|]. unfold bval. rewrite <- app_comm_cons.
      rewrite app_comm_cons. apply find_hit. apply pieces_hit; auto. lra.
    + destruct (Rlt_dec t (pend l2)) as [C3|C3].
      * destruct l1 as [|g l1']; [congruence|]. destruct l2 as [|h l2']; [congruence|].
        unfold bval at 1. rewrite <- app_comm_cons. rewrite app_comm_cons.
        rewrite find_app by (apply pieces_miss; auto; right; lra).
        unfold bval. rewrite <- (app_nil_r (h :: l2')) at 2. apply find_hit.
        apply pieces_hit; auto. lra.
      * rewrite bval_right by (auto; lra). rewrite PE.
        destruct (exists_last N2) as (l & x & ->). rewrite app_assoc, !den_last_snoc. reflexivity.
Qed.

(** ** expressions *)
(** invariant of the expressions of [means] *)
Definition cinv (e : expr R) : Prop :=
  wf (fe e) /\ (1 <= ecod e)%nat /\
  (ety e = CONCATENATION ->
     edom e = (pstart (eargs e), pend (eargs e)) /\ Forall inc (eargs e)).

Lemma not_concat_cinv e : wf (fe e) -> (1 <= ecod e)%nat -> ety e <> CONCATENATION -> cinv e.
Proof. intros W P H. split; auto. split; auto. congruence. Qed.

Lemma den_concat_bval d c l t : l <> [] -> den (FExpr CONCATENATION d c l) t = bval l t.
Proof. destruct l; [congruence|reflexivity]. Qed.

Lemma concat_args_spec e : cinv e -> fst (edom e) < snd (edom e) ->
  let l := concat_args e in
  l <> [] /\ Forall wf l /\ Forall (fun g => fcod g = ecod e) l /\ abut l /\ Forall inc l /\
  pstart l = fst (edom e) /\ pend l = snd (edom e) /\
  (forall t, pstart l <= t < pend l -> bval l t = den (fe e) t) /\
  (match l with [] => [] | g :: _ => den g (fst (fdom g)) end = den (fe e) (pstart l)) /\
  (den_last (pend l) l = den (fe e) (pend l)).
Proof.
  intros (W & P & K) Hlt. unfold concat_args. destruct (ftype_eqb (ety e) CONCATENATION) eqn:T.
  - assert (Ty : ety e = CONCATENATION) by (destruct (ety e); simpl in T; congruence).
    destruct (K Ty) as [ED I]. destruct e as [ty d c args]; cbn [ety edom ecod eargs] in *. subst ty.
    destruct W as [Wa (Hne & Hc & Ab)]. apply wf_args in Wa. cbn [ety edom ecod eargs] in *.
    subst d. cbn [fst snd] in *. destruct (pieces_bounds args Hne Ab I) as [B1 B2].
    unfold fe; cbn [ety edom ecod eargs].
    do 5 (split; [assumption|]). do 2 (split; [reflexivity|]). split; [|split].
    + intros t Ht. now rewrite den_concat_bval.
    + rewrite den_concat_bval by auto. destruct args as [|g rest]; [congruence|].
      simpl pstart. unfold bval. cbn [den_find].
      assert (X : is_point_in_domain g (fst (fdom g)) = true).
      { apply in_dom. apply Forall_cons_iff in I as [Ig _]. unfold inc in Ig. lra. }
      now rewrite X.
    + rewrite den_concat_bval by auto. symmetry. apply bval_right; auto. lra.
  - assert (Ty : ety e <> CONCATENATION) by (intros X; rewrite X in T; discriminate).
    cbn zeta. split; [discriminate|]. split; [auto|]. split; [auto|]. split; [simpl; auto|].
    assert (Ig : inc (fe e)) by exact Hlt.
    split; [auto|]. split; [reflexivity|]. split; [reflexivity|].
    split; [|split; reflexivity].
    intros t Ht. unfold bval; cbn [den_find].
    assert (X : is_point_in_domain (fe e) t = true) by (apply in_dom; exact Ht).
    now rewrite X.
Qed.

Lemma concat_ok o e1 e2 r : cinv e1 -> cinv e2 -> concat_ o e1 e2 = Ok r ->
  snd (edom e1) = fst (edom e2) -> fst (edom e1) < snd (edom e1) -> fst (edom e2) < snd (edom e2) ->
  edom r = (fst (edom e1), snd (edom e2)) ->
  cinv r /\ forall t, den (fe r) t = piecewise (edom e1) (edom e2) (den (fe e1)) (den (fe e2)) t.
Proof.
  intros K1 K2 E AB L1 L2 ED.
  destruct (concat_args_spec e1 K1 L1) as (N1 & W1 & C1 & A1 & I1 & S1 & P1 & V1 & F1 & G1).
  destruct (concat_args_spec e2 K2 L2) as (N2 & W2 & C2 & A2 & I2 & S2 & P2 & V2 & F2 & G2).
  assert (CC : ecod e1 = ecod e2).
  { unfold concat_, concat_throw in E. destruct (Nat.eqb_spec (ecod e1) (ecod e2)); auto. discriminate. }
  assert (X : r = mkexpr CONCATENATION (fst (edom e1), snd (edom e2)) (ecod e1)
                    (concat_args e1 ++ concat_args e2)).
  { unfold concat_ in E. apply bind_ok in E. destruct E as ([] & _ & E).
    assert (Y : ftype_eqb (ety e1) CONCATENATION = true -> eargs e1 = concat_args e1).
    { intros Y. unfold concat_args. now rewrite Y. }
    destruct o; try (inversion E; reflexivity);
    destruct (ftype_eqb (ety e1) CONCATENATION); try (inversion E; reflexivity);
    rewrite Y in E by reflexivity; inversion E; subst r; simpl in ED; rewrite ED; reflexivity. }
  subst r. clear E ED.
  set (l1 := concat_args e1) in *. set (l2 := concat_args e2) in *.
  assert (PP : pend l1 = pstart l2) by congruence.
  assert (N : l1 ++ l2 <> []) by (intros X; apply app_eq_nil in X; tauto).
  split.
  - split; [|split].
    + unfold fe; cbn [ety edom ecod eargs]. split; [apply wf_args, Forall_app; auto|].
      split; auto. split; [apply Forall_app; split; auto; rewrite CC; auto|].
      apply abut_app; auto.
    + simpl. apply K1.
    + simpl. intros _. split.
      * rewrite pstart_app, pend_app by auto. congruence.
      * apply Forall_app; auto.
  - intros t. unfold fe at 1; cbn [ety edom ecod eargs]. rewrite den_concat_bval by auto.
    rewrite bval_app by auto. unfold piecewise. rewrite <- S1, <- P1, <- P2.
    destruct (Rlt_dec t (pstart l1)); [exact F1|].
    destruct (Rlt_dec t (pend l1)); [apply V1; lra|].
    destruct (Rlt_dec t (pend l2)); [apply V2; lra|]. exact G2.
Qed.

Lemma piecewise_ext d1 d2 F F' G G' t : (forall t, F t = F' t) -> (forall t, G t = G' t) ->
  piecewise d1 d2 F G t = piecewise d1 d2 F' G' t.
Proof.
  intros HF HG. unfold piecewise.
  destruct (Rlt_dec t (fst d1)); auto. destruct (Rlt_dec t (snd d1)); auto.
  destruct (Rlt_dec t (snd d2)); auto.
Qed.

Theorem means_ok e F : means e F -> cinv e /\ forall t, den (fe e) t = F t.
Proof.
  induction 1.
  - split; [|intros t; apply leaf_den].
    apply not_concat_cinv; [|simpl; rewrite leaf_cod; apply leaf_pos; auto|discriminate].
    apply to_expression_ok, leaf_wf; auto.
  - destruct IHmeans1 as [(W1 & P1 & _) D1]. destruct IHmeans2 as [(W2 & P2 & _) D2].
    pose proof H1 as E. apply add_ok in H1; auto. destruct H1 as (W & C & C' & D). split.
    + apply not_concat_cinv; auto; [lia|].
      unfold add in E. apply bind_ok in E. destruct E as ([] & _ & E). inversion E; discriminate.
    + intros t. rewrite D, D1, D2. symmetry. apply zip_with_map2.
  - destruct IHmeans1 as [(W1 & P1 & _) D1]. destruct IHmeans2 as [(W2 & P2 & _) D2].
    pose proof H1 as E. apply mul_ok in H1; auto. destruct H1 as (W & C & D). split.
    + apply not_concat_cinv; auto; [lia|].
      unfold mul in E. apply bind_ok in E. destruct E as ([] & _ & E). destruct o; inversion E; discriminate.
    + intros t. now rewrite D, D1, D2.
  - destruct IHmeans as [(W1 & P1 & _) D1]. pose proof H0 as E.
    apply scal_ok in H0; auto. destruct H0 as (W & C & D). split.
    + apply not_concat_cinv; auto; [lia|].
      unfold scal, mul in E. apply bind_ok in E. destruct E as ([] & _ & E). destruct rv; inversion E; discriminate.
    + intros t. now rewrite D, D1.
  - destruct IHmeans1 as [(W1 & P1 & _) D1]. destruct IHmeans2 as [(W2 & P2 & _) D2].
    pose proof H1 as E. apply compose_ok in H1; auto. destruct H1 as (W & C & C' & D). split.
    + apply not_concat_cinv; auto; [lia|].
      unfold compose in E. apply bind_ok in E. destruct E as ([] & _ & E).
      destruct o; try (inversion E; discriminate); destruct (ftype_eqb (ety e1) COMPOSITION); inversion E; discriminate.
    + intros t. rewrite D, D1, D2. f_equal. unfold first_comp. destruct (G t); reflexivity.
  - destruct IHmeans1 as [(W1 & P1 & _) D1]. destruct IHmeans2 as [(W2 & P2 & _) D2].
    destruct (to_expression_ok _ W1) as [T1 _]. destruct (to_expression_ok _ W2) as [T2 _].
    assert (W : wf (dot o (fe e1) (fe e2))).
    { unfold dot. destruct o; cbn [wf]; (split; [|split]); auto; simpl; congruence. }
    destruct (to_expression_ok _ W) as [W' D']. split.
    + apply not_concat_cinv; auto; [|discriminate]. destruct o; simpl; lia.
    + intros t. rewrite D'. rewrite <- D1, <- D2.
      destruct o; cbn [dot den]; rewrite row_dot_inner;
        first [reflexivity | f_equal; apply inner_comm].
  - destruct (neg_ok d (lcod l) (leaf_fn d l)) as [W D]. { apply leaf_wf; auto. } { apply leaf_cod. }
    unfold to_expression. rewrite leaf_cod.
    replace (fdom (leaf_fn d l)) with d by (destruct l; reflexivity). split.
    + apply not_concat_cinv; auto; [|discriminate]. apply leaf_pos; auto.
    + intros t. rewrite D, leaf_den. reflexivity.
  - destruct IHmeans1 as [(W1 & P1 & _) D1]. destruct IHmeans2 as [(W2 & P2 & _) D2].
    destruct (iadd_ok e1 e2 W1 W2 ltac:(assumption)) as (W & C & D). split.
    + apply not_concat_cinv; auto; [rewrite C; exact P1|]. rewrite iadd_flat. discriminate.
    + intros t. rewrite D, D1, D2. symmetry. apply zip_with_map2.
  - destruct IHmeans1 as [(W1 & P1 & _) D1]. destruct IHmeans2 as [(W2 & P2 & _) D2].
    destruct (imul_ok e1 e2 W1 W2 ltac:(assumption)) as (W & C & D). split.
    + apply not_concat_cinv; auto; [rewrite C; exact P1|]. rewrite imul_flat. discriminate.
    + intros t. now rewrite D, D1, D2.
  - destruct IHmeans1 as [K1 D1]. destruct IHmeans2 as [K2 D2].
    destruct (concat_ok o e1 e2 r K1 K2 H1 H2 H3 H4 H5) as [K D]. split; auto.
    intros t. rewrite D. apply piecewise_ext; auto.
Qed.

Theorem means_value dbg e F pts : means e F -> call dbg (fe e) pts = Ok (map F pts).
Proof.
  intros M. destruct (means_ok e F M) as [(W & _) D]. unfold call. rewrite (eval_den dbg _ W).
  f_equal. apply map_ext. auto.
Qed.
