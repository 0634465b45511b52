(** Domains of derivatives of function expressions. *)
From Coquelicot Require Import Coquelicot.
From Coq Require Import List Reals Lra Lia Bool Arith.
From Verif Require Import Num Outcome FunModel FunSpec FunProofs FunProofs2.
Import ListNotations.
Local Open Scope R_scope.

(** The interval a function of kind [ty] with the operands [l] is defined on:
    that of its first operand; pieces end to end reach to the end of the last. *)
Definition operand_interval (ty : ftype) (l : list (fn R)) : option (dom R) :=
  match l with
  | [] => None
  | g :: _ => Some (match ty with CONCATENATION => (fst (fdom g), snd (fdom (last l g))) | _ => fdom g end)
  end.
(** every object inside [f] reports the interval of its operands, and the two
    factors of a scalar product the same one *)
Fixpoint domains_agree (f : fn R) : Prop :=
  match f with
  | FDot d f1 f2 => domains_agree f1 /\ domains_agree f2 /\ fdom f1 = d /\ fdom f2 = d
  | FExpr ty d _ args => fold_right (fun g P => domains_agree g /\ P) True args /\ operand_interval ty args = Some d
  | _ => True
  end.

Lemma agree_args (l : list (fn R)) : fold_right (fun g P => domains_agree g /\ P) True l <-> Forall domains_agree l.
Proof. induction l; simpl; split; intros H; auto; try (inversion H; subst); intuition. Qed.
Lemma agree_expr ty d c args : domains_agree (FExpr ty d c args) <-> Forall domains_agree args /\ operand_interval ty args = Some d.
Proof. cbn [domains_agree]. now rewrite agree_args. Qed.
Lemma interval_first ty g l : ty <> CONCATENATION -> operand_interval ty (g :: l) = Some (fdom g).
Proof. intros; destruct ty; auto; contradiction. Qed.

Lemma agree_leafs d :
  (forall v k, fdom (deriv_const d v k) = d /\ domains_agree (deriv_const d v k)) /\
  (forall a k, fdom (deriv_dil d a k) = d /\ domains_agree (deriv_dil d a k)) /\
  (forall k, fdom (deriv_cos d k) = d /\ domains_agree (deriv_cos d k)) /\
  (forall k, fdom (deriv_sin d k) = d /\ domains_agree (deriv_sin d k)) /\
  (forall c k f', deriv_poly d c k = Ok f' -> fdom f' = d /\ domains_agree f').
Proof.
  repeat split.
  1,2: destruct k; simpl; auto.
  1,2: destruct k as [|[|]]; simpl; auto.
  1,2: unfold deriv_cos; destruct (Nat.modulo k 4) as [|[|[|]]]; simpl; auto.
  1,2: unfold deriv_sin; destruct (Nat.modulo k 4) as [|[|[|]]]; simpl; auto.
  all: unfold deriv_poly in H; destruct k; [injection H as <-; simpl; auto|];
    destruct (Nat.eqb _ _); [injection H as <-; simpl; auto|]; destruct c; [discriminate|]; injection H as <-; simpl; auto.
Qed.

Lemma mapM_dom (D : fn R -> outcome (fn R)) args : forall ds, mapM D args = Ok ds ->
  Forall (fun g => forall g', D g = Ok g' -> fdom g' = fdom g /\ domains_agree g') args ->
  map (fun g => fdom g) ds = map (fun g => fdom g) args /\ Forall domains_agree ds.
Proof.
  induction args as [|g args IH]; intros ds E F; simpl in E.
  - injection E as <-. auto.
  - apply bind_ok in E. destruct E as (g' & Eg & E). apply bind_ok in E. destruct E as (l & El & E). injection E as <-.
    apply Forall_cons_iff in F. destruct F as [F1 F2]. destruct (F1 _ Eg). destruct (IH _ El F2). simpl. split; [congruence|auto].
Qed.
Lemma same_doms_interval ty args ds : map (fun g : fn R => fdom g) ds = map (fun g => fdom g) args -> operand_interval ty ds = operand_interval ty args.
Proof.
  intros E. destruct args as [|g args], ds as [|h ds]; try discriminate; auto. cbn [operand_interval].
  assert (K : forall x y, map (fun g : fn R => fdom g) x = map (fun g => fdom g) y -> forall a b, fdom a = fdom b -> fdom (last x a) = fdom (last y b)).
  { clear. induction x; destruct y; simpl; intros E; try discriminate; auto. intros u v Huv. injection E as E1 E2. destruct x, y; simpl in E2; try discriminate; auto. }
  assert (Eh : fdom h = fdom g) by (simpl in E; congruence). rewrite (K _ _ E h g Eh). rewrite Eh. reflexivity.
Qed.

Lemma mul_terms_agree d c g0 rest d0 drest : Forall domains_agree (g0 :: rest) -> Forall domains_agree (d0 :: drest) -> fdom g0 = d -> fdom d0 = d ->
  Forall domains_agree (mul_terms d c (g0 :: rest) (d0 :: drest)) /\ operand_interval SUM (mul_terms d c (g0 :: rest) (d0 :: drest)) = Some d.
Proof.
  intros A B E0 E1. split; [|reflexivity]. cbn [mul_terms]. apply Forall_cons_iff in A. destruct A as [A0 A]. apply Forall_cons_iff in B. destruct B as [B0 B].
  constructor.
  - apply agree_expr. split; [auto|]. simpl. now rewrite E1.
  - assert (K : forall k, (1 <= k)%nat -> forall l, Forall domains_agree l ->
      Forall domains_agree (map2 (fun i di => FExpr MULTIPLICATION d c (remove_nth i (g0 :: rest) ++ [di])) (seq k (length rest)) l)).
    { generalize (length rest). induction n; intros k Hk l Hl; [constructor|]. destruct l as [|x l]; [constructor|].
      apply Forall_cons_iff in Hl. destruct Hl as [Hx Hl]. cbn [seq map2]. constructor; [|apply IHn; auto; lia].
      apply agree_expr. destruct k; [lia|]. cbn [remove_nth app]. split; [|simpl; now rewrite E0].
      constructor; auto. apply Forall_app. split; [|auto]. clear - A. revert k. induction rest; intros [|k]; simpl; auto; inversion A; subst; auto. }
    apply K; auto.
Qed.
Lemma comp_factors_agree d g0 rest d0 drest : Forall domains_agree (g0 :: rest) -> Forall domains_agree (d0 :: drest) -> fdom g0 = d -> fdom d0 = d ->
  Forall domains_agree (comp_factors d (g0 :: rest) (d0 :: drest)) /\ operand_interval MULTIPLICATION (comp_factors d (g0 :: rest) (d0 :: drest)) = Some d.
Proof.
  intros A B E0 E1. cbn [comp_factors]. apply Forall_cons_iff in B. destruct B as [B0 B].
  set (L := map2 _ _ _).
  assert (K : Forall (fun g => domains_agree g /\ fdom g = d) L).
  { unfold L. clear L. assert (K : forall (l : list (fn R * fn R)), Forall (fun p => domains_agree (snd p)) l -> forall n k, (1 <= k)%nat ->
      Forall (fun g => domains_agree g /\ fdom g = d) (map2 (fun i gd => FExpr COMPOSITION d (fcod (fst gd)) (firstn i (g0 :: rest) ++ [snd gd])) (seq k n) l)).
    { induction l as [|x l IH]; intros Hl n k Hk; [destruct n; constructor|]. apply Forall_cons_iff in Hl. destruct Hl as [Hx Hl].
      destruct n; [constructor|]. cbn [seq map2]. constructor; [|apply IH; auto]. split; [|reflexivity].
      apply agree_expr. destruct k; [lia|]. cbn [firstn app]. split; [|simpl; now rewrite E0]. apply Forall_cons_iff in A. destruct A as [A0 A].
      constructor; auto. apply Forall_app. split; [|auto]. clear - A. revert k. induction rest; intros [|k]; simpl; auto; inversion A; subst; auto. }
    apply K; [|lia]. clear - B. revert drest B. induction rest; intros [|x drest] B; simpl; auto. apply Forall_cons_iff in B. destruct B. constructor; auto. }
  split.
  - apply Forall_app. split; [|auto]. apply Forall_rev. eapply Forall_impl; [|exact K]. intros x [Hx _]; exact Hx.
  - destruct (rev L) as [|x l] eqn:EL; simpl; [now rewrite E1|]. f_equal.
    assert (X : In x L) by (apply in_rev; rewrite EL; left; auto). rewrite Forall_forall in K. apply (K x X).
Qed.

Lemma deriv1_dom dbg f : domains_agree f -> forall f', deriv1 dbg f = Ok f' -> fdom f' = fdom f /\ domains_agree f'.
Proof.
  induction f as [d v|d a|d|d|d|d c|d f1 f2 IH1 IH2|d c s k|d c s k|ty d c args IH] using fn_ind'; intros W f' E; cbn [deriv1] in E.
  all: try (injection E as <-; split; [reflexivity|simpl; auto; fail]).
  - destruct (agree_leafs d) as (_ & _ & _ & _ & A5). exact (A5 _ _ _ E).
  - destruct W as (W1 & W2 & D1 & D2). apply bind_ok in E. destruct E as (d1 & E1 & E). apply bind_ok in E. destruct E as (d2 & E2 & E).
    destruct (IH1 W1 _ E1) as [F1 G1]. destruct (IH2 W2 _ E2) as [F2 G2]. unfold dot_first_deriv in E. apply bind_ok in E. destruct E as (e & Ee & E). injection E as <-.
    unfold add in Ee. apply bind_ok in Ee. destruct Ee as ([] & _ & Ee). injection Ee as <-. simpl. split; [auto|]. rewrite F1, F2, D1, D2. repeat split; auto.
  - apply agree_expr in W. destruct W as [WA WI]. destruct args as [|g0 rest]; [discriminate|].
    assert (IH' : Forall (fun g => forall g', deriv1 dbg g = Ok g' -> fdom g' = fdom g /\ domains_agree g') (g0 :: rest)).
    { rewrite Forall_forall in *. intros g Hg g' Hg'. apply (IH g Hg); auto. }
    cbn [operand_interval] in WI. injection WI as WI. cbn [fdom].
    destruct ty.
    + apply bind_ok in E. destruct E as (ds & Eds & E). injection E as <-. destruct (mapM_dom _ _ _ Eds IH') as [K1 K2]. cbn [fdom].
      split; [exact WI|]. apply agree_expr. split; [exact K2|]. rewrite (same_doms_interval _ _ _ K1). reflexivity.
    + apply bind_ok in E. destruct E as (ds & Eds & E). injection E as <-. destruct (mapM_dom _ _ _ Eds IH') as [K1 K2]. cbn [fdom].
      split; [exact WI|]. destruct ds as [|d0 drest]; [discriminate|]. injection K1 as K0 K1.
      apply agree_expr. apply mul_terms_agree; auto.
    + apply bind_ok in E. destruct E as (ds & Eds & E). injection E as <-. destruct (mapM_dom _ _ _ Eds IH') as [K1 K2]. cbn [fdom].
      split; [exact WI|]. destruct ds as [|d0 drest]; [discriminate|]. injection K1 as K0 K1.
      apply agree_expr. apply comp_factors_agree; auto.
    + apply bind_ok in E. destruct E as (ds & Eds & E). injection E as <-. destruct (mapM_dom _ _ _ Eds IH') as [K1 K2]. cbn [fdom].
      split; [exact WI|]. apply agree_expr. split; [exact K2|]. rewrite (same_doms_interval _ _ _ K1). reflexivity.
    + destruct (dbg && _); [discriminate|]. apply bind_ok in E. destruct E as (x & Ex & E). injection E as <-. apply Forall_cons_iff in IH'. destruct (proj1 IH' _ Ex) as [F G].
      split; [exact WI|]. apply agree_expr. split; [auto|]. simpl. now rewrite F.
    + destruct (dbg && _); [discriminate|]. apply bind_ok in E. destruct E as (x & Ex & E). injection E as <-. apply Forall_cons_iff in IH'. destruct (proj1 IH' _ Ex) as [F G].
      split; [exact WI|]. apply agree_expr. split; [auto|]. simpl. now rewrite F.
Qed.
Lemma iter_dom dbg k : forall f, domains_agree f -> forall f', iter_deriv1 dbg k f = Ok f' -> fdom f' = fdom f /\ domains_agree f'.
Proof.
  induction k; intros f W f' E; simpl in E; [injection E as <-; auto|]. apply bind_ok in E. destruct E as (g & Eg & E).
  destruct (IHk f W g Eg) as [F G]. destruct (deriv1_dom dbg g G f' E). split; [congruence|auto].
Qed.

Theorem deriv_dom dbg f : domains_agree f -> forall k f', deriv dbg f k = Ok f' -> fdom f' = fdom f /\ domains_agree f'.
Proof.
  assert (LK : forall f k f', domains_agree f -> (g <- deriv1 dbg f ;; iter_deriv1 dbg k g) = Ok f' -> fdom f' = fdom f /\ domains_agree f').
  { intros g k g' W E. apply bind_ok in E. destruct E as (x & Ex & E). destruct (deriv1_dom dbg g W x Ex) as [F G]. destruct (iter_dom dbg k x G g' E). split; [congruence|auto]. }
  induction f as [d v|d a|d|d|d|d c|d f1 f2 IH1 IH2|d c s j|d c s j|ty d c args IH] using fn_ind'; intros W k f' E; cbn [deriv] in E.
  1-5: injection E as <-; destruct (agree_leafs d) as (A1 & A2 & A3 & A4 & A5).
  { exact (A1 v k). } { exact (A2 a k). } { split; [reflexivity|exact I]. } { exact (A3 k). } { exact (A4 k). }
  - destruct (agree_leafs d) as (_ & _ & _ & _ & A5). exact (A5 _ _ _ E).
  - destruct k; [injection E as <-; split; [reflexivity|]; apply agree_expr; split; [constructor; [exact W|constructor]|reflexivity]|]. exact (LK _ _ _ W E).
  - injection E as <-. split; [reflexivity|exact I].
  - injection E as <-. split; [reflexivity|exact I].
  - assert (W0 := W). apply agree_expr in W. destruct W as [WA WI]. destruct args as [|g0 rest]; [discriminate|].
    assert (IH' : Forall (fun g => forall g', deriv dbg g k = Ok g' -> fdom g' = fdom g /\ domains_agree g') (g0 :: rest)).
    { rewrite Forall_forall in *. intros g Hg g' Hg'. apply (IH g Hg (WA g Hg) k); auto. }
    cbn [operand_interval] in WI. injection WI as WI.
    destruct ty.
    + apply bind_ok in E. destruct E as (ds & Eds & E). injection E as <-. destruct (mapM_dom _ _ _ Eds IH') as [K1 K2]. cbn [fdom].
      split; [exact WI|]. apply agree_expr. split; [exact K2|]. rewrite (same_doms_interval _ _ _ K1). reflexivity.
    + destruct k; [injection E as <-; split; [exact WI|]; apply agree_expr; split; [exact WA|reflexivity]|]. exact (LK _ _ _ W0 E).
    + destruct k; [injection E as <-; split; [exact WI|]; apply agree_expr; split; [exact WA|reflexivity]|]. exact (LK _ _ _ W0 E).
    + apply bind_ok in E. destruct E as (ds & Eds & E). injection E as <-. destruct (mapM_dom _ _ _ Eds IH') as [K1 K2]. cbn [fdom].
      split; [exact WI|]. apply agree_expr. split; [exact K2|]. rewrite (same_doms_interval _ _ _ K1). reflexivity.
    + destruct (dbg && _); [discriminate|]. apply bind_ok in E. destruct E as (x & Ex & E). injection E as <-. apply Forall_cons_iff in IH'. destruct (proj1 IH' _ Ex) as [F G].
      split; [exact WI|]. apply agree_expr. split; [auto|]. simpl. now rewrite F.
    + destruct (dbg && _); [discriminate|]. apply bind_ok in E. destruct E as (x & Ex & E). injection E as <-. apply Forall_cons_iff in IH'. destruct (proj1 IH' _ Ex) as [F G].
      split; [exact WI|]. apply agree_expr. split; [auto|]. simpl. now rewrite F.
Qed.

(** ** Programs *)
(** every function in the program is given on D, except the outer function of a
    composition, which has an interval of its own; an outer expression that is
    moved into the composition must have D too (it keeps its interval) *)
Fixpoint given_on (D : dom R) (p : prog) : Prop :=
  match p with
  | PLeaf d _ | PNeg d _ => d = D
  | PAdd _ p q | PMul _ p q | PDot _ p q | PIAdd p q | PIMul p q => given_on D p /\ given_on D q
  | PScal _ _ p | PIAddSelf p | PIMulSelf p => given_on D p
  | PComp o p q => given_on D q /\ exists D', given_on D' p /\ (o = RL -> D' = D)
  | PSub _ p d _ => given_on D p /\ d = D
  end.

Lemma leaf_dom d l : fdom (leaf_fn d l) = d.
Proof. destruct l; reflexivity. Qed.
Lemma leaf_agree d l : domains_agree (leaf_fn d l).
Proof. destruct l; exact I. Qed.
Definition on (D : dom R) (e : expr R) : Prop := edom e = D /\ domains_agree (fe e).
Lemma on_expr D ty c args : ty <> CONCATENATION -> Forall domains_agree args -> (exists g l, args = g :: l /\ fdom g = D) -> on D (mkexpr ty D c args).
Proof.
  intros Ht A (g & l & -> & E). split; [reflexivity|]. apply agree_expr. split; [exact A|]. cbn [eargs edom ety]. rewrite interval_first by auto. now rewrite E.
Qed.
Lemma on_expr2 D ty c args : ty <> CONCATENATION -> Forall domains_agree args /\ (exists g l, args = g :: l /\ fdom g = D) -> on D (mkexpr ty D c args).
Proof. intros Ht [A B]. apply on_expr; auto. Qed.
Lemma on_inv D e : on D e -> ety e <> CONCATENATION -> Forall domains_agree (eargs e) /\ exists g l, eargs e = g :: l /\ fdom g = D.
Proof.
  intros [E W] Ht. apply agree_expr in W. destruct W as [A I]. split; [exact A|]. destruct (eargs e) as [|g l]; [discriminate|].
  exists g, l. split; [reflexivity|]. rewrite interval_first in I by auto. congruence.
Qed.
Lemma on_self D e : on D e -> Forall domains_agree [fe e] /\ exists g l, [fe e] = g :: l /\ fdom g = D.
Proof. intros [E W]. split; [auto|]. exists (fe e), []. split; [reflexivity|exact E]. Qed.
Lemma on_unique D f : fdom f = D -> domains_agree f -> on D (to_expression f).
Proof. intros E W. unfold to_expression. rewrite E. apply on_expr; [discriminate|auto|]. exists f, []; auto. Qed.
Lemma ftype_eqb_eq a b : ftype_eqb a b = true -> a = b.
Proof. destruct a, b; simpl; congruence. Qed.
Lemma on_flat D op e : on D e -> op <> CONCATENATION -> Forall domains_agree (flat_or_clone op e) /\ exists g l, flat_or_clone op e = g :: l /\ fdom g = D.
Proof.
  intros H Ho. unfold flat_or_clone. destruct (_ || _) eqn:E; [|apply on_self; auto]. apply on_inv; auto.
  apply orb_true_iff in E. destruct E as [E|E]; apply ftype_eqb_eq in E; rewrite E; congruence.
Qed.
Lemma on_app D (a b : list (fn R)) : Forall domains_agree a /\ (exists g l, a = g :: l /\ fdom g = D) -> Forall domains_agree b /\ (exists g l, b = g :: l /\ fdom g = D) ->
  Forall domains_agree (a ++ b) /\ exists g l, a ++ b = g :: l /\ fdom g = D.
Proof. intros [A (g & l & -> & E)] [B _]. split; [apply Forall_app; auto|]. exists g, (l ++ b). auto. Qed.
(** only the first list decides the interval *)
Lemma on_app' D (a b : list (fn R)) : Forall domains_agree a /\ (exists g l, a = g :: l /\ fdom g = D) -> Forall domains_agree b ->
  Forall domains_agree (a ++ b) /\ exists g l, a ++ b = g :: l /\ fdom g = D.
Proof. intros [A (g & l & -> & E)] B. split; [apply Forall_app; auto|]. exists g, (l ++ b). auto. Qed.

Lemma on_add D o e1 e2 e : on D e1 -> on D e2 -> add o e1 e2 = Ok e -> on D e.
Proof.
  intros H1 H2 E. unfold add in E. apply bind_ok in E. destruct E as ([] & _ & E). injection E as <-. rewrite (proj1 H1).
  assert (K := on_app D _ _ (on_flat D SUM e1 H1 ltac:(discriminate)) (on_flat D SUM e2 H2 ltac:(discriminate))).
  destruct o; apply on_expr; try discriminate; apply K.
Qed.
Lemma on_mul D o e1 e2 e : on D e1 -> on D e2 -> mul o e1 e2 = Ok e -> on D e.
Proof.
  intros H1 H2 E. unfold mul in E. apply bind_ok in E. destruct E as ([] & _ & E).
  assert (F1 := on_flat D MULTIPLICATION e1 H1 ltac:(discriminate)). assert (F2 := on_flat D MULTIPLICATION e2 H2 ltac:(discriminate)).
  assert (K12 := on_app D _ _ F1 F2). assert (K21 := on_app D _ _ F2 F1). assert (E1 := proj1 H1). assert (E2 := proj1 H2).
  destruct o; injection E as <-; unfold first_or_max, second_or_min; destruct (Nat.leb _ _) eqn:L; rewrite ?E1, ?E2; apply on_expr; try discriminate; first [apply K12|apply K21].
Qed.
Lemma on_neg D e : on D e -> ety e <> CONCATENATION -> on D (neg e).
Proof. intros H Ht. unfold neg. rewrite (proj1 H). apply on_expr; [discriminate| |]; apply (on_inv D e H Ht). Qed.
Lemma on_comp_args D e : on D e -> Forall domains_agree (comp_args e) /\ exists g l, comp_args e = g :: l /\ fdom g = D.
Proof.
  intros H. unfold comp_args. destruct (ftype_eqb _ _) eqn:E; [|apply on_self; auto]. apply on_inv; auto. apply ftype_eqb_eq in E. congruence.
Qed.

Lemma agree_dot D f g : domains_agree f -> domains_agree g -> fdom f = D -> fdom g = D -> forall o, fdom (dot o f g) = D /\ domains_agree (dot o f g).
Proof.
  intros W1 W2 F1 F2 o. assert (K : forall x, domains_agree x -> domains_agree (fe (to_expression x))) by (intros x Hx; apply agree_expr; split; [constructor; [exact Hx|constructor]|reflexivity]).
  destruct o; cbn [dot]; (split; [assumption|]).
  1,2: exact (conj (K f W1) (conj (K g W2) (conj eq_refl (eq_trans F2 (eq_sym F1))))).
  all: exact (conj (K g W2) (conj (K f W1) (conj eq_refl (eq_trans F1 (eq_sym F2))))).
Qed.
Theorem build_on p : forall D e, given_on D p -> build p = Ok e -> on D e.
Proof.
  induction p; intros D e G E; cbn [build given_on] in *.
  - injection E as <-. subst d. apply on_unique; [apply leaf_dom|apply leaf_agree].
  - apply bind_ok in E. destruct E as (e1 & E1 & E). apply bind_ok in E. destruct E as (e2 & E2 & E). eapply on_add; [apply IHp1|apply IHp2|]; try eassumption; tauto.
  - apply bind_ok in E. destruct E as (e1 & E1 & E). apply bind_ok in E. destruct E as (e2 & E2 & E). eapply on_mul; [apply IHp1|apply IHp2|]; try eassumption; tauto.
  - apply bind_ok in E. destruct E as (e1 & E1 & E). assert (H := IHp D e1 G E1). unfold scal in E. eapply on_mul; [|exact H|exact E].
    rewrite (proj1 H). apply on_unique; [reflexivity|exact I].
  - apply bind_ok in E. destruct E as (e1 & E1 & E). apply bind_ok in E. destruct E as (e2 & E2 & E). destruct G as (G2 & D' & G1 & GR).
    assert (H1 := IHp1 D' e1 G1 E1). assert (H2 := IHp2 D e2 G2 E2). unfold compose in E. apply bind_ok in E. destruct E as ([] & _ & E).
    assert (K := on_app' D _ _ (on_comp_args D e2 H2) (proj1 (on_comp_args D' e1 H1))).
    assert (KI : ety e1 = COMPOSITION -> Forall domains_agree (comp_args e2 ++ eargs e1) /\ exists g l, comp_args e2 ++ eargs e1 = g :: l /\ fdom g = D).
    { intros Ht. apply on_app'; [apply on_comp_args; auto|]. apply (on_inv D' e1 H1). congruence. }
    assert (E2' := proj1 H2). assert (E1' := proj1 H1).
    destruct o; try (injection E as <-; rewrite E2'; apply on_expr; [discriminate| |]; apply K).
    + destruct (ftype_eqb _ _) eqn:Ht; injection E as <-.
      * apply ftype_eqb_eq in Ht. rewrite E1', (GR eq_refl). apply on_expr; [discriminate| |]; apply KI, Ht.
      * rewrite E2'. apply on_expr; [discriminate| |]; apply K.
    + destruct (ftype_eqb _ _) eqn:Ht; injection E as <-; rewrite E2'.
      * apply ftype_eqb_eq in Ht. apply on_expr; [discriminate| |]; apply KI, Ht.
      * apply on_expr; [discriminate| |]; apply K.
  - apply bind_ok in E. destruct E as (e1 & E1 & E). apply bind_ok in E. destruct E as (e2 & E2 & E). injection E as <-. destruct G as [G1 G2].
    destruct (IHp1 D e1 G1 E1) as [F1 W1]. destruct (IHp2 D e2 G2 E2) as [F2 W2].
    destruct (agree_dot D (fe e1) (fe e2) W1 W2 F1 F2 o) as [X Y]. apply on_unique; assumption.
  - injection E as <-. subst d. apply on_neg; [|discriminate]. apply on_unique; [apply leaf_dom|apply leaf_agree].
  - apply bind_ok in E. destruct E as (e1 & E1 & E). destruct G as [G1 ->]. assert (H1 := IHp D e1 G1 E1). unfold sub in E. apply bind_ok in E. destruct E as ([] & _ & E).
    assert (H2 : on D (neg (to_expression (leaf_fn D l)))). { apply on_neg; [|discriminate]. apply on_unique; [apply leaf_dom|apply leaf_agree]. }
    destruct o; exact (on_add _ _ _ _ _ H1 H2 E).
  - apply bind_ok in E. destruct E as (e1 & E1 & E). apply bind_ok in E. destruct E as (e2 & E2 & E). injection E as <-. destruct G as [G1 G2].
    assert (H1 := IHp1 D e1 G1 E1). assert (H2 := IHp2 D e2 G2 E2). assert (E1' := proj1 H1). unfold iadd.
    destruct (ety e1) eqn:Ht; rewrite E1'; apply on_expr2; try discriminate;
      first [exact (on_app D [fe e1] [fe e2] (on_self D e1 H1) (on_self D e2 H2))|apply on_app; [apply on_inv; auto; congruence|apply on_self; auto]].
  - apply bind_ok in E. destruct E as (e1 & E1 & E). apply bind_ok in E. destruct E as (e2 & E2 & E). injection E as <-. destruct G as [G1 G2].
    assert (H1 := IHp1 D e1 G1 E1). assert (H2 := IHp2 D e2 G2 E2). assert (E1' := proj1 H1). unfold imul.
    destruct (ety e1) eqn:Ht; rewrite E1'; apply on_expr2; try discriminate;
      first [exact (on_app D [fe e1] [fe e2] (on_self D e1 H1) (on_self D e2 H2))|apply on_app; [apply on_inv; auto; congruence|apply on_self; auto]].
  - apply bind_ok in E. destruct E as (e1 & E1 & E). injection E as <-. assert (H1 := IHp D e1 G E1). assert (E1' := proj1 H1). unfold iadd_self.
    set (e' := match ety e1 with UNIQUE | SUM => _ | _ => _ end).
    assert (H' : on D e' /\ ety e' <> CONCATENATION).
    { unfold e'. destruct (ety e1) eqn:Ht; rewrite E1'; (split; [apply on_expr2; try discriminate; first [exact (on_self D e1 H1)|apply on_inv; auto; congruence]|discriminate]). }
    rewrite E1'. apply on_expr2; [discriminate|]. apply on_app; [apply on_inv|apply on_self]; tauto.
  - apply bind_ok in E. destruct E as (e1 & E1 & E). injection E as <-. assert (H1 := IHp D e1 G E1). assert (E1' := proj1 H1). unfold imul_self.
    set (e' := match ety e1 with UNIQUE | MULTIPLICATION => _ | _ => _ end).
    assert (H' : on D e' /\ ety e' <> CONCATENATION).
    { unfold e'. destruct (ety e1) eqn:Ht; rewrite E1'; (split; [apply on_expr2; try discriminate; first [exact (on_self D e1 H1)|apply on_inv; auto; congruence]|discriminate]). }
    rewrite E1'. apply on_expr2; [discriminate|]. apply on_app; [apply on_inv|apply on_self]; tauto.
Qed.
