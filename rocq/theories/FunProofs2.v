(** The operators preserve well-formedness and mean the mathematical operation. *)
From Coquelicot Require Import Coquelicot.
From Coq Require Import List Reals Lra Lia Bool Arith.
From Verif Require Import Num Outcome FunModel FunSpec FunProofs.
Import ListNotations.
Local Open Scope R_scope.

Lemma vadd_comm a : forall b, vadd a b = vadd b a.
Proof. induction a; destruct b; simpl; auto. unfold vadd in *; simpl. f_equal; auto; lra. Qed.
Lemma vadd_assoc a : forall b c, vadd a (vadd b c) = vadd (vadd a b) c.
Proof.
  induction a; destruct b; destruct c; simpl; auto.
  unfold vadd in *; simpl. f_equal; [lra|apply IHa].
Qed.
Lemma vadd_zero_l c a : length a = c -> vadd (repeat 0 c) a = a.
Proof.
  revert c; induction a; intros c <-; simpl; auto.
  unfold vadd in *; simpl. f_equal; [lra|]. apply IHa; auto.
Qed.
Lemma fold_vadd_acc c l : forall a, length a = c -> Forall (fun r => length r = c) l ->
  fold_left vadd l a = vadd a (fold_left vadd l (repeat 0 c)).
Proof.
  induction l as [|r l IH]; intros a Ha HF; simpl.
  - rewrite vadd_comm, vadd_zero_l; auto.
  - apply Forall_cons_iff in HF as [Hr HF].
    rewrite IH; [|rewrite vadd_length; lia|auto].
    rewrite (IH (vadd (repeat 0 c) r)); [|rewrite vadd_length; rewrite repeat_length; lia|auto].
    rewrite vadd_zero_l by auto. now rewrite vadd_assoc.
Qed.

Lemma scale_scale p q v : scale p (scale q v) = scale (q * p) v.
Proof. unfold scale. rewrite map_map. apply map_ext. intros; ring. Qed.
Lemma vhd_scale p v : v <> [] -> vhd (scale p v) = vhd v * p.
Proof. destruct v; simpl; congruence. Qed.

Lemma wf_flat op e : wf (fe e) -> Forall wf (flat_or_clone op e).
Proof.
  intros W. unfold flat_or_clone.
  destruct (ftype_eqb (ety e) op || ftype_eqb (ety e) UNIQUE).
  - destruct W as [Hargs _]. apply wf_args. exact Hargs.
  - constructor; auto.
Qed.

Lemma unique_inv d c args : wf (FExpr UNIQUE d c args) ->
  exists g, args = [g] /\ fcod g = c /\ wf g.
Proof. intros [Ha (g & -> & Hc)]. exists g. simpl in Ha. intuition. Qed.

(** flattened list of a sum operand *)
Lemma flat_sum e : wf (fe e) ->
  flat_or_clone SUM e <> [] /\
  Forall (fun g => fcod g = ecod e) (flat_or_clone SUM e) /\
  forall t, fold_left vadd (map (fun g => den g t) (flat_or_clone SUM e)) (repeat 0 (ecod e))
            = den (fe e) t.
Proof.
  intros W. pose proof (den_length _ W) as HL. destruct e as [ty d c args].
  unfold flat_or_clone, fe in *; simpl ety in *; simpl ecod in *; simpl eargs in *; simpl edom in *.
  destruct ty; cbn [ftype_eqb orb];
    try (split; [discriminate|]; split; [repeat constructor|];
         intros t; cbn [map fold_left]; apply vadd_zero_l; apply HL).
  - destruct W as [_ [Hne Hc]]. auto.
  - destruct (unique_inv _ _ _ W) as (g & -> & Hc & Wg). split; [discriminate|].
    split; [repeat constructor; auto|]. intros t. cbn [map fold_left].
    simpl den. apply vadd_zero_l. rewrite <- Hc. apply den_length; auto.
Qed.

Lemma add_ok o e1 e2 r : wf (fe e1) -> wf (fe e2) -> add o e1 e2 = Ok r ->
  wf (fe r) /\ ecod r = ecod e1 /\ ecod e1 = ecod e2 /\
  forall t, den (fe r) t = vadd (den (fe e1) t) (den (fe e2) t).
Proof.
  intros W1 W2 E. unfold add in E. unfold sum_throw in E.
  destruct (same_domain (edom e1) (edom e2)); [|discriminate]. simpl in E.
  destruct (Nat.eqb_spec (ecod e1) (ecod e2)) as [C|]; [|discriminate]. simpl in E.
  assert (E' : r = mkexpr SUM (edom e1) (ecod e1) (flat_or_clone SUM e1 ++ flat_or_clone SUM e2)).
  { destruct o; inversion E; reflexivity. }
  clear E. subst r.
  destruct (flat_sum _ W1) as (N1 & F1 & D1). destruct (flat_sum _ W2) as (N2 & F2 & D2).
  split; [|split; [|split]]; auto.
  - unfold fe; simpl. split.
    + apply wf_args. apply Forall_app. split; apply wf_flat; auto.
    + split.
      * intros X. apply app_eq_nil in X. tauto.
      * apply Forall_app. split; auto. rewrite C. auto.
  - intros t. unfold fe at 1. cbn [ety edom ecod eargs den].
    rewrite map_app, fold_left_app. rewrite D1.
    rewrite (fold_vadd_acc (ecod e1)).
    + f_equal. rewrite C. apply D2.
    + apply den_length; auto.
    + apply Forall_forall. intros x Hx. apply in_map_iff in Hx. destruct Hx as (g & <- & Hg).
      rewrite den_length.
      * rewrite C. apply (Forall_In _ _ g F2 Hg).
      * apply (Forall_In _ _ g (wf_flat SUM e2 W2) Hg).
Qed.

(** product operands *)
Definition mulv (rs : list (list R)) (a : list R) : list R :=
  fold_left (fun acc s => scale (vhd s) acc) rs a.

Lemma mulv_scale rs : forall a p, mulv rs (scale p a) = scale p (mulv rs a).
Proof.
  induction rs as [|s rs IH]; intros a p; simpl; auto.
  unfold mulv in *; simpl. rewrite scale_scale. rewrite Rmult_comm, <- scale_scale. apply IH.
Qed.
Lemma mulv_prod rs : forall a, mulv rs a = scale (fold_right (fun s p => vhd s * p) 1 rs) a.
Proof.
  induction rs as [|s rs IH]; intros a; simpl.
  - unfold mulv; simpl. unfold scale. rewrite <- (map_id a) at 1. apply map_ext; intros; ring.
  - unfold mulv in *; simpl. rewrite IH, scale_scale. reflexivity.
Qed.

Lemma flat_mul e : wf (fe e) ->
  exists g rest, flat_or_clone MULTIPLICATION e = g :: rest /\ fcod g = ecod e /\
  Forall (fun g => fcod g = 1%nat) rest /\
  forall t, mulv (map (fun g => den g t) rest) (den g t) = den (fe e) t.
Proof.
  intros W. destruct e as [ty d c args].
  unfold flat_or_clone, fe in *; simpl ety in *; simpl ecod in *; simpl eargs in *; simpl edom in *.
  destruct ty; cbn [ftype_eqb orb];
    try (eexists; exists []; split; [reflexivity|]; split; [reflexivity|]; split; [constructor|];
         intros t; reflexivity).
  - destruct W as [_ Hty]. destruct args as [|g rest]; [contradiction|]. destruct Hty as [Hc Hr].
    exists g, rest. repeat split; auto.
  - destruct (unique_inv _ _ _ W) as (g & -> & Hc & Wg).
    exists g, []. repeat split; auto.
Qed.

Lemma mul_core v s : wf (fe v) -> wf (fe s) -> ecod s = 1%nat ->
  forall d, let r := mkexpr MULTIPLICATION d (ecod v)
               (flat_or_clone MULTIPLICATION v ++ flat_or_clone MULTIPLICATION s) in
  wf (fe r) /\ forall t, den (fe r) t = scale (vhd (den (fe s) t)) (den (fe v) t).
Proof.
  intros Wv Ws Cs d.
  destruct (flat_mul _ Wv) as (g & rest & Ev & Cg & Fr & Dv).
  destruct (flat_mul _ Ws) as (h & rest2 & Es & Ch & Fr2 & Ds).
  pose proof (wf_flat MULTIPLICATION _ Wv) as Av. pose proof (wf_flat MULTIPLICATION _ Ws) as As.
  rewrite Ev in *. rewrite Es in *. cbn zeta.
  split.
  - unfold fe; cbn [ety edom ecod eargs wf]. split.
    + apply wf_args. rewrite <- app_comm_cons. apply Forall_cons_iff in Av as [? ?].
      constructor; auto. apply Forall_app; split; auto.
    + simpl. split; auto. apply Forall_app. split; auto. constructor; auto. congruence.
  - intros t. rewrite <- (Ds t), <- (Dv t). unfold fe at 1; cbn [ety edom ecod eargs den].
    simpl map. rewrite map_app. fold (mulv (map (fun g0 => den g0 t) rest ++ map (fun g0 => den g0 t) (h :: rest2)) (den g t)).
    unfold mulv at 1. rewrite fold_left_app.
    fold (mulv (map (fun g0 => den g0 t) rest) (den g t)).
    fold (mulv (map (fun g0 => den g0 t) (h :: rest2)) (mulv (map (fun g0 => den g0 t) rest) (den g t))).
    rewrite (mulv_prod (map (fun g0 => den g0 t) (h :: rest2))).
    rewrite (mulv_prod _ (den h t)).
    rewrite vhd_scale.
    + simpl. reflexivity.
    + intros X. apply (f_equal (@length R)) in X. rewrite den_length in X; [simpl in X; lia|].
      apply Forall_cons_iff in As as [? ?]; auto.
Qed.

Lemma map_mult_scale x v : map (Rmult x) v = scale x v.
Proof. unfold scale. apply map_ext; intros; ring. Qed.
Lemma vprod_scale_l v s : length s = 1%nat -> vprod v s = scale (vhd s) v.
Proof.
  intros Hs. destruct s as [|x [|y s]]; try discriminate.
  rewrite <- map_mult_scale. destruct v as [|a [|b v]]; reflexivity.
Qed.
Lemma vprod_scale_r v s : length s = 1%nat -> vprod s v = scale (vhd s) v.
Proof.
  intros Hs. destruct s as [|x [|y s]]; try discriminate.
  rewrite <- map_mult_scale. destruct v as [|a [|b v]]; simpl; try reflexivity.
  f_equal; ring.
Qed.

Lemma mul_ok o e1 e2 r : wf (fe e1) -> wf (fe e2) ->
  (1 <= ecod e1)%nat -> (1 <= ecod e2)%nat -> mul o e1 e2 = Ok r ->
  wf (fe r) /\ ecod r = Nat.max (ecod e1) (ecod e2) /\
  forall t, den (fe r) t = vprod (den (fe e1) t) (den (fe e2) t).
Proof.
  intros W1 W2 P1 P2 E. unfold mul, compatibility_mul in E.
  destruct (same_domain (edom e1) (edom e2)); [|discriminate]. simpl in E.
  destruct (Nat.ltb_spec 1 (ecod e1)) as [L1|L1];
  destruct (Nat.ltb_spec 1 (ecod e2)) as [L2|L2]; cbn [andb bind] in E; try discriminate.
  all: unfold first_or_max, second_or_min in E.
  all: destruct (Nat.leb_spec (ecod e2) (ecod e1)) as [L|L]; try lia.
  all: match type of L with
       | (ecod ?s <= ecod ?v)%nat =>
           assert (X : exists d, r = mkexpr MULTIPLICATION d (ecod v)
              (flat_or_clone MULTIPLICATION v ++ flat_or_clone MULTIPLICATION s))
             by (destruct o; inversion E; eexists; reflexivity)
       | (ecod ?s < ecod ?v)%nat =>
           assert (X : exists d, r = mkexpr MULTIPLICATION d (ecod v)
              (flat_or_clone MULTIPLICATION v ++ flat_or_clone MULTIPLICATION s))
             by (destruct o; inversion E; eexists; reflexivity)
       end.
  all: destruct X as [d ->]; clear E.
  1: destruct (mul_core e1 e2 W1 W2 ltac:(lia) d) as [Wr Dr].
  2: destruct (mul_core e2 e1 W2 W1 ltac:(lia) d) as [Wr Dr].
  3: destruct (mul_core e1 e2 W1 W2 ltac:(lia) d) as [Wr Dr].
  all: split; [exact Wr|split; [simpl; lia|]].
  all: intros t; rewrite Dr.
  1,3: symmetry; apply vprod_scale_l; rewrite den_length; auto; simpl; lia.
  symmetry; apply vprod_scale_r; rewrite den_length; auto; simpl; lia.
Qed.

(** composition *)
Lemma comp_args_spec e : wf (fe e) ->
  exists init g, comp_args e = init ++ [g] /\ fcod g = ecod e /\
  Forall wf (init ++ [g]) /\ Forall (fun g => fcod g = 1%nat) init /\
  forall t, den_comp (init ++ [g]) t = den (fe e) t.
Proof.
  intros W. destruct e as [ty d c args].
  unfold comp_args, fe in *; simpl ety in *; simpl ecod in *; simpl eargs in *; simpl edom in *.
  destruct ty; cbn [ftype_eqb];
    try (exists []; eexists; split; [reflexivity|]; split; [reflexivity|];
         split; [constructor; auto|]; split; [constructor|]; intros t; reflexivity).
  destruct W as [Wa (init & g & -> & Hc & Hi)]. exists init, g. repeat split; auto.
  apply wf_args; auto.
Qed.

Lemma inner_val_app l1 l2 x : inner_val (l1 ++ l2) x = inner_val l2 (inner_val l1 x).
Proof. unfold inner_val. apply fold_left_app. Qed.

Lemma compose_ok o this that r : wf (fe this) -> wf (fe that) -> (1 <= ecod that)%nat ->
  compose o this that = Ok r ->
  wf (fe r) /\ ecod r = ecod this /\ ecod that = 1%nat /\
  forall t, den (fe r) t = den (fe this) (vhd (den (fe that) t)).
Proof.
  intros W1 W2 P2 E. unfold compose, comp_throw in E.
  destruct (Nat.ltb_spec 1 (ecod that)) as [L|L]; [discriminate|]. simpl in E.
  assert (C2 : ecod that = 1%nat) by lia.
  assert (X : exists d, r = mkexpr COMPOSITION d (ecod this) (comp_args that ++ comp_args this)).
  { assert (K : ftype_eqb (ety this) COMPOSITION = true -> comp_args this = eargs this).
    { intros K. unfold comp_args. now rewrite K. }
    destruct o; try (inversion E; eexists; reflexivity);
    destruct (ftype_eqb (ety this) COMPOSITION); inversion E; eexists;
      first [reflexivity | rewrite K; reflexivity]. }
  destruct X as [d ->]. clear E.
  destruct (comp_args_spec _ W1) as (i1 & g1 & A1 & C1 & F1 & I1 & D1).
  destruct (comp_args_spec _ W2) as (i2 & g2 & A2 & C2' & F2 & I2 & D2).
  rewrite A1, A2. split; [|split; [reflexivity|split; [auto|]]].
  - unfold fe; cbn [ety edom ecod eargs wf]. split.
    + apply wf_args. apply Forall_app; split; auto.
    + exists ((i2 ++ [g2]) ++ i1), g1. split; [now rewrite !app_assoc|]. split; auto.
      apply Forall_app; split; auto. apply Forall_app; split; auto. constructor; auto; congruence.
  - intros t. rewrite <- D1, <- D2. unfold fe; cbn [ety edom ecod eargs].
    rewrite den_comp_eq. rewrite !app_assoc. rewrite !den_comp_snoc.
    rewrite !inner_val_app. reflexivity.
Qed.

(** plain functions and single-function expressions *)
Lemma to_expression_ok f : wf f ->
  wf (fe (to_expression f)) /\ forall t, den (fe (to_expression f)) t = den f t.
Proof. intros W. simpl. intuition eauto. Qed.

Lemma neg_ok d c g : wf g -> fcod g = c ->
  wf (fe (neg (mkexpr UNIQUE d c [g]))) /\
  forall t, den (fe (neg (mkexpr UNIQUE d c [g]))) t = map Ropp (den g t).
Proof.
  intros W Hc. simpl. split.
  - intuition eauto.
  - intros t. apply map_ext. intros; ring.
Qed.

Lemma leaf_wf d l : leaf_ok l -> wf (leaf_fn d l).
Proof. destruct l; simpl; tauto. Qed.
Lemma leaf_cod d l : fcod (leaf_fn d l) = lcod l.
Proof. destruct l; reflexivity. Qed.
Lemma leaf_den d l t : den (leaf_fn d l) t = lsem l t.
Proof. destruct l; simpl; auto. f_equal. ring. Qed.
Lemma leaf_pos l : leaf_ok l -> (1 <= lcod l)%nat.
Proof. destruct l; simpl; intros; try lia. destruct v; simpl; [congruence|lia]. Qed.

Lemma zip_with_map2 f a : forall b, zip_with f a b = map2 f a b.
Proof. induction a; destruct b; simpl; auto. f_equal; auto. Qed.

Lemma vadd_neg a : forall b, vadd a (map Ropp b) = zip_with Rminus a b.
Proof. induction a; destruct b; simpl; auto. unfold vadd in *; simpl. f_equal; auto. Qed.

Lemma row_dot_inner a b : row_dot a b = inner a b.
Proof.
  unfold row_dot, inner. rewrite zip_with_map2.
  apply fold_symmetric; intros; simpl; ring.
Qed.
Lemma inner_comm a : forall b, inner a b = inner b a.
Proof.
  unfold inner. induction a; destruct b; simpl; auto. rewrite IHa. ring.
Qed.

Lemma scal_ok rv a e r : wf (fe e) -> (1 <= ecod e)%nat -> scal rv a e = Ok r ->
  wf (fe r) /\ ecod r = ecod e /\ forall t, den (fe r) t = map (Rmult a) (den (fe e) t).
Proof.
  intros W P E. unfold scal in E.
  apply mul_ok in E; auto.
  - destruct E as (Wr & C & D). split; auto. change (ecod r = Nat.max 1 (ecod e)) in C. split; [lia|].
    intros t. rewrite D. simpl den at 1. rewrite vprod_scale_r by reflexivity. simpl.
    unfold scale. apply map_ext. intros; ring.
  - simpl. intuition eauto.
Qed.

(** in-place operators *)
Lemma iadd_flat (e1 e2 : expr R) : iadd e1 e2 = mkexpr SUM (edom e1) (ecod e1) (flat_or_clone SUM e1 ++ [fe e2]).
Proof. unfold iadd, flat_or_clone. destruct (ety e1); reflexivity. Qed.
Lemma imul_flat (e1 e2 : expr R) : imul e1 e2 = mkexpr MULTIPLICATION (edom e1) (ecod e1) (flat_or_clone MULTIPLICATION e1 ++ [fe e2]).
Proof. unfold imul, flat_or_clone. destruct (ety e1); reflexivity. Qed.
Lemma iadd_ok e1 e2 : wf (fe e1) -> wf (fe e2) -> ecod e1 = ecod e2 ->
  wf (fe (iadd e1 e2)) /\ ecod (iadd e1 e2) = ecod e1 /\ forall t, den (fe (iadd e1 e2)) t = vadd (den (fe e1) t) (den (fe e2) t).
Proof.
  intros W1 W2 C. rewrite iadd_flat. destruct (flat_sum _ W1) as (N1 & F1 & D1). change (ecod e2) with (fcod (fe e2)) in C. set (h := fe e2) in *. split; [|split; [reflexivity|]].
  - unfold fe at 1. cbn [ety edom ecod eargs wf]. split.
    + apply wf_args. apply Forall_app. split; [apply wf_flat; auto|constructor; [exact W2|constructor]].
    + split; [intros X; apply app_eq_nil in X; tauto|]. apply Forall_app. split; [auto|]. constructor; [symmetry; exact C|constructor].
  - intros t. unfold fe at 1. cbn [ety edom ecod eargs den]. rewrite map_app, fold_left_app. rewrite D1. reflexivity.
Qed.
Lemma imul_ok e1 e2 : wf (fe e1) -> wf (fe e2) -> ecod e2 = 1%nat ->
  wf (fe (imul e1 e2)) /\ ecod (imul e1 e2) = ecod e1 /\ forall t, den (fe (imul e1 e2)) t = vprod (den (fe e1) t) (den (fe e2) t).
Proof.
  intros W1 W2 C. rewrite imul_flat. destruct (mul_core e1 (to_expression (fe e2)) W1 (proj1 (to_expression_ok _ W2)) C (edom e1)) as (W & D).
  split; [exact W|]. split; [reflexivity|]. intros t. cbn zeta in D. etransitivity; [exact (D t)|]. rewrite (proj2 (to_expression_ok _ W2)).
  symmetry. apply vprod_scale_l. rewrite den_length by auto. exact C.
Qed.
Lemma iadd_self_eq (e : expr R) : iadd_self e = iadd e (mkexpr SUM (edom e) (ecod e) (flat_or_clone SUM e)).
Proof. unfold iadd_self, iadd, flat_or_clone. destruct (ety e) eqn:Ty; reflexivity. Qed.
Lemma imul_self_eq (e : expr R) : imul_self e = imul e (mkexpr MULTIPLICATION (edom e) (ecod e) (flat_or_clone MULTIPLICATION e)).
Proof. unfold imul_self, imul, flat_or_clone. destruct (ety e) eqn:Ty; reflexivity. Qed.
Lemma as_sum e : wf (fe e) -> let e1 := mkexpr SUM (edom e) (ecod e) (flat_or_clone SUM e) in wf (fe e1) /\ forall t, den (fe e1) t = den (fe e) t.
Proof.
  intros W. destruct (flat_sum _ W) as (N1 & F1 & D1). cbn zeta. split.
  - unfold fe at 1. cbn [ety edom ecod eargs wf]. split; [apply wf_args, wf_flat; auto|auto].
  - intros t. unfold fe at 1. cbn [ety edom ecod eargs den]. apply D1.
Qed.
Lemma as_mul e : wf (fe e) -> let e1 := mkexpr MULTIPLICATION (edom e) (ecod e) (flat_or_clone MULTIPLICATION e) in wf (fe e1) /\ forall t, den (fe e1) t = den (fe e) t.
Proof.
  intros W. pose proof (wf_flat MULTIPLICATION _ W) as A. destruct (flat_mul _ W) as (g & rest & Ev & Cg & Fr & Dv). cbn zeta. rewrite Ev in *. split.
  - unfold fe at 1. cbn [ety edom ecod eargs wf]. split; [apply wf_args; auto|]. split; auto.
  - intros t. unfold fe at 1. cbn [ety edom ecod eargs den map]. apply Dv.
Qed.
Lemma vadd_self v : vadd v v = map (Rmult 2) v.
Proof. induction v as [|x v IH]; [reflexivity|]. unfold vadd in *. cbn [map2 map]. rewrite IH. f_equal. cbn [nadd Rnum]. ring. Qed.
Lemma iadd_self_ok e : wf (fe e) -> wf (fe (iadd_self e)) /\ ecod (iadd_self e) = ecod e /\ forall t, den (fe (iadd_self e)) t = map (Rmult 2) (den (fe e) t).
Proof.
  intros W. rewrite iadd_self_eq. destruct (as_sum e W) as (W1 & D1). destruct (iadd_ok e _ W W1 eq_refl) as (W2 & C & D). split; [exact W2|]. split; [exact C|].
  intros t. rewrite D, D1. apply vadd_self.
Qed.
Lemma imul_self_ok e : wf (fe e) -> ecod e = 1%nat -> wf (fe (imul_self e)) /\ ecod (imul_self e) = 1%nat /\ forall t, den (fe (imul_self e)) t = [first_comp (den (fe e) t) ^ 2].
Proof.
  intros W C. rewrite imul_self_eq. destruct (as_mul e W) as (W1 & D1). destruct (imul_ok e _ W W1 C) as (W2 & C2 & D). split; [exact W2|]. split; [congruence|].
  intros t. rewrite D, D1. pose proof (den_length (fe e) W t) as L. change (fcod (fe e)) with (ecod e) in L. rewrite C in L. destruct (den (fe e) t) as [|x [|y v]]; try discriminate.
  unfold first_comp. cbn [vprod map nth]. f_equal. ring.
Qed.

Theorem build_ok p : prog_ok p -> forall e, build p = Ok e ->
  wf (fe e) /\ ecod e = pcod p /\ (1 <= pcod p)%nat /\ forall t, den (fe e) t = psem p t.
Proof.
  induction p; intros HP e E; cbn [build prog_ok] in *.
  - inversion E; subst; clear E. destruct (to_expression_ok (leaf_fn d l)) as [W D].
    { apply leaf_wf; auto. }
    split; auto. simpl. rewrite leaf_cod. split; auto. split; [apply leaf_pos; auto|].
    intros t. apply leaf_den.
  - destruct HP as [H1 H2]. apply bind_ok in E. destruct E as (e1 & E1 & E).
    apply bind_ok in E. destruct E as (e2 & E2 & E).
    destruct (IHp1 H1 _ E1) as (W1 & C1 & P1 & D1). destruct (IHp2 H2 _ E2) as (W2 & C2 & P2 & D2).
    apply add_ok in E; auto. destruct E as (W & C & C' & D).
    split; auto. split; [simpl; congruence|]. split; [simpl; auto|].
    intros t. rewrite D, D1, D2. simpl. symmetry. apply zip_with_map2.
  - destruct HP as [H1 H2]. apply bind_ok in E. destruct E as (e1 & E1 & E).
    apply bind_ok in E. destruct E as (e2 & E2 & E).
    destruct (IHp1 H1 _ E1) as (W1 & C1 & P1 & D1). destruct (IHp2 H2 _ E2) as (W2 & C2 & P2 & D2).
    apply mul_ok in E; auto; try lia. destruct E as (W & C & D).
    split; auto. split; [simpl; lia|]. split; [simpl; lia|].
    intros t. rewrite D, D1, D2. reflexivity.
  - apply bind_ok in E. destruct E as (e1 & E1 & E).
    destruct (IHp HP _ E1) as (W1 & C1 & P1 & D1).
    apply scal_ok in E; auto; [|lia]. destruct E as (W & C & D).
    split; auto. split; [simpl; congruence|]. split; auto.
    intros t. rewrite D, D1. reflexivity.
  - destruct HP as [H1 H2]. apply bind_ok in E. destruct E as (e1 & E1 & E).
    apply bind_ok in E. destruct E as (e2 & E2 & E).
    destruct (IHp1 H1 _ E1) as (W1 & C1 & P1 & D1). destruct (IHp2 H2 _ E2) as (W2 & C2 & P2 & D2).
    apply compose_ok in E; auto; try lia. destruct E as (W & C & C' & D).
    split; auto. split; [simpl; congruence|]. split; auto.
    intros t. rewrite D, D1, D2. simpl. f_equal. unfold first_comp. destruct (psem p2 t); reflexivity.
  - destruct HP as (H1 & H2 & HC). apply bind_ok in E. destruct E as (e1 & E1 & E).
    apply bind_ok in E. destruct E as (e2 & E2 & E).
    destruct (IHp1 H1 _ E1) as (W1 & C1 & P1 & D1). destruct (IHp2 H2 _ E2) as (W2 & C2 & P2 & D2).
    inversion E; subst; clear E.
    destruct (to_expression_ok _ W1) as [T1 _]. destruct (to_expression_ok _ W2) as [T2 _].
    assert (W : wf (dot o (fe e1) (fe e2))).
    { unfold dot. destruct o; cbn [wf]; (split; [|split]); auto; simpl; congruence. }
    destruct (to_expression_ok _ W) as [W' D']. split; auto.
    split; [destruct o; reflexivity|]. split; [simpl; lia|].
    intros t. rewrite D'. simpl psem. rewrite <- D1, <- D2.
    destruct o; cbn [dot den]; rewrite row_dot_inner;
      first [reflexivity | f_equal; apply inner_comm].
  - inversion E; subst; clear E.
    destruct (neg_ok d (lcod l) (leaf_fn d l)) as [W D]. { apply leaf_wf; auto. } { apply leaf_cod. }
    unfold to_expression. rewrite leaf_cod.
    replace (fdom (leaf_fn d l)) with d by (destruct l; reflexivity).
    split; auto. split; [reflexivity|]. split; [apply leaf_pos; auto|].
    intros t. rewrite D, leaf_den. reflexivity.
  - destruct HP as [H1 H2]. apply bind_ok in E. destruct E as (e1 & E1 & E).
    destruct (IHp H1 _ E1) as (W1 & C1 & P1 & D1).
    unfold sub in E. apply bind_ok in E. destruct E as ([] & _ & E).
    assert (X : exists o', add o' e1 (neg (to_expression (leaf_fn d l))) = Ok e).
    { destruct o; eauto. }
    destruct X as [o' X]. clear E.
    destruct (neg_ok d (lcod l) (leaf_fn d l)) as [W D]. { apply leaf_wf; auto. } { apply leaf_cod. }
    unfold to_expression in X. rewrite leaf_cod in X.
    replace (fdom (leaf_fn d l)) with d in X by (destruct l; reflexivity).
    apply add_ok in X; auto. destruct X as (Wr & C & C' & Dr).
    split; auto. split; [simpl; congruence|]. split; auto.
    intros t. rewrite Dr, D1, D. simpl. rewrite leaf_den. apply vadd_neg.
  - destruct HP as (H1 & H2 & HC). apply bind_ok in E. destruct E as (e1 & E1 & E).
    apply bind_ok in E. destruct E as (e2 & E2 & E).
    destruct (IHp1 H1 _ E1) as (W1 & C1 & P1 & D1). destruct (IHp2 H2 _ E2) as (W2 & C2 & P2 & D2).
    inversion E; subst. destruct (iadd_ok e1 e2 W1 W2 ltac:(congruence)) as (W & C & D).
    split; auto. split; [cbn [pcod]; congruence|]. split; auto.
    intros t. rewrite D, D1, D2. cbn [psem]. symmetry. apply zip_with_map2.
  - destruct HP as (H1 & H2 & HC). apply bind_ok in E. destruct E as (e1 & E1 & E).
    apply bind_ok in E. destruct E as (e2 & E2 & E).
    destruct (IHp1 H1 _ E1) as (W1 & C1 & P1 & D1). destruct (IHp2 H2 _ E2) as (W2 & C2 & P2 & D2).
    inversion E; subst. destruct (imul_ok e1 e2 W1 W2 ltac:(congruence)) as (W & C & D).
    split; auto. split; [cbn [pcod]; congruence|]. split; auto.
    intros t. rewrite D, D1, D2. reflexivity.
  - apply bind_ok in E. destruct E as (e1 & E1 & E). destruct (IHp HP _ E1) as (W1 & C1 & P1 & D1).
    inversion E; subst. destruct (iadd_self_ok e1 W1) as (W & C & D).
    split; auto. split; [cbn [pcod]; congruence|]. split; auto. intros t. rewrite D, D1. reflexivity.
  - destruct HP as (HP & HC). apply bind_ok in E. destruct E as (e1 & E1 & E). destruct (IHp HP _ E1) as (W1 & C1 & P1 & D1).
    inversion E; subst. destruct (imul_self_ok e1 W1 ltac:(congruence)) as (W & C & D).
    split; auto. split; [cbn [pcod]; congruence|]. split; [cbn [pcod]; lia|]. intros t. rewrite D, D1. reflexivity.
Qed.

Theorem program_value dbg p e pts : prog_ok p -> build p = Ok e ->
  call dbg (fe e) pts = Ok (map (psem p) pts) /\ ecod e = pcod p.
Proof.
  intros HP E. destruct (build_ok p HP e E) as (W & C & _ & D). split; auto.
  unfold call. rewrite (eval_den dbg _ W). f_equal. apply map_ext. intros; apply D.
Qed.
