(** Derivatives of function expressions (over the reals). *)
From Coquelicot Require Import Coquelicot.
From Coq Require Import List Reals Lra Lia Bool Arith.
From Verif Require Import Num Outcome FunModel FunSpec FunProofs FunProofs2.
Import ListNotations.
Local Open Scope R_scope.

(** an expression holding one function and having that function's domain *)
Definition uok (f : fn R) : Prop :=
  match f with
  | FExpr UNIQUE d _ [g] => d = fdom g
  | _ => False
  end.

Section Py.
(** whether classes written in Python may occur *)
Variable py : Prop.

(** differentiable everywhere: no concatenation, user classes smooth, operands
    of dot products on the same domain *)
Fixpoint smp (f : fn R) : Prop :=
  match f with
  | FExt _ c s _ => forall k j t,
      is_derive (fun u => nth j (s k u) 0) t (nth j (s (S k) t) 0)
  | FPy _ c s _ => py /\ forall k j t,
      is_derive (fun u => nth j (s k u) 0) t (nth j (s (S k) t) 0)
  | FDot _ f1 f2 => smp f1 /\ smp f2 /\ uok f1 /\ uok f2 /\ same_domain (fdom f1) (fdom f2) = true
  | FExpr CONCATENATION _ _ _ => False
  | FExpr _ _ _ args => fold_right (fun g P => smp g /\ P) True args
  | _ => True
  end.
Notation sm := smp.
Lemma sm_args (args : list (fn R)) :
  fold_right (fun g P => sm g /\ P) True args <-> Forall sm args.
Proof.
  induction args; simpl; split; intros; auto; try (inversion H; subst); intuition.
Qed.

Lemma sm_expr ty d c args : ty <> CONCATENATION -> Forall sm args -> sm (FExpr ty d c args).
Proof. intros H F. apply sm_args in F. destruct ty; simpl; auto; congruence. Qed.

Definition Dj (f f' : fn R) : Prop :=
  forall j t, is_derive (fun u => nth j (den f u) 0) t (nth j (den f' t) 0).

Lemma is_derive_ext_eq (f g : R -> R) t l l' :
  (forall u, f u = g u) -> l = l' -> is_derive f t l -> is_derive g t l'.
Proof. intros E <- H. apply (is_derive_ext f); auto. Qed.

Lemma is_derive_zero t : is_derive (fun _ : R => 0) t 0.
Proof. apply @is_derive_const. Qed.

Lemma is_derive_mul (f g : R -> R) t df dg :
  is_derive f t df -> is_derive g t dg -> is_derive (fun u => f u * g u) t (df * g t + f t * dg).
Proof.
  intros Hf Hg. apply (is_derive_mult f g t df dg Hf Hg). intros; apply Rmult_comm.
Qed.
Lemma is_derive_add (f g : R -> R) t df dg :
  is_derive f t df -> is_derive g t dg -> is_derive (fun u => f u + g u) t (df + dg).
Proof. intros Hf Hg. apply (is_derive_plus f g t df dg Hf Hg). Qed.
Lemma is_derive_comp' (f g : R -> R) t df dg :
  is_derive f (g t) df -> is_derive g t dg -> is_derive (fun u => f (g u)) t (df * dg).
Proof.
  intros Hf Hg. eapply is_derive_ext_eq; [| |apply (is_derive_comp f g t df dg Hf Hg)].
  - reflexivity.
  - apply Rmult_comm.
Qed.

(** ** one-component functions *)
Lemma Dj_scalar f f' (F F' : R -> R) :
  (forall t, den f t = [F t]) -> (forall t, den f' t = [F' t]) ->
  (forall t, is_derive F t (F' t)) -> Dj f f'.
Proof.
  intros E E' H j t. destruct j as [|j].
  - eapply is_derive_ext_eq; [| |apply H].
    + intros u. rewrite E. reflexivity.
    + rewrite E'. reflexivity.
  - eapply is_derive_ext_eq; [| |apply (is_derive_zero t)].
    + intros u. rewrite E. destruct j; reflexivity.
    + rewrite E'. destruct j; reflexivity.
Qed.

(** ** polynomials *)
Definition weights (n : nat) (l : list R) : list R :=
  map2 (fun u x => (nofnat u + 1) * x) (seq n (length l)) l.
Lemma power_sum_derive l : exists dP,
  (forall t, is_derive (power_sum l) t (dP t)) /\
  forall n t, power_sum (weights n l) t = (INR n + 1) * power_sum l t + t * dP t.
Proof.
  induction l as [|x l (dP & HD & HW)].
  - exists (fun _ => 0). split.
    + intros. apply is_derive_zero.
    + intros. simpl. ring.
  - exists (fun t => power_sum l t + t * dP t). split.
    + intros t. simpl. eapply is_derive_ext_eq; [| |
        apply (is_derive_add (fun _ => x) (fun u => u * power_sum l u) t 0)].
      * reflexivity.
      * apply Rplus_0_l.
      * apply @is_derive_const.
      * eapply is_derive_ext_eq; [| |apply (is_derive_mul (fun u => u) (power_sum l) t 1)].
        -- reflexivity.
        -- rewrite Rmult_1_l. reflexivity.
        -- apply @is_derive_id.
        -- apply HD.
    + intros n t. unfold weights. cbn [length seq map2 power_sum].
      change (map2 _ (seq (S n) (length l)) l) with (weights (S n) l).
      rewrite HW, nofnat_INR, S_INR. ring.
Qed.
Lemma weights_0 l t : is_derive (power_sum l) t (power_sum (weights 0 (tl l)) t).
Proof.
  destruct l as [|a l]; simpl tl.
  - apply is_derive_zero.
  - destruct (power_sum_derive l) as (dP & HD & HW). rewrite HW. simpl INR.
    simpl. eapply is_derive_ext_eq; [| |
        apply (is_derive_add (fun _ => a) (fun u => u * power_sum l u) t 0)].
    + reflexivity.
    + apply Rplus_0_l.
    + apply @is_derive_const.
    + eapply is_derive_ext_eq; [| |apply (is_derive_mul (fun u => u) (power_sum l) t 1)].
      * reflexivity.
      * rewrite Rplus_0_l. reflexivity.
      * apply @is_derive_id.
      * apply HD.
Qed.
Lemma poly_shift_derive c t : is_derive (power_sum c) t (power_sum (poly_shift c) t).
Proof. apply weights_0. Qed.

Lemma poly_shift_length c : length (poly_shift c) = pred (length c).
Proof. unfold poly_shift. rewrite map2_length, seq_length. destruct c; simpl; lia. Qed.

Lemma deriv_poly1 d c : c <> [] -> exists c', deriv_poly d c 1 = Ok (FPoly d c') /\ c' <> [] /\
  forall t, is_derive (power_sum c) t (power_sum c' t).
Proof.
  intros Hc. unfold deriv_poly. destruct (Nat.eqb_spec (length c) 1) as [E|E].
  - exists [0]. split; [reflexivity|]. split; [discriminate|]. intros t.
    destruct c as [|a [|b c]]; simpl in *; try discriminate.
    eapply is_derive_ext_eq; [| |apply (@is_derive_const R_AbsRing _ a t)].
    + intros u; simpl; ring.
    + simpl. change (0 = 0 + t * 0). ring.
  - destruct c as [|a c]; [congruence|]. unfold poly_deriv_loop.
    destruct (poly_shift (a :: c)) as [|x c'] eqn:S.
    + apply (f_equal (@length R)) in S. rewrite poly_shift_length in S. simpl in *. lia.
    + exists (x :: c'). split; [reflexivity|]. split; [discriminate|]. intros t.
      rewrite <- S. apply poly_shift_derive.
Qed.

(** ** sums *)
Definition rsum (l : list R) : R := fold_right Rplus 0 l.
Definition rprod (l : list R) : R := fold_right Rmult 1 l.

Lemma nth_fold_vadd c j rs : forall a, length a = c -> Forall (fun r => length r = c) rs ->
  nth j (fold_left vadd rs a) 0 = nth j a 0 + rsum (map (fun r => nth j r 0) rs).
Proof.
  induction rs as [|r rs IH]; intros a Ha HF; simpl; [ring|].
  apply Forall_cons_iff in HF as [Hr HF]. rewrite IH; auto.
  - rewrite nth_vadd by congruence. ring.
  - rewrite vadd_length; congruence.
Qed.
Lemma nth_den_sum d c args t j : wf (FExpr SUM d c args) ->
  nth j (den (FExpr SUM d c args) t) 0 = rsum (map (fun g => nth j (den g t) 0) args).
Proof.
  intros [Ha [_ Hc]]. apply wf_args in Ha. simpl. rewrite (nth_fold_vadd c).
  - rewrite nth_repeat, Rplus_0_l, map_map. reflexivity.
  - apply repeat_length.
  - apply Forall_forall. intros r Hr. apply in_map_iff in Hr. destruct Hr as (g & <- & Hg).
    rewrite den_length; [apply (Forall_In _ _ g Hc Hg)|apply (Forall_In _ _ g Ha Hg)].
Qed.
Lemma rsum_derive (fs : list (R -> R)) : forall (dfs : list (R -> R)) t,
  Forall2 (fun f df => is_derive f t (df t)) fs dfs ->
  is_derive (fun u => rsum (map (fun f => f u) fs)) t (rsum (map (fun f => f t) dfs)).
Proof.
  intros dfs t H. induction H as [|f df fs dfs Hd _ IH]; simpl.
  - apply is_derive_zero.
  - apply is_derive_add; auto.
Qed.

(** ** products *)
Lemma nth_mulv rs a j : nth j (mulv rs a) 0 = nth j a 0 * rprod (map vhd rs).
Proof.
  rewrite mulv_prod, nth_scale. f_equal. induction rs; simpl; auto. now rewrite IHrs.
Qed.
Lemma nth_den_mul d c g rest t j :
  nth j (den (FExpr MULTIPLICATION d c (g :: rest)) t) 0
  = nth j (den g t) 0 * rprod (map (fun h => vhd (den h t)) rest).
Proof.
  change (den (FExpr MULTIPLICATION d c (g :: rest)) t)
    with (mulv (map (fun h => den h t) rest) (den g t)).
  rewrite nth_mulv, map_map. reflexivity.
Qed.

Fixpoint dterms (hs ds : list R) : R :=
  match hs, ds with
  | h :: hs', d :: ds' => d * rprod hs' + h * dterms hs' ds'
  | _, _ => 0
  end.
Lemma rprod_derive (fs dfs : list (R -> R)) t :
  Forall2 (fun f df => is_derive f t (df t)) fs dfs ->
  is_derive (fun u => rprod (map (fun f => f u) fs)) t
            (dterms (map (fun f => f t) fs) (map (fun f => f t) dfs)).
Proof.
  intros H. induction H as [|f df fs dfs Hd _ IH]; simpl.
  - apply @is_derive_const.
  - apply (is_derive_mul f (fun u => rprod (map (fun f => f u) fs))); auto.
Qed.
Lemma map2_seq_S {A C} (f : nat -> A -> C) l : forall a,
  map2 f (seq (S a) (length l)) l = map2 (fun i => f (S i)) (seq a (length l)) l.
Proof. induction l; intros; simpl; auto. f_equal. apply IHl. Qed.
Lemma map2_seq_ext {A C} (f g : nat -> A -> C) l : forall a n,
  (forall i x, f i x = g i x) -> map2 f (seq a n) l = map2 g (seq a n) l.
Proof. induction l; intros a0 n E; destruct n; simpl; auto. f_equal; auto. Qed.
Lemma map_map2 {A B C D} (f : C -> D) (g : A -> B -> C) l1 : forall l2,
  map f (map2 g l1 l2) = map2 (fun a b => f (g a b)) l1 l2.
Proof. induction l1; destruct l2; simpl; auto. f_equal; auto. Qed.
Lemma map2_map_r {A B C D} (f : A -> C -> D) (g : B -> C) l1 : forall l2,
  map2 f l1 (map g l2) = map2 (fun a b => f a (g b)) l1 l2.
Proof. induction l1; destruct l2; simpl; auto. f_equal; auto. Qed.
Lemma rprod_app a b : rprod (a ++ b) = rprod a * rprod b.
Proof. induction a; simpl; [ring|]. unfold rprod in *; simpl. rewrite IHa. ring. Qed.
Lemma rsum_scale k l : rsum (map (Rmult k) l) = k * rsum l.
Proof. induction l; simpl; [ring|]. unfold rsum in *; simpl. rewrite IHl. ring. Qed.
Lemma dterms_remove hs : forall ds, length ds = length hs ->
  rsum (map2 (fun i d => rprod (remove_nth i hs) * d) (seq 0 (length ds)) ds) = dterms hs ds.
Proof.
  induction hs as [|h hs IH]; intros [|d ds] E; simpl in *; try discriminate; auto.
  rewrite <- IH by lia. rewrite map2_seq_S.
  simpl. rewrite <- rsum_scale, map_map2. f_equal; [ring|].
  f_equal. apply map2_seq_ext. intros i x. unfold rprod. simpl. ring.
Qed.

Lemma map_remove_nth {A B} (f : A -> B) l : forall i,
  map f (remove_nth i l) = remove_nth i (map f l).
Proof. induction l; destruct i; simpl; auto. f_equal; auto. Qed.
Lemma Forall_remove_nth {A} (P : A -> Prop) l : forall i, Forall P l -> Forall P (remove_nth i l).
Proof.
  induction l as [|a l IH]; intros i H; destruct i; simpl; auto.
  - apply Forall_cons_iff in H. tauto.
  - apply Forall_cons_iff in H as [Ha H]. constructor; auto.
Qed.
Lemma In_map2 {A B C} (f : A -> B -> C) l1 : forall l2 x, In x (map2 f l1 l2) ->
  exists a b, In a l1 /\ In b l2 /\ x = f a b.
Proof.
  induction l1 as [|a l1 IH]; intros [|b l2] x Hx; simpl in *; try contradiction.
  destruct Hx as [Hx|Hx].
  - exists a, b. auto.
  - destruct (IH _ _ Hx) as (a' & b' & Ha & Hb & Hx'). eauto 8.
Qed.

Lemma mul_terms_eq (d : dom R) c (g0 : fn R) rest d0 drest :
  length drest = length rest ->
  mul_terms d c (g0 :: rest) (d0 :: drest) =
  FExpr MULTIPLICATION d c (d0 :: rest)
  :: map2 (fun i di => FExpr MULTIPLICATION d c (g0 :: remove_nth i rest ++ [di]))
          (seq 0 (length drest)) drest.
Proof.
  intros E. unfold mul_terms. f_equal. rewrite <- E. rewrite map2_seq_S. reflexivity.
Qed.

(** ** what a correct derivative is *)
Definition derivedp (f f' : fn R) : Prop :=
  wf f' /\ sm f' /\ fcod f' = fcod f /\ (uok f -> fdom f' = fdom f) /\ Dj f f'.
Notation derived := derivedp.

Lemma vhd_nth v : vhd v = nth 0 v 0.
Proof. destruct v; reflexivity. Qed.

Lemma mapM_derived (df : fn R -> outcome (fn R)) args :
  Forall (fun g => exists g', df g = Ok g' /\ derived g g') args ->
  exists ds, mapM df args = Ok ds /\ Forall2 derived args ds.
Proof.
  induction 1 as [|g args (g' & E & Dg) _ (ds & Es & Hs)]; simpl.
  - exists []. auto.
  - exists (g' :: ds). rewrite E. simpl. rewrite Es. simpl. auto.
Qed.

Lemma Forall2_len {A B} (P : A -> B -> Prop) l1 l2 : Forall2 P l1 l2 -> length l2 = length l1.
Proof. induction 1; simpl; auto. Qed.

Lemma F2_derive_nth j t args ds : Forall2 derived args ds ->
  Forall2 (fun f df : R -> R => is_derive f t (df t))
    (map (fun g u => nth j (den g u) 0) args) (map (fun g u => nth j (den g u) 0) ds).
Proof. induction 1 as [|g g' args ds D _ IH]; simpl; constructor; auto. apply D. Qed.

Lemma F2_wf args ds : Forall2 derived args ds -> Forall wf ds.
Proof. induction 1 as [|g g' args ds D _ IH]; constructor; auto. apply D. Qed.
Lemma F2_sm args ds : Forall2 derived args ds -> Forall sm ds.
Proof. induction 1 as [|g g' args ds D _ IH]; constructor; auto. apply D. Qed.
Lemma F2_cod c args ds : Forall2 derived args ds ->
  Forall (fun g => fcod g = c) args -> Forall (fun g => fcod g = c) ds.
Proof.
  induction 1 as [|g g' args ds D _ IH]; intros F; constructor; apply Forall_cons_iff in F as [Fg F]; auto.
  destruct D as (_ & _ & E & _). congruence.
Qed.

Lemma sum_derived d c args ds d' : Forall2 derived args ds -> wf (FExpr SUM d c args) ->
  derived (FExpr SUM d c args) (FExpr SUM d' c ds).
Proof.
  intros F W. assert (W' : wf (FExpr SUM d' c ds)).
  { destruct W as [_ [Hn Hc]]. split; [apply wf_args; eapply F2_wf; eauto|]. split.
    - intros ->. inversion F; congruence.
    - eapply F2_cod; eauto. }
  split; auto. split; [simpl; apply sm_args; eapply F2_sm; eauto|]. split; [reflexivity|].
  split; [simpl; tauto|]. intros j t.
  eapply is_derive_ext_eq; [| |apply (rsum_derive _ _ t (F2_derive_nth j t _ _ F))].
  - intros u. rewrite nth_den_sum by auto. now rewrite map_map.
  - rewrite nth_den_sum by auto. now rewrite map_map.
Qed.

Lemma mul_derived d c args ds d' : Forall2 derived args ds ->
  wf (FExpr MULTIPLICATION d c args) -> Forall sm args ->
  derived (FExpr MULTIPLICATION d c args) (FExpr SUM d' c (mul_terms d' c args ds)).
Proof.
  intros F W S. pose proof W as W0. destruct W as [Wa Hty]. apply wf_args in Wa.
  destruct args as [|g0 rest]; [contradiction|]. destruct Hty as [C0 Cr].
  inversion F as [|? d0 ? drest D0 Fr]; subst.
  pose proof (Forall2_len _ _ _ Fr) as HL.
  apply Forall_cons_iff in Wa as [Wg Wr]. apply Forall_cons_iff in S as [Sg Sr].
  pose proof (F2_wf _ _ Fr) as Wd. pose proof (F2_sm _ _ Fr) as Sd.
  pose proof (F2_cod 1%nat _ _ Fr Cr) as Cd.
  destruct D0 as (W0' & S0 & C0' & _ & DD0).
  rewrite mul_terms_eq by auto.
  assert (WT : Forall wf (FExpr MULTIPLICATION d' (fcod g0) (d0 :: rest)
     :: map2 (fun i di => FExpr MULTIPLICATION d' (fcod g0) (g0 :: remove_nth i rest ++ [di]))
          (seq 0 (length drest)) drest)).
  { constructor.
    - split; [apply wf_args; constructor; auto|]. auto.
    - apply Forall_forall. intros x Hx. apply In_map2 in Hx. destruct Hx as (i & di & _ & Hi & ->).
      split.
      + apply wf_args. constructor; auto. apply Forall_app. split; [apply Forall_remove_nth; auto|].
        repeat constructor. apply (Forall_In _ _ di Wd Hi).
      + split; auto. apply Forall_app. split; [apply Forall_remove_nth; auto|].
        repeat constructor. apply (Forall_In _ _ di Cd Hi). }
  assert (WS : wf (FExpr SUM d' (fcod g0) (FExpr MULTIPLICATION d' (fcod g0) (d0 :: rest)
     :: map2 (fun i di => FExpr MULTIPLICATION d' (fcod g0) (g0 :: remove_nth i rest ++ [di]))
          (seq 0 (length drest)) drest))).
  { split; [apply wf_args; auto|]. split; [discriminate|].
    constructor; auto. apply Forall_forall. intros x Hx. apply In_map2 in Hx.
    destruct Hx as (i & di & _ & Hi & ->). reflexivity. }
  split; auto. split; [|split; [reflexivity|split; [simpl; tauto|]]].
  - simpl. split.
    + split; auto. apply sm_args; auto.
    + apply sm_args. apply Forall_forall. intros x Hx. apply In_map2 in Hx.
      destruct Hx as (i & di & _ & Hi & ->). simpl. split; auto. apply sm_args.
      apply Forall_app. split; [apply Forall_remove_nth; auto|].
      repeat constructor. apply (Forall_In _ _ di Sd Hi).
  - intros j t.
    set (G := fun u => nth j (den g0 u) 0).
    set (P := fun u => rprod (map (fun h => vhd (den h u)) rest)).
    assert (DP : is_derive P t (dterms (map (fun h => vhd (den h t)) rest) (map (fun h => vhd (den h t)) drest))).
    { eapply is_derive_ext_eq; [| |apply (rprod_derive _ _ t (F2_derive_nth 0 t _ _ Fr))].
      - intros u. unfold P. rewrite map_map. f_equal. apply map_ext. intros; now rewrite vhd_nth.
      - rewrite !map_map. f_equal; apply map_ext; intros; now rewrite vhd_nth. }
    eapply is_derive_ext_eq; [| |apply (is_derive_mul G P t _ _ (DD0 j t) DP)].
    + intros u. rewrite nth_den_mul. reflexivity.
    + rewrite nth_den_sum by auto. cbn [map]. unfold rsum at 1. cbn [fold_right].
      rewrite nth_den_mul. f_equal.
      rewrite map_map2. fold (rsum (map2 (fun i di => nth j (den (FExpr MULTIPLICATION d' (fcod g0)
           (g0 :: remove_nth i rest ++ [di])) t) 0) (seq 0 (length drest)) drest)).
      rewrite <- dterms_remove by (rewrite !map_length; auto).
      rewrite <- rsum_scale. f_equal. rewrite map_length, map2_map_r, map_map2.
      apply map2_seq_ext. intros i x. rewrite nth_den_mul. rewrite map_app, rprod_app, map_remove_nth.
      unfold G. cbn [map]. change (rprod [vhd (den x t)]) with (vhd (den x t) * 1). ring.
Qed.

(** ** composition *)
Lemma inner_val_snoc l h x : inner_val (l ++ [h]) x = vhd (den h (inner_val l x)).
Proof. now rewrite inner_val_app. Qed.

Lemma combine_app {A B} (l1 l2 : list A) (r1 r2 : list B) : length l1 = length r1 ->
  combine (l1 ++ l2) (r1 ++ r2) = combine l1 r1 ++ combine l2 r2.
Proof. revert r1; induction l1; destruct r1; simpl; intros; try discriminate; auto. f_equal; auto. Qed.

Lemma map2_app {A B C} (f : A -> B -> C) a1 : forall b1 a2 b2, length a1 = length b1 ->
  map2 f (a1 ++ a2) (b1 ++ b2) = map2 f a1 b1 ++ map2 f a2 b2.
Proof. induction a1; destruct b1; simpl; intros; try discriminate; auto. f_equal; auto. Qed.

Lemma map2_ext_in {A B C} (f g : A -> B -> C) l1 : forall l2,
  (forall a b, In a l1 -> In b l2 -> f a b = g a b) -> map2 f l1 l2 = map2 g l1 l2.
Proof. induction l1; destruct l2; simpl; intros; auto. f_equal; auto. Qed.

Lemma comp_factors_snoc (d : dom R) init (g : fn R) dinit dg : init <> [] -> length dinit = length init ->
  comp_factors d (init ++ [g]) (dinit ++ [dg])
  = FExpr COMPOSITION d (fcod g) (init ++ [dg]) :: comp_factors d init dinit.
Proof.
  intros Hne HL. destruct init as [|g0 rest]; [congruence|].
  destruct dinit as [|d0 drest]; [discriminate|]. simpl in HL.
  unfold comp_factors. cbn [app]. rewrite app_length. cbn [length].
  rewrite seq_app. rewrite combine_app by lia.
  rewrite map2_app.
  2:{ rewrite seq_length, combine_length. lia. }
  rewrite rev_app_distr. cbn [seq combine map2 rev app]. cbn [fst snd].
  f_equal.
  - f_equal. f_equal. change (g0 :: rest ++ [g]) with ((g0 :: rest) ++ [g]).
    rewrite firstn_app. replace (1 + length rest)%nat with (length (g0 :: rest)) by reflexivity.
    rewrite firstn_all, Nat.sub_diag. simpl. now rewrite app_nil_r.
  - f_equal. f_equal. apply map2_ext_in. intros i x Hi _. f_equal. f_equal.
    change (g0 :: rest ++ [g]) with ((g0 :: rest) ++ [g]).
    rewrite firstn_app. apply in_seq in Hi.
    replace (i - length (g0 :: rest))%nat with 0%nat by (simpl; lia).
    simpl firstn at 2. now rewrite app_nil_r.
Qed.

Lemma Forall2_snoc_inv {A B} (P : A -> B -> Prop) l a r : Forall2 P (l ++ [a]) r ->
  exists r' b, r = r' ++ [b] /\ Forall2 P l r' /\ P a b.
Proof.
  intros F. apply Forall2_app_inv_l in F. destruct F as (r1 & r2 & F1 & F2 & ->).
  inversion F2 as [|? b ? r3 Hab F3]; subst. inversion F3; subst. eauto.
Qed.

(** all operands scalar: factors are scalar and their product is the derivative *)
Lemma comp_inner_derived d args : forall ds, args <> [] -> Forall2 derived args ds ->
  Forall wf args -> Forall sm args -> Forall (fun g => fcod g = 1%nat) args ->
  Forall wf (comp_factors d args ds) /\ Forall sm (comp_factors d args ds) /\
  Forall (fun g => fcod g = 1%nat) (comp_factors d args ds) /\
  forall t, is_derive (inner_val args) t (rprod (map (fun h => vhd (den h t)) (comp_factors d args ds))).
Proof.
  induction args as [|g init IH] using rev_ind; intros ds Hne F W S C; [congruence|].
  apply Forall2_snoc_inv in F. destruct F as (dinit & dg & -> & F & Dg).
  apply Forall_app in W as [Wi Wg]. apply Forall_app in S as [Si Sg]. apply Forall_app in C as [Ci Cg].
  apply Forall_cons_iff in Wg as [Wg _]. apply Forall_cons_iff in Sg as [Sg _].
  apply Forall_cons_iff in Cg as [Cg _].
  destruct Dg as (Wd & Sd & Cd & _ & DD).
  assert (DV : forall x, is_derive (fun u => vhd (den g u)) x (vhd (den dg x))).
  { intros x. eapply is_derive_ext_eq; [| |apply (DD 0%nat x)].
    - intros; now rewrite vhd_nth.
    - now rewrite vhd_nth. }
  destruct init as [|h init'].
  - inversion F; subst. simpl. split; [auto|]. split; [auto|].
    split; [constructor; [congruence|auto]|].
    intros t. eapply is_derive_ext_eq; [| |apply (DV t)]; [reflexivity|].
    unfold rprod; simpl; ring.
  - set (init := h :: init') in *. assert (Hi : init <> []) by discriminate.
    destruct (IH dinit Hi F Wi Si Ci) as (W1 & S1 & C1 & D1).
    rewrite comp_factors_snoc by (auto; eapply Forall2_len; eauto).
    split; [|split; [|split]].
    + constructor; auto. split; [apply wf_args, Forall_app; auto|].
      exists init, dg. repeat split; auto.
    + constructor; auto. apply sm_expr; [discriminate|]. apply Forall_app. auto.
    + constructor; auto.
    + intros t.
      eapply is_derive_ext_eq; [| |apply (is_derive_comp' (fun u => vhd (den g u)) (inner_val init) t _ _ (DV _) (D1 t))].
      * intros u. rewrite inner_val_snoc. reflexivity.
      * cbn [map]. unfold rprod at 2. cbn [fold_right].
        rewrite den_comp_eq, den_comp_snoc. reflexivity.
Qed.

Lemma comp_derived d c args ds d' : Forall2 derived args ds ->
  wf (FExpr COMPOSITION d c args) -> Forall sm args ->
  derived (FExpr COMPOSITION d c args) (FExpr MULTIPLICATION d' c (comp_factors d' args ds)).
Proof.
  intros F W S. pose proof W as W0. destruct W as [Wa (init & g & -> & Cg & Ci)].
  apply wf_args in Wa. apply Forall2_snoc_inv in F. destruct F as (dinit & dg & -> & F & Dg).
  apply Forall_app in Wa as [Wi Wg]. apply Forall_app in S as [Si Sg].
  apply Forall_cons_iff in Wg as [Wg _]. apply Forall_cons_iff in Sg as [Sg _].
  destruct Dg as (Wd & Sd & Cd & _ & DD).
  destruct init as [|h init'].
  - inversion F; subst. simpl comp_factors.
    split; [simpl; split; [auto|split; [congruence|constructor]]|].
    split; [simpl; auto|]. split; [reflexivity|]. split; [simpl; tauto|].
    intros j t. rewrite nth_den_mul. simpl. unfold rprod; simpl. rewrite Rmult_1_r. apply DD.
  - set (init := h :: init') in *. assert (Hi : init <> []) by discriminate.
    destruct (comp_inner_derived d' init dinit Hi F Wi Si Ci) as (W1 & S1 & C1 & D1).
    rewrite comp_factors_snoc by (auto; eapply Forall2_len; eauto).
    split; [|split; [|split; [|split]]].
    + split.
      * apply wf_args. constructor; auto. split; [apply wf_args, Forall_app; auto|].
        exists init, dg. repeat split; auto.
      * auto.
    + apply sm_expr; [discriminate|]. constructor; auto. apply sm_expr; [discriminate|].
      apply Forall_app. auto.
    + reflexivity.
    + simpl; tauto.
    + intros j t. rewrite nth_den_mul, den_comp_eq, den_comp_snoc.
      eapply is_derive_ext_eq; [| |apply (is_derive_comp' (fun u => nth j (den g u) 0) (inner_val init) t _ _ (DD j _) (D1 t))].
      * intros u. rewrite den_comp_eq, den_comp_snoc. reflexivity.
      * reflexivity.
Qed.

End Py.
