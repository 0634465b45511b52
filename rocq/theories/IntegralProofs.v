(** The integral routine computes the composite quadrature sum. *)
From Coquelicot Require Import Coquelicot.
From Coq Require Import List Arith Lia Bool ZArith Reals Lra.
From Verif Require Import Num Outcome LinAlg RSum LegendreSpec LegendreModel FunModel FunSpec FunProofs FunProofs2 FunDeriv FunDeriv2 FunProps
  ToolsModel GSplineModel GLSpec GLModel GLProofs GLProofs2 GLProps GLLModel GLLProofs IntegralModel QuadSpec.
Import ListNotations.
Local Open Scope R_scope.
Local Opaque gl_iters.

Lemma col_dot_ok (m : mat R) w n F wf : mat_is m n 1 F -> vec_is w n wf -> col_dot m w = Ok (Rsum n (fun i => F i 0%nat * wf i)).
Proof.
  intros M V. unfold col_dot. pose proof M as (-> & -> & _). pose proof V as (-> & _). rewrite !Nat.eqb_refl. cbn [andb].
  match goal with |- for_ ?lo ?hi ?g ?z = _ => destruct (for_ok (fun k s => s = Rsum k (fun i => F i 0%nat * wf i)) g lo hi z) as (s' & E & ->) end; auto; try lia.
  - intros i s Hi ->. rewrite (mread_ok m n 1 F) by (auto; lia). cbn [bind]. rewrite (vread_ok w n wf) by (auto; lia). cbn [bind]. eexists. split; [reflexivity|]. rnum. reflexivity.
Qed.
Lemma affine_is (p : vec R) np x len left : vec_is p np x -> vec_is (gl_affine p len left) np (fun i => (x i + 1) * len / 2 + left).
Proof.
  intros (L & G). split; [exact L|]. intros i Hi. cbn [gl_affine vmap1 vget]. rewrite G by auto. cbn [option_map]. unfold c2. rnum. reflexivity.
Qed.
Lemma integral_loop (f : fobj R) F np n p x w wf len : fo_codom f = 1%nat -> pointwise f F -> vec_is p np x -> vec_is w np wf ->
  exists m, for_ 0 n (int_step f p w len) (mnew np 1, 0) = Ok (m, Rsum n (fun iv => len / 2 * Rsum np (fun i => wf i * F 0%nat (on_interval (fst (fo_dom f) + INR iv * len) len (x i))))).
Proof.
  intros Hc Pw Vp Vw.
  match goal with |- exists m, for_ ?lo ?hi ?g ?z = Ok (m, _) => destruct (for_ok (fun k st => mrows (fst st) = np /\ mcols (fst st) = 1%nat /\
     snd st = Rsum k (fun iv => len / 2 * Rsum np (fun i => wf i * F 0%nat (on_interval (fst (fo_dom f) + INR iv * len) len (x i))))) g lo hi z) as ([m r] & E & (_ & _ & Er)) end.
  - lia.
  - cbn. auto.
  - intros iv [m r] Hi (Hm & Hk & Er). cbn [fst snd] in *. unfold int_step.
    destruct (Pw _ np _ m (affine_is p np x len (fst (fo_dom f) + nofnat iv * len)%num Vp) Hm) as (m' & E & M); [congruence|]. rewrite Hc in M.
    rewrite E. cbn [bind]. rewrite (col_dot_ok m' w np _ wf M Vw). cbn [bind]. eexists. split; [reflexivity|]. cbn [fst snd].
    split; [apply M|]. split; [apply M|]. rewrite Er. cbn [Rsum]. unfold c2. rnum. rewrite nofnat_INR. f_equal.
    rewrite <- Rsum_scal. unfold Rdiv. rewrite Rmult_assoc, <- Rsum_scal_r. apply Rsum_ext. intros i _. unfold on_interval.
    replace ((x i + 1) * len * / 2 + (fst (fo_dom f) + INR iv * len)) with (fst (fo_dom f) + INR iv * len + len * (x i + 1) / 2) by field. field.
  - cbn [snd] in Er. exists m. now rewrite E, Er.
Qed.
Theorem integral_ok dbg (f : fobj R) F nglp n p x w wf : fo_codom f = 1%nat -> pointwise f F -> gl_points_weights nglp = Ok (p, w) -> vec_is p nglp x -> vec_is w nglp wf ->
  integral dbg f nglp n = Ok (quad nglp n x wf (fst (fo_dom f)) (snd (fo_dom f)) (F 0%nat)).
Proof.
  intros Hc Pw E Vp Vw. unfold integral. rewrite Hc. cbn [Nat.eqb negb andb]. rewrite andb_false_r. rewrite E. cbn [bind].
  set (len := ((snd (fo_dom f) - fst (fo_dom f)) / nofnat n)%num).
  destruct (integral_loop f F nglp n p x w wf len Hc Pw Vp Vw) as (m & El). rnum. rewrite El. cbn [bind]. unfold quad, len. rnum. rewrite nofnat_INR. reflexivity.
Qed.

(** ** expressions as integrands *)
(** evaluating [f] maps [F] over the points *)
Definition computes (dbg : bool) (f : fn R) (F : R -> list R) : Prop :=
  (forall pts, eval dbg f pts (fcod f) = Ok (map F pts)) /\ forall t, length (F t) = fcod f.
Lemma list_seq {A} (l : list A) d : map (fun i => nth i l d) (seq 0 (length l)) = l.
Proof.
  induction l as [|a l IH]; [reflexivity|]. cbn [length seq map nth]. f_equal. rewrite <- seq_shift, map_map. exact IH.
Qed.
Lemma computes_pointwise dbg f F : computes dbg f F -> pointwise (fo_of_fn dbg f) (fun cc t => nth cc (F t) 0).
Proof. intros (E & L). apply fn_pointwise. intros l. rewrite E. f_equal. apply map_ext. intros t. rewrite <- (L t). symmetry. apply list_seq. Qed.
Lemma computes_den dbg f : wf f -> computes dbg f (den f).
Proof. intros W. split; [exact (eval_den dbg f W)|exact (den_length f W)]. Qed.
Lemma computes_unique dbg f F d : computes dbg f F -> computes dbg (FExpr UNIQUE d (fcod f) [f]) F.
Proof. intros (E & L). split; [|exact L]. intros pts. cbn. rewrite andb_false_r. apply E. Qed.
Lemma map2_map_map {A B C D} (h : B -> C -> D) (f : A -> B) (g : A -> C) l : map2 h (map f l) (map g l) = map (fun x => h (f x) (g x)) l.
Proof. induction l as [|a l IH]; [reflexivity|]. cbn. now rewrite IH. Qed.
Lemma computes_dot dbg d f g F G : computes dbg f F -> computes dbg g G -> fcod f = fcod g -> computes dbg (FDot d f g) (fun t => [inner (F t) (G t)]).
Proof.
  intros (Ef & _) (Eg & _) C. split; [|reflexivity]. intros pts. cbn [eval fcod]. rewrite Ef. cbn [bind]. rewrite Eg. cbn [bind]. rewrite C, Nat.eqb_refl.
  rewrite map2_map_map. cbn. rewrite map_map. f_equal. apply map_ext. intros t. now rewrite row_dot_inner.
Qed.
Lemma same_domain_refl' (d : R * R) : same_domain d d = true.
Proof. apply same_domain_close. split; rewrite Rminus_eq_0, Rabs_R0; lra. Qed.
(** one term *)
Lemma scal_dot dbg d w f g F G : computes dbg f F -> computes dbg g G -> fcod f = fcod g ->
  exists e, scal true w (to_expression (FDot d f g)) = Ok e /\ ecod e = 1%nat /\ computes dbg (fe e) (fun t => [w * inner (F t) (G t)]).
Proof.
  intros Cf Cg C. destruct (computes_dot dbg d f g F G Cf Cg C) as (Ed & _). unfold scal, mul, compatibility_mul. cbn [to_expression edom ecod fdom fcod const_function repeat length].
  rewrite same_domain_refl'. cbn [negb Nat.ltb Nat.leb andb bind first_or_max second_or_min ecod]. eexists. split; [reflexivity|]. cbn [ecod]. split; [reflexivity|].
  split; [|reflexivity]. intros pts. match goal with |- _ = ?r => change (eval dbg (FExpr MULTIPLICATION d 1 [FConst d [(n1 * w)%num]; FDot d f g]) pts 1 = r) end.
  rewrite eval_mul_eq. change (eval dbg (FConst d [(n1 * w)%num]) pts 1) with (Ok (map (fun _ : R => [n1 * (n1 * w)]%num) pts)). cbn [bind mul_loop].
  change 1%nat with (fcod (FDot d f g)). rewrite Ed. cbn [bind]. f_equal. unfold rows_colwise_mul. rewrite map2_map_map. apply map_ext. intros t. cbn. rnum. f_equal. ring.
Qed.
(** sums of scalar functions *)
Definition comp1 (dbg : bool) (f : fn R) (F : R -> R) : Prop := fcod f = 1%nat /\ computes dbg f (fun t => [F t]).
Fixpoint total (Fs : list (R -> R)) (t : R) : R := match Fs with [] => 0 | F :: r => F t + total r t end.
Lemma total_app a b t : total (a ++ b) t = total a t + total b t.
Proof. induction a as [|F a IH]; cbn; [ring|rewrite IH; ring]. Qed.
Lemma sum_loop1 dbg pts l Fs : Forall2 (comp1 dbg) l Fs -> forall acc : R -> R,
  sum_loop dbg 1 1 pts l (map (fun t => [acc t]) pts) = Ok (map (fun t => [acc t + total Fs t]) pts).
Proof.
  induction 1 as [|f F l Fs (C & (E & _)) _ IH]; intros acc; cbn [sum_loop total].
  - f_equal. apply map_ext. intros. f_equal. ring.
  - rewrite C in E. rewrite E. cbn [bind Nat.eqb]. unfold rows_add. rewrite map2_map_map. cbn [map2]. rnum. rewrite (IH (fun t => acc t + F t)). f_equal. apply map_ext. intros. f_equal. ring.
Qed.
Lemma sum_computes dbg d l Fs : Forall2 (comp1 dbg) l Fs -> l <> [] -> computes dbg (FExpr SUM d 1 l) (fun t => [total Fs t]).
Proof.
  intros H Ne. split; [|reflexivity]. intros pts. cbn [fcod]. destruct H as [|f F l Fs (C & Cf) H]; [contradiction|].
  rewrite eval_sum_eq, C, rows_zero_map. cbn [repeat]. rewrite (sum_loop1 dbg pts (f :: l) (F :: Fs)) by (constructor; auto; split; auto).
  f_equal. apply map_ext. intros t. f_equal. ring.
Qed.
Definition acc_ok (dbg : bool) (d : R * R) (e : expr R) (Fs : list (R -> R)) : Prop :=
  (ety e = UNIQUE /\ length (eargs e) = 1%nat \/ ety e = SUM) /\ edom e = d /\ ecod e = 1%nat /\ eargs e <> [] /\ Forall2 (comp1 dbg) (eargs e) Fs.
Lemma acc_computes dbg d e Fs : acc_ok dbg d e Fs -> computes dbg (fe e) (fun t => [total Fs t]).
Proof.
  intros (Ty & _ & C & Ne & H). unfold fe. rewrite C. destruct Ty as [(-> & L) | ->]; [|apply sum_computes; auto].
  destruct H as [|f F l Fs (Cf & Hf) H]; [contradiction|]. destruct H; [|discriminate]. rewrite <- Cf. pose proof (computes_unique dbg f _ (edom e) Hf) as (E & L').
  split; [|intros; cbn; auto]. intros pts. rewrite E. f_equal. apply map_ext. intros t. cbn [total]. f_equal. ring.
Qed.
Lemma acc_add dbg d e Fs f F : acc_ok dbg d e Fs -> ecod f = 1%nat -> computes dbg (fe f) (fun t => [F t]) -> acc_ok dbg d (iadd e f) (Fs ++ [F]).
Proof.
  intros (Ty & Ed & C & Ne & H) Cf Hf. unfold iadd.
  assert (K : acc_ok dbg d (mkexpr SUM (edom e) (ecod e) (eargs e ++ [fe f])) (Fs ++ [F])).
  { split; [right; reflexivity|]. split; auto. split; auto. split; [cbn; destruct (eargs e); discriminate|]. cbn. apply Forall2_app; auto. constructor; [|constructor]. split; auto. }
  destruct Ty as [(-> & _) | ->]; exact K.
Qed.

(** the k-th derivative of [f] is the function [D] *)
Definition derives (dbg : bool) (f : fn R) (k : nat) (D : R -> list R) : Prop :=
  exists f', deriv dbg f k = Ok f' /\ fcod f' = fcod f /\ computes dbg f' D.
Lemma derivate_ok dbg f k D : derives dbg f k D -> exists e, derivate dbg f k = Ok e /\ ecod e = fcod f /\ computes dbg (fe e) D.
Proof.
  intros (f' & E & C & H). unfold derivate. rewrite E. cbn [bind]. eexists. split; [reflexivity|]. split; [reflexivity|]. cbn [fe ety edom ecod eargs]. rewrite <- C. apply computes_unique; auto.
Qed.
Definition term_fun (L M : nat -> R -> list R) (term : nat * R) (t : R) : R := snd term * inner (L (fst term) t) (M (fst term) t).
Lemma semi_term_ok dbg lhs rhs L M d sum Fs term : fcod lhs = fcod rhs -> derives dbg lhs (fst term) (L (fst term)) -> derives dbg rhs (fst term) (M (fst term)) -> acc_ok dbg d sum Fs ->
  exists sum', semi_term dbg lhs rhs sum term = Ok sum' /\ acc_ok dbg d sum' (Fs ++ [term_fun L M term]).
Proof.
  intros C Dl Dr A. unfold semi_term. destruct (derivate_ok _ _ _ _ Dl) as (l & El & Cl & Hl). destruct (derivate_ok _ _ _ _ Dr) as (r & Er & Cr & Hr).
  rewrite El. cbn [bind]. rewrite Er. cbn [bind]. rewrite Cl, Cr, C, Nat.eqb_refl. cbn [negb]. rewrite andb_false_r. cbn [dot].
  destruct (scal_dot dbg (fdom (fe r)) (snd term) (fe (to_expression (fe r))) (fe (to_expression (fe l))) (M (fst term)) (L (fst term))) as (e & Ee & Ce & He).
  - apply (computes_unique dbg (fe r)). auto.
  - apply (computes_unique dbg (fe l)). auto.
  - cbn. congruence.
  - rewrite Ee. cbn [bind]. eexists. split; [reflexivity|]. apply acc_add; auto.
    destruct He as (E & Ln). split; [|exact Ln]. intros pts. rewrite E. f_equal. apply map_ext. intros t. unfold term_fun. now rewrite inner_comm.
Qed.
Lemma semi_terms_ok dbg lhs rhs L M d terms : fcod lhs = fcod rhs -> (forall k w, In (k, w) terms -> derives dbg lhs k (L k) /\ derives dbg rhs k (M k)) -> forall sum Fs, acc_ok dbg d sum Fs ->
  exists sum', semi_terms dbg lhs rhs sum terms = Ok sum' /\ acc_ok dbg d sum' (Fs ++ map (term_fun L M) terms).
Proof.
  intros C. induction terms as [|[k w] terms IH]; intros D sum Fs A; cbn [semi_terms map].
  - exists sum. now rewrite app_nil_r.
  - destruct (D k w (or_introl eq_refl)) as (Dl & Dr). destruct (semi_term_ok dbg lhs rhs L M d sum Fs (k, w) C Dl Dr A) as (s & E & A').
    rewrite E. cbn [bind]. destruct (IH (fun k w I => D k w (or_intror I)) s _ A') as (s' & E' & A2). exists s'. split; auto. now rewrite <- app_assoc in A2.
Qed.
Theorem semi_ok dbg lhs rhs L M terms nglp n p x w wf : fcod lhs = fcod rhs -> (forall k w, In (k, w) terms -> derives dbg lhs k (L k) /\ derives dbg rhs k (M k)) ->
  gl_points_weights nglp = Ok (p, w) -> vec_is p nglp x -> vec_is w nglp wf ->
  sobolev_semi_inner_product dbg lhs rhs terms nglp n =
    Ok (quad nglp n x wf (fst (fdom lhs)) (snd (fdom lhs)) (fun t => total (map (term_fun L M) terms) t)).
Proof.
  intros C D E Vp Vw. unfold sobolev_semi_inner_product.
  destruct (semi_terms_ok dbg lhs rhs L M (fdom lhs) terms C D (zero_expression (fdom lhs) 1) [fun _ => 0]) as (s & Es & A).
  - split; [left; split; reflexivity|]. split; [reflexivity|]. split; [reflexivity|]. split; [discriminate|]. constructor; [|constructor]. split; [reflexivity|]. split; [|reflexivity].
    intros pts. cbn. unfold eval_const. cbn. f_equal. apply map_ext. intros t. rnum. f_equal. ring.
  - rewrite Es. cbn [bind]. pose proof (acc_computes _ _ _ _ A) as Cs. pose proof A as (_ & Ed & Ec & _).
    rewrite (integral_ok dbg _ _ nglp n p x w wf (Ec : fo_codom (fo_of_fn dbg (fe s)) = 1%nat) (computes_pointwise _ _ _ Cs) E Vp Vw).
    cbn [fo_of_fn fo_dom fdom fe]. rewrite Ed. f_equal. unfold quad. apply Rsum_ext. intros iv _. f_equal. apply Rsum_ext. intros i _. f_equal. cbn. ring.
Qed.
