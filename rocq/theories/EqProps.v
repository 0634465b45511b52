(** C58: equality of bases and of splines. *)
From Coquelicot Require Import Coquelicot.
From Coq Require Import List Arith Lia Bool ZArith Reals Lra Psatz.
From Verif Require Import Num Outcome LinAlg RSum RDeriv LegendreSpec LegendreModel LagrangeSpec LagrangeModel LagrangeMath LagrangeProofs
  Basis0101Model BasisModel SplineSpec BasisFn BasisProofs ToolsSpec ToolsModel ToolsProofs ToolsProps GSplineModel GSplineProofs GSplineProofs2 GSplineProofs4 GSplineProofs6 GSplineProps GLProofs2 EqSpec InterpMath2.
Import ListNotations.
Local Open Scope R_scope.

Lemma vec_eq_R (a b : vec R) n n' f g tol : vec_is a n f -> vec_is b n' g -> 0 < tol ->
  exists v, approx_eq_vec a b tol = Ok v /\ (v = true <-> n = n' /\ vclose n f g tol).
Proof.
  intros Va Vb Ht. destruct (approx_eq_mat_R _ _ _ _ _ _ _ _ tol (vmat_is _ _ _ Va) (vmat_is _ _ _ Vb) Ht) as (v & E & H). exists v. split; [exact E|].
  rewrite H. unfold vclose. split.
  - intros (A & _ & [B|B]); split; auto; left; lia.
  - intros (A & [B|B]); split; auto; split; auto; left; lia.
Qed.
Lemma params_R b d : is_basis b d -> exists k f, vec_is (b_params b) k f.
Proof.
  intros Bb. destruct b as [dim gr|p w gr|a], d as [ddim|m x|aa]; simpl in Bb; try contradiction; cbn [b_params].
  - exists 0%nat, (fun _ => 0). split; [reflexivity|]. intros i Hi. lia.
  - exists m, x. apply Bb.
  - exists 1%nat, (fun _ => a). split; [reflexivity|]. intros [|i] Hi; [reflexivity|lia].
Qed.

(** ** Bases *)
(** Basis::operator== is defined on every two bases, and this is what it says *)
Theorem C58_basis b b' d d' : is_basis b d -> is_basis b' d' -> exists v, basis_eqb b b' = Ok v /\ (v = true <-> same_basis d d').
Proof.
  intros B B'. unfold basis_eqb. pose proof (ten_m_pos 6) as T6. pose proof (ten_m_R 6) as E6.
  destruct b as [dim gr|p w gr|a], d as [dd|m x|aa]; simpl in B; try contradiction;
  destruct b' as [dim' gr'|p' w' gr'|a'], d' as [dd'|m' x'|aa']; simpl in B'; try contradiction; cbn [b_name bname_eqb negb b_dim b_params same_basis];
    try (exists false; split; [reflexivity|split; [discriminate|contradiction]]).
  - destruct B as (-> & _), B' as (-> & _). destruct (Nat.eqb_spec dd dd') as [->|N]; cbn [negb].
    + exists true. split; [|tauto]. cbn [vlen vnew Nat.eqb negb].
      apply (approx_eq_vec_same _ _ 0 (fun _ => 0)); [split; [reflexivity|intros; lia]|split; [reflexivity|intros; lia]|exact T6].
    + exists false. split; [reflexivity|]. split; [discriminate|contradiction].
  - destruct B as (Vp & _), B' as (Vp' & _). replace (vlen p) with m by (symmetry; apply Vp). replace (vlen p') with m' by (symmetry; apply Vp').
    destruct (vec_eq_R p p' m m' x x' (ten_m 6) Vp Vp' T6) as (v & Ev & Hv). rewrite E6 in Hv. destruct (Nat.eqb_spec m m') as [->|N]; cbn [negb].
    + exists v. split; [exact Ev|exact Hv].
    + exists false. split; [reflexivity|]. split; [discriminate|intros (X & _); contradiction].
  - destruct B as (-> & _), B' as (-> & _). cbn [Nat.eqb vlen vec_of_list length negb].
    destruct (vec_eq_R (vec_of_list [aa]) (vec_of_list [aa']) 1 1 (fun _ => aa) (fun _ => aa') (ten_m 6)) as (v & Ev & Hv); auto;
      try (split; [reflexivity|]; intros [|i] Hi; [reflexivity|lia]). rewrite E6 in Hv. exists v. split; [exact Ev|]. tauto.
Qed.
Lemma vclose_sym n f g tol : vclose n f g tol -> vclose n g f tol.
Proof.
  intros [Z|(err & la & ra & A & B & C & D)]; [left; exact Z|right]. exists err, ra, la. split; [|split; [exact C|split; [exact B|apply close_sym; exact D]]].
  destruct A as (A1 & i & j & Hi & Hj & E). split.
  - intros i' j' Hi' Hj'. rewrite Rabs_minus_sym. apply (A1 i' j'); auto.
  - exists i, j. split; auto. split; auto. rewrite Rabs_minus_sym. exact E.
Qed.
Lemma same_basis_sym d d' : same_basis d d' -> same_basis d' d.
Proof. destruct d, d'; cbn; try tauto; try congruence; [|apply vclose_sym]. intros (-> & H). split; [reflexivity|apply vclose_sym; exact H]. Qed.

(** ** Splines *)
(** operator==: coefficients and lengths close, same basis; in particular never an exception or undefined behaviour *)
Theorem C58_spline g h d d' n n' codom codom' t0 t1 t0' t1' tf tf' cf ch : rep g d n codom t0 t1 tf cf -> rep h d' n' codom' t0' t1' tf' ch ->
  exists v, gs_eqb g h = Ok v /\ (v = true <->
    (n * d_dim d * codom)%nat = (n' * d_dim d' * codom')%nat /\ vclose (n * d_dim d * codom) cf ch (/ 10 ^ 7) /\ n = n' /\ vclose n tf tf' (/ 10 ^ 7) /\ same_basis d d').
Proof.
  intros (B & _ & _ & Vt & Vc & _) (B' & _ & _ & Vt' & Vc' & _). unfold gs_eqb, gs_approx_eq, oand. pose proof (ten_m_pos 7) as T7.
  destruct (vec_eq_R _ _ _ _ _ _ (ten_m 7) Vc Vc' T7) as (v1 & -> & H1). destruct (vec_eq_R _ _ _ _ _ _ (ten_m 7) Vt Vt' T7) as (v2 & -> & H2).
  destruct (C58_basis _ _ _ _ B B') as (v3 & -> & H3). rewrite ten_m_R in H1, H2. cbn [bind].
  destruct v1; cbn [bind]; [destruct v2; cbn [bind]|].
  - exists v3. split; [reflexivity|]. rewrite H3. split; [|tauto]. intros S. destruct H1 as (H1 & _), H2 as (H2 & _). destruct (H1 eq_refl), (H2 eq_refl). tauto.
  - exists false. split; [reflexivity|]. split; [discriminate|]. intros (_ & _ & X & Y & _). apply H2. auto.
  - exists false. split; [reflexivity|]. split; [discriminate|]. intros (X & Y & _). apply H1. auto.
Qed.
(** it is symmetric; a spline equals itself and its copies *)
Theorem C58_symmetric g h d d' n n' codom codom' t0 t1 t0' t1' tf tf' cf ch : rep g d n codom t0 t1 tf cf -> rep h d' n' codom' t0' t1' tf' ch ->
  gs_eqb g h = gs_eqb h g /\ basis_eqb (gs_basis g) (gs_basis h) = basis_eqb (gs_basis h) (gs_basis g).
Proof.
  intros Rg Rh. split.
  - destruct (C58_spline _ _ _ _ _ _ _ _ _ _ _ _ _ _ _ _ Rg Rh) as (v & -> & H). destruct (C58_spline _ _ _ _ _ _ _ _ _ _ _ _ _ _ _ _ Rh Rg) as (v' & -> & H').
    f_equal. apply eq_iff_eq_true. rewrite H, H'. split; intros (A & B & C & D & S).
    + rewrite <- A, <- C. split; [reflexivity|]. split; [apply vclose_sym; exact B|]. split; [reflexivity|]. split; [apply vclose_sym; exact D|apply same_basis_sym; exact S].
    + rewrite <- A, <- C. split; [reflexivity|]. split; [apply vclose_sym; exact B|]. split; [reflexivity|]. split; [apply vclose_sym; exact D|apply same_basis_sym; exact S].
  - destruct Rg as (B & _), Rh as (B' & _). destruct (C58_basis _ _ _ _ B B') as (v & -> & H). destruct (C58_basis _ _ _ _ B' B) as (v' & -> & H').
    f_equal. apply eq_iff_eq_true. rewrite H, H'. split; apply same_basis_sym.
Qed.
Theorem C58_reflexive g d n codom t0 t1 tf cf : rep g d n codom t0 t1 tf cf -> gs_eqb g g = Ok true /\ exists r, gs_copy g = Ok r /\ gs_eqb g r = Ok true /\ same_vector_space g r = Ok true.
Proof.
  intros Rg. assert (K : forall h, rep h d n codom t0 t1 tf cf -> gs_eqb g h = Ok true).
  { intros h Rh. pose proof Rg as (_ & _ & _ & Vt & Vc & _). pose proof Rh as (_ & _ & _ & Vt' & Vc' & _). unfold gs_eqb, gs_approx_eq.
    rewrite (approx_eq_vec_same _ _ _ cf _ Vc Vc') by apply ten_m_pos. cbn [oand bind]. rewrite (approx_eq_vec_same _ _ _ tf _ Vt Vt') by apply ten_m_pos. cbn [oand bind].
    pose proof (space_same g h d n codom t0 t1 t0 t1 tf cf cf Rg Rh) as Sp. unfold same_vector_space in Sp. destruct (basis_eqb (gs_basis g) (gs_basis h)) as [[|]| |]; try discriminate. reflexivity. }
  split; [apply K; exact Rg|]. destruct (rep_copy _ _ _ _ _ _ _ _ Rg) as (r & E & Rr & _). exists r. split; [exact E|]. split; [apply K; exact Rr|]. eapply space_same; eauto.
Qed.
(** equal splines have the same number of components (if they have an interval at all) *)
Theorem C58_codom g h d d' n n' codom codom' t0 t1 t0' t1' tf tf' cf ch : rep g d n codom t0 t1 tf cf -> rep h d' n' codom' t0' t1' tf' ch -> (1 <= n)%nat ->
  gs_eqb g h = Ok true -> n = n' /\ d_dim d = d_dim d' /\ codom = codom'.
Proof.
  intros Rg Rh Hn E. destruct (C58_spline _ _ _ _ _ _ _ _ _ _ _ _ _ _ _ _ Rg Rh) as (v & E' & H). rewrite E in E'. injection E' as <-. destruct (proj1 H eq_refl) as (A & _ & <- & _ & S). split; [reflexivity|].
  assert (Ed : d_dim d = d_dim d') by (destruct d, d'; cbn in *; tauto || (destruct S; assumption)). split; [exact Ed|]. rewrite <- Ed in A.
  assert (1 <= d_dim d)%nat. { destruct Rg as (B & _). destruct (gs_basis g), d; cbn in B |- *; try contradiction; try lia. }
  rewrite <- !Nat.mul_assoc in A. apply Nat.mul_cancel_l in A; [|lia]. apply Nat.mul_cancel_l in A; [exact A|lia].
Qed.
(** what equality says about the values, when domain start, lengths and basis agree: the difference is bounded by 1e-7 times
    the largest coefficient (or 1e-7 if that is smaller than 1) times the size of the basis *)
Theorem C58_values g h d n codom t0 t1 t1' tf cf ch M t cc : rep g d n codom t0 t1 tf cf -> rep h d n codom t0 t1' tf ch -> gs_eqb g h = Ok true ->
  (1 <= n)%nat -> (forall k, (k < n)%nat -> 0 < tf k) -> (cc < codom)%nat -> (forall k, (k < n * d_dim d * codom)%nat -> Rabs (cf k) <= M) -> 1 <= M ->
  Rabs (sfun d codom n t0 tf cf cc t - sfun d codom n t0 tf ch cc t) <=
    M / 10 ^ 7 * Rsum (d_dim d) (fun bb => Rabs (tphi d (bp t0 tf (locate t0 tf n t)) (tf (locate t0 tf n t)) bb t)).
Proof.
  intros Rg Rh E Hn P Hc HM H1. destruct (C58_spline _ _ _ _ _ _ _ _ _ _ _ _ _ _ _ _ Rg Rh) as (v & E' & H). rewrite E in E'. injection E' as <-. destruct (proj1 H eq_refl) as (_ & V & _).
  assert (K : forall k, (k < n * d_dim d * codom)%nat -> Rabs (cf k - ch k) <= M / 10 ^ 7).
  { intros k Hk. destruct V as [Z|(err & la & ra & (A & _) & (_ & i & j & Hi & _ & El) & _ & C)]; [lia|]. specialize (A k 0%nat Hk ltac:(lia)). cbv beta in A. apply Rle_trans with (1 := A).
    specialize (HM i Hi). cbv beta in El. rewrite <- El in HM. assert (T : 0 < / 10 ^ 7) by (apply Rinv_0_lt_compat, pow_lt; lra). unfold Rdiv. destruct C as [(_ & C)|(_ & _ & C & _)]; nra. }
  set (iv := locate t0 tf n t). assert (Hiv : (iv < n)%nat) by (apply (locate_in t0 tf n t Hn P)).
  unfold sfun. fold iv. unfold piece. rewrite <- Rsum_minus. rewrite <- Rsum_scal. eapply Rle_trans; [apply InterpMath2.Rsum_abs|]. apply Rsum_le. intros bb Hb. rewrite <- Rmult_minus_distr_r, Rabs_mult.
  apply Rmult_le_compat_r; [apply Rabs_pos|]. apply K. assert (iv * codom + cc < n * codom)%nat by nia. nia.
Qed.
(** REFUTED: the domain is not compared.  The same coefficients started at another time are "equal", and the values differ *)
Theorem C58_domain_refuted s : s <> 0 -> exists g h m m' a b, rep g (DLeg 2) 1 1 0 2 (fun _ => 2) (fun i => nth i [0; 1] 0) /\ rep h (DLeg 2) 1 1 s (s + 2) (fun _ => 2) (fun i => nth i [0; 1] 0) /\
  gs_eqb g h = Ok true /\ gs_value g (vconst 1 1) = Ok m /\ gs_value h (vconst 1 1) = Ok m' /\ mget m 0 0 = Some a /\ mget m' 0 0 = Some b /\ a - b = s.
Proof.
  intros Hs. destruct (leg_spline 2 (0, 2) 1 [2] [0; 1] ltac:(lia) eq_refl) as (b1 & s1 & g & _ & _ & Rg & _). destruct (leg_spline 2 (s, s + 2) 1 [2] [0; 1] ltac:(lia) eq_refl) as (b2 & s2 & h & _ & _ & Rh & _).
  cbn [fst snd length] in Rg, Rh.
  assert (X : forall t0 t1 k, rep k (DLeg 2) 1 1 t0 t1 (fun i => nth i [2] 0) (fun i => nth i [0; 1] 0) -> rep k (DLeg 2) 1 1 t0 t1 (fun _ => 2) (fun i => nth i [0; 1] 0)).
  { intros t0 t1 k (A1 & A2 & A3 & A4 & A5 & A6). split; [exact A1|]. split; [exact A2|]. split; [exact A3|]. split; [|split; [exact A5|exact A6]]. eapply vec_is_ext; [exact A4|]. intros [|i] Hi; [reflexivity|lia]. }
  apply X in Rg. apply X in Rh. exists g, h.
  destruct (C26_value g _ _ _ _ _ _ _ (vconst 1 1) (fun _ => 1) 1 Rg ltac:(lia) ltac:(intros; lra) (vconst_is _ _) ltac:(intros; exact I)) as (m & Em & _ & _ & Mm).
  destruct (C26_value h _ _ _ _ _ _ _ (vconst 1 1) (fun _ => 1) 1 Rh ltac:(lia) ltac:(intros; lra) (vconst_is _ _) ltac:(intros; exact I)) as (m' & Em' & _ & _ & Mm').
  exists m, m'. eexists. eexists. split; [exact Rg|]. split; [exact Rh|]. split.
  { destruct (C58_spline _ _ _ _ _ _ _ _ _ _ _ _ _ _ _ _ Rg Rh) as (v & -> & Hv). f_equal. apply Hv. pose proof (C58_reflexive _ _ _ _ _ _ _ _ Rg) as (Q & _).
    destruct (C58_spline _ _ _ _ _ _ _ _ _ _ _ _ _ _ _ _ Rg Rg) as (v' & Ev' & Hv'). rewrite Q in Ev'. injection Ev' as <-. apply Hv'. reflexivity. }
  split; [exact Em|]. split; [exact Em'|]. split; [apply (Mm 0%nat 0%nat); lia|]. split; [apply (Mm' 0%nat 0%nat); lia|].
  unfold sfun, piece, tphi, window, bp, locate. cbn. field.
Qed.
(** REFUTED: the comparison is relative to the largest coefficient.  However large [e], two splines on the same domain that are "equal" can differ by [e] *)
Theorem C58_relative_refuted e : 0 < e -> exists g h m m' a b, let L := 10 ^ 8 * (e + 1) in
  rep g (DLeg 2) 1 2 0 2 (fun _ => 2) (fun i => nth i [L; 0; 0; 0] 0) /\ rep h (DLeg 2) 1 2 0 2 (fun _ => 2) (fun i => nth i [L; 0; e; 0] 0) /\
  gs_eqb g h = Ok true /\ gs_value g (vconst 1 1) = Ok m /\ gs_value h (vconst 1 1) = Ok m' /\ mget m 0 1 = Some a /\ mget m' 0 1 = Some b /\ b - a = e.
Proof.
  intros He. set (L := 10 ^ 8 * (e + 1)). destruct (leg_spline 2 (0, 2) 2 [2] [L; 0; 0; 0] ltac:(lia) eq_refl) as (b1 & s1 & g & _ & _ & Rg & _). destruct (leg_spline 2 (0, 2) 2 [2] [L; 0; e; 0] ltac:(lia) eq_refl) as (b2 & s2 & h & _ & _ & Rh & _).
  cbn [fst snd length] in Rg, Rh.
  assert (X : forall k c, rep k (DLeg 2) 1 2 0 2 (fun i => nth i [2] 0) c -> rep k (DLeg 2) 1 2 0 2 (fun _ => 2) c).
  { intros k c (A1 & A2 & A3 & A4 & A5 & A6). split; [exact A1|]. split; [exact A2|]. split; [exact A3|]. split; [|split; [exact A5|exact A6]]. eapply vec_is_ext; [exact A4|]. intros [|i] Hi; [reflexivity|lia]. }
  apply X in Rg. apply X in Rh. exists g, h.
  destruct (C26_value g _ _ _ _ _ _ _ (vconst 1 1) (fun _ => 1) 1 Rg ltac:(lia) ltac:(intros; lra) (vconst_is _ _) ltac:(intros; exact I)) as (m & Em & _ & _ & Mm).
  destruct (C26_value h _ _ _ _ _ _ _ (vconst 1 1) (fun _ => 1) 1 Rh ltac:(lia) ltac:(intros; lra) (vconst_is _ _) ltac:(intros; exact I)) as (m' & Em' & _ & _ & Mm').
  exists m, m'. eexists. eexists. cbv zeta. split; [exact Rg|]. split; [exact Rh|]. split.
  { destruct (C58_spline _ _ _ _ _ _ _ _ _ _ _ _ _ _ _ _ Rg Rh) as (v & -> & Hv). f_equal. apply Hv. cbn [d_dim].
    assert (LL : e < L) by (unfold L; nra). assert (L0 : 0 < L) by (unfold L; nra).
    assert (MA : forall e', 0 <= e' <= L -> maxabs 4 1 (fun i _ => nth i [L; 0; e'; 0] 0) L).
    { intros e' Hl. split; [|exists 0%nat, 0%nat; split; [lia|]; split; [lia|]; cbn; symmetry; apply Rabs_pos_eq; lra].
      intros [|[|[|[|i]]]] j Hi _; cbn; try lia; rewrite Rabs_pos_eq by lra; lra. }
    assert (SM : L * / 10 ^ 7 = 10 * (e + 1)) by (unfold L; field).
    assert (SM2 : / 10 ^ 7 <= L) by (unfold L; assert (/ 10 ^ 7 <= 1) by (rewrite <- Rinv_1; apply Rinv_le_contravar; simpl; lra); nra).
    split; [reflexivity|]. split.
    - right. exists e, L, L. split; [|split; [apply (MA 0); lra|split; [apply (MA e); lra|right; rewrite SM; lra]]].
      split; [|exists 2%nat, 0%nat; split; [lia|]; split; [lia|]; cbn; rewrite Rabs_minus_sym, Rabs_pos_eq; lra].
      intros [|[|[|[|i]]]] j Hi _; cbn; try lia; unfold Rabs; destruct (Rcase_abs _); lra.
    - split; [reflexivity|]. split; [|reflexivity]. right. exists 0, 2, 2.
      assert (M2 : maxabs 1 1 (fun _ _ : nat => 2) 2) by (split; [intros; rewrite Rabs_pos_eq; lra|exists 0%nat, 0%nat; split; [lia|]; split; [lia|]; symmetry; apply Rabs_pos_eq; lra]).
      split; [|split; [exact M2|split; [exact M2|]]].
      + split; [intros; rewrite Rminus_eq_0, Rabs_R0; lra|exists 0%nat, 0%nat; split; [lia|]; split; [lia|]; rewrite Rminus_eq_0, Rabs_R0; reflexivity].
      + right. assert (0 < / 10 ^ 7 < 2) by (split; [apply Rinv_0_lt_compat, pow_lt; lra|]; apply Rle_lt_trans with 1; [rewrite <- Rinv_1; apply Rinv_le_contravar; simpl; lra|lra]). lra. }
  split; [exact Em|]. split; [exact Em'|]. split; [apply (Mm 0%nat 1%nat); lia|]. split; [apply (Mm' 0%nat 1%nat); lia|].
  unfold sfun, piece, tphi, window, bp, locate. cbn. field.
Qed.
(** same_vector_space, the guard of + and −: same basis, same number of components, same lengths *)
Theorem C58_space g h d d' n n' codom codom' t0 t1 t0' t1' tf tf' cf ch : rep g d n codom t0 t1 tf cf -> rep h d' n' codom' t0' t1' tf' ch ->
  exists v, same_vector_space g h = Ok v /\ (v = true <-> same_basis d d' /\ codom = codom' /\ n = n' /\ vclose n tf tf' (/ 10 ^ 8)).
Proof.
  intros (B & _ & Cg & Vt & _) (B' & _ & Ch & Vt' & _). unfold same_vector_space, oand. pose proof (ten_m_pos 8) as T8.
  destruct (C58_basis _ _ _ _ B B') as (v1 & -> & H1). destruct (vec_eq_R _ _ _ _ _ _ (ten_m 8) Vt Vt' T8) as (v2 & -> & H2). rewrite ten_m_R in H2. rewrite Cg, Ch. cbn [bind].
  destruct v1; cbn [bind]; [destruct (Nat.eqb_spec codom codom') as [->|N]; cbn [bind]|].
  - exists v2. split; [reflexivity|]. rewrite H2. tauto.
  - exists false. split; [reflexivity|]. split; [discriminate|tauto].
  - exists false. split; [reflexivity|]. split; [discriminate|]. intros (X & _). apply H1. exact X.
Qed.
Lemma vclose_two x y l : 0 <= x -> 0 <= y -> (vclose 2 (fun i => nth i [x; 0] 0) (fun i => nth i [y; 0] 0) l <-> close (Rabs (x - y)) x y l).
Proof.
  intros Hx Hy.
  assert (M : forall z, maxabs 2 1 (fun i _ => nth i [z; 0] 0) (Rabs z)).
  { intros z. split; [|exists 0%nat, 0%nat; split; [lia|]; split; [lia|]; reflexivity]. intros [|[|i]] j Hi _; cbn; try lia; [lra|]. rewrite Rabs_R0. apply Rabs_pos. }
  assert (D : maxabs 2 1 (fun i _ => nth i [x; 0] 0 - nth i [y; 0] 0) (Rabs (x - y))).
  { split; [|exists 0%nat, 0%nat; split; [lia|]; split; [lia|]; reflexivity]. intros [|[|i]] j Hi _; cbn; try lia; [lra|]. rewrite Rminus_0_r, Rabs_R0. apply Rabs_pos. }
  pose proof (M x) as Mx. pose proof (M y) as My. rewrite Rabs_pos_eq in Mx, My by assumption.
  assert (U : forall f a b, maxabs 2 1 f a -> maxabs 2 1 f b -> a = b).
  { intros f a b (A1 & i & j & Hi & Hj & Ea) (B1 & i' & j' & Hi' & Hj' & Eb). apply Rle_antisym; [rewrite Ea; apply B1; assumption|rewrite Eb; apply A1; assumption]. }
  split.
  - intros [Z|(err & la & ra & A & B & C & E)]; [discriminate|]. rewrite (U _ _ _ D A), <- (U _ _ _ B Mx), <- (U _ _ _ C My). exact E.
  - intros C. right. exists (Rabs (x - y)), x, y. auto.
Qed.
(** REFUTED: == is not transitive *)
Theorem C58_transitive_refuted : exists f g h, let l := / 10 ^ 7 in
  rep f (DLeg 2) 1 1 0 2 (fun i => nth i [2] 0) (fun i => nth i [0; 0] 0) /\ rep g (DLeg 2) 1 1 0 2 (fun i => nth i [2] 0) (fun i => nth i [9 / 10 * l; 0] 0) /\
  rep h (DLeg 2) 1 1 0 2 (fun i => nth i [2] 0) (fun i => nth i [3 / 2 * l; 0] 0) /\ gs_eqb f g = Ok true /\ gs_eqb g h = Ok true /\ gs_eqb f h = Ok false.
Proof.
  set (l := / 10 ^ 7). assert (L0 : 0 < l) by (apply Rinv_0_lt_compat, pow_lt; lra).
  destruct (leg_spline 2 (0, 2) 1 [2] [0; 0] ltac:(lia) eq_refl) as (b1 & s1 & f & _ & _ & Rf & _). destruct (leg_spline 2 (0, 2) 1 [2] [9 / 10 * l; 0] ltac:(lia) eq_refl) as (b2 & s2 & g & _ & _ & Rg & _).
  destruct (leg_spline 2 (0, 2) 1 [2] [3 / 2 * l; 0] ltac:(lia) eq_refl) as (b3 & s3 & h & _ & _ & Rh & _). exists f, g, h. cbv zeta. split; [exact Rf|]. split; [exact Rg|]. split; [exact Rh|].
  assert (K : forall u v x y, 0 <= x -> 0 <= y -> rep u (DLeg 2) 1 1 0 2 (fun i => nth i [2] 0) (fun i => nth i [x; 0] 0) -> rep v (DLeg 2) 1 1 0 2 (fun i => nth i [2] 0) (fun i => nth i [y; 0] 0) ->
    exists b, gs_eqb u v = Ok b /\ (b = true <-> close (Rabs (x - y)) x y l)).
  { intros u v x y Hx Hy Ru Rv. destruct (C58_spline _ _ _ _ _ _ _ _ _ _ _ _ _ _ _ _ Ru Rv) as (b & Eb & Hb). exists b. split; [exact Eb|]. rewrite Hb. cbn [d_dim]. change (1 * 2 * 1)%nat with 2%nat.
    rewrite (vclose_two x y (/ 10 ^ 7) Hx Hy). fold l. split; [tauto|]. intros C. split; [reflexivity|]. split; [exact C|]. split; [reflexivity|]. split; [|reflexivity].
    pose proof (C58_reflexive _ _ _ _ _ _ _ _ Ru) as (Q & _). destruct (C58_spline _ _ _ _ _ _ _ _ _ _ _ _ _ _ _ _ Ru Ru) as (v' & Ev' & Hv'). rewrite Q in Ev'. injection Ev' as <-. apply Hv'. reflexivity. }
  split; [|split].
  - destruct (K f g 0 (9 / 10 * l) ltac:(lra) ltac:(lra) Rf Rg) as (b & -> & H). f_equal. apply H. left. rewrite Rabs_minus_sym, Rabs_pos_eq; lra.
  - destruct (K g h (9 / 10 * l) (3 / 2 * l) ltac:(lra) ltac:(lra) Rg Rh) as (b & -> & H). f_equal. apply H. left. rewrite Rabs_minus_sym, Rabs_pos_eq; lra.
  - destruct (K f h 0 (3 / 2 * l) ltac:(lra) ltac:(lra) Rf Rh) as (b & -> & H). f_equal. destruct b; [|reflexivity]. exfalso. pose proof (proj1 H eq_refl) as C. rewrite Rabs_minus_sym, Rabs_pos_eq in C by lra. unfold close in C. lra.
Qed.
(** two splines over different bases are unequal, and compare without trouble *)
Example C58_ex : exists g h, rep g (DLeg 2) 1 1 0 2 (fun i => nth i [2] 0) (fun i => nth i [0; 1] 0) /\ rep h (DLeg 3) 1 1 0 2 (fun i => nth i [2] 0) (fun i => nth i [0; 1; 0] 0) /\ gs_eqb g h = Ok false.
Proof.
  destruct (leg_spline 2 (0, 2) 1 [2] [0; 1] ltac:(lia) eq_refl) as (b1 & s1 & g & _ & _ & Rg & _). destruct (leg_spline 3 (0, 2) 1 [2] [0; 1; 0] ltac:(lia) eq_refl) as (b2 & s2 & h & _ & _ & Rh & _).
  exists g, h. split; [exact Rg|]. split; [exact Rh|]. destruct (C58_spline _ _ _ _ _ _ _ _ _ _ _ _ _ _ _ _ Rg Rh) as (v & -> & Hv). f_equal. destruct v; [|reflexivity]. exfalso. destruct (proj1 Hv eq_refl) as (X & _). cbn in X. lia.
Qed.
