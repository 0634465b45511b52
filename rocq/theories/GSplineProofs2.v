(** Splines over the reals: value, derivative, scaling. *)
From Coquelicot Require Import Coquelicot.
From Coq Require Import List Arith Lia Bool ZArith Reals Lra.
From Verif Require Import Num Outcome LinAlg RSum RMat RDeriv LegendreSpec LegendreModel LegendreProofs LagrangeSpec LagrangeModel LagrangeProofs
  Basis0101Spec Basis0101Math Basis0101Model Basis0101Proofs BasisModel SplineSpec BasisFn BasisProofs BasisProofs2 BasisProofs3
  ToolsModel ToolsProofs GSplineModel GSplineProofs.
Import ListNotations.
Local Open Scope R_scope.

(** the object [g] stands for the spline over [d] with [n] intervals of lengths
    [tf], coefficients [cf], domain [t0, t1]; its caches come from some history of requests *)
Definition rep (g : gspline R) (d : bdesc) (n codom : nat) (t0 t1 : R) (tf cf : nat -> R) : Prop :=
  is_basis (gs_basis g) d /\ gs_dom g = (t0, t1) /\ gs_codom g = codom /\
  vec_is (gs_tau g) n tf /\ vec_is (gs_coef g) (n * d_dim d * codom) cf /\ vlen (gs_buf g) = d_dim d /\
  exists hist, serve_all (gs_basis g) hist (bs_init (gs_basis g)) = Ok (gs_bst g).

Lemma is_basis_bok b d : is_basis b d -> bok b.
Proof.
  destruct b as [dim g|p w g|a], d as [dim'|n x|a']; simpl; intros X; try contradiction; auto.
  - lia.
  - destruct X as (V & _ & _ & W). assert (L : vlen p = n) by apply V. rewrite L.
    destruct (bary_weights_gen p n x V) as (w' & E & V'). rewrite W in E. injection E as <-. eauto.
Qed.
Lemma rep_gwf g d n codom t0 t1 tf cf : rep g d n codom t0 t1 tf cf -> gwf g n codom tf cf.
Proof.
  intros (B & D & C & V & K & L & _). unfold gwf, gs_dim. rewrite (is_basis_dim _ _ B).
  split; [eapply is_basis_bok; eauto|]. auto.
Qed.
Lemma bval_R b d s tau i : is_basis b d -> exact_pt d s -> (i < d_dim d)%nat -> bval b s tau i = phi d tau i s.
Proof.
  intros B P Hi. pose proof (is_basis_dim _ _ B) as Bd.
  destruct (b_eval_R b d s tau (vnew (b_dim b)) B P) as (v & E & V); [simpl; auto|].
  rewrite <- Bd in V, Hi. rewrite (bval_is b s tau v _ E V i Hi). reflexivity.
Qed.

(** ** the interval *)
Lemma nsum_bp t0 tf k : t0 + nsum k tf = bp t0 tf k.
Proof. unfold bp. now rewrite nsum_R. Qed.
Lemma gbp_R t0 tf k : gbp t0 tf k = bp t0 tf k.
Proof. induction k; simpl; [unfold bp; simpl; ring|]. rewrite IHk. rnum. symmetry. apply bp_S. Qed.
Lemma gwin_R t0 tf iv t : gwin t0 tf iv t = window (bp t0 tf iv) (tf iv) t.
Proof. unfold gwin, window, c2. rnum. now rewrite <- nsum_bp. Qed.

Lemma bp_mono t0 tf n i j : (forall k, (k < n)%nat -> 0 < tf k) -> (i <= j)%nat -> (j <= n)%nat -> bp t0 tf i <= bp t0 tf j.
Proof.
  intros P. induction 1 as [|j Hj IH]; intros Hn; [lra|]. rewrite bp_S. assert (0 < tf j) by (apply P; lia).
  assert (bp t0 tf i <= bp t0 tf j) by (apply IH; lia). lra.
Qed.
Lemma bp_smono t0 tf n i j : (forall k, (k < n)%nat -> 0 < tf k) -> (i < j)%nat -> (j <= n)%nat -> bp t0 tf i < bp t0 tf j.
Proof.
  intros P Hi Hj. apply (Rlt_le_trans _ (bp t0 tf (S i))).
  - rewrite bp_S. assert (0 < tf i) by (apply P; lia). lra.
  - apply (bp_mono t0 tf n); auto; lia.
Qed.
Lemma in_iv_unique t0 tf n t i j : (forall k, (k < n)%nat -> 0 < tf k) -> in_iv t0 tf n t i -> in_iv t0 tf n t j -> i = j.
Proof.
  intros P. assert (X : forall i j, in_iv t0 tf n t i -> in_iv t0 tf n t j -> (i < j)%nat -> False).
  { clear i j. intros i j (Hi & Ai & Bi) (Hj & Aj & Bj) L. destruct Bi as [Bi|Bi]; [lia|]. destruct Aj as [Aj|Aj]; [lia|].
    assert (bp t0 tf (S i) <= bp t0 tf j) by (apply (bp_mono t0 tf n); auto; lia). lra. }
  intros Hi Hj. destruct (lt_eq_lt_dec i j) as [[L|L]|L]; auto; exfalso; eauto.
Qed.
Lemma before_spec b t m : (forall i j, (i <= j)%nat -> (j <= m)%nat -> b i <= b j) ->
  (before b t m <= m)%nat /\ (before b t m = 0%nat \/ b (before b t m) < t) /\ (before b t m = m \/ t <= b (S (before b t m))).
Proof.
  induction m as [|m IH]; intros Mo; simpl.
  - auto.
  - destruct IH as (L & A & B). { intros; apply Mo; lia. }
    destruct (Rlt_dec (b (S m)) t) as [Ht|Ht].
    + destruct B as [B|B].
      * rewrite B. replace (m + 1)%nat with (S m) by lia. auto.
      * assert (b (S (before b t m)) <= b (S m)) by (apply Mo; lia). lra.
    + rewrite Nat.add_0_r. split; [lia|]. split; [auto|]. destruct B as [B|B]; [|auto]. right. rewrite B. lra.
Qed.
Lemma locate_in t0 tf n t : (1 <= n)%nat -> (forall k, (k < n)%nat -> 0 < tf k) -> in_iv t0 tf n t (locate t0 tf n t).
Proof.
  intros Hn P. unfold locate, in_iv.
  destruct (before_spec (bp t0 tf) t (n - 1)) as (L & A & B). { intros. apply (bp_mono t0 tf n); auto; lia. }
  split; [lia|]. split; auto.
Qed.
Lemma gscan_R tf n t t0 : forall k i, (i + k = n)%nat -> bp t0 tf i < t ->
  match gscan tf t (bp t0 tf i) i k with
  | Some r => (i <= r < n)%nat /\ bp t0 tf r < t /\ t <= bp t0 tf (S r)
  | None => bp t0 tf n < t
  end.
Proof.
  induction k as [|k IH]; intros i Hk Hb; cbn [gscan].
  - replace n with i by lia. exact Hb.
  - rnum. rewrite <- bp_S. destruct (Rltb_spec (bp t0 tf i) t); [|lra]. cbn [andb].
    destruct (Rleb_spec t (bp t0 tf (S i))) as [Hl|Hl].
    + split; [lia|]. auto.
    + specialize (IH (S i)). destruct (gscan tf t (bp t0 tf (S i)) (S i) k).
      * destruct IH as (A & B & C); [lia|lra|]. split; [lia|auto].
      * apply IH; [lia|lra].
Qed.
Lemma gint_in t0 tf n t : (1 <= n)%nat -> (forall k, (k < n)%nat -> 0 < tf k) -> in_iv t0 tf n t (gint t0 tf n t).
Proof.
  intros Hn P. unfold gint. rnum. destruct (Rleb_spec t t0) as [Hl|Hl].
  - split; [lia|]. split; [auto|]. right. rewrite bp_S. assert (0 < tf 0%nat) by (apply P; lia). unfold bp. simpl. lra.
  - assert (Z : bp t0 tf 0 = t0) by (unfold bp; simpl; ring).
    pose proof (gscan_R tf n t t0 n 0%nat eq_refl) as G. rewrite Z in G. specialize (G ltac:(lra)).
    destruct (gscan tf t t0 0 n) as [r|].
    + destruct G as (A & B & C). split; [lia|]. auto.
    + split; [lia|]. split; [|auto]. right. apply (Rle_lt_trans _ (bp t0 tf n)); auto. apply (bp_mono t0 tf n); auto; lia.
Qed.
Lemma gint_locate t0 tf n t : (1 <= n)%nat -> (forall k, (k < n)%nat -> 0 < tf k) -> gint t0 tf n t = locate t0 tf n t.
Proof. intros Hn P. eapply in_iv_unique; [exact P|apply gint_in; auto|apply locate_in; auto]. Qed.

(** window coordinate of t in its interval *)

Lemma gpt_R b d t0 tf cf n codom t cc : is_basis b d -> (1 <= n)%nat -> (forall k, (k < n)%nat -> 0 < tf k) ->
  exact_pt d (wpos t0 tf n t) -> gpt b t0 tf cf n codom t cc = sfun d codom n t0 tf cf cc t.
Proof.
  intros B Hn P X. unfold gpt, sfun, piece. rewrite (is_basis_dim _ _ B), gint_locate, gwin_R by auto. rewrite nsum_R.
  apply Rsum_ext. intros k Hk. rnum. rewrite (bval_R _ d) by auto. unfold tphi.
  apply (f_equal (fun v => v * _)). f_equal. nia.
Qed.

Lemma value_R g d n codom t0 t1 tf cf pts pf np : rep g d n codom t0 t1 tf cf -> (1 <= n)%nat ->
  (forall k, (k < n)%nat -> 0 < tf k) -> vec_is pts np pf -> (forall i, (i < np)%nat -> exact_pt d (wpos t0 tf n (pf i))) ->
  exists m, gs_value g pts = Ok m /\ mat_is m np codom (fun i cc => sfun d codom n t0 tf cf cc (pf i)).
Proof.
  intros R Hn P V X. pose proof R as (B & D & _).
  destruct (value_gen g n codom tf cf pts pf np (rep_gwf _ _ _ _ _ _ _ _ R) Hn V) as (m & E & M). rewrite D in M. cbn [fst] in M.
  exists m. split; auto. eapply mat_is_ext; [exact M|]. intros i j Hi Hj. apply gpt_R; auto.
Qed.

(** window coordinates *)
Lemma window_range t0 tau t : 0 < tau -> t0 <= t <= t0 + tau -> -1 <= window t0 tau t <= 1.
Proof.
  intros Ht [A B]. unfold window.
  assert (X : 2 * (t - t0) / tau = 2 * ((t - t0) / tau)) by (field; lra). rewrite X.
  assert (0 <= (t - t0) / tau). { apply Rmult_le_pos; [lra|]. left. apply Rinv_0_lt_compat; auto. }
  assert ((t - t0) / tau <= 1). { apply (Rmult_le_reg_r tau); auto. unfold Rdiv. rewrite Rmult_assoc, Rinv_l; lra. }
  lra.
Qed.
Lemma wpos_range t0 tf n t : (1 <= n)%nat -> (forall k, (k < n)%nat -> 0 < tf k) -> t0 <= t <= bp t0 tf n ->
  -1 <= wpos t0 tf n t <= 1.
Proof.
  intros Hn P (A & B). destruct (locate_in t0 tf n t Hn P) as (L & X & Y). unfold wpos. set (iv := locate t0 tf n t) in *.
  apply window_range; [apply P; auto|]. split.
  - destruct X as [X|X]; [|lra]. rewrite X. unfold bp. simpl. lra.
  - rewrite <- bp_S. destruct Y as [Y|Y]; auto. rewrite Y. replace (S (n - 1)) with n by lia. auto.
Qed.

(** ** derivative *)
Lemma serve_all_app b l l' s s' : serve_all b l s = Ok s' -> serve_all b (l ++ l') s = serve_all b l' s'.
Proof.
  revert s. induction l as [|q l IH]; simpl; intros s E.
  - inversion E; subst. reflexivity.
  - apply bind_ok in E as (s1 & -> & E). cbn [bind]. auto.
Qed.

(** coefficients after k derivations: fac * (M c) on every block *)
Definition dcoef (d : bdesc) (M : nat -> nat -> R) (codom k : nat) (tf cf : nat -> R) (idx : nat) : R :=
  let blk := (idx / d_dim d)%nat in
  blk_fac d (tf (blk / codom)%nat) k * Rsum (d_dim d) (fun j => M (idx mod d_dim d) j * cf (blk * d_dim d + j)%nat).
Lemma dcoef_at d M codom k tf cf iv cc bb : (cc < codom)%nat -> (bb < d_dim d)%nat ->
  dcoef d M codom k tf cf ((iv * codom + cc) * d_dim d + bb) =
  blk_fac d (tf iv) k * Rsum (d_dim d) (fun j => M bb j * cf ((iv * codom + cc) * d_dim d + j)%nat).
Proof.
  intros Hc Hb. unfold dcoef.
  assert (E1 : (((iv * codom + cc) * d_dim d + bb) / d_dim d = iv * codom + cc)%nat).
  { rewrite Nat.div_add_l by lia. rewrite Nat.div_small by lia. lia. }
  assert (E2 : ((iv * codom + cc) / codom = iv)%nat).
  { rewrite Nat.div_add_l by lia. rewrite Nat.div_small by lia. lia. }
  assert (E3 : (((iv * codom + cc) * d_dim d + bb) mod d_dim d = bb)%nat).
  { rewrite Nat.add_comm, Nat.mod_add by lia. apply Nat.mod_small. auto. }
  now rewrite E1, E2, E3.
Qed.
Lemma scale_R b d ti k : is_basis b d -> (if is_0101 b then 1 else npown (2 / ti) k) = blk_fac d ti k.
Proof. destruct b, d; simpl; intros X; try contradiction; auto; apply npown_pow. Qed.

Lemma deriv_R g d n codom t0 t1 tf cf k : rep g d n codom t0 t1 tf cf ->
  exists g' M m, gs_derivate g k = Ok g' /\ b_impl (gs_basis g) k = Ok m /\ mat_is m (d_dim d) (d_dim d) M /\
    gs_basis g' = gs_basis g /\
    rep g' d n codom t0 t1 tf (dcoef d M codom k tf cf).
Proof.
  intros (B & D & C & V & K & L & hist & HI). pose proof (is_basis_dim _ _ B) as Bd. pose proof (is_basis_pos _ _ B) as Dp.
  destruct (impl_any_upto (gs_basis g) d k B) as (Dm & DM & HD).
  destruct (HD k (le_n k)) as (Ek & Mk). rewrite Bd in Mk.
  assert (BO : block_of (gs_basis g) k = Ok (Dm k)).
  { apply block_of_ok; auto. intros i Hi. exists (Dm i). apply HD; auto. }
  set (cf' := dcoef d (DM k) codom k tf cf).
  assert (X : exists coef bst h, (if Nat.ltb 0 k
      then for_ 0 (gs_n g) (fun iv st => for_ 0 (gs_codom g) (fun cc st => deriv_seg g k iv cc st) st) (gs_coef g, gs_bst g)
      else Ok (gs_coef g, gs_bst g)) = Ok (coef, bst) /\ vec_is coef (n * d_dim d * codom) cf' /\
      serve_all (gs_basis g) h (bs_init (gs_basis g)) = Ok bst).
  { assert (Gn : gs_n g = n) by apply V. rewrite Gn, C.
    assert (Pos : forall idx, (idx < n * d_dim d * codom)%nat -> exists iv cc bb, (iv < n)%nat /\ (cc < codom)%nat /\ (bb < d_dim d)%nat /\
       idx = ((iv * codom + cc) * d_dim d + bb)%nat).
    { intros idx Hx. assert (Hcd : (codom <> 0)%nat) by (intros ->; lia).
      exists (idx / d_dim d / codom)%nat, ((idx / d_dim d) mod codom)%nat, (idx mod d_dim d)%nat.
      assert (H1 := Nat.div_mod idx (d_dim d) ltac:(lia)).
      assert (H2 := Nat.div_mod (idx / d_dim d) codom Hcd).
      assert (H3 := Nat.mod_upper_bound idx (d_dim d) ltac:(lia)). assert (H4 := Nat.mod_upper_bound (idx / d_dim d) codom Hcd).
      split; [|split; [auto|split; [auto|nia]]]. apply Nat.div_lt_upper_bound; auto. apply Nat.div_lt_upper_bound; [lia|]. nia. }
    destruct k as [|k'].
    - cbn [Nat.ltb Nat.leb]. exists (gs_coef g), (gs_bst g), hist. split; [auto|]. split; [|auto].
      eapply vec_is_ext; [exact K|]. intros idx Hx. destruct (Pos idx Hx) as (iv & cc & bb & Hi & Hc & Hb & ->).
      unfold cf'. rewrite dcoef_at by auto. rewrite impl_0 in Ek. inversion Ek as [E0]. rewrite <- E0, Bd in Mk.
      rewrite (Rsum_ext _ _ (fun j => if Nat.eqb bb j then cf ((iv * codom + cc) * d_dim d + j)%nat else 0)).
      + rewrite (Rsum_delta _ bb) by (auto; intros i _ Hn; destruct (Nat.eqb_spec bb i); congruence).
        rewrite Nat.eqb_refl. destruct d; simpl; ring.
      + intros j Hj. destruct Mk as (_ & _ & G). assert (Gj := G bb j Hb Hj). simpl in Gj. injection Gj as Gj. cbv beta. rewrite <- Gj.
        rnum. destruct (Nat.eqb bb j); ring.
    - set (k := S k') in *. replace (Nat.ltb 0 k) with true by reflexivity.
      (* after the blocks before (iv, cc) *)
      set (st_ok := fun q (st : vec R * bstate R) =>
        (exists h, serve_all (gs_basis g) h (bs_init (gs_basis g)) = Ok (snd st)) /\
        vec_is (fst st) (n * d_dim d * codom) (fun idx => if Nat.ltb idx (q * d_dim d) then cf' idx else cf idx)).
      assert (Step : forall iv cc st, (iv < n)%nat -> (cc < codom)%nat -> st_ok (iv * codom + cc)%nat st ->
        exists st', deriv_seg g k iv cc st = Ok st' /\ st_ok (S (iv * codom + cc)) st').
      { intros iv cc (coef & bst) Hi Hc ((h & Hh) & Vc). cbn [fst snd] in *. unfold deriv_seg, gs_dim. rewrite Bd, C.
        assert (Es : (if is_0101 (gs_basis g) then Ok n1 else ti <- vread (gs_tau g) iv ;; Ok (npown (ndiv c2 ti) k)) = Ok (blk_fac d (tf iv) k)).
        { rewrite (vread_ok _ n tf) by auto. cbn [bind]. rewrite <- (scale_R (gs_basis g) d (tf iv) k B).
          destruct (is_0101 (gs_basis g)); reflexivity. }
        rewrite Es. cbn [bind].
        pose proof (get_block_spec (gs_basis g) k bst) as G. rewrite BO in G.
        destruct G as (bst' & EG & _). { eapply serve_all_binv; [apply binv_init|exact Hh]. }
        rewrite EG. cbn [bind].
        replace (iv * d_dim d * codom + d_dim d * cc)%nat with ((iv * codom + cc) * d_dim d)%nat by nia.
        assert (Bnd : ((iv * codom + cc) * d_dim d + d_dim d <= n * d_dim d * codom)%nat).
        { assert (S (iv * codom + cc) <= n * codom)%nat by nia. nia. }
        destruct (vsegment_is coef _ _ ((iv * codom + cc) * d_dim d) (d_dim d) Vc Bnd) as (seg & E1 & V1). rewrite E1. cbn [bind].
        destruct (mvmul_is (Dm k) seg _ _ _ _ Mk V1) as (p & E2 & V2). rewrite E2. cbn [bind].
        replace (vlen p) with (d_dim d) by (symmetry; apply V2). rewrite Nat.eqb_refl.
        pose proof (vscale_is _ _ _ (blk_fac d (tf iv) k) V2) as V3.
        unfold vset_segment. replace (vlen (vscale p (blk_fac d (tf iv) k))) with (d_dim d) by (symmetry; apply V3).
        replace (vlen coef) with (n * d_dim d * codom)%nat by (symmetry; apply Vc).
        destruct (Nat.leb_spec ((iv * codom + cc) * d_dim d + d_dim d) (n * d_dim d * codom)); [|lia]. cbn [bind].
        eexists. split; [reflexivity|]. split.
        - exists (h ++ [RBlock k]). cbn [snd]. rewrite (serve_all_app _ _ _ _ _ Hh). cbn [serve_all serve]. rewrite EG. reflexivity.
        - cbn [fst]. split; [reflexivity|]. intros idx Hx. cbn [vget].
          destruct (Nat.leb_spec ((iv * codom + cc) * d_dim d) idx) as [Hl|Hl]; cbn [andb].
          + destruct (Nat.ltb_spec idx ((iv * codom + cc) * d_dim d + d_dim d)) as [Hu|Hu].
            * destruct (Nat.ltb_spec idx (S (iv * codom + cc) * d_dim d)); [|lia].
              rewrite (proj2 V3) by lia. f_equal. set (bb := (idx - (iv * codom + cc) * d_dim d)%nat).
              replace idx with ((iv * codom + cc) * d_dim d + bb)%nat by (unfold bb; lia).
              unfold cf'. rewrite dcoef_at by (auto; unfold bb; lia). rewrite nsum_R. rnum. rewrite Rmult_comm. f_equal.
              apply Rsum_ext. intros j Hj. destruct (Nat.ltb_spec ((iv * codom + cc) * d_dim d + j) ((iv * codom + cc) * d_dim d)); [lia|reflexivity].
            * rewrite (proj2 Vc) by auto. f_equal.
              destruct (Nat.ltb_spec idx ((iv * codom + cc) * d_dim d)); [lia|].
              destruct (Nat.ltb_spec idx (S (iv * codom + cc) * d_dim d)); [lia|reflexivity].
          + rewrite (proj2 Vc) by auto. f_equal.
            destruct (Nat.ltb_spec idx ((iv * codom + cc) * d_dim d)); [|lia].
            destruct (Nat.ltb_spec idx (S (iv * codom + cc) * d_dim d)); [reflexivity|lia]. }
      match goal with |- context [for_ 0 n ?f ?v] =>
        destruct (for_ok (fun iv st => st_ok (iv * codom)%nat st) f 0%nat n v) as ((coef & bst) & E & (h & Hh) & Vc) end.
      + lia.
      + split; [exists hist; exact HI|]. cbn [fst]. eapply vec_is_ext; [exact K|]. reflexivity.
      + intros iv st Hi Hs.
        match goal with |- context [for_ 0 codom ?f ?v] =>
          destruct (for_ok (fun cc st => st_ok (iv * codom + cc)%nat st) f 0%nat codom v) as (st' & E & Hs') end.
        * lia.
        * rewrite Nat.add_0_r. exact Hs.
        * intros cc st' Hc Hs'. destruct (Step iv cc st') as (st2 & E2 & S2); [lia|lia|auto|]. exists st2. split; auto.
          replace (iv * codom + S cc)%nat with (S (iv * codom + cc)) by lia. auto.
        * exists st'. split; auto. replace (S iv * codom)%nat with (iv * codom + codom)%nat by lia. auto.
      + exists coef, bst, h. split; [exact E|]. split; [|exact Hh]. cbn [fst] in Vc. eapply vec_is_ext; [exact Vc|].
        intros idx Hx. cbv beta. destruct (Nat.ltb_spec idx (n * codom * d_dim d)); [reflexivity|nia]. }
  destruct X as (coef & bst & h & E & Vc & Hh).
  unfold gs_derivate, gs_deriv_impl. rewrite E. cbn [bind].
  unfold gs_ctor. replace (vlen coef) with (n * d_dim d * codom)%nat by (symmetry; apply Vc).
  assert (Gn : gs_n g = n) by apply V. rewrite Gn, C, Bd, Nat.eqb_refl. cbn [bind fst].
  unfold gs_copy, gs_n, gs_dim. cbn [gs_coef gs_tau gs_basis gs_codom gs_dom gs_bst].
  replace (vlen coef) with (n * d_dim d * codom)%nat by (symmetry; apply Vc).
  replace (vlen (gs_tau g)) with n by (symmetry; apply V). rewrite Bd, Nat.eqb_refl.
  eexists _, (DM k), (Dm k). split; [reflexivity|]. split; [exact Ek|]. split; [exact Mk|]. cbn [gs_basis]. split; [reflexivity|].
  unfold rep. cbn [gs_basis gs_dom gs_codom gs_tau gs_coef gs_buf gs_bst].
  split; [exact B|]. split; [exact D|]. split; [reflexivity|]. split; [exact V|]. split; [exact Vc|]. split; [reflexivity|].
  exists (h ++ [RCopy; RCopy]). rewrite (serve_all_app _ _ _ _ _ Hh). reflexivity.
Qed.
