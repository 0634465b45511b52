(** The derivative of a Legendre spline in any arithmetic: which operations produce which coefficient. *)
From Coq Require Import List Arith Lia Bool ZArith.
From Verif Require Import Num Outcome LinAlg LegendreModel BasisModel BasisProofs BasisProofs2 GSplineModel GSplineProofs.
Import ListNotations.
Local Open Scope num_scope.
Local Open Scope nat_scope.

Section Gen.
Context {T : Type} {HN : Num T}.

(** ** the derivative matrix *)
Definition gnext (i : nat) (p2 p1 : nat -> T) (j : nat) : T :=
  if Nat.eqb i (j + 1) then (nofnat i / leg_alpha (i - 1))%num
  else if Nat.ltb (j + 1) i then
    (n1 / leg_alpha (i - 1) * (n0 + (if Nat.leb 1 j then leg_alpha (j - 1) * p1 (j - 1)%nat else n0) + leg_gamma (j + 1) * p1 (j + 1)%nat - leg_gamma (i - 1) * p2 j))%num
  else n0.
Fixpoint grows (i : nat) : (nat -> T) * (nat -> T) :=
  match i with
  | O => (fun _ => n0, fun _ => n0)
  | S k => (snd (grows k), gnext (S k) (fst (grows k)) (snd (grows k)))
  end.
Definition gD (i j : nat) : T := snd (grows i) j.
Lemma gD_0 j : gD 0 j = n0. Proof. reflexivity. Qed.
Lemma gD_hi i j : i <= j -> gD i j = n0.
Proof.
  destruct i as [|i]; intros H; [reflexivity|]. unfold gD. cbn [grows snd]. unfold gnext.
  destruct (Nat.eqb_spec (S i) (j + 1)); [lia|]. destruct (Nat.ltb_spec (j + 1) (S i)); [lia|reflexivity].
Qed.
Lemma gD_diag j : gD (j + 1) j = (nofnat (j + 1) / leg_alpha j)%num.
Proof.
  replace (j + 1) with (S j) by lia. unfold gD. cbn [grows snd]. unfold gnext. replace (j + 1) with (S j) by lia. rewrite Nat.eqb_refl. replace (S j - 1) with j by lia. reflexivity.
Qed.
Lemma gD_rec p j : gD (j + p + 2) j =
  (n1 / leg_alpha (j + p + 1) * (n0 + (if Nat.leb 1 j then leg_alpha (j - 1) * gD (j + p + 1) (j - 1) else n0)
    + leg_gamma (j + 1) * gD (j + p + 1) (j + 1) - leg_gamma (j + p + 1) * gD (j + p) j))%num.
Proof.
  unfold gD. replace (j + p + 2) with (S (S (j + p))) by lia. replace (j + p + 1) with (S (j + p)) by lia.
  change (grows (S (S (j + p)))) with (snd (grows (S (j + p))), gnext (S (S (j + p))) (fst (grows (S (j + p)))) (snd (grows (S (j + p))))). cbn [snd].
  unfold gnext at 1. destruct (Nat.eqb_spec (S (S (j + p))) (j + 1)); [lia|]. destruct (Nat.ltb_spec (j + 1) (S (S (j + p)))); [|lia].
  replace (S (S (j + p)) - 1) with (S (j + p)) by lia. reflexivity.
Qed.

Lemma gmat_write (m : mat T) r c f g i j x : mat_is m r c f -> i < r -> j < c ->
  (forall a b, a < r -> b < c -> g a b = if (Nat.eqb a i && Nat.eqb b j)%bool then x else f a b) ->
  exists m', mwrite m i j x = Ok m' /\ mat_is m' r c g.
Proof.
  intros (R & C & G) Hi Hj E. rewrite mwrite_lt by lia. eexists. split; [reflexivity|].
  split; [exact R|]. split; [exact C|]. intros a b Ha Hb. simpl. rewrite E by auto.
  destruct (Nat.eqb a i && Nat.eqb b j)%bool; auto.
Qed.
Lemma leg_dmat_gen dim : exists m, leg_dmat dim = Ok m /\ mat_is m dim dim gD.
Proof.
  unfold leg_dmat. destruct dim as [|dm1].
  { eexists. split; [reflexivity|]. repeat split; auto. intros; lia. }
  destruct (for_ok (fun i (m : mat T) => mat_is m (S dm1) (S dm1) (fun a b => if Nat.ltb a i then gD a b else n0))
     (fun i m => for_ 0 (S dm1 - 1) (fun j m => leg_dmat_cell i j m) m) 1 (S dm1) (mzero (S dm1) (S dm1)))
    as (m & E & M).
  - lia.
  - eapply mat_is_ext; [apply mzero_is|]. intros a b _ _. cbv beta. destruct (Nat.ltb_spec a 1); auto.
    rewrite gD_hi by lia. reflexivity.
  - intros i m Hi M.
    destruct (for_ok (fun j (m : mat T) => mat_is m (S dm1) (S dm1)
        (fun a b => if Nat.ltb a i then gD a b else if (Nat.eqb a i && Nat.ltb b j)%bool then gD a b else n0))
      (fun j m => leg_dmat_cell i j m) 0 (S dm1 - 1) m) as (m' & E' & M').
    + lia.
    + eapply mat_is_ext; [exact M|]. intros a b _ _. simpl. destruct (Nat.ltb a i); auto.
      destruct (Nat.eqb a i); auto.
    + clear m M. intros j m Hj M. unfold leg_dmat_cell.
      assert (W : forall x, x = gD i j -> exists s', mwrite m i j x = Ok s' /\
         mat_is s' (S dm1) (S dm1) (fun a b => if Nat.ltb a i then gD a b else if (Nat.eqb a i && Nat.ltb b (S j))%bool then gD a b else n0)).
      { intros x Hx. eapply gmat_write; [exact M|lia|lia|]. intros a b Ha Hb. subst x.
        destruct (Nat.eqb_spec a i) as [->|Hne]; simpl.
        - destruct (Nat.ltb_spec i i); [lia|]. destruct (Nat.eqb_spec b j) as [->|Hnb].
          + destruct (Nat.ltb_spec j (S j)); [reflexivity|lia].
          + destruct (Nat.ltb_spec b (S j)); destruct (Nat.ltb_spec b j); try lia; reflexivity.
        - reflexivity. }
      destruct (Nat.eqb_spec i (j + 1)) as [Hij|Hij].
      * apply W. subst i. rewrite gD_diag. replace (j + 1 - 1) with j by lia. reflexivity.
      * destruct (Nat.ltb_spec (j + 1) i) as [Hlt|Hge].
        -- assert (Hp : exists p, i = j + p + 2) by (exists (i - j - 2); lia). destruct Hp as [p ->].
           replace (j + p + 2 - 1) with (j + p + 1) by lia.
           replace (j + p + 2 - 2) with (j + p) by lia.
           assert (RD : forall a b, a < j + p + 2 -> b <= dm1 -> mread m a b = Ok (gD a b)).
           { intros a b Ha Hb. rewrite (mread_ok _ _ _ _ a b M) by lia. cbv beta.
             destruct (Nat.ltb_spec a (j + p + 2)); [reflexivity|lia]. }
           rewrite (RD (j + p + 1) (j + 1)) by lia. rewrite (RD (j + p) j) by lia.
           assert (B : (if Nat.leb 1 j then bind (mread m (j + p + 1) (j - 1)) (fun x => Ok (nmul (leg_alpha (j - 1)) x)) else Ok n0)
              = Ok (if Nat.leb 1 j then nmul (leg_alpha (j - 1)) (gD (j + p + 1) (j - 1)) else n0)).
           { destruct (Nat.leb_spec 1 j); [|reflexivity]. rewrite RD by lia. reflexivity. }
           rewrite B. cbn [bind].
           replace (Nat.leb 1 (j + p + 2)) with true by (symmetry; apply Nat.leb_le; lia).
           replace (Nat.leb 2 (j + p + 2)) with true by (symmetry; apply Nat.leb_le; lia).
           cbn [bind]. apply W. rewrite gD_rec. reflexivity.
        -- apply W. rewrite gD_hi by lia. reflexivity.
    + exists m'. split; [exact E'|]. eapply mat_is_ext; [exact M'|]. intros a b Ha Hb. simpl.
      destruct (Nat.ltb_spec a i); destruct (Nat.ltb_spec a (S i)); try lia; auto.
      * assert (a = i) by lia. subst a. rewrite Nat.eqb_refl. simpl.
        destruct (Nat.ltb_spec b (dm1 - 0)); auto. rewrite gD_hi by lia. reflexivity.
      * destruct (Nat.eqb_spec a i); [lia|reflexivity].
  - exists m. split; [exact E|]. eapply mat_is_ext; [exact M|]. intros a b Ha Hb. cbv beta.
    destruct (Nat.ltb_spec a (S dm1)); [reflexivity|lia].
Qed.

(** ** its powers: order k + 1 *)
Definition gT (i j : nat) : T := gD j i.
Fixpoint gpow (dim k : nat) : nat -> nat -> T :=
  match k with
  | O => gT
  | S k' => fun i j => nsum dim (fun l => nmul (gpow dim k' i l) (gT l j))
  end.
Lemma leg_impl_gen dim k : exists m, leg_derivative_matrix_impl dim (S k) = Ok m /\ mat_is m dim dim (gpow dim k).
Proof.
  destruct (leg_dmat_gen dim) as (m0 & E0 & M0). unfold leg_derivative_matrix_impl. rewrite E0. cbn [bind].
  pose proof (mtrans_is _ _ _ _ M0) as MT.
  destruct (for_ok (fun i (m : mat T) => mat_is m dim dim (gpow dim (i - 2)))
    (fun _ r => mmul r (mtrans m0)) 2 (S (S k)) (mtrans m0)) as (m & E & M).
  - lia.
  - exact MT.
  - intros i r Hi Mr. destruct (mmul_is _ _ _ _ _ _ _ Mr MT) as (m' & E' & M'). exists m'. split; auto.
    replace (S i - 2) with (S (i - 2)) by lia. exact M'.
  - exists m. split; [exact E|]. replace (S (S k) - 2) with k in M by lia. exact M.
Qed.

(** ** the derivative of an object *)
Definition gdcoef (dim codom k : nat) (tf cf : nat -> T) (iv cc bb : nat) : T :=
  nmul (nsum dim (fun j => nmul (gpow dim k bb j) (cf ((iv * codom + cc) * dim + j)))) (npown (ndiv c2 (tf iv)) (S k)).
Lemma serve_app b l l' s s' : serve_all b l s = Ok s' -> serve_all (T := T) b (l ++ l') s = serve_all b l' s'.
Proof.
  revert s. induction l as [|q l IH]; simpl; intros s E.
  - inversion E; subst. reflexivity.
  - apply bind_ok in E as (s1 & -> & E). cbn [bind]. auto.
Qed.
Lemma derivate_gen g dim gram n codom tf cf hist k : gwf g n codom tf cf -> gs_basis g = BLegendre dim gram ->
  serve_all (gs_basis g) hist (bs_init (gs_basis g)) = Ok (gs_bst g) ->
  exists g' cf', gs_derivate g (S k) = Ok g' /\ gwf g' n codom tf cf' /\ gs_basis g' = BLegendre dim gram /\ gs_dom g' = gs_dom g /\
    (exists hist', serve_all (gs_basis g') hist' (bs_init (gs_basis g')) = Ok (gs_bst g')) /\
    forall iv cc bb, iv < n -> cc < codom -> bb < dim -> cf' ((iv * codom + cc) * dim + bb) = gdcoef dim codom k tf cf iv cc bb.
Proof.
  intros (B & C & V & K & L) Leg HI. pose proof B as B'. rewrite Leg in B'. cbn [bok] in B'.
  assert (Bd : b_dim (gs_basis g) = dim) by (rewrite Leg; reflexivity).
  assert (Gd : gs_dim g = dim) by exact Bd. rewrite Gd in K, L.
  assert (Imp : forall i, exists m, b_impl (gs_basis g) i = Ok m).
  { intros i. rewrite Leg. cbn [b_impl]. destruct i as [|i]; [eexists; reflexivity|]. destruct (leg_impl_gen dim i) as (m & -> & _). eauto. }
  destruct (leg_impl_gen dim k) as (mk & Ek & Mk).
  assert (BO : block_of (gs_basis g) (S k) = Ok mk). { apply block_of_ok; [intros; apply Imp|]. rewrite Leg. exact Ek. }
  set (cf' := fun idx => gdcoef dim codom k tf cf (idx / dim / codom) ((idx / dim) mod codom) (idx mod dim)).
  assert (cfat : forall iv cc bb, cc < codom -> bb < dim -> cf' ((iv * codom + cc) * dim + bb) = gdcoef dim codom k tf cf iv cc bb).
  { intros iv cc bb Hc Hb. unfold cf'.
    assert (E1 : ((iv * codom + cc) * dim + bb) / dim = iv * codom + cc) by (rewrite Nat.div_add_l by lia; rewrite Nat.div_small by lia; lia).
    rewrite E1. f_equal.
    - rewrite Nat.div_add_l by lia. rewrite Nat.div_small by lia. lia.
    - rewrite Nat.add_comm, Nat.mod_add by lia. apply Nat.mod_small. auto.
    - rewrite Nat.add_comm, Nat.mod_add by lia. apply Nat.mod_small. auto. }
  set (st_ok := fun q (st : vec T * bstate T) =>
    (exists h, serve_all (gs_basis g) h (bs_init (gs_basis g)) = Ok (snd st)) /\
    vec_is (fst st) (n * dim * codom) (fun idx => if Nat.ltb idx (q * dim) then cf' idx else cf idx)).
  assert (Step : forall iv cc st, iv < n -> cc < codom -> st_ok (iv * codom + cc) st ->
    exists st', deriv_seg g (S k) iv cc st = Ok st' /\ st_ok (S (iv * codom + cc)) st').
  { intros iv cc (coef & bst) Hi Hc ((h & Hh) & Vc). cbn [fst snd] in *. unfold deriv_seg. rewrite Gd, C.
    assert (Es : (if is_0101 (gs_basis g) then Ok n1 else ti <- vread (gs_tau g) iv ;; Ok (npown (ndiv c2 ti) (S k))) = Ok (npown (ndiv c2 (tf iv)) (S k))).
    { rewrite Leg. cbn [is_0101]. rewrite (vread_ok _ n tf) by auto. reflexivity. }
    rewrite Es. cbn [bind].
    pose proof (get_block_spec (gs_basis g) (S k) bst) as G. rewrite BO in G.
    destruct G as (bst' & EG & _). { eapply serve_all_binv; [apply binv_init|exact Hh]. }
    rewrite EG. cbn [bind].
    replace (iv * dim * codom + dim * cc) with ((iv * codom + cc) * dim) by nia.
    assert (Bnd : (iv * codom + cc) * dim + dim <= n * dim * codom).
    { assert (S (iv * codom + cc) <= n * codom) by nia. nia. }
    destruct (vsegment_is coef _ _ ((iv * codom + cc) * dim) dim Vc Bnd) as (seg & E1 & V1). rewrite E1. cbn [bind].
    destruct (mvmul_is mk seg _ _ _ _ Mk V1) as (p & E2 & V2). rewrite E2. cbn [bind].
    replace (vlen p) with dim by (symmetry; apply V2). rewrite Nat.eqb_refl.
    set (sc := npown (ndiv c2 (tf iv)) (S k)).
    pose proof (vscale_is _ _ _ sc V2) as V3.
    unfold vset_segment. replace (vlen (vscale p sc)) with dim by (symmetry; apply V3).
    replace (vlen coef) with (n * dim * codom) by (symmetry; apply Vc).
    destruct (Nat.leb_spec ((iv * codom + cc) * dim + dim) (n * dim * codom)); [|lia]. cbn [bind].
    eexists. split; [reflexivity|]. split.
    - exists (h ++ [RBlock (S k)]). cbn [snd]. rewrite (serve_app _ _ _ _ _ Hh). cbn [serve_all serve]. rewrite EG. reflexivity.
    - cbn [fst]. split; [reflexivity|]. intros idx Hx. cbn [vget].
      destruct (Nat.leb_spec ((iv * codom + cc) * dim) idx) as [Hl|Hl]; cbn [andb].
      + destruct (Nat.ltb_spec idx ((iv * codom + cc) * dim + dim)) as [Hu|Hu].
        * destruct (Nat.ltb_spec idx (S (iv * codom + cc) * dim)); [|lia].
          rewrite (proj2 V3) by lia. f_equal. set (bb := idx - (iv * codom + cc) * dim).
          replace idx with ((iv * codom + cc) * dim + bb) by (unfold bb; lia).
          rewrite cfat by (auto; unfold bb; lia). unfold gdcoef. fold sc. f_equal.
          apply nsum_ext. intros j Hj. destruct (Nat.ltb_spec ((iv * codom + cc) * dim + j) ((iv * codom + cc) * dim)); [lia|reflexivity].
        * rewrite (proj2 Vc) by auto. f_equal.
          destruct (Nat.ltb_spec idx ((iv * codom + cc) * dim)); [lia|].
          destruct (Nat.ltb_spec idx (S (iv * codom + cc) * dim)); [lia|reflexivity].
      + rewrite (proj2 Vc) by auto. f_equal.
        destruct (Nat.ltb_spec idx ((iv * codom + cc) * dim)); [|lia].
        destruct (Nat.ltb_spec idx (S (iv * codom + cc) * dim)); [reflexivity|lia]. }
  assert (Gn : gs_n g = n) by apply V.
  assert (X : exists coef bst h, for_ 0 n (fun iv st => for_ 0 codom (fun cc st => deriv_seg g (S k) iv cc st) st) (gs_coef g, gs_bst g) = Ok (coef, bst) /\
    vec_is coef (n * dim * codom) cf' /\ serve_all (gs_basis g) h (bs_init (gs_basis g)) = Ok bst).
  { match goal with |- context [for_ 0 n ?f ?v] =>
      destruct (for_ok (fun iv st => st_ok (iv * codom) st) f 0 n v) as ((coef & bst) & E & (h & Hh) & Vc) end.
    - lia.
    - split; [exists hist; exact HI|]. cbn [fst]. eapply vec_is_ext; [exact K|]. reflexivity.
    - intros iv st Hi Hs.
      match goal with |- context [for_ 0 codom ?f ?v] =>
        destruct (for_ok (fun cc st => st_ok (iv * codom + cc) st) f 0 codom v) as (st' & E & Hs') end.
      + lia.
      + rewrite Nat.add_0_r. exact Hs.
      + intros cc st' Hc Hs'. destruct (Step iv cc st') as (st2 & E2 & S2); [lia|lia|auto|]. exists st2. split; auto.
        replace (iv * codom + S cc) with (S (iv * codom + cc)) by lia. auto.
      + exists st'. split; auto. replace (S iv * codom) with (iv * codom + codom) by lia. auto.
    - exists coef, bst, h. split; [exact E|]. split; [|exact Hh]. cbn [fst] in Vc. eapply vec_is_ext; [exact Vc|].
      intros idx Hx. cbv beta. destruct (Nat.ltb_spec idx (n * codom * dim)); [reflexivity|nia]. }
  destruct X as (coef & bst & h & E & Vc & Hh).
  unfold gs_derivate, gs_deriv_impl. rewrite Gn, C. cbn [Nat.ltb Nat.leb]. rewrite E. cbn [bind].
  unfold gs_ctor. replace (vlen coef) with (n * dim * codom) by (symmetry; apply Vc).
  rewrite Bd, Nat.eqb_refl. cbn [bind fst].
  unfold gs_copy, gs_n, gs_dim. cbn [gs_coef gs_tau gs_basis gs_codom gs_dom gs_bst].
  replace (vlen coef) with (n * dim * codom) by (symmetry; apply Vc).
  replace (vlen (gs_tau g)) with n by (symmetry; apply V). rewrite Bd, Nat.eqb_refl.
  eexists _, cf'. split; [reflexivity|]. cbn [gs_basis gs_dom]. split; [|split; [exact Leg|split; [reflexivity|split]]].
  - unfold gwf, gs_dim. cbn [gs_basis gs_codom gs_tau gs_coef gs_buf]. rewrite Bd. repeat (split; [assumption || reflexivity|]). reflexivity.
  - exists (h ++ [RCopy; RCopy]). cbn [gs_bst]. rewrite (serve_app _ _ _ _ _ Hh). reflexivity.
  - intros iv cc bb Hi Hc Hb. apply cfat; auto.
Qed.
End Gen.
