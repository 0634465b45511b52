(** Entries of the spline matrices, for any arithmetic. *)
From Coq Require Import List Arith Lia Bool ZArith.
From Verif Require Import Num Outcome LinAlg LegendreModel LagrangeModel Basis0101Model BasisModel BasisProofs.
Import ListNotations.

Section V.
Context {T : Type} `{Num T}.

(** ** unscaled continuity matrix *)
Lemma cont_fill_val dim codom nm1 ord (L R : mat T) Lf Rf : mat_is L (S ord) dim Lf -> mat_is R (S ord) dim Rf ->
  exists m, cont_fill dim codom nm1 ord L R = Ok m /\ srows m = nm1 * codom * (ord + 1) /\ scols m = S nm1 * codom * dim /\
    forall der iv cc iv2 cc2 bb, der <= ord -> iv < nm1 -> cc < codom -> iv2 < S nm1 -> cc2 < codom -> bb < dim ->
      sget m (codom * nm1 * der + iv * codom + cc) ((iv2 * codom + cc2) * dim + bb) =
      if cc2 =? cc then if iv2 =? iv then Some (Rf der bb) else if iv2 =? S iv then Some (nopp (Lf der bb)) else None else None.
Proof.
  intros ML MR. set (rows := nm1 * codom * (ord + 1)). set (cols := S nm1 * codom * dim).
  set (E := fun der iv a c x =>
     sideE dim codom (codom * nm1 * der + iv * codom) iv (fun bb => Rf der bb) a c x \/
     sideE dim codom (codom * nm1 * der + iv * codom) (iv + 1) (fun bb => nopp (Lf der bb)) a c x).
  assert (I : ins rows cols (fun a c x => exists der, 0 <= der < S ord /\ exists iv, 0 <= iv < nm1 /\ E der iv a c x)
     (for_ 0 (S ord) (fun der m => for_ 0 nm1 (fun iv m =>
        m' <- cont_side dim codom (codom * nm1 * der + iv * codom) (iv * dim * codom) der R (fun x => x) m ;;
        cont_side dim codom (codom * nm1 * der + iv * codom) ((iv + 1) * dim * codom) der L nopp m') m))).
  { apply ins_for.
    - intros der Hd. apply ins_for.
      + intros iv Hiv. unfold E. apply ins_seq.
        * eapply (cont_side_ins rows cols dim codom _ iv der R (S ord) Rf (fun x => x)); auto. lia.
        * eapply (cont_side_ins rows cols dim codom _ (iv + 1) der L (S ord) Lf nopp); auto. lia.
        * intros a c x y (c1 & b1 & Hc1 & Hb1 & _ & E1 & _) (c2 & b2 & Hc2 & Hb2 & _ & E2 & _). rewrite E1 in E2.
          apply pair_inj in E2 as [E2 _]; auto. apply pair_inj in E2 as [E2 _]; auto. lia.
      + intros i j a c x y Hi Hj Hne Ei Ej. apply Hne.
        assert (exists c1, c1 < codom /\ a = codom * nm1 * der + i * codom + c1) as (c1 & Hc1 & A1).
        { destruct Ei as [(c1 & b1 & ? & _ & ? & _)|(c1 & b1 & ? & _ & ? & _)]; exists c1; auto. }
        assert (exists c1, c1 < codom /\ a = codom * nm1 * der + j * codom + c1) as (c2 & Hc2 & A2).
        { destruct Ej as [(c2 & b1 & ? & _ & ? & _)|(c2 & b1 & ? & _ & ? & _)]; exists c2; auto. }
        assert (i * codom + c1 = j * codom + c2) as A by lia. apply pair_inj in A; tauto.
    - intros i j a c x y Hi Hj Hne (v & Hv & Ei) (w & Hw & Ej). apply Hne.
      assert (exists c1, c1 < codom /\ a = codom * nm1 * i + v * codom + c1) as (c1 & Hc1 & A1).
      { destruct Ei as [(c1 & b1 & ? & _ & ? & _)|(c1 & b1 & ? & _ & ? & _)]; exists c1; auto. }
      assert (exists c1, c1 < codom /\ a = codom * nm1 * j + w * codom + c1) as (c2 & Hc2 & A2).
      { destruct Ej as [(c2 & b1 & ? & _ & ? & _)|(c2 & b1 & ? & _ & ? & _)]; exists c2; auto. }
      assert (i * (nm1 * codom) + (v * codom + c1) = j * (nm1 * codom) + (w * codom + c2)) as A by nia.
      apply pair_inj in A; try tauto; apply pair_lt; lia. }
  destruct (I (snew rows cols)) as (m & Em & Rm & Cm & Sm & Nm); auto.
  { assert (X : forall der iv u c1 b1 x, der <= ord -> iv < nm1 -> u <= iv + 1 -> c1 < codom -> b1 < dim ->
       codom * nm1 * der + iv * codom + c1 < rows /\ (u * codom + c1) * dim + b1 < cols /\
       sget (@snew T rows cols) x x = None).
    { intros der iv u c1 b1 x Hd Hiv Hu Hc1 Hb1. split; [|split; [|reflexivity]].
      - unfold rows. replace (codom * nm1 * der + iv * codom + c1) with (der * (nm1 * codom) + (iv * codom + c1)) by nia.
        replace (nm1 * codom * (ord + 1)) with (S ord * (nm1 * codom)) by nia. apply pair_lt; [lia|]. apply pair_lt; auto.
      - unfold cols. apply pair_lt; auto. apply pair_lt; auto. lia. }
    intros a c x (der & Hd & iv & Hiv & [(c1 & b1 & Hc1 & Hb1 & -> & -> & _)|(c1 & b1 & Hc1 & Hb1 & -> & -> & _)]).
    - destruct (X der iv iv c1 b1 0) as (A & B & _); auto; lia.
    - destruct (X der iv (iv + 1) c1 b1 0) as (A & B & _); auto; lia. }
  exists m. split; [exact Em|]. split; auto. split; auto.
  intros der iv cc iv2 cc2 bb Hd Hiv Hcc Hiv2 Hcc2 Hbb.
  destruct (Nat.eqb_spec cc2 cc) as [->|Hne].
  - destruct (Nat.eqb_spec iv2 iv) as [->|Hn1]; [|destruct (Nat.eqb_spec iv2 (S iv)) as [->|Hn2]].
    + apply Sm. exists der. split; [lia|]. exists iv. split; [lia|]. left. exists cc, bb. auto.
    + apply Sm. exists der. split; [lia|]. exists iv. split; [lia|]. right. exists cc, bb. rewrite Nat.add_1_r. auto 6.
    + rewrite Nm; [reflexivity|]. intros x (d' & Hd' & v & Hv & Ex).
      assert (exists u c1 b1, (u = v \/ u = v + 1) /\ c1 < codom /\ b1 < dim /\
        codom * nm1 * der + iv * codom + cc = codom * nm1 * d' + v * codom + c1 /\
        (iv2 * codom + cc) * dim + bb = (u * codom + c1) * dim + b1) as (u & c1 & b1 & Hu & Hc1 & Hb1 & A & B).
      { destruct Ex as [(c1 & b1 & ? & ? & ? & ? & _)|(c1 & b1 & ? & ? & ? & ? & _)]; [exists v|exists (v + 1)]; exists c1, b1; auto. }
      apply pair_inj in B as [B _]; auto. apply pair_inj in B as [B C]; auto.
      assert (der * (nm1 * codom) + (iv * codom + cc) = d' * (nm1 * codom) + (v * codom + c1)) as A' by nia.
      apply pair_inj in A' as [_ A']; try (apply pair_lt; lia). apply pair_inj in A' as [A' _]; auto. lia.
  - rewrite Nm; [reflexivity|]. intros x (d' & Hd' & v & Hv & Ex).
    assert (exists u c1 b1, c1 < codom /\ b1 < dim /\
        codom * nm1 * der + iv * codom + cc = codom * nm1 * d' + v * codom + c1 /\
        (iv2 * codom + cc2) * dim + bb = (u * codom + c1) * dim + b1) as (u & c1 & b1 & Hc1 & Hb1 & A & B).
    { destruct Ex as [(c1 & b1 & ? & ? & ? & ? & _)|(c1 & b1 & ? & ? & ? & ? & _)]; [exists v|exists (v + 1)]; exists c1, b1; auto. }
    apply pair_inj in B as [B _]; auto. apply pair_inj in B as [B C]; auto.
    assert (der * (nm1 * codom) + (iv * codom + cc) = d' * (nm1 * codom) + (v * codom + c1)) as A' by nia.
    apply pair_inj in A' as [_ A']; try (apply pair_lt; lia). apply pair_inj in A' as [_ A']; auto. lia.
Qed.

Lemma mset_row_is (m : mat T) r c i (v : vec T) (F : nat -> nat -> option T) f : mrows m = r -> mcols m = c ->
  (forall a b, a < r -> b < c -> a <> i -> mget m a b = F a b) -> (forall b, b < c -> F i b = Some (f b)) -> i < r -> vec_is v c f ->
  exists m', mset_row m i v = Ok m' /\ mrows m' = r /\ mcols m' = c /\
    (forall a b, a < r -> b < c -> mget m' a b = F a b).
Proof.
  intros R C G Fi Hi (Lv & Gv). unfold mset_row. rewrite R, C, Lv, Nat.eqb_refl. destruct (Nat.ltb_spec i r); [|lia].
  eexists. split; [reflexivity|]. split; [reflexivity|]. split; [reflexivity|]. intros a b Ha Hb. cbn [mget].
  destruct (Nat.eqb_spec a i) as [->|]; auto. rewrite Gv, Fi; auto.
Qed.

Lemma block_of_ok b k (m : mat T) : (forall i, i <= k -> exists m, b_impl b i = Ok m) -> b_impl b k = Ok m -> block_of b k = Ok m.
Proof.
  intros Hi E. unfold block_of.
  assert (F : forall n lo, (forall i, i < lo + n -> exists m, b_impl b i = Ok m) -> first_fail b lo n = Ok tt).
  { induction n as [|n IH]; intros lo Hx; simpl; auto. destruct (Hx lo) as (m0 & ->); [lia|]. simpl. apply IH.
    intros i Hi'. apply Hx. lia. }
  rewrite F; [exact E|]. intros i Hi'. apply Hi. lia.
Qed.

Lemma cont_bufs_val b ord s (l0 r0 : vec T) lf rf (Dm : nat -> mat T) D : blocks_ok b (bs_blocks s) -> 1 <= b_dim b ->
  b_eval_deriv b (nopp n1) c2 0 (vnew (b_dim b)) = Ok l0 -> vec_is l0 (b_dim b) lf ->
  b_eval_deriv b n1 c2 0 (vnew (b_dim b)) = Ok r0 -> vec_is r0 (b_dim b) rf ->
  (forall k, k <= ord -> b_impl b k = Ok (Dm k) /\ mat_is (Dm k) (b_dim b) (b_dim b) (D k)) ->
  exists L R s', cont_bufs b ord s = Ok (L, R, s') /\ blocks_ok b (bs_blocks s') /\ bs_cont s' = bs_cont s /\ bs_der s' = bs_der s /\
    mat_is L (S ord) (b_dim b) (fun der bb => if der =? 0 then lf bb else D der 0 bb) /\
    mat_is R (S ord) (b_dim b) (fun der bb => if der =? 0 then rf bb else D der (b_dim b - 1) bb).
Proof.
  intros B Hdim El Vl Er Vr HD. set (dim := b_dim b) in *.
  assert (blk : forall k s, k <= ord -> blocks_ok b (bs_blocks s) ->
     exists s', get_block b k s = Ok (Dm k, s') /\ blocks_ok b (bs_blocks s') /\ bs_cont s' = bs_cont s /\ bs_der s' = bs_der s).
  { intros k s1 Hk B1. pose proof (get_block_spec b k s1 B1) as G.
    rewrite (block_of_ok b k (Dm k)) in G; [exact G| |apply HD; auto]. intros i Hi. exists (Dm i). apply HD. lia. }
  unfold cont_bufs. fold dim. destruct (blk ord s (le_n _) B) as (s1 & E1 & B1 & C1 & D1). rewrite E1. cbn [bind].
  rewrite El. cbn [bind].
  destruct (mset_row_is (mnew (S ord) dim) (S ord) dim 0 l0 (fun a b => if a =? 0 then Some (lf b) else None) lf) as (L0 & EL & RL & CL & GL); auto; try lia.
  { intros a b' Ha Hb Hn. destruct a; [lia|]. reflexivity. }
  rewrite EL. cbn [bind]. rewrite Er. cbn [bind].
  destruct (mset_row_is (mnew (S ord) dim) (S ord) dim 0 r0 (fun a b => if a =? 0 then Some (rf b) else None) rf) as (R0 & ER & RR & CR & GR); auto; try lia.
  { intros a b' Ha Hb Hn. destruct a; [lia|]. reflexivity. }
  rewrite ER. cbn [bind].
  set (FL := fun der bb => if der =? 0 then lf bb else D der 0 bb).
  set (FR := fun der bb => if der =? 0 then rf bb else D der (dim - 1) bb).
  match goal with |- context [for_ 1 (S ord) ?f ?v] =>
    destruct (for_ok (fun k (st : mat T * mat T * bstate T) => let '(L, R, s0) := st in
       mrows L = S ord /\ mcols L = dim /\ mrows R = S ord /\ mcols R = dim /\
       (forall a b, a < S ord -> b < dim -> mget L a b = if a <? k then Some (FL a b) else None) /\
       (forall a b, a < S ord -> b < dim -> mget R a b = if a <? k then Some (FR a b) else None) /\
       blocks_ok b (bs_blocks s0) /\ bs_cont s0 = bs_cont s /\ bs_der s0 = bs_der s) f 1 (S ord) v) as ([[L R] s'] & E & I) end.
  - lia.
  - repeat (split; auto); try congruence.
    + intros a b' Ha Hb. rewrite GL by auto. unfold FL. destruct a; reflexivity.
    + intros a b' Ha Hb. rewrite GR by auto. unfold FR. destruct a; reflexivity.
  - intros k [[L R] s2] Hk (R1 & R2 & R3 & R4 & G1 & G2 & B2 & C2 & D2).
    destruct (blk k s2) as (s3 & E3 & B3 & C3 & D3); auto; [lia|]. rewrite E3. cbn [bind].
    destruct (HD k) as (_ & MR & MC & MG); [lia|]. fold dim in MR, MC, MG.
    unfold mrow at 1. rewrite MR. destruct (Nat.ltb_spec 0 dim); [|lia]. cbn [bind].
    destruct (mset_row_is L (S ord) dim k (mkvec (mcols (Dm k)) (fun j => mget (Dm k) 0 j))
       (fun a b => if a <? S k then Some (FL a b) else None) (D k 0)) as (L' & EL' & RL' & CL' & GL'); auto; try lia.
    { intros a b' Ha Hb Hn. rewrite G1 by auto. destruct (Nat.ltb_spec a k), (Nat.ltb_spec a (S k)); auto; lia. }
    { intros b' Hb. destruct (Nat.ltb_spec k (S k)); [|lia]. unfold FL. destruct k; [lia|]. reflexivity. }
    { split; [exact MC|]. intros j Hj. cbn [vget]. apply MG; lia. }
    rewrite EL'. cbn [bind]. destruct dim as [|dm] eqn:Edim; [lia|]. cbn [usub1].
    unfold mrow. rewrite MR. destruct (Nat.ltb_spec dm (S dm)); [|lia]. cbn [bind].
    destruct (mset_row_is R (S ord) (S dm) k (mkvec (mcols (Dm k)) (fun j => mget (Dm k) dm j))
       (fun a b => if a <? S k then Some (FR a b) else None) (D k dm)) as (R' & ER' & RR' & CR' & GR'); auto; try lia.
    { intros a b' Ha Hb Hn. rewrite G2 by auto. destruct (Nat.ltb_spec a k), (Nat.ltb_spec a (S k)); auto; lia. }
    { intros b' Hb. destruct (Nat.ltb_spec k (S k)); [|lia]. unfold FR. destruct k; [lia|].
      replace (S dm - 1) with dm by lia. reflexivity. }
    { split; [exact MC|]. intros j Hj. cbn [vget]. apply MG; lia. }
    rewrite ER'. cbn [bind]. eexists. split; [reflexivity|]. repeat (split; auto); congruence.
  - rewrite E. destruct I as (R1 & R2 & R3 & R4 & G1 & G2 & B2 & C2 & D2). exists L, R, s'. split; auto. split; auto.
    split; auto. split; auto. split.
    + split; auto. split; auto. intros i j Hi Hj. rewrite G1 by auto. destruct (Nat.ltb_spec i (S ord)); [reflexivity|lia].
    + split; auto. split; auto. intros i j Hi Hj. rewrite G2 by auto. destruct (Nat.ltb_spec i (S ord)); [reflexivity|lia].
Qed.

(** ** derivative matrix *)
Lemma der_fill_val dim blocks (d : mat T) D : mat_is d dim dim D ->
  exists m, der_fill dim blocks d = Ok m /\ srows m = blocks * dim /\ scols m = blocks * dim /\
    forall k i k2 j, k < blocks -> i < dim -> k2 < blocks -> j < dim ->
      sget m (k * dim + i) (k2 * dim + j) = if k2 =? k then Some (D i j) else None.
Proof.
  intros MD.
  assert (I : ins (blocks * dim) (blocks * dim) (fun a c x => exists k, 0 <= k < blocks /\ exists i, 0 <= i < dim /\ exists j, 0 <= j < dim /\
       (a = k * dim + i /\ c = k * dim + j /\ x = D i j))
     (for_ 0 blocks (fun blk m => for_ 0 dim (fun i m => for_ 0 dim (fun j m =>
        x <- mread d i j ;; sinsert m (blk * dim + i) (blk * dim + j) x) m) m))).
  { apply ins_for.
    - intros k Hk. apply ins_for.
      + intros i Hi. apply ins_for.
        * intros j Hj. eapply ins_ext; [apply ins_one|]. intros m. rewrite (mread_ok d dim dim D) by (auto; lia). reflexivity.
        * intros j1 j2 a c x y Hi1 Hi2 Hne (_ & E1 & _) (_ & E2 & _). lia.
      + intros i1 i2 a c x y Hi1 Hi2 Hne (j1 & _ & E1 & _) (j2 & _ & E2 & _). lia.
    - intros k1 k2 a c x y Hk1 Hk2 Hne (i1 & Hi1 & j1 & _ & E1 & _) (i2 & Hi2 & j2 & _ & E2 & _). rewrite E1 in E2.
      apply pair_inj in E2; try lia. }
  destruct (I (snew (blocks * dim) (blocks * dim))) as (m & Em & Rm & Cm & Sm & Nm); auto.
  { intros a c x (k & Hk & i & Hi & j & Hj & -> & -> & _). split; [apply pair_lt; lia|]. split; [apply pair_lt; lia|reflexivity]. }
  exists m. split; [exact Em|]. split; auto. split; auto. intros k i k2 j Hk Hi Hk2 Hj.
  destruct (Nat.eqb_spec k2 k) as [->|Hne].
  - apply Sm. exists k. split; [lia|]. exists i. split; [lia|]. exists j. split; [lia|auto].
  - rewrite Nm; [reflexivity|]. intros x (k' & Hk' & i' & Hi' & j' & Hj' & A & B & _).
    apply pair_inj in A; try lia. apply pair_inj in B; try lia.
Qed.

(** ** rescaling *)
Lemma scale_row_val per w (fac : vec T) f src k d : per <= k -> k < srows src -> related per src d ->
  (forall c, c < scols src -> sget src k c <> None -> c / w < vlen fac /\ vget fac (c / w) = Some (f (c / w))) ->
  exists d', scale_row w fac src k d = Ok d' /\ related per src d' /\
    (forall a c, a <> k -> sget d' a c = sget d a c) /\
    (forall c, sget d' k c = option_map (fun x => nmul x (f (c / w))) (sget src k c)).
Proof.
  intros Hk Hks R0 Hf. unfold scale_row. assert (C0 : scols d = scols src) by apply R0. rewrite C0.
  match goal with |- context [for_ 0 (scols src) ?g ?v] =>
    destruct (for_ok (fun col (d1 : smat T) => related per src d1 /\ (forall a c, a <> k -> sget d1 a c = sget d a c) /\
       (forall c, sget d1 k c = if c <? col then option_map (fun x => nmul x (f (c / w))) (sget src k c) else sget d k c)) g 0 (scols src) v)
      as (d' & E & R1 & N1 & V1) end.
  - lia.
  - split; auto.
  - intros col d1 Hc (R1 & N1 & V1).
    pose proof (proj1 (proj2 (proj2 (proj2 (proj2 R1)))) k col) as P1.
    destruct (sget d1 k col) as [y|] eqn:Ey.
    + destruct (sget src k col) as [z|] eqn:Ez; [|exfalso; destruct P1 as [P1 _]; specialize (P1 eq_refl); discriminate].
      destruct (Hf col) as (Hv & Gv); [lia|congruence|]. rewrite (vread_get fac (col / w) _ Hv Gv). cbn [bind].
      eexists. split; [reflexivity|]. split; [apply related_set; auto; congruence|]. cbn [sget]. split.
      * intros a c Ha. destruct (Nat.eqb_spec a k); [contradiction|]. simpl. auto.
      * intros c. rewrite Nat.eqb_refl. simpl. destruct (Nat.eqb_spec c col) as [->|Hn].
        -- destruct (Nat.ltb_spec col (S col)); [|lia]. rewrite Ez. reflexivity.
        -- rewrite V1. destruct (Nat.ltb_spec c col), (Nat.ltb_spec c (S col)); auto; lia.
    + eexists. split; [reflexivity|]. split; auto. split; auto. intros c. rewrite V1.
      destruct (Nat.ltb_spec c col), (Nat.ltb_spec c (S col)); auto; try lia.
      assert (c = col) by lia. subst c. assert (Es : sget src k col = None) by (apply P1; reflexivity).
      rewrite Es. rewrite V1 in Ey. destruct (Nat.ltb_spec col col); [lia|]. rewrite Ey. reflexivity.
  - rewrite E. exists d'. split; auto. split; auto. split; auto. intros c. rewrite V1.
    destruct (Nat.ltb_spec c (scols src)); auto.
    assert (Es : sget src k c = None).
    { destruct (sget src k c) eqn:X; auto. exfalso. destruct R0 as (_ & (_ & _ & I) & _). destruct (I k c); [congruence|lia]. }
    rewrite Es. apply (proj1 (proj2 (proj2 (proj2 (proj2 R0)))) k c). exact Es.
Qed.
Lemma scale_all_val per w (fac : nat -> vec T) f src d : related per src d ->
  (forall r c, per <= r < srows src -> c < scols src -> sget src r c <> None ->
     c / w < vlen (fac r) /\ vget (fac r) (c / w) = Some (f r (c / w))) ->
  exists d', for_ per (srows d) (fun r d => scale_row w (fac r) src r d) d = Ok d' /\ related per src d' /\
    (forall r c, r < per -> sget d' r c = sget src r c) /\
    (forall r c, per <= r < srows src -> sget d' r c = option_map (fun x => nmul x (f r (c / w))) (sget src r c)).
Proof.
  intros R0 Hf. assert (C0 : srows d = srows src) by apply R0. rewrite C0.
  match goal with |- context [for_ per (srows src) ?g ?v] =>
    destruct (for_ok (fun k (d1 : smat T) => related per src d1 /\
       (forall r c, per <= r < k -> sget d1 r c = option_map (fun x => nmul x (f r (c / w))) (sget src r c))) g per (srows src) v)
      as (d' & E & R1 & V1) end.
  - apply R0.
  - split; auto. intros. lia.
  - intros k d1 Hk (R1 & V1). destruct (scale_row_val per w (fac k) (f k) src k d1) as (d2 & E2 & R2 & N2 & V2); auto; try lia.
    exists d2. split; auto. split; auto. intros r c Hr. destruct (Nat.eq_dec r k) as [->|Hn]; [apply V2|].
    rewrite N2 by auto. apply V1. lia.
  - exists d'. split; auto. split; auto. split; auto. intros r c Hr. apply R1; auto.
Qed.

(** ** entries of the two public matrices, from a fresh state (the history does not matter: cont_query_rel) *)
Definition cont_entry (b : basis T) (tf : nat -> T) lf rf (D : nat -> nat -> nat -> T) (der iv cc iv2 cc2 bb : nat) : option T :=
  let fac x := if der =? 0 then x else nmul x (npown (ndiv c2 (tf iv2)) der) in
  if cc2 =? cc then
    if iv2 =? iv then Some (fac (if der =? 0 then rf bb else D der (b_dim b - 1) bb))
    else if iv2 =? S iv then Some (fac (nopp (if der =? 0 then lf bb else D der 0 bb)))
    else None
  else None.

Lemma cont_matrix_val b nm1 codom ord (taus : vec T) tf (l0 r0 : vec T) lf rf (Dm : nat -> mat T) D : 1 <= b_dim b ->
  vec_is taus (S nm1) tf ->
  b_eval_deriv b (nopp n1) c2 0 (vnew (b_dim b)) = Ok l0 -> vec_is l0 (b_dim b) lf ->
  b_eval_deriv b n1 c2 0 (vnew (b_dim b)) = Ok r0 -> vec_is r0 (b_dim b) rf ->
  (forall k, k <= ord -> b_impl b k = Ok (Dm k) /\ mat_is (Dm k) (b_dim b) (b_dim b) (D k)) ->
  exists m s', continuity_matrix b (S nm1) codom ord taus (bs_init b) = Ok (m, s') /\
    srows m = nm1 * codom * (ord + 1) /\ scols m = S nm1 * codom * b_dim b /\
    forall der iv cc iv2 cc2 bb, der <= ord -> iv < nm1 -> cc < codom -> iv2 < S nm1 -> cc2 < codom -> bb < b_dim b ->
      sget m (codom * nm1 * der + iv * codom + cc) ((iv2 * codom + cc2) * b_dim b + bb) =
      cont_entry b tf lf rf D der iv cc iv2 cc2 bb.
Proof.
  intros Hdim (Lt & Gt) El Vl Er Vr HD.
  destruct (cont_bufs_val b ord (bs_init b) l0 r0 lf rf Dm D (blocks_init b) Hdim El Vl Er Vr HD)
    as (L & R & s1 & EB & B1 & C1 & D1 & ML & MR).
  destruct (cont_fill_val (b_dim b) codom nm1 ord L R _ _ ML MR) as (m0 & Em & Rm & Cm & Vm).
  pose proof (cont_fill_sp _ _ _ _ _ _ _ Em) as Sp.
  unfold continuity_matrix. cbn [bs_init bs_cont]. unfold cont_build. cbn [usub1]. rewrite EB. cbn [bind]. rewrite Em. cbn [bind].
  cbn [bs_cont]. rewrite upd_same. cbn [of_option bind].
  replace (S nm1 - 1) with nm1 by lia. set (per := codom * nm1) in *.
  assert (Rel : related per m0 m0). { eapply related_refl; [|exact Sp]. unfold per. nia. }
  assert (rowdec : forall r, r < srows m0 -> exists der iv cc, der <= ord /\ iv < nm1 /\ cc < codom /\ r = per * der + iv * codom + cc).
  { intros r Hr. rewrite Rm in Hr. assert (Hc : codom <> 0) by (intros ->; lia). assert (Hn : nm1 <> 0) by (intros ->; lia).
    assert (Hp : per <> 0) by (unfold per; nia).
    exists (r / per), (r mod per / codom), (r mod per mod codom). pose proof (Nat.div_mod r per Hp) as E1.
    pose proof (Nat.mod_upper_bound r per Hp) as U1. pose proof (Nat.div_mod (r mod per) codom Hc) as E2.
    pose proof (Nat.mod_upper_bound (r mod per) codom Hc) as U2.
    assert (r / per < S ord). { apply Nat.div_lt_upper_bound; auto. unfold per. nia. }
    assert (r mod per / codom < nm1). { apply Nat.div_lt_upper_bound; auto. }
    split; [lia|]. split; auto. split; auto. nia. }
  destruct (scale_all_val per (b_dim b * codom) (fun r => deriv_factor taus (r / per))
     (fun r i => npown (ndiv c2 (tf i)) (r / per)) m0 m0 Rel) as (d' & Ed & Rd & Vlo & Vhi).
  { intros r c Hr Hc Hs. rewrite Cm in Hc. unfold deriv_factor. cbn [vlen vget].
    assert (Hi : c / (b_dim b * codom) < S nm1). { apply Nat.div_lt_upper_bound; nia. }
    split; [lia|]. rewrite Gt by auto. reflexivity. }
  rewrite Ed. cbn [bind]. eexists. eexists. split; [reflexivity|].
  split; [rewrite <- Rm; apply Rd|]. split; [rewrite <- Cm; apply Rd|].
  intros der iv cc iv2 cc2 bb Hd Hiv Hcc Hiv2 Hcc2 Hbb.
  assert (low : iv * codom + cc < per). { unfold per. rewrite (Nat.mul_comm codom nm1). apply pair_lt; auto. }
  assert (Hcol : ((iv2 * codom + cc2) * b_dim b + bb) / (b_dim b * codom) = iv2).
  { replace ((iv2 * codom + cc2) * b_dim b + bb) with (iv2 * (b_dim b * codom) + (cc2 * b_dim b + bb)) by nia.
    apply pair_div. rewrite (Nat.mul_comm (b_dim b) codom). apply pair_lt; auto. }
  assert (Hrow : (per * der + iv * codom + cc) / per = der).
  { replace (per * der + iv * codom + cc) with (der * per + (iv * codom + cc)) by nia. apply pair_div; auto. }
  unfold cont_entry. destruct der as [|der].
  - rewrite Vlo by (fold per; lia). rewrite Vm by auto. reflexivity.
  - rewrite Vhi.
    2: { split; [nia|]. rewrite Rm. unfold per. replace (codom * nm1 * S der + iv * codom + cc) with (S der * per + (iv * codom + cc)) by (unfold per; nia).
         replace (nm1 * codom * (ord + 1)) with (S ord * per) by (unfold per; nia). apply pair_lt; auto. lia. }
    rewrite Vm by auto. rewrite Hcol, Hrow. cbn [Nat.eqb].
    destruct (cc2 =? cc); [|reflexivity]. destruct (iv2 =? iv); [reflexivity|]. destruct (iv2 =? S iv); reflexivity.
Qed.

Lemma der_matrix_val b n codom ord (taus : vec T) tf (d : mat T) D : vec_is taus n tf ->
  (forall k, k <= ord -> exists m, b_impl b k = Ok m) -> b_impl b ord = Ok d -> mat_is d (b_dim b) (b_dim b) D ->
  exists m s', gspline_derivative_matrix b n codom ord taus (bs_init b) = Ok (m, s') /\
    srows m = n * codom * b_dim b /\ scols m = n * codom * b_dim b /\
    forall iv cc i iv2 cc2 j, iv < n -> cc < codom -> i < b_dim b -> iv2 < n -> cc2 < codom -> j < b_dim b ->
      sget m ((iv * codom + cc) * b_dim b + i) ((iv2 * codom + cc2) * b_dim b + j) =
      if (iv2 =? iv) && (cc2 =? cc) then Some (nmul (D i j) (npown (ndiv c2 (tf iv)) ord)) else None.
Proof.
  intros (Lt & Gt) Hall E0 MD.
  pose proof (get_block_spec b ord (bs_init b) (blocks_init b)) as G. rewrite (block_of_ok b ord d Hall E0) in G.
  destruct G as (s1 & EG & B1 & C1 & D1).
  destruct (der_fill_val (b_dim b) (n * codom) d D MD) as (m0 & Em & Rm & Cm & Vm).
  pose proof (der_fill_sp _ _ _ _ Em) as Sp.
  unfold gspline_derivative_matrix. cbn [bs_init bs_der]. unfold der_build. cbn [bs_init] in EG. rewrite EG. cbn [bind]. rewrite Em. cbn [bind].
  cbn [bs_der]. rewrite upd_same. cbn [of_option bind].
  assert (Rel : related 0 m0 m0). { eapply related_refl; [|exact Sp]. lia. }
  destruct (scale_all_val 0 (b_dim b * codom) (fun _ => deriv_factor taus ord)
     (fun _ i => npown (ndiv c2 (tf i)) ord) m0 m0 Rel) as (d' & Ed & Rd & Vlo & Vhi).
  { intros r c Hr Hc Hs. rewrite Cm in Hc. unfold deriv_factor. cbn [vlen vget].
    assert (Hi : c / (b_dim b * codom) < n). { apply Nat.div_lt_upper_bound; nia. }
    split; [lia|]. rewrite Gt by auto. reflexivity. }
  rewrite Ed. cbn [bind]. eexists. eexists. split; [reflexivity|].
  split; [rewrite <- Rm; apply Rd|]. split; [rewrite <- Cm; apply Rd|].
  intros iv cc i iv2 cc2 j Hiv Hcc Hi Hiv2 Hcc2 Hj.
  assert (Hcol : ((iv2 * codom + cc2) * b_dim b + j) / (b_dim b * codom) = iv2).
  { replace ((iv2 * codom + cc2) * b_dim b + j) with (iv2 * (b_dim b * codom) + (cc2 * b_dim b + j)) by nia.
    apply pair_div. rewrite (Nat.mul_comm (b_dim b) codom). apply pair_lt; auto. }
  rewrite Vhi.
  2: { split; [lia|]. rewrite Rm. apply pair_lt; auto. apply pair_lt; auto. }
  rewrite Vm; auto; try (apply pair_lt; auto). rewrite Hcol.
  destruct (Nat.eqb_spec (iv2 * codom + cc2) (iv * codom + cc)) as [Eq|Ne].
  - apply pair_inj in Eq as [-> ->]; auto. rewrite !Nat.eqb_refl. reflexivity.
  - destruct (Nat.eqb_spec iv2 iv) as [->|]; [|reflexivity]. destruct (Nat.eqb_spec cc2 cc) as [->|]; [|reflexivity]. lia.
Qed.
End V.
