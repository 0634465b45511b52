(** Proofs about the Basis model: block cache, sparse insertion, scaling, query histories. *)
From Coq Require Import List Arith Lia Bool ZArith.
From Verif Require Import Num Outcome LinAlg LegendreModel LagrangeModel Basis0101Model BasisModel.
Import ListNotations.

(** ** arithmetic of row/column numbers *)
Lemma pair_inj w i y i' y' : y < w -> y' < w -> i * w + y = i' * w + y' -> i = i' /\ y = y'.
Proof.
  intros Hy Hy' E.
  assert (i = i').
  { apply (f_equal (fun z => z / w)) in E. rewrite !Nat.div_add_l in E by lia.
    rewrite !Nat.div_small in E by auto. lia. }
  subst. lia.
Qed.
Lemma pair_div w i y : y < w -> (i * w + y) / w = i.
Proof. intros. rewrite Nat.div_add_l by lia. rewrite Nat.div_small by auto. lia. Qed.
Lemma pair_lt w n i y : i < n -> y < w -> i * w + y < n * w.
Proof. intros. nia. Qed.

(** ** related loops *)
Definition orel {A B} (R : A -> B -> Prop) (x : outcome A) (y : outcome B) : Prop :=
  match x, y with
  | Ok a, Ok b => R a b
  | Throw e, Throw e' => e = e'
  | UB, UB => True
  | _, _ => False
  end.
Lemma orel_bind {A B C D} (R : A -> B -> Prop) (Q : C -> D -> Prop) x y f g :
  orel R x y -> (forall a b, R a b -> orel Q (f a) (g b)) -> orel Q (bind x f) (bind y g).
Proof. destruct x, y; simpl; intros; auto; contradiction. Qed.
Lemma orel_impl {A B} (R Q : A -> B -> Prop) x y : orel R x y -> (forall a b, R a b -> Q a b) -> orel Q x y.
Proof. destruct x, y; simpl; auto. Qed.
Lemma for_n_rel {S1 S2} (R : nat -> S1 -> S2 -> Prop) f g n : forall lo s1 s2, R lo s1 s2 ->
  (forall i a b, lo <= i < lo + n -> R i a b -> orel (R (S i)) (f i a) (g i b)) ->
  orel (R (lo + n)) (for_n lo n f s1) (for_n lo n g s2).
Proof.
  induction n as [|n IH]; intros lo s1 s2 H0 Hs; simpl.
  - now rewrite Nat.add_0_r.
  - eapply orel_bind; [apply Hs; [lia|exact H0]|]. intros a b Hab.
    replace (lo + S n) with (S lo + n) by lia. apply IH; auto. intros; apply Hs; auto; lia.
Qed.
Lemma for_rel {S1 S2} (R : nat -> S1 -> S2 -> Prop) f g lo hi s1 s2 : lo <= hi -> R lo s1 s2 ->
  (forall i a b, lo <= i < hi -> R i a b -> orel (R (S i)) (f i a) (g i b)) ->
  orel (R hi) (for_ lo hi f s1) (for_ lo hi g s2).
Proof.
  intros Hle H0 Hs. unfold for_. replace hi with (lo + (hi - lo)) at 1 by lia. apply for_n_rel; auto.
  intros; apply Hs; auto; lia.
Qed.
Lemma for_n_inv {S} (R : nat -> S -> Prop) f n : forall lo s s', R lo s ->
  (forall i a b, lo <= i < lo + n -> R i a -> f i a = Ok b -> R (Datatypes.S i) b) ->
  for_n lo n f s = Ok s' -> R (lo + n) s'.
Proof.
  induction n as [|n IH]; intros lo s s' H0 Hs E; simpl in E.
  - inversion E; subst. now rewrite Nat.add_0_r.
  - destruct (f lo s) as [s1| |] eqn:E1; simpl in E; try discriminate.
    replace (lo + Datatypes.S n) with (Datatypes.S lo + n) by lia. eapply IH; [|intros; eapply Hs; eauto; lia|exact E].
    eapply Hs; eauto. lia.
Qed.
Lemma for_inv {S} (R : nat -> S -> Prop) f lo hi s s' : lo <= hi -> R lo s ->
  (forall i a b, lo <= i < hi -> R i a -> f i a = Ok b -> R (Datatypes.S i) b) ->
  for_ lo hi f s = Ok s' -> R hi s'.
Proof.
  intros Hle H0 Hs E. replace hi with (lo + (hi - lo)) by lia. eapply for_n_inv; [exact H0| |exact E].
  intros; eapply Hs; eauto; lia.
Qed.

Section P.
Context {T : Type} `{Num T}.

(** ** differentiation blocks *)
Definition blocks_ok (b : basis T) (l : list (mat T)) : Prop :=
  forall i m, nth_error l i = Some m -> b_impl b i = Ok m.

Lemma impl_0 b : b_impl b 0 = Ok (mident (b_dim b)).
Proof. destruct b; reflexivity. Qed.
Lemma blocks_init b : blocks_ok b (bs_blocks (bs_init b)).
Proof. intros i m E. destruct i as [|i]; [inversion E; apply impl_0|destruct i; discriminate E]. Qed.

(** the value of an order-[k] request: every block up to [k] is computed *)
Fixpoint first_fail (b : basis T) (lo n : nat) : outcome unit :=
  match n with
  | O => Ok tt
  | S n' => _ <- b_impl b lo ;; first_fail b (S lo) n'
  end.
Definition block_of (b : basis T) (k : nat) : outcome (mat T) :=
  _ <- first_fail b 0 (S k) ;; b_impl b k.

Lemma first_fail_app b n m : forall lo, first_fail b lo (n + m) = (_ <- first_fail b lo n ;; first_fail b (lo + n) m).
Proof.
  induction n as [|n IH]; intros lo; simpl.
  - now rewrite Nat.add_0_r.
  - destruct (b_impl b lo); simpl; auto. rewrite IH. now replace (lo + S n) with (S lo + n) by lia.
Qed.
Lemma blocks_first_fail b l : blocks_ok b l -> first_fail b 0 (length l) = Ok tt.
Proof.
  induction l as [|m l IH] using rev_ind; intros HB; auto.
  rewrite app_length. simpl. rewrite first_fail_app. rewrite IH; simpl.
  - rewrite (HB (length l) m); auto. rewrite nth_error_app2, Nat.sub_diag by lia. reflexivity.
  - intros i x E. apply HB. rewrite nth_error_app1; auto. apply nth_error_Some. congruence.
Qed.

Lemma push_blocks_spec b n : forall l, blocks_ok b l ->
  match first_fail b (length l) n with
  | Ok _ => exists l', push_blocks b n l = Ok l' /\ blocks_ok b l' /\ length l' = length l + n
  | Throw e => push_blocks b n l = Throw e
  | UB => push_blocks b n l = UB
  end.
Proof.
  induction n as [|n IH]; intros l HB; simpl.
  - exists l. auto.
  - destruct (b_impl b (length l)) as [m|e|] eqn:Em; simpl; auto.
    assert (HB' : blocks_ok b (l ++ [m])).
    { intros i x E. destruct (Nat.lt_ge_cases i (length l)).
      - rewrite nth_error_app1 in E by auto. auto.
      - rewrite nth_error_app2 in E by auto. destruct (i - length l) as [|k] eqn:Ek; simpl in E.
        + inversion E; subst. now replace i with (length l) by lia.
        + destruct k; discriminate E. }
    specialize (IH _ HB'). rewrite app_length in IH. simpl in IH. rewrite Nat.add_1_r in IH.
    destruct (first_fail b (S (length l)) n); auto.
    destruct IH as (l' & E & Hl & Len). exists l'. split; auto. split; auto. lia.
Qed.

Lemma get_block_spec b k s : blocks_ok b (bs_blocks s) ->
  match block_of b k with
  | Ok m => exists s', get_block b k s = Ok (m, s') /\ blocks_ok b (bs_blocks s') /\
             bs_cont s' = bs_cont s /\ bs_der s' = bs_der s
  | Throw e => get_block b k s = Throw e
  | UB => get_block b k s = UB
  end.
Proof.
  intros HB. set (l := bs_blocks s) in *. unfold get_block, block_of. fold l.
  pose proof (push_blocks_spec b (S k - length l) l HB) as PS.
  destruct (Nat.le_gt_cases (length l) (S k)) as [Hl|Hl].
  - replace (first_fail b 0 (S k)) with (first_fail b 0 (length l + (S k - length l))) by (f_equal; lia).
    rewrite first_fail_app, (blocks_first_fail b l HB). cbn [bind Nat.add].
    destruct (first_fail b (length l) (S k - length l)) as [u|e|] eqn:Ef; cbn [bind].
    + destruct PS as (l' & E & HB' & Len). rewrite E. cbn [bind].
      destruct (nth_error l' k) as [m|] eqn:En.
      * rewrite (HB' k m En). cbn [of_option bind]. eexists. split; [reflexivity|]. auto.
      * apply nth_error_None in En. lia.
    + now rewrite PS.
    + now rewrite PS.
  - replace (S k - length l) with 0 in * by lia. simpl in PS. cbn [push_blocks bind].
    destruct (nth_error l k) as [m|] eqn:En.
    2: { apply nth_error_None in En. lia. }
    cbn [of_option bind].
    assert (E : first_fail b 0 (S k) = Ok tt).
    { pose proof (blocks_first_fail b l HB) as F. replace (length l) with (S k + (length l - S k)) in F by lia.
      rewrite first_fail_app in F. destruct (first_fail b 0 (S k)) as [[]| |]; simpl in F; auto; discriminate F. }
    rewrite E. cbn [bind]. rewrite (HB k m En). eexists. split; [reflexivity|]. auto.
Qed.

Lemma get_block_init b k :
  match block_of b k with
  | Ok m => exists s', get_block b k (bs_init b) = Ok (m, s')
  | Throw e => get_block b k (bs_init b) = Throw e
  | UB => get_block b k (bs_init b) = UB
  end.
Proof.
  pose proof (get_block_spec b k (bs_init b) (blocks_init b)) as G.
  destruct (block_of b k); auto. destruct G as (s' & E & _). eauto.
Qed.

(** two states that have the right blocks and the same maps *)
Definition sim (b : basis T) (s s' : bstate T) : Prop :=
  blocks_ok b (bs_blocks s) /\ blocks_ok b (bs_blocks s').
Lemma get_block_rel b k s s' : sim b s s' ->
  orel (fun x y => fst x = fst y /\ sim b (snd x) (snd y) /\
                   bs_cont (snd x) = bs_cont s /\ bs_der (snd x) = bs_der s /\
                   bs_cont (snd y) = bs_cont s' /\ bs_der (snd y) = bs_der s')
       (get_block b k s) (get_block b k s').
Proof.
  intros [H1 H2]. pose proof (get_block_spec b k s H1) as A. pose proof (get_block_spec b k s' H2) as B.
  destruct (block_of b k).
  - destruct A as (t & -> & ? & ? & ?). destruct B as (t' & -> & ? & ? & ?). simpl. repeat split; auto.
  - rewrite A, B. reflexivity.
  - rewrite A, B. exact I.
Qed.

(** ** sparse insertion: [f] stores exactly the triplets of [E] *)
Definition ins (rows cols : nat) (E : nat -> nat -> T -> Prop) (f : smat T -> outcome (smat T)) : Prop :=
  forall m, srows m = rows -> scols m = cols ->
    (forall a c x, E a c x -> a < rows /\ c < cols /\ sget m a c = None) ->
    exists m', f m = Ok m' /\ srows m' = rows /\ scols m' = cols /\
      (forall a c x, E a c x -> sget m' a c = Some x) /\
      (forall a c, (forall x, ~ E a c x) -> sget m' a c = sget m a c).

Lemma ins_one rows cols i j x : ins rows cols (fun a c y => a = i /\ c = j /\ y = x) (fun m => sinsert m i j x).
Proof.
  intros m R C F. destruct (F i j x) as (Hi & Hj & Hn); [auto|]. unfold sinsert. rewrite R, C.
  destruct (Nat.ltb_spec i rows); [|lia]. destruct (Nat.ltb_spec j cols); [|lia]. simpl. rewrite Hn.
  eexists. split; [reflexivity|]. split; [reflexivity|]. split; [reflexivity|]. cbn [sget]. split.
  - intros a c y (-> & -> & ->). now rewrite !Nat.eqb_refl.
  - intros a c Hx. destruct (Nat.eqb_spec a i); [|reflexivity]. destruct (Nat.eqb_spec c j); [|reflexivity].
    exfalso. apply (Hx x). auto.
Qed.

Lemma ins_seq rows cols (E1 E2 : nat -> nat -> T -> Prop) f g :
  ins rows cols E1 f -> ins rows cols E2 g -> (forall a c x y, E1 a c x -> E2 a c y -> False) ->
  ins rows cols (fun a c x => E1 a c x \/ E2 a c x) (fun m => m' <- f m ;; g m').
Proof.
  intros I1 I2 D m R C F.
  destruct (I1 m R C) as (m1 & Ef & R1 & C1 & S1 & N1). { intros a c x Hx. apply (F a c x). auto. }
  rewrite Ef. cbn [bind].
  destruct (I2 m1 R1 C1) as (m2 & Eg & R2 & C2 & S2 & N2).
  { intros a c x Hx. destruct (F a c x) as (Ha & Hc & Hn); [auto|]. split; auto. split; auto.
    rewrite N1; auto. intros y Hy. eapply D; eauto. }
  exists m2. split; auto. split; auto. split; auto. split.
  - intros a c x [Hx|Hx]; auto. rewrite N2; auto. intros y Hy. eapply D; eauto.
  - intros a c Hx. rewrite N2, N1; auto; intros x Hy; apply (Hx x); auto.
Qed.

Lemma ins_for_n rows cols (E : nat -> nat -> nat -> T -> Prop) f n : forall lo,
  (forall i, lo <= i < lo + n -> ins rows cols (E i) (f i)) ->
  (forall i j a c x y, lo <= i < lo + n -> lo <= j < lo + n -> i <> j -> E i a c x -> E j a c y -> False) ->
  ins rows cols (fun a c x => exists i, lo <= i < lo + n /\ E i a c x) (for_n lo n f).
Proof.
  induction n as [|n IH]; intros lo Hf D; simpl.
  - intros m R C F. exists m. split; auto. split; auto. split; auto. split; auto.
    intros a c x (i & Hi & _). lia.
  - intros m R C F.
    assert (I1 : ins rows cols (E lo) (f lo)) by (apply Hf; lia).
    assert (I2 : ins rows cols (fun a c x => exists i, S lo <= i < S lo + n /\ E i a c x) (for_n (S lo) n f)).
    { apply IH; [intros; apply Hf; lia|]. intros; eapply (D i j); eauto; lia. }
    destruct (ins_seq rows cols _ _ _ _ I1 I2) with (m := m) as (m' & Em & R' & C' & S' & N'); auto.
    + intros a c x y Hx (i & Hi & Hy). eapply (D lo i); eauto; lia.
    + intros a c x [Hx|(i & Hi & Hx)]; apply (F a c x); [exists lo|exists i]; split; auto; lia.
    + exists m'. split; auto. split; auto. split; auto. split.
      * intros a c x (i & Hi & Hx). apply S'. destruct (Nat.eq_dec i lo) as [->|]; auto.
        right. exists i. split; auto; lia.
      * intros a c Hx. apply N'. intros x [Hy|(i & Hi & Hy)]; apply (Hx x); [exists lo|exists i]; split; auto; lia.
Qed.
Lemma ins_for rows cols (E : nat -> nat -> nat -> T -> Prop) f lo hi :
  (forall i, lo <= i < hi -> ins rows cols (E i) (f i)) ->
  (forall i j a c x y, lo <= i < hi -> lo <= j < hi -> i <> j -> E i a c x -> E j a c y -> False) ->
  ins rows cols (fun a c x => exists i, lo <= i < hi /\ E i a c x) (for_ lo hi f).
Proof.
  intros Hf D. unfold for_. destruct (Nat.le_gt_cases lo hi) as [Hle|Hgt].
  - pose proof (ins_for_n rows cols E f (hi - lo) lo) as I. replace (lo + (hi - lo)) with hi in I by lia. apply I; auto.
  - replace (hi - lo) with 0 by lia. simpl. intros m R C F. exists m. split; auto. split; auto. split; auto.
    split; auto. intros a c x (i & Hi & _). lia.
Qed.
Lemma ins_ext rows cols E (f g : smat T -> outcome (smat T)) : ins rows cols E f -> (forall m, g m = f m) -> ins rows cols E g.
Proof. intros I X m R C F. rewrite X. apply I; auto. Qed.

(** ** one side of the continuity rows *)
Definition sideE (dim codom i0 iv : nat) (V : nat -> T) (a c : nat) (x : T) : Prop :=
  exists cc bb, cc < codom /\ bb < dim /\ a = i0 + cc /\ c = (iv * codom + cc) * dim + bb /\ x = V bb.

Lemma cont_side_ins rows cols dim codom i0 iv der (buf : mat T) nb V sgn :
  mat_is buf nb dim V -> der < nb ->
  ins rows cols (sideE dim codom i0 iv (fun bb => sgn (V der bb))) (cont_side dim codom i0 (iv * dim * codom) der buf sgn).
Proof.
  intros MB Hd. unfold cont_side.
  assert (I : ins rows cols (fun a c x => exists cc, 0 <= cc < codom /\ exists bb, 0 <= bb < dim /\
              (a = i0 + cc /\ c = iv * dim * codom + bb + dim * cc /\ x = sgn (V der bb)))
      (for_ 0 codom (fun cc m => for_ 0 dim (fun bb m => x <- mread buf der bb ;;
         sinsert m (i0 + cc) (iv * dim * codom + bb + dim * cc) (sgn x)) m))).
  { apply ins_for.
    - intros cc Hcc. apply ins_for.
      + intros bb Hbb. eapply ins_ext; [apply ins_one|]. intros m. rewrite (mread_ok buf nb dim V) by (auto; lia). reflexivity.
      + intros i j a c x y Hi Hj Hne (_ & E1 & _) (_ & E2 & _). lia.
    - intros i j a c x y Hi Hj Hne (b1 & _ & E1 & _) (b2 & _ & E2 & _). lia. }
  intros m R C F.
  destruct (I m R C) as (m' & Em & R' & C' & S' & N').
  { intros a c x (cc & Hcc & bb & Hbb & -> & -> & ->). apply (F _ _ (sgn (V der bb))).
    exists cc, bb. repeat split; try lia; nia. }
  exists m'. split; auto. split; auto. split; auto. split.
  - intros a c x (cc & bb & Hcc & Hbb & -> & -> & ->). apply S'. exists cc. split; [lia|]. exists bb. split; [lia|].
    repeat split; auto; nia.
  - intros a c Hx. apply N'. intros x (cc & Hcc & bb & Hbb & -> & -> & ->). apply (Hx (sgn (V der bb))).
    exists cc, bb. repeat split; try lia; nia.
Qed.
End P.

Section Q.
Context {T : Type} `{Num T}.

(** ** stored coefficients stay inside the matrix *)
Definition sp_in (rows cols : nat) (m : smat T) : Prop :=
  srows m = rows /\ scols m = cols /\ forall a c, sget m a c <> None -> a < rows /\ c < cols.
Lemma sp_new r c : sp_in r c (snew r c).
Proof. split; [reflexivity|]. split; [reflexivity|]. intros a b E. exfalso. apply E. reflexivity. Qed.
Lemma sp_insert r c m i j x m' : sp_in r c m -> sinsert m i j x = Ok m' -> sp_in r c m'.
Proof.
  intros (R & C & I) E. unfold sinsert in E.
  destruct (Nat.ltb_spec i (srows m)); simpl in E; [|discriminate].
  destruct (Nat.ltb_spec j (scols m)); simpl in E; [|discriminate].
  destruct (sget m i j); [discriminate|]. inversion E; subst; clear E.
  split; [reflexivity|]. split; [reflexivity|]. intros a b. cbn [sget].
  destruct (Nat.eqb_spec a i); destruct (Nat.eqb_spec b j); simpl; subst; auto.
Qed.
Lemma for_sp r c lo hi f (m m' : smat T) : sp_in r c m ->
  (forall i a b, sp_in r c a -> f i a = Ok b -> sp_in r c b) -> for_ lo hi f m = Ok m' -> sp_in r c m'.
Proof.
  intros S0 Hf E. destruct (Nat.le_gt_cases lo hi) as [Hle|Hgt].
  - eapply (for_inv (fun _ m => sp_in r c m)); eauto.
  - rewrite for_empty in E by lia. now inversion E; subst.
Qed.
Lemma cont_side_sp r c dim codom i0 j0 der buf sgn m m' : sp_in r c m ->
  cont_side dim codom i0 j0 der buf sgn m = Ok m' -> sp_in r c m'.
Proof.
  intros S0. unfold cont_side. apply for_sp; auto. intros cc a b Sa. apply for_sp; auto.
  intros bb a' b' Sa' E. apply bind_ok in E as (x & _ & E). eapply sp_insert; eauto.
Qed.
Lemma cont_fill_sp dim codom nm1 ord L R m : cont_fill dim codom nm1 ord L R = Ok m ->
  sp_in (nm1 * codom * (ord + 1)) (S nm1 * codom * dim) m.
Proof.
  unfold cont_fill. apply for_sp; [apply sp_new|]. intros der a b Sa. apply for_sp; auto.
  intros iv a' b' Sa' E. apply bind_ok in E as (x & E1 & E2). eapply cont_side_sp; [|exact E2].
  eapply cont_side_sp; eauto.
Qed.
Lemma der_fill_sp dim blocks d m : der_fill dim blocks d = Ok m -> sp_in (blocks * dim) (blocks * dim) m.
Proof.
  unfold der_fill. apply for_sp; [apply sp_new|]. intros k a b Sa. apply for_sp; auto.
  intros i a' b' Sa'. apply for_sp; auto. intros j a2 b2 Sa2 E. apply bind_ok in E as (x & _ & E). eapply sp_insert; eauto.
Qed.

(** ** source/destination pairs and the rescaling loops *)
Definition related (per : nat) (src dest : smat T) : Prop :=
  per <= srows src /\ sp_in (srows src) (scols src) src /\ srows dest = srows src /\ scols dest = scols src /\
  (forall a c, sget src a c = None <-> sget dest a c = None) /\
  (forall a c, a < per -> sget dest a c = sget src a c).
Lemma related_refl per r c m : per <= r -> sp_in r c m -> related per m m.
Proof.
  intros Hp (R & C & I). subst. split; [exact Hp|]. split; [split; [reflexivity|split; [reflexivity|exact I]]|].
  split; [reflexivity|]. split; [reflexivity|]. split; [tauto|auto].
Qed.
Definition smat_eq (m m' : smat T) : Prop :=
  srows m = srows m' /\ scols m = scols m' /\ forall a c, sget m a c = sget m' a c.

Lemma related_set per src d k col x : related per src d -> per <= k -> sget d k col <> None ->
  related per src (mksmat (srows d) (scols d) (fun a c => if (a =? k) && (c =? col) then Some x else sget d a c)).
Proof.
  intros (P & I & R & C & Pat & Low) Hk Hs. split; auto. split; auto. split; auto. split; auto. cbn [sget]. split.
  - intros a c. destruct (Nat.eqb_spec a k); destruct (Nat.eqb_spec c col); simpl; subst; try apply Pat.
    split; [|discriminate]. intros E. apply Pat in E. contradiction.
  - intros a c Ha. destruct (Nat.eqb_spec a k); [lia|]. simpl. auto.
Qed.

Lemma scale_row_rel per w fac src k d1 d2 : per <= k ->
  related per src d1 -> related per src d2 -> (forall a c, a < k -> sget d1 a c = sget d2 a c) ->
  orel (fun d1 d2 => related per src d1 /\ related per src d2 /\ (forall a c, a < S k -> sget d1 a c = sget d2 a c))
    (scale_row w fac src k d1) (scale_row w fac src k d2).
Proof.
  intros Hk R1 R2 E. unfold scale_row.
  assert (C1 : scols d1 = scols src) by apply R1. assert (C2 : scols d2 = scols src) by apply R2. rewrite C1, C2.
  eapply orel_impl; [apply (for_rel (fun col d1 d2 => related per src d1 /\ related per src d2 /\
     (forall a c, a < k -> sget d1 a c = sget d2 a c) /\ (forall c, c < col -> sget d1 k c = sget d2 k c)))|].
  - lia.
  - repeat (split; auto). lia.
  - intros col a b Hc (Ra & Rb & El & Ec).
    pose proof (proj1 (proj2 (proj2 (proj2 (proj2 Ra)))) k col) as Pa.
    pose proof (proj1 (proj2 (proj2 (proj2 (proj2 Rb)))) k col) as Pb.
    destruct (sget a k col) as [x|] eqn:Ea.
    + destruct (sget b k col) as [y|] eqn:Eb.
      * destruct (sget src k col) as [z|] eqn:Es; [|exfalso; destruct Pa as [Pa _]; specialize (Pa eq_refl); discriminate].
        destruct (vread fac (col / w)) as [f| |]; simpl; auto.
        split; [apply related_set; auto; congruence|]. split; [apply related_set; auto; congruence|].
        split.
        -- intros a' c' Ha. destruct (Nat.eqb_spec a' k); [lia|]. simpl. auto.
        -- intros c' Hc'. rewrite Nat.eqb_refl. simpl. destruct (Nat.eqb_spec c' col); auto. apply Ec. lia.
      * exfalso. apply proj2 in Pb. specialize (Pb eq_refl). apply Pa in Pb. discriminate.
    + destruct (sget b k col) as [y|] eqn:Eb.
      * exfalso. apply proj2 in Pa. specialize (Pa eq_refl). apply Pb in Pa. discriminate.
      * simpl. split; auto. split; auto. split; auto. intros c' Hc'. destruct (Nat.eq_dec c' col) as [->|].
        -- congruence.
        -- apply Ec. lia.
  - cbv beta. intros a b (Ra & Rb & El & Ec). split; auto. split; auto. intros i c Hi.
    destruct (Nat.eq_dec i k) as [->|]; [|apply El; lia].
    destruct (Nat.lt_ge_cases c (scols src)) as [|Hge]; [apply Ec; auto|].
    assert (Es : sget src k c = None).
    { destruct (sget src k c) eqn:X; auto. exfalso. destruct Ra as (_ & (_ & _ & I) & _).
      destruct (I k c); [congruence|lia]. }
    pose proof (proj1 (proj1 (proj2 (proj2 (proj2 (proj2 Ra)))) k c) Es) as Pa.
    pose proof (proj1 (proj1 (proj2 (proj2 (proj2 (proj2 Rb)))) k c) Es) as Pb. congruence.
Qed.

Lemma scale_all_rel per w (fac : nat -> vec T) src d1 d2 : related per src d1 -> related per src d2 ->
  orel (fun a b => smat_eq a b /\ related per src a /\ related per src b)
    (for_ per (srows d1) (fun r d => scale_row w (fac r) src r d) d1)
    (for_ per (srows d2) (fun r d => scale_row w (fac r) src r d) d2).
Proof.
  intros R1 R2. assert (C1 : srows d1 = srows src) by apply R1. assert (C2 : srows d2 = srows src) by apply R2.
  rewrite C1, C2.
  eapply orel_impl; [apply (for_rel (fun k d1 d2 => related per src d1 /\ related per src d2 /\
      (forall a c, a < k -> sget d1 a c = sget d2 a c)))|].
  - apply R1.
  - split; auto. split; auto. intros a c Ha. destruct R1 as (_ & _ & _ & _ & _ & L1). destruct R2 as (_ & _ & _ & _ & _ & L2).
    rewrite L1, L2; auto.
  - intros k a b Hk (Ra & Rb & E). apply scale_row_rel; auto. lia.
  - cbv beta. intros a b (Ra & Rb & E). split; auto. 
    assert (Ar : srows a = srows src) by apply Ra. assert (Br : srows b = srows src) by apply Rb.
    assert (Ac : scols a = scols src) by apply Ra. assert (Bc : scols b = scols src) by apply Rb.
    split; [congruence|]. split; [congruence|]. intros i c.
    destruct (Nat.lt_ge_cases i (srows src)) as [|Hge]; [apply E; auto|].
    assert (Es : sget src i c = None).
    { destruct (sget src i c) eqn:X; auto. exfalso. destruct Ra as (_ & (_ & _ & I) & _).
      destruct (I i c); [congruence|lia]. }
    pose proof (proj1 (proj1 (proj2 (proj2 (proj2 (proj2 Ra)))) i c) Es) as Pa.
    pose proof (proj1 (proj1 (proj2 (proj2 (proj2 (proj2 Rb)))) i c) Es) as Pb. congruence.
Qed.

(** ** building does not depend on the state *)
Lemma cont_bufs_rel b ord s s' : sim b s s' ->
  orel (fun x y => fst x = fst y /\ sim b (snd x) (snd y) /\
      bs_cont (snd x) = bs_cont s /\ bs_der (snd x) = bs_der s /\
      bs_cont (snd y) = bs_cont s' /\ bs_der (snd y) = bs_der s')
    (cont_bufs b ord s) (cont_bufs b ord s').
Proof.
  intros S0. unfold cont_bufs. eapply orel_bind; [apply get_block_rel; exact S0|].
  intros [m t] [m' t'] (Em & St & E1 & E2 & E3 & E4). cbn [fst snd] in *.
  destruct (b_eval_deriv b (nopp n1) c2 0 (vnew (b_dim b))) as [l0| |]; simpl; auto.
  destruct (mset_row (mnew (S ord) (b_dim b)) 0 l0) as [L| |]; simpl; auto.
  destruct (b_eval_deriv b n1 c2 0 (vnew (b_dim b))) as [r0| |]; simpl; auto.
  destruct (mset_row (mnew (S ord) (b_dim b)) 0 r0) as [R| |]; simpl; auto.
  apply (for_rel (fun _ x y => fst x = fst y /\ sim b (snd x) (snd y) /\
      bs_cont (snd x) = bs_cont s /\ bs_der (snd x) = bs_der s /\
      bs_cont (snd y) = bs_cont s' /\ bs_der (snd y) = bs_der s')).
  - lia.
  - repeat (split; auto); apply St.
  - intros i [[L1 R1] t1] [[L2 R2] t2] Hi (EL & S1 & F1 & F2 & F3 & F4). cbn [fst snd] in *. inversion EL; subst L2 R2.
    eapply orel_bind; [apply get_block_rel; exact S1|].
    intros [d u] [d' u'] (Ed & Su & G1 & G2 & G3 & G4). cbn [fst snd] in *. subst d'.
    destruct (mrow d 0) as [l| |]; simpl; auto. destruct (mset_row L1 i l) as [L'| |]; simpl; auto.
    destruct (usub1 (mrows d)) as [k|]; simpl; auto. destruct (mrow d k) as [r| |]; simpl; auto.
    destruct (mset_row R1 i r) as [R'| |]; simpl; auto. repeat (split; try congruence); apply Su.
Qed.
Lemma cont_build_rel b n codom ord s s' : sim b s s' ->
  orel (fun x y => fst x = fst y /\ sim b (snd x) (snd y) /\
      bs_cont (snd x) = bs_cont s /\ bs_der (snd x) = bs_der s /\
      bs_cont (snd y) = bs_cont s' /\ bs_der (snd y) = bs_der s')
    (cont_build b n codom ord s) (cont_build b n codom ord s').
Proof.
  intros S0. unfold cont_build. destruct (usub1 n) as [nm1|]; simpl; auto.
  eapply orel_bind; [apply cont_bufs_rel; exact S0|].
  intros [[L R] t] [[L' R'] t'] (EL & St & E1 & E2 & E3 & E4). cbn [fst snd] in *. inversion EL; subst L' R'.
  destruct (cont_fill (b_dim b) codom nm1 ord L R) as [m| |]; simpl; auto.
  split; auto.
Qed.
Lemma der_build_rel b n codom ord s s' : sim b s s' ->
  orel (fun x y => fst x = fst y /\ sim b (snd x) (snd y) /\
      bs_cont (snd x) = bs_cont s /\ bs_der (snd x) = bs_der s /\
      bs_cont (snd y) = bs_cont s' /\ bs_der (snd y) = bs_der s')
    (der_build b n codom ord s) (der_build b n codom ord s').
Proof.
  intros S0. unfold der_build. eapply orel_bind; [apply get_block_rel; exact S0|].
  intros [d t] [d' t'] (Ed & St & E1 & E2 & E3 & E4). cbn [fst snd] in *. subst d'.
  destruct (der_fill (b_dim b) (n * codom) d) as [m| |]; simpl; auto. split; auto.
Qed.

(** ** state invariant *)
Definition binv (b : basis T) (s : bstate T) : Prop :=
  blocks_ok b (bs_blocks s) /\
  (forall n c o src dest, bs_cont s (n, c, o) = Some (src, dest) ->
     (exists t, cont_build b n c o (bs_init b) = Ok (src, t)) /\ related (c * (n - 1)) src dest) /\
  (forall n c o src dest, bs_der s (n, c, o) = Some (src, dest) ->
     (exists t, der_build b n c o (bs_init b) = Ok (src, t)) /\ related 0 src dest).
Lemma binv_init b : binv b (bs_init b).
Proof. split; [apply blocks_init|]. split; intros; discriminate. Qed.
Lemma binv_sim b s : binv b s -> sim b s (bs_init b).
Proof. intros (B & _). split; [exact B|apply blocks_init]. Qed.

Lemma key_eqb_true k k' : key_eqb k k' = true -> k = k'.
Proof.
  destruct k as [[a b] c], k' as [[a' b'] c']. unfold key_eqb. rewrite !andb_true_iff, !Nat.eqb_eq.
  intros [[-> ->] ->]. reflexivity.
Qed.
Lemma key_eqb_refl k : key_eqb k k = true.
Proof. destruct k as [[a b] c]. unfold key_eqb. now rewrite !Nat.eqb_refl. Qed.
Lemma upd_same {A} (m : key -> option A) k x : upd m k x k = Some x.
Proof. unfold upd. now rewrite key_eqb_refl. Qed.
Lemma upd_inv {A} (m : key -> option A) k x k' y : upd m k x k' = Some y -> (k' = k /\ y = x) \/ m k' = Some y.
Proof.
  unfold upd. destruct (key_eqb k k') eqn:E; auto. intros X. inversion X. apply key_eqb_true in E. left. split; congruence.
Qed.

Lemma get_block_binv b k s m s' : binv b s -> get_block b k s = Ok (m, s') -> binv b s'.
Proof.
  intros (B & C & D) E. pose proof (get_block_spec b k s B) as G. destruct (block_of b k); try congruence.
  destruct G as (t & Et & Bt & Ct & Dt). rewrite Et in E. inversion E; subst. split; auto. rewrite Ct, Dt. split; auto.
Qed.

(** the source of a continuity query and the invariant after looking it up *)
Lemma cont_lookup b n c o s : binv b s ->
  orel (fun s1 (s2 : bstate T) => binv b s1 /\ binv b s2 /\ exists src d1 d2,
          bs_cont s1 (n, c, o) = Some (src, d1) /\ bs_cont s2 (n, c, o) = Some (src, d2))
    (match bs_cont s (n, c, o) with
     | Some _ => Ok s
     | None => '(m, s) <- cont_build b n c o s ;;
               Ok (mkbs (bs_blocks s) (upd (bs_cont s) (n, c, o) (m, m)) (bs_der s))
     end)
    ('(m, s) <- cont_build b n c o (bs_init b) ;;
               Ok (mkbs (bs_blocks s) (upd (bs_cont s) (n, c, o) (m, m)) (bs_der s))).
Proof.
  intros I.
  assert (fresh : forall m t s0, sim b s0 (bs_init b) -> binv b s0 -> bs_cont t = bs_cont s0 -> bs_der t = bs_der s0 ->
     blocks_ok b (bs_blocks t) -> (exists t', cont_build b n c o (bs_init b) = Ok (m, t')) ->
     binv b (mkbs (bs_blocks t) (upd (bs_cont t) (n, c, o) (m, m)) (bs_der t))).
  { intros m t s0 _ (B & C & D) Ec Ed Bt Hm. split; [exact Bt|]. cbn [bs_cont bs_der]. rewrite Ec, Ed. split; auto.
    intros n' c' o' src dest X. apply upd_inv in X as [[X Y]|X]; [|auto].
    inversion X; inversion Y; subst. split; auto. destruct Hm as (t' & Hm).
    unfold cont_build in Hm. destruct n as [|nm1]; [discriminate|]. cbn [usub1] in Hm.
    apply bind_ok in Hm as ([[L R] u] & _ & Hm). apply bind_ok in Hm as (m0 & Em & Hm). inversion Hm; subst.
    apply cont_fill_sp in Em. eapply related_refl; [|exact Em]. cbn [Nat.sub]. rewrite Nat.sub_0_r. nia. }
  destruct (bs_cont s (n, c, o)) as [[src dest]|] eqn:Ek.
  - destruct I as (B & C & D). destruct (C n c o src dest Ek) as ((t & Et) & Rel).
    rewrite Et. simpl. split; [split; auto|].
    pose proof (cont_build_rel b n c o (bs_init b) (bs_init b) (conj (blocks_init b) (blocks_init b))) as X.
    rewrite Et in X. simpl in X. destruct X as (_ & (Bt & _) & Ec & Ed & _).
    split.
    + apply (fresh src t (bs_init b)); auto; [split; apply blocks_init|apply binv_init|eauto].
    + exists src, dest, src. split; auto. apply upd_same.
  - pose proof (cont_build_rel b n c o s (bs_init b) (binv_sim b s I)) as X.
    destruct (cont_build b n c o s) as [[m t]| |] eqn:E1; destruct (cont_build b n c o (bs_init b)) as [[m' t']| |] eqn:E2;
      simpl in X |- *; auto.
    destruct X as (Em & (Bt & Bt') & F1 & F2 & F3 & F4). subst m'.
    split; [|split].
    + apply (fresh m t s); auto; [apply binv_sim; auto|eauto].
    + apply (fresh m t' (bs_init b)); auto; [split; apply blocks_init|apply binv_init|eauto].
    + exists m, m, m. split; apply upd_same.
Qed.
Lemma der_lookup b n c o s : binv b s ->
  orel (fun s1 (s2 : bstate T) => binv b s1 /\ binv b s2 /\ exists src d1 d2,
          bs_der s1 (n, c, o) = Some (src, d1) /\ bs_der s2 (n, c, o) = Some (src, d2))
    (match bs_der s (n, c, o) with
     | Some _ => Ok s
     | None => '(m, s) <- der_build b n c o s ;;
               Ok (mkbs (bs_blocks s) (bs_cont s) (upd (bs_der s) (n, c, o) (m, m)))
     end)
    ('(m, s) <- der_build b n c o (bs_init b) ;;
               Ok (mkbs (bs_blocks s) (bs_cont s) (upd (bs_der s) (n, c, o) (m, m)))).
Proof.
  intros I.
  assert (fresh : forall m t s0, binv b s0 -> bs_cont t = bs_cont s0 -> bs_der t = bs_der s0 ->
     blocks_ok b (bs_blocks t) -> (exists t', der_build b n c o (bs_init b) = Ok (m, t')) ->
     binv b (mkbs (bs_blocks t) (bs_cont t) (upd (bs_der t) (n, c, o) (m, m)))).
  { intros m t s0 (B & C & D) Ec Ed Bt Hm. split; [exact Bt|]. cbn [bs_cont bs_der]. rewrite Ec, Ed. split; auto.
    intros n' c' o' src dest X. apply upd_inv in X as [[X Y]|X]; [|auto].
    inversion X; inversion Y; subst. split; auto. destruct Hm as (t' & Hm).
    unfold der_build in Hm. apply bind_ok in Hm as ([d u] & _ & Hm). apply bind_ok in Hm as (m0 & Em & Hm). inversion Hm; subst.
    apply der_fill_sp in Em. eapply related_refl; [|exact Em]. lia. }
  destruct (bs_der s (n, c, o)) as [[src dest]|] eqn:Ek.
  - destruct I as (B & C & D). destruct (D n c o src dest Ek) as ((t & Et) & Rel).
    rewrite Et. simpl. split; [split; auto|].
    pose proof (der_build_rel b n c o (bs_init b) (bs_init b) (conj (blocks_init b) (blocks_init b))) as X.
    rewrite Et in X. simpl in X. destruct X as (_ & (Bt & _) & Ec & Ed & _).
    split.
    + apply (fresh src t (bs_init b)); auto; [apply binv_init|eauto].
    + exists src, dest, src. split; auto. apply upd_same.
  - pose proof (der_build_rel b n c o s (bs_init b) (binv_sim b s I)) as X.
    destruct (der_build b n c o s) as [[m t]| |] eqn:E1; destruct (der_build b n c o (bs_init b)) as [[m' t']| |] eqn:E2;
      simpl in X |- *; auto.
    destruct X as (Em & (Bt & Bt') & F1 & F2 & F3 & F4). subst m'.
    split; [|split].
    + apply (fresh m t s); auto. eauto.
    + apply (fresh m t' (bs_init b)); auto; [apply binv_init|eauto].
    + exists m, m, m. split; apply upd_same.
Qed.

Lemma cont_query_rel b n c o taus s : binv b s ->
  orel (fun x y => smat_eq (fst x) (fst y) /\ binv b (snd x))
    (continuity_matrix b n c o taus s) (continuity_matrix b n c o taus (bs_init b)).
Proof.
  intros I. unfold continuity_matrix. cbn [bs_init bs_cont].
  eapply orel_bind; [apply (cont_lookup b n c o s I)|].
  intros s1 s2 (I1 & I2 & src & d1 & d2 & E1 & E2). rewrite E1, E2. cbn [of_option bind].
  destruct (proj1 (proj2 I1) _ _ _ _ _ E1) as (Hsrc & R1). destruct (proj1 (proj2 I2) _ _ _ _ _ E2) as (_ & R2).
  eapply orel_bind; [apply (scale_all_rel (c * (n - 1)) (b_dim b * c) (fun r => deriv_factor taus (r / (c * (n - 1)))) src d1 d2 R1 R2)|].
  intros a a' (Eq & Ra & Ra'). simpl. split; auto. destruct I1 as (B & C & D). split; auto. cbn [bs_cont bs_der]. split; auto.
  intros n' c' o' sr de X. apply upd_inv in X as [[X Y]|X]; auto. inversion X; inversion Y; subst. auto.
Qed.
Lemma der_query_rel b n c o taus s : binv b s ->
  orel (fun x y => smat_eq (fst x) (fst y) /\ binv b (snd x))
    (gspline_derivative_matrix b n c o taus s) (gspline_derivative_matrix b n c o taus (bs_init b)).
Proof.
  intros I. unfold gspline_derivative_matrix. cbn [bs_init bs_der].
  eapply orel_bind; [apply (der_lookup b n c o s I)|].
  intros s1 s2 (I1 & I2 & src & d1 & d2 & E1 & E2). rewrite E1, E2. cbn [of_option bind].
  destruct (proj2 (proj2 I1) _ _ _ _ _ E1) as (Hsrc & R1). destruct (proj2 (proj2 I2) _ _ _ _ _ E2) as (_ & R2).
  eapply orel_bind; [apply (scale_all_rel 0 (b_dim b * c) (fun r => deriv_factor taus o) src d1 d2 R1 R2)|].
  intros a a' (Eq & Ra & Ra'). simpl. split; auto. destruct I1 as (B & C & D). split; auto. cbn [bs_cont bs_der]. split; auto.
  intros n' c' o' sr de X. apply upd_inv in X as [[X Y]|X]; auto. inversion X; inversion Y; subst. auto.
Qed.

Lemma serve_binv b q s s' : binv b s -> serve b q s = Ok s' -> binv b s'.
Proof.
  intros I E. destruct q as [k|n c o t|n c o t|]; simpl in E.
  - apply bind_ok in E as ([m u] & E1 & E2). inversion E2; subst. eapply get_block_binv; eauto.
  - pose proof (cont_query_rel b n c o t s I) as X. apply bind_ok in E as ([m u] & E1 & E2). inversion E2; subst.
    rewrite E1 in X. destruct (continuity_matrix b n c o t (bs_init b)); simpl in X; try contradiction. apply X.
  - pose proof (der_query_rel b n c o t s I) as X. apply bind_ok in E as ([m u] & E1 & E2). inversion E2; subst.
    rewrite E1 in X. destruct (gspline_derivative_matrix b n c o t (bs_init b)); simpl in X; try contradiction. apply X.
  - inversion E; subst. destruct I as (B & _). split; auto. split; intros; discriminate.
Qed.
Lemma serve_all_binv b l : forall s s', binv b s -> serve_all b l s = Ok s' -> binv b s'.
Proof.
  induction l as [|q l IH]; simpl; intros s s' I E.
  - inversion E; subst; auto.
  - apply bind_ok in E as (s1 & E1 & E2). eapply IH; [|exact E2]. eapply serve_binv; eauto.
Qed.
End Q.
