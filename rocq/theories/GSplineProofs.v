(** Evaluation of splines, for any arithmetic. *)
From Coq Require Import List Arith Lia Bool ZArith.
From Verif Require Import Num Outcome LinAlg LegendreModel LegendreProofs LagrangeModel LagrangeProofs
  Basis0101Model Basis0101Proofs BasisModel ToolsModel GSplineModel.
Import ListNotations.
Local Open Scope nat_scope.
Local Open Scope num_scope.

Section G.
Context {T : Type} `{HN : Num T}.

(** the object has the sizes its constructor gives it *)
Definition bok (b : basis T) : Prop :=
  match b with
  | BLegendre d _ => (2 <= d)%nat
  | BLagrange p w _ => exists x w', vec_is p (vlen p) x /\ vec_is w (vlen p) w'
  | B0101 _ => True
  end.

(** what eval_on_window writes *)
Definition bval (b : basis T) (s tau : T) (i : nat) : T :=
  match b_eval b s tau (vnew (b_dim b)) with
  | Ok v => match vget v i with Some x => x | None => n0 end
  | _ => n0
  end.
Lemma bval_is (b : basis T) s tau v f : b_eval b s tau (vnew (b_dim b)) = Ok v -> vec_is v (b_dim b) f ->
  forall i, (i < b_dim b)%nat -> bval b s tau i = f i.
Proof. intros E [_ V] i Hi. unfold bval. rewrite E. now rewrite V. Qed.

Lemma b_eval_gen (b : basis T) s tau buff : bok b -> vlen buff = b_dim b ->
  exists v, b_eval b s tau buff = Ok v /\ vec_is v (b_dim b) (bval b s tau).
Proof.
  intros B L.
  assert (X : exists f, forall bf : vec T, vlen bf = b_dim b -> exists v, b_eval b s tau bf = Ok v /\ vec_is v (b_dim b) f).
  { destruct b as [d g|p w g|a]; cbn [b_eval b_dim bok] in *.
    - exists (gleg s). intros bf Hb. apply leg_eval_gen; auto.
    - destruct B as (x & w' & P & W).
      destruct (lag_eval_gen p w (vnew (vlen p)) (vlen p) x w' s P W eq_refl) as (v & m & M & E & V).
      eexists. intros bf Hb. exists v. split; [|exact V]. rewrite <- E. unfold lag_eval. now rewrite Hb.
    - eexists. intros bf Hb. apply b01_eval_gen; auto. }
  destruct X as (f & X). destruct (X (vnew (b_dim b)) eq_refl) as (v0 & E0 & V0).
  destruct (X buff L) as (v & E & V). exists v. split; auto. eapply vec_is_ext; [exact V|].
  intros i Hi. symmetry. eapply bval_is; eauto.
Qed.

(** ** interval search *)
Fixpoint gscan (tf : nat -> T) (t left : T) (i n : nat) : option nat :=
  match n with
  | O => None
  | S n' => if (left <? t) && (t <=? left + tf i) then Some i else gscan tf t (left + tf i) (S i) n'
  end.
Definition gint (t0 : T) (tf : nat -> T) (n : nat) (t : T) : nat :=
  if t <=? t0 then 0%nat else match gscan tf t t0 0 n with Some i => i | None => (n - 1)%nat end.

Lemma scan_gen (tau : vec T) tf n t : vec_is tau n tf -> forall k i left, (i + k <= n)%nat ->
  scan_interval tau t left i k = Ok (gscan tf t left i k).
Proof.
  intros V. induction k as [|k IH]; intros i left Hk; cbn [scan_interval gscan]; auto.
  rewrite (vread_ok tau n tf) by (auto; lia). cbn [bind].
  destruct ((left <? t) && (t <=? left + tf i)); auto. apply IH. lia.
Qed.
Lemma gscan_bound tf t : forall k left i r, gscan tf t left i k = Some r -> (i <= r < i + k)%nat.
Proof.
  induction k as [|k IH]; intros left i r; cbn [gscan]; [discriminate|].
  destruct ((left <? t) && (t <=? left + tf i)).
  - intros E. inversion E; subst. lia.
  - intros E. apply IH in E. lia.
Qed.
Lemma gint_bound t0 tf n t : (1 <= n)%nat -> (gint t0 tf n t < n)%nat.
Proof.
  intros Hn. unfold gint. destruct (t <=? t0); [lia|]. destruct (gscan tf t t0 0 n) eqn:E; [|lia].
  apply gscan_bound in E. lia.
Qed.

(** ** objects of consistent shape *)
Definition gwf (g : gspline T) (n codom : nat) (tf cf : nat -> T) : Prop :=
  bok (gs_basis g) /\ gs_codom g = codom /\ vec_is (gs_tau g) n tf /\
  vec_is (gs_coef g) (n * gs_dim g * codom) cf /\ vlen (gs_buf g) = gs_dim g.

Lemma get_interval_gen g n codom tf cf t : gwf g n codom tf cf -> (1 <= n)%nat ->
  get_interval g t = Ok (gint (fst (gs_dom g)) tf n t).
Proof.
  intros (_ & _ & V & _) Hn. unfold get_interval, gint, gs_n. replace (vlen (gs_tau g)) with n by (symmetry; apply V).
  destruct (t <=? fst (gs_dom g)); auto. rewrite (scan_gen _ tf n) by (auto; lia). cbn [bind].
  destruct (gscan tf t (fst (gs_dom g)) 0 n); auto. destruct n; [lia|]. simpl. now rewrite Nat.sub_0_r.
Qed.

Definition gwin (t0 : T) (tf : nat -> T) (iv : nat) (t : T) : T :=
  c2 * (t - (t0 + nsum iv tf)) / tf iv - n1.
Lemma window_gen g n codom tf cf t iv : gwf g n codom tf cf -> (iv < n)%nat ->
  interval_to_window g t iv = Ok (gwin (fst (gs_dom g)) tf iv t).
Proof.
  intros (_ & _ & V & _) Hi. unfold interval_to_window.
  destruct (vsegment_is _ n tf 0 iv V) as (w & E & W); [simpl; lia|]. rewrite E. cbn [bind].
  rewrite (osum_some iv _ tf). 2: { intros i Hi'. apply (proj2 W i Hi'). } cbn [of_option bind].
  rewrite (vread_ok _ n tf) by auto. reflexivity.
Qed.

(** value of component cc at t *)
Definition gpt (b : basis T) (t0 : T) (tf cf : nat -> T) (n codom : nat) (t : T) (cc : nat) : T :=
  let iv := gint t0 tf n t in
  nsum (b_dim b) (fun k => cf (iv * b_dim b * codom + b_dim b * cc + k)%nat * bval b (gwin t0 tf iv t) (tf iv) k).

Lemma fill_gen g n codom tf cf t buf : gwf g n codom tf cf -> (1 <= n)%nat -> vlen buf = gs_dim g ->
  exists buf', gs_fill g t buf = Ok (gint (fst (gs_dom g)) tf n t, buf') /\
    vec_is buf' (gs_dim g) (bval (gs_basis g) (gwin (fst (gs_dom g)) tf (gint (fst (gs_dom g)) tf n t) t) (tf (gint (fst (gs_dom g)) tf n t))).
Proof.
  intros W Hn L. pose proof W as (B & _ & V & _). unfold gs_fill.
  rewrite (get_interval_gen g n codom tf cf) by auto. cbn [bind].
  pose proof (gint_bound (fst (gs_dom g)) tf n t Hn) as Hi.
  rewrite (window_gen g n codom tf cf) by auto. cbn [bind].
  rewrite (vread_ok _ n tf) by auto. cbn [bind].
  destruct (b_eval_gen (gs_basis g) (gwin (fst (gs_dom g)) tf (gint (fst (gs_dom g)) tf n t) t) (tf (gint (fst (gs_dom g)) tf n t)) buf B L)
    as (v & E & Vv). rewrite E. cbn [bind]. eauto.
Qed.
Lemma component_gen g n codom tf cf iv buf bf cc : gwf g n codom tf cf -> (iv < n)%nat -> (cc < codom)%nat ->
  vec_is buf (gs_dim g) bf ->
  gs_component g iv buf cc = Ok (nsum (gs_dim g) (fun k => cf (iv * gs_dim g * codom + gs_dim g * cc + k)%nat * bf k)).
Proof.
  intros (_ & C & _ & V & _) Hi Hc Vb. unfold gs_component, coef_segment. rewrite C.
  destruct (vsegment_is (gs_coef g) _ cf (iv * gs_dim g * codom + gs_dim g * cc) (gs_dim g) V) as (w & E & W).
  - assert (S iv * gs_dim g * codom <= n * gs_dim g * codom)%nat.
    { apply Nat.mul_le_mono_r, Nat.mul_le_mono_r. lia. }
    assert (gs_dim g * S cc <= gs_dim g * codom)%nat by (apply Nat.mul_le_mono_l; lia). simpl in H. nia.
  - rewrite E. cbn [bind]. apply vdot_is; auto.
Qed.

Lemma value_impl_gen g n codom tf cf pts pf np res buf : gwf g n codom tf cf -> (1 <= n)%nat ->
  vec_is pts np pf -> mrows res = np -> mcols res = codom -> vlen buf = gs_dim g ->
  exists m buf', gs_value_impl g pts res buf = Ok (m, buf') /\
    mat_is m np codom (fun i j => gpt (gs_basis g) (fst (gs_dom g)) tf cf n codom (pf i) j) /\ vlen buf' = gs_dim g.
Proof.
  intros W Hn P R C L. unfold gs_value_impl. replace (vlen pts) with np by (symmetry; apply P).
  match goal with |- context [for_ 0 np ?f ?v] =>
    destruct (for_ok (fun k (st : mat T * vec T) => mrows (fst st) = np /\ mcols (fst st) = codom /\ vlen (snd st) = gs_dim g /\
      forall i j, (i < k)%nat -> (j < codom)%nat -> mget (fst st) i j = Some (gpt (gs_basis g) (fst (gs_dom g)) tf cf n codom (pf i) j))
      f 0%nat np v) as ((m & buf') & E & H1 & H2 & H3 & H4) end.
  - lia.
  - cbn [fst snd]. split; [auto|]. split; [auto|]. split; [auto|]. intros; lia.
  - intros k (m & bf) Hk (H1 & H2 & H3 & H4). cbn [fst snd] in *.
    rewrite (vread_ok pts np pf) by (auto; lia). cbn [bind].
    destruct (fill_gen g n codom tf cf (pf k) bf W Hn H3) as (bf' & E & V). rewrite E. cbn [bind].
    pose proof (gint_bound (fst (gs_dom g)) tf n (pf k) Hn) as Hi.
    assert (Cg : gs_codom g = codom) by apply W. rewrite Cg.
    match goal with |- context [for_ 0 codom ?f ?v] =>
      destruct (for_ok (fun c (m' : mat T) => mrows m' = np /\ mcols m' = codom /\
        (forall i j, (i < k)%nat -> (j < codom)%nat -> mget m' i j = Some (gpt (gs_basis g) (fst (gs_dom g)) tf cf n codom (pf i) j)) /\
        (forall j, (j < c)%nat -> mget m' k j = Some (gpt (gs_basis g) (fst (gs_dom g)) tf cf n codom (pf k) j)))
        f 0%nat codom v) as (m' & E' & I1 & I2 & I3 & I4) end.
    + lia.
    + split; [auto|]. split; [auto|]. split; [auto|]. intros; lia.
    + intros c m' Hc (I1 & I2 & I3 & I4). rewrite (component_gen g n codom tf cf _ _ _ c W Hi (proj2 Hc) V).
      cbn [bind]. rewrite mwrite_lt by lia. eexists. split; [reflexivity|]. cbn [mrows mcols mget].
      split; [auto|]. split; [auto|]. split.
      * intros i j Hi' Hj. destruct (Nat.eqb_spec i k); [lia|]. cbn [andb]. auto.
      * intros j Hj. rewrite Nat.eqb_refl. cbn [andb]. destruct (Nat.eqb_spec j c) as [->|]; [reflexivity|]. apply I4. lia.
    + rewrite E'. cbn [bind]. eexists. split; [reflexivity|]. cbn [fst snd]. split; [auto|]. split; [auto|].
      split; [apply V|]. intros i j Hi' Hj. destruct (Nat.eq_dec i k) as [->|]; [apply I4; auto|]. apply I3; auto. lia.
  - cbn [fst snd] in *. exists m, buf'. split; [exact E|]. split; [|auto]. split; [auto|]. split; [auto|]. auto.
Qed.
Lemma value_gen g n codom tf cf pts pf np : gwf g n codom tf cf -> (1 <= n)%nat -> vec_is pts np pf ->
  exists m, gs_value g pts = Ok m /\
    mat_is m np codom (fun i j => gpt (gs_basis g) (fst (gs_dom g)) tf cf n codom (pf i) j).
Proof.
  intros W Hn P. unfold gs_value. replace (vlen pts) with np by (symmetry; apply P).
  replace (gs_codom g) with codom by (symmetry; apply W).
  destruct (value_impl_gen g n codom tf cf pts pf np (mnew np codom) (gs_buf g) W Hn P eq_refl eq_refl) as (m & b' & E & M & _).
  { apply W. } rewrite E. cbn [bind fst]. eauto.
Qed.

(** no interval: out of bounds whatever the point *)
Lemma get_interval_none g t : gs_n g = 0%nat -> get_interval g t = Ok 0%nat \/ get_interval g t = UB.
Proof.
  intros N. unfold get_interval. rewrite N. destruct (t <=? fst (gs_dom g)); auto.
Qed.
Lemma value_none g pts pf np res buf : gs_n g = 0%nat -> vec_is pts np pf -> (1 <= np)%nat -> gs_value_impl g pts res buf = UB.
Proof.
  intros N P Hp. unfold gs_value_impl, for_. replace (vlen pts) with np by (symmetry; apply P). destruct np as [|np]; [lia|].
  cbn [Nat.sub for_n]. rewrite (vread_ok pts (S np) pf) by (auto; lia). cbn [bind].
  unfold gs_fill. destruct (get_interval_none g (pf 0%nat) N) as [->| ->]; cbn [bind]; auto.
  unfold interval_to_window, vsegment. cbn [Nat.add Nat.leb bind osum of_option].
  rewrite vread_oob by (unfold gs_n in N; lia). reflexivity.
Qed.

(** breakpoints *)
Fixpoint gbp (t0 : T) (tf : nat -> T) (k : nat) : T := match k with O => t0 | S k' => gbp t0 tf k' + tf k' end.
Lemma breakpoints_gen g n codom tf cf : gwf g n codom tf cf ->
  exists v, gs_breakpoints g = Ok v /\ vec_is v (S n) (gbp (fst (gs_dom g)) tf).
Proof.
  intros (_ & _ & V & _). unfold gs_breakpoints, gs_n. replace (vlen (gs_tau g)) with n by (symmetry; apply V).
  rewrite vwrite_lt by (simpl; lia). cbn [bind vlen vnew].
  match goal with |- context [for_ 1 (S n) ?f ?v] =>
    destruct (for_ok (fun k (st : T * vec T) => fst st = gbp (fst (gs_dom g)) tf (k - 1) /\ vlen (snd st) = S n /\
      forall i, (i < k)%nat -> vget (snd st) i = Some (gbp (fst (gs_dom g)) tf i)) f 1%nat (S n) v) as ((t & v') & E & H1 & H2 & H3) end.
  - lia.
  - cbn [fst snd vlen vget]. split; [reflexivity|]. split; [reflexivity|]. intros i Hi. assert (i = 0%nat) by lia. subst. reflexivity.
  - intros k (t & v) Hk (H1 & H2 & H3). cbn [fst snd] in *. rewrite (vread_ok _ n tf) by (auto; lia). cbn [bind].
    rewrite vwrite_lt by lia. cbn [bind]. eexists. split; [reflexivity|]. cbn [fst snd vlen vget].
    destruct k as [|k]; [lia|]. cbn [Nat.sub] in *. rewrite Nat.sub_0_r in *. split; [rewrite H1; reflexivity|]. split; [auto|].
    intros i Hi. destruct (Nat.eqb_spec i (S k)) as [->|]; [rewrite H1; reflexivity|]. apply H3. lia.
  - rewrite E. cbn [bind snd] in *. eexists. split; [reflexivity|]. split; auto.
Qed.
Lemma waypoints_gen g n codom tf cf : gwf g n codom tf cf -> (1 <= n)%nat ->
  exists m, gs_waypoints g = Ok m /\
    mat_is m (S n) codom (fun i j => gpt (gs_basis g) (fst (gs_dom g)) tf cf n codom (gbp (fst (gs_dom g)) tf i) j).
Proof.
  intros W Hn. unfold gs_waypoints. destruct (breakpoints_gen g n codom tf cf W) as (v & E & V). rewrite E. cbn [bind].
  replace (gs_n g) with n by (symmetry; apply W). replace (gs_codom g) with codom by (symmetry; apply W).
  destruct (value_impl_gen g n codom tf cf v _ (S n) (mnew (S n) codom) (gs_buf g) W Hn V eq_refl eq_refl) as (m & b' & E' & M & _).
  { apply W. } rewrite E'. cbn [bind fst]. eauto.
Qed.
End G.
