(** Collocation splines: loops and storage, for any numbers. *)
From Coq Require Import List Arith Lia Bool ZArith.
From Verif Require Import Num Outcome LinAlg LegendreModel LagrangeModel LagrangeProofs Basis0101Model BasisModel ToolsModel FunModel
  GSplineModel GSplineProofs GLModel GLProofs GLLModel.
Import ListNotations.
Local Open Scope nat_scope.
Local Open Scope num_scope.
Local Opaque gl_iters.

(** position of node i of component cc on interval iv, and back *)
Definition nidx {A} (codom dim : nat) (f : nat -> nat -> nat -> A) (k : nat) : A :=
  f (k / dim / codom)%nat ((k / dim) mod codom)%nat (k mod dim)%nat.
Lemma nidx_at {A} codom dim (f : nat -> nat -> nat -> A) iv cc i : (cc < codom)%nat -> (i < dim)%nat ->
  nidx codom dim f ((iv * codom + cc) * dim + i) = f iv cc i.
Proof.
  intros Hc Hi. unfold nidx.
  assert (D : (((iv * codom + cc) * dim + i) / dim = iv * codom + cc)%nat).
  { rewrite Nat.add_comm, Nat.div_add by lia. rewrite Nat.div_small by auto. lia. }
  assert (M : (((iv * codom + cc) * dim + i) mod dim = i)%nat).
  { rewrite Nat.add_comm, Nat.mod_add by lia. apply Nat.mod_small; auto. }
  rewrite D, M. rewrite (Nat.add_comm (iv * codom) cc), Nat.div_add, Nat.mod_add by lia.
  rewrite Nat.div_small, Nat.mod_small by auto. reflexivity.
Qed.
Lemma nidx_split n codom dim k : (k < n * dim * codom)%nat ->
  exists iv cc i, (iv < n)%nat /\ (cc < codom)%nat /\ (i < dim)%nat /\ k = ((iv * codom + cc) * dim + i)%nat.
Proof.
  intros Hk. assert (0 < codom)%nat by (destruct codom; lia). assert (0 < dim)%nat by (destruct dim; lia).
  exists (k / dim / codom)%nat, ((k / dim) mod codom)%nat, (k mod dim)%nat.
  assert (A := Nat.div_mod k dim ltac:(lia)). assert (B := Nat.div_mod (k / dim) codom ltac:(lia)).
  assert (k / dim < n * codom)%nat by (apply Nat.div_lt_upper_bound; nia).
  assert (k / dim / codom < n)%nat by (apply Nat.div_lt_upper_bound; nia).
  split; auto. split; [apply Nat.mod_upper_bound; lia|]. split; [apply Nat.mod_upper_bound; lia|]. nia.
Qed.
Lemma nidx_lt n codom dim iv cc i : (iv < n)%nat -> (cc < codom)%nat -> (i < dim)%nat -> ((iv * codom + cc) * dim + i < n * dim * codom)%nat.
Proof. intros. assert (iv * codom + cc + 1 <= n * codom)%nat by nia. nia. Qed.
Lemma vec_nodes {T} (v : vec T) n codom dim f : vlen v = (n * dim * codom)%nat ->
  (forall iv cc i, (iv < n)%nat -> (cc < codom)%nat -> (i < dim)%nat -> vget v ((iv * codom + cc) * dim + i) = Some (f iv cc i)) ->
  vec_is v (n * dim * codom) (nidx codom dim f).
Proof.
  intros L G. split; auto. intros k Hk. destruct (nidx_split n codom dim k Hk) as (iv & cc & i & A & B & C & ->).
  rewrite nidx_at by auto. auto.
Qed.
Lemma cf_nidx {T} (cf : nat -> T) n codom dim k : (k < n * dim * codom)%nat ->
  cf k = nidx codom dim (fun iv cc i => cf ((iv * codom + cc) * dim + i)%nat) k.
Proof. intros Hk. destruct (nidx_split n codom dim k Hk) as (iv & cc & i & A & B & C & ->). rewrite nidx_at by auto. reflexivity. Qed.

Section G.
Context {T : Type} `{Num T}.
Variable fresh : nat -> nat -> option T.
Implicit Type g : gspline T.
Implicit Type cf : nat -> T.

Lemma gll_basis_ok n : (2 <= n)%nat -> exists pts bw gr, gll_basis fresh n = Ok (BLagrange pts bw gr) /\
  gl_points n = Ok pts /\ vec_is pts n (gpoint (n - 1)) /\ bary_weights pts = Ok bw /\ bok (BLagrange pts bw gr).
Proof.
  intros Hn. unfold gll_basis. destruct (gl_points_ok n Hn) as (p & Ep & P). destruct (gl_weights_ok n Hn) as (w & Ew & W).
  destruct (bary_weights_gen p n _ P) as (bw & Eb & Vb).
  rewrite Ep. cbn [bind]. rewrite Eb. cbn [bind]. assert (L : vlen p = n) by apply P. rewrite L, Ep. cbn [bind]. rewrite Ew. cbn [bind].
  destruct (lag_ctor_gen p p w n _ _ fresh P P) as (buf & Ec & _); [apply W|]. rewrite Ec. cbn [bind].
  exists p, bw, buf. split; [reflexivity|]. split; [reflexivity|]. split; auto. split; [auto|]. cbn [bok]. rewrite L. eauto.
Qed.
Lemma gll_basis_ub n : (n < 2)%nat -> gll_basis fresh n = UB.
Proof. intros Hn. unfold gll_basis, gl_points. rewrite gl_ub by auto. reflexivity. Qed.

Lemma gll_make_ok dom codom n nglp coef tau tf cf : (2 <= nglp)%nat -> vec_is coef (n * nglp * codom) cf -> vec_is tau n tf ->
  exists g b, gll_make fresh dom codom n nglp coef tau = Ok g /\ gll_basis fresh nglp = Ok b /\
    g = mkgs dom codom coef tau b (bs_copy (bs_init b)) (vnew (b_dim b)) /\ b_dim b = nglp /\ gwf g n codom tf cf.
Proof.
  intros Hn K V. destruct (gll_basis_ok nglp Hn) as (p & bw & gr & E & Ep & P & Eb & BO). unfold gll_make. rewrite E. cbn [bind].
  assert (D : b_dim (BLagrange p bw gr) = nglp) by (cbn; apply P). unfold gs_ctor. rewrite D.
  replace (vlen coef) with (n * nglp * codom)%nat by (symmetry; apply K). rewrite Nat.eqb_refl.
  do 2 eexists. split; [reflexivity|]. split; [reflexivity|]. split; [rewrite D; reflexivity|]. split; [exact D|].
  unfold gwf, gs_dim. cbn [gs_basis gs_codom gs_tau gs_coef gs_buf]. rewrite D. auto.
Qed.

Lemma mflat_is (m : mat T) r c f : mat_is m r c f -> vec_is (mflat m) (r * c) (fun k => f (k mod r) (k / r))%nat.
Proof.
  intros (R & C & G). split; [cbn; rewrite R, C; reflexivity|]. intros k Hk. cbn [mflat vget]. rewrite R.
  assert (0 < r)%nat by (destruct r; lia). apply G; [apply Nat.mod_upper_bound; lia|apply Nat.div_lt_upper_bound; lia].
Qed.

(** replacing one block of d cells *)
Lemma seg_put (r w : vec T) L k d f : vlen r = L -> (k * d + d <= L)%nat -> vec_is w d f ->
  exists r', vset_segment r (k * d) w = Ok r' /\ vlen r' = L /\
    (forall j, (j < d)%nat -> vget r' (k * d + j) = Some (f j)) /\
    (forall iv j, iv <> k -> (j < d)%nat -> vget r' (iv * d + j) = vget r (iv * d + j)).
Proof.
  intros Lr Hk [Lw W]. unfold vset_segment. rewrite Lw, Lr. destruct (Nat.leb_spec (k * d + d) L); [|lia].
  eexists. split; [reflexivity|]. split; [reflexivity|]. cbn [vget]. split.
  - intros j Hj. destruct (Nat.leb_spec (k * d) (k * d + j)); [|lia]. destruct (Nat.ltb_spec (k * d + j) (k * d + d)); [|lia].
    cbn [andb]. replace (k * d + j - k * d)%nat with j by lia. auto.
  - intros iv j Ne Hj. destruct (Nat.leb_spec (k * d) (iv * d + j)); cbn [andb]; auto.
    destruct (Nat.ltb_spec (iv * d + j) (k * d + d)); auto. exfalso. apply Ne.
    assert (iv < S k)%nat by nia. assert (k < S iv)%nat by nia. lia.
Qed.

(** ** functions as arguments *)
Definition pointwise (f : fobj T) (F : nat -> T -> T) : Prop :=
  forall pts np pf res, vec_is pts np pf -> mrows res = np -> mcols res = fo_codom f ->
  exists m, fo_val f pts res = Ok m /\ mat_is m np (fo_codom f) (fun i cc => F cc (pf i)).

(** a spline is one *)
Lemma gs_pointwise g n codom tf cf : gwf g n codom tf cf -> (1 <= n)%nat ->
  pointwise (fo_of_gs g) (fun cc t => gpt (gs_basis g) (fst (gs_dom g)) tf cf n codom t cc).
Proof.
  intros W Hn pts np pf res P R C. assert (Ec : gs_codom g = codom) by apply W.
  cbn [fo_of_gs fo_codom] in *. rewrite Ec in *.
  destruct (value_impl_gen g n codom tf cf pts pf np res (gs_buf g) W Hn P R C) as (m & b' & E & M & _); [apply W|].
  cbn [fo_val fo_of_gs]. rewrite E. cbn [bind fst]. eauto.
Qed.
Lemma vec_list_ok (v : vec T) n f : vec_is v n f -> vec_list v = Ok (map f (seq 0 n)).
Proof.
  intros V. unfold vec_list. replace (vlen v) with n by (symmetry; apply V).
  match goal with |- context [for_ ?lo ?hi ?g ?x] => destruct (for_ok (fun k l => l = map f (seq 0 k)) g lo hi x) as (l & E & I) end.
  - lia.
  - reflexivity.
  - intros i l Hi ->. rewrite (vread_ok _ n f) by (auto; lia). cbn [bind]. eexists. split; [reflexivity|].
    replace (S i) with (i + 1)%nat by lia. rewrite seq_app, map_app. reflexivity.
  - rewrite E, I. reflexivity.
Qed.
(** an expression is one when evaluating it on a list maps a function over the list *)
Lemma fn_pointwise dbg (f : fn T) (F : nat -> T -> T) :
  (forall l, eval dbg f l (fcod f) = Ok (map (fun t => map (fun cc => F cc t) (seq 0 (fcod f))) l)) ->
  pointwise (fo_of_fn dbg f) F.
Proof.
  intros E pts np pf res P R C. cbn [fo_of_fn fo_val fo_codom] in *. rewrite (vec_list_ok pts np pf P). cbn [bind].
  rewrite C, E. cbn [bind]. rewrite !map_length, seq_length, R, Nat.eqb_refl. eexists. split; [reflexivity|].
  split; [reflexivity|]. split; [reflexivity|]. intros i j Hi Hj. cbn [mget].
  rewrite map_map. rewrite (nth_error_nth' _ []) by (rewrite map_length, seq_length; auto).
  rewrite (nth_indep _ [] ((fun x => map (fun cc => F cc (pf x)) (seq 0 (fcod f))) 0%nat)) by (rewrite map_length, seq_length; auto).
  rewrite (map_nth (fun x => map (fun cc => F cc (pf x)) (seq 0 (fcod f)))), seq_nth by auto. cbn [Nat.add].
  rewrite (nth_error_nth' _ (F 0%nat (pf i))) by (rewrite map_length, seq_length; auto).
  rewrite (map_nth (fun cc => F cc (pf i))), seq_nth by auto. reflexivity.
Qed.

(** ** approximate *)
Lemma approx_gen f F nglp n : (2 <= nglp)%nat -> pointwise f F ->
  exists g b, gll_approximate fresh f nglp n = Ok g /\ gll_basis fresh nglp = Ok b /\ gs_basis g = b /\ gs_bst g = bs_copy (bs_init b) /\
    gs_dom g = fo_dom f /\ gs_dim g = nglp /\
    let len := (snd (fo_dom f) - fst (fo_dom f)) / nofnat n in
    gwf g n (fo_codom f) (fun _ => n1 * len)
      (nidx (fo_codom f) nglp (fun iv cc i => F cc ((gpoint (nglp - 1) i + n1) * len / c2 + (fst (fo_dom f) + nofnat iv * len)))).
Proof.
  intros Hn HF. unfold gll_approximate. destruct (gl_points_ok nglp Hn) as (p & Ep & P). rewrite Ep. cbn [bind].
  destruct (fo_dom f) as [lb rb] eqn:ED. cbn [fst snd]. set (len := (rb - lb) / nofnat n). set (codom := fo_codom f) in *.
  set (X := fun iv i => (gpoint (nglp - 1) i + n1) * len / c2 + (lb + nofnat iv * len)).
  set (G := fun iv k => F (k / nglp)%nat (X iv (k mod nglp)%nat)).
  match goal with |- context [for_ ?lo ?hi ?b ?v] =>
    destruct (for_ok (fun k (st : vec T * mat T) => vlen (fst st) = (codom * nglp * n)%nat /\ mrows (snd st) = nglp /\ mcols (snd st) = codom /\
       forall iv j, (iv < k)%nat -> (j < nglp * codom)%nat -> vget (fst st) (iv * (nglp * codom) + j) = Some (G iv j)) b lo hi v) as ([c lv] & E & Lc & _ & _ & Gc) end.
  - lia.
  - cbn. repeat split; auto. intros; lia.
  - intros iv [c lv] Hiv (Lc & Rl & Cl & Gc). cbn [fst snd] in *.
    destruct (HF (gl_affine p len (lb + nofnat iv * len)) nglp (X iv) lv) as (m & Em & Mm); auto.
    { unfold gl_affine. exact (vmap1_is _ p nglp _ P). }
    rewrite Em. cbn [bind]. fold codom in Mm. pose proof (mflat_is m nglp codom _ Mm) as Mf. unfold vset_sized.
    replace (vlen (mflat m)) with (nglp * codom)%nat by (symmetry; apply Mf). rewrite Nat.eqb_refl.
    replace (iv * nglp * codom)%nat with (iv * (nglp * codom))%nat by lia.
    destruct (seg_put c (mflat m) (codom * nglp * n) iv (nglp * codom) (G iv) Lc) as (r & Er & Lr & Gr & Or).
    { nia. }
    { eapply vec_is_ext; [exact Mf|]. intros; reflexivity. }
    rewrite Er. cbn [bind]. eexists. split; [reflexivity|]. cbn [fst snd]. split; auto. destruct Mm as (R1 & C1 & _). split; auto. split; auto.
    intros iv' j Hi Hj. destruct (Nat.eq_dec iv' iv) as [->|Ne]; auto. rewrite Or by auto. apply Gc; auto. lia.
  - rewrite E. cbn [bind]. cbn [fst] in Lc, Gc.
    assert (K : vec_is c (n * nglp * codom) (nidx codom nglp (fun iv cc i => F cc (X iv i)))).
    { apply vec_nodes; [lia|]. intros iv cc i A B C. replace ((iv * codom + cc) * nglp + i)%nat with (iv * (nglp * codom) + (cc * nglp + i))%nat by nia.
      rewrite Gc by nia. unfold G. rewrite (Nat.add_comm (cc * nglp) i), Nat.div_add, Nat.mod_add by lia.
      rewrite Nat.div_small, Nat.mod_small by auto. reflexivity. }
    assert (V : vec_is (ones_times n len) n (fun _ => n1 * len)) by (unfold ones_times; apply (vscale_is _ n (fun _ => n1)), vconst_is).
    destruct (gll_make_ok (lb, rb) codom n nglp c _ _ _ Hn K V) as (g & b & Eg & Eb & -> & Db & W).
    do 2 eexists. split; [exact Eg|]. split; [exact Eb|]. cbn [gs_basis gs_bst gs_dom]. split; [reflexivity|]. split; [reflexivity|]. split; [reflexivity|].
    split; [exact Db|exact W].
Qed.

(** ** assignment from a function *)
Fixpoint lacc (t0 : T) (tf : nat -> T) (k : nat) : T := match k with O => t0 | S k' => lacc t0 tf k' + tf k' end.
Lemma assign_fun_gen f F g n codom tf cf x : gwf g n codom tf cf -> vec_is (b_params (gs_basis g)) (gs_dim g) x -> fo_codom f = codom -> pointwise f F ->
  let s := (snd (fo_dom f) - fst (fo_dom f)) / nsum n tf in
  exists r, gll_assign_fun false g f = Ok r /\ gs_basis r = gs_basis g /\ gs_bst r = gs_bst g /\ gs_dom r = fo_dom f /\
    gwf r n codom (fun i => tf i * s)
      (nidx codom (gs_dim g) (fun iv cc i => F cc ((x i + n1) * (tf iv * s) / c2 + lacc (fst (fo_dom f)) (fun i => tf i * s) iv))).
Proof.
  intros (BO & Ec & V & K & Lb) Vx Ef HF s. unfold gll_assign_fun. cbn [negb require bind].
  rewrite Ec, Ef, Nat.eqb_refl. cbn [require bind]. unfold gs_n. assert (Lv : vlen (gs_tau g) = n) by apply V. rewrite Lv.
  rewrite (osum_some n (vget (gs_tau g)) tf) by (apply V). cbn [of_option bind]. fold s.
  set (t0 := fst (fo_dom f)). set (dim := gs_dim g) in *.
  set (tau := vscale (gs_tau g) s). assert (Vt : vec_is tau n (fun i => tf i * s)) by (apply vscale_is; auto).
  assert (Lt : vlen tau = n) by apply Vt. rewrite Lt.
  set (X := fun iv i => (x i + n1) * (tf iv * s) / c2 + lacc t0 (fun i => tf i * s) iv).
  set (G := fun iv k => F (k / dim)%nat (X iv (k mod dim)%nat)).
  match goal with |- context [for_ ?lo ?hi ?b ?v] =>
    destruct (for_ok (fun k (st : vec T * mat T * T) => vlen (fst (fst st)) = (n * dim * codom)%nat /\ mrows (snd (fst st)) = dim /\ mcols (snd (fst st)) = codom /\
       snd st = lacc t0 (fun i => tf i * s) k /\
       forall iv j, (iv < k)%nat -> (j < dim * codom)%nat -> vget (fst (fst st)) (iv * (dim * codom) + j) = Some (G iv j)) b lo hi v) as ([[c lv] lb] & E & Lc & _ & _ & _ & Gc) end.
  - lia.
  - cbn. split; [apply K|]. repeat split; auto. intros; lia.
  - intros iv [[c lv] lb] Hiv (Lc & Rl & Cl & Sb & Gc). cbn [fst snd] in *. subst lb.
    rewrite (vread_ok _ n _ iv Vt) by lia. cbn [bind].
    destruct (HF (gl_affine (b_params (gs_basis g)) (tf iv * s) (lacc t0 (fun i => tf i * s) iv)) dim (X iv) lv) as (m & Em & Mm); auto.
    { unfold gl_affine. exact (vmap1_is _ _ dim _ Vx). }
    { congruence. }
    rewrite Em. cbn [bind]. rewrite Ef in Mm. pose proof (mflat_is m dim codom _ Mm) as Mf. unfold vset_sized.
    replace (vlen (mflat m)) with (dim * codom)%nat by (symmetry; apply Mf). rewrite Nat.eqb_refl.
    replace (iv * dim * codom)%nat with (iv * (dim * codom))%nat by lia.
    destruct (seg_put c (mflat m) (n * dim * codom) iv (dim * codom) (G iv) Lc) as (r & Er & Lr & Gr & Or).
    { nia. }
    { eapply vec_is_ext; [exact Mf|]. intros; reflexivity. }
    rewrite Er. cbn [bind]. eexists. split; [reflexivity|]. cbn [fst snd]. split; auto. destruct Mm as (R1 & C1 & _). split; auto. split; auto.
    split; [reflexivity|].
    intros iv' j Hi Hj. destruct (Nat.eq_dec iv' iv) as [->|Ne]; auto. rewrite Or by auto. apply Gc; auto. lia.
  - rewrite E. cbn [bind]. cbn [fst] in Lc, Gc. eexists. split; [reflexivity|]. cbn [gs_basis gs_bst gs_dom].
    split; auto. split; auto. split; auto. unfold gwf, gs_dim. cbn [gs_basis gs_codom gs_tau gs_coef gs_buf]. split; auto. split; auto. split; auto.
    split; [|auto]. fold (gs_dim g). fold dim.
    apply vec_nodes; [exact Lc|]. intros iv cc i A B C. replace ((iv * codom + cc) * dim + i)%nat with (iv * (dim * codom) + (cc * dim + i))%nat by nia.
    rewrite Gc by nia. unfold G. rewrite (Nat.add_comm (cc * dim) i), Nat.div_add, Nat.mod_add by lia.
    rewrite Nat.div_small, Nat.mod_small by auto. reflexivity.
Qed.

(** ** blocks *)
Lemma block_ok g n codom tf cf iv : gwf g n codom tf cf -> (iv < n)%nat ->
  exists m, value_block g iv = Ok m /\ mat_is m (gs_dim g) codom (fun i cc => cf ((iv * codom + cc) * gs_dim g + i)%nat).
Proof.
  intros (BO & Ec & V & K & Lb) Hiv. unfold value_block, gs_n. assert (Lv : vlen (gs_tau g) = n) by apply V. rewrite Lv, Ec.
  destruct (Nat.leb_spec n iv); [lia|].
  destruct (vsegment_is (gs_coef g) _ cf (iv * (gs_dim g * codom)) (gs_dim g * codom) K) as (w & Ew & Vw); [nia|].
  rewrite Ew. cbn [bind]. eexists. split; [reflexivity|]. split; [reflexivity|]. split; [reflexivity|].
  intros i cc Hi Hc. cbn [mget]. destruct Vw as [_ Gw]. rewrite Gw by nia. do 2 f_equal. nia.
Qed.
Lemma block_throw g n codom tf cf iv : gwf g n codom tf cf -> (n <= iv)%nat -> value_block g iv = Throw InvalidArgument.
Proof.
  intros (BO & Ec & V & K & Lb) Hiv. unfold value_block, gs_n. replace (vlen (gs_tau g)) with n by (symmetry; apply V).
  destruct (Nat.leb_spec n iv); [reflexivity|lia].
Qed.
Lemma value_at_ok g n codom tf cf k : gwf g n codom tf cf -> (k < gs_dim g * n)%nat ->
  exists v, value_at g k = Ok v /\ vec_is v codom (fun cc => cf ((k / gs_dim g * codom + cc) * gs_dim g + k mod gs_dim g)%nat).
Proof.
  intros W Hk. unfold value_at, gs_n. assert (Lv : vlen (gs_tau g) = n) by apply W. rewrite Lv.
  destruct (Nat.leb_spec (gs_dim g * n) k); [lia|].
  assert (0 < gs_dim g)%nat by (destruct (gs_dim g); lia).
  destruct (block_ok g n codom tf cf (k / gs_dim g) W) as (m & Em & M). { apply Nat.div_lt_upper_bound; lia. }
  rewrite Em. cbn [bind]. unfold mrow. destruct M as (R & C & G). rewrite R, C.
  assert (Hm : (k mod gs_dim g < gs_dim g)%nat) by (apply Nat.mod_upper_bound; lia).
  destruct (Nat.ltb_spec (k mod gs_dim g) (gs_dim g)); [|lia]. eexists. split; [reflexivity|]. split; [reflexivity|].
  intros cc Hc. cbn [vget]. apply G; auto.
Qed.
Lemma value_at_throw g n codom tf cf k : gwf g n codom tf cf -> (gs_dim g * n <= k)%nat -> value_at g k = Throw InvalidArgument.
Proof.
  intros W Hk. unfold value_at, gs_n. replace (vlen (gs_tau g)) with n by (symmetry; apply W). destruct (Nat.leb_spec (gs_dim g * n) k); [reflexivity|lia].
Qed.

Lemma gwf_with_coef g n codom tf cf c cf' : gwf g n codom tf cf -> vec_is c (n * gs_dim g * codom) cf' -> gwf (with_coef g c) n codom tf cf'.
Proof. intros (BO & Ec & V & K & Lb) Vc. unfold gwf, with_coef, gs_dim in *. cbn. auto. Qed.
Lemma gwf_move g n codom tf cf : gwf g n codom tf cf -> gwf (gs_move g) n codom tf cf.
Proof. intros (BO & Ec & V & K & Lb). unfold gwf, gs_move, gs_dim in *. cbn. auto. Qed.
Lemma gwf_copy g n codom tf cf : gwf g n codom tf cf -> gs_copy g = Ok (gs_move g).
Proof.
  intros (BO & Ec & V & K & Lb). unfold gs_copy, gs_move, gs_n. replace (vlen (gs_coef g)) with (n * gs_dim g * codom)%nat by (symmetry; apply K).
  replace (vlen (gs_tau g)) with n by (symmetry; apply V). rewrite Ec, Nat.eqb_refl. reflexivity.
Qed.
Lemma gwf_ext g n codom tf cf cf' : gwf g n codom tf cf -> (forall k, (k < n * gs_dim g * codom)%nat -> cf k = cf' k) -> gwf g n codom tf cf'.
Proof. intros (BO & Ec & V & K & Lb) E. repeat (split; [assumption|]). split; [|assumption]. eapply vec_is_ext; eauto. Qed.

Lemma map_blocks_ok h g n codom tf cf (G : nat -> nat -> nat -> T) : gwf g n codom tf cf ->
  (forall iv m, (iv < n)%nat -> mat_is m (gs_dim g) codom (fun i cc => cf ((iv * codom + cc) * gs_dim g + i)%nat) ->
     exists m', h iv m = Ok m' /\ mat_is m' (gs_dim g) codom (fun i cc => G iv cc i)) ->
  exists c, map_blocks h n g = Ok (with_coef g c) /\ vec_is c (n * gs_dim g * codom) (nidx codom (gs_dim g) G).
Proof.
  intros W Hh. set (dim := gs_dim g) in *. unfold map_blocks.
  set (cur := fun k => nidx codom dim (fun iv cc i => if Nat.ltb iv k then G iv cc i else cf ((iv * codom + cc) * dim + i)%nat)).
  match goal with |- context [for_ ?lo ?hi ?b ?v] =>
    destruct (for_ok (fun k g' => exists c, g' = with_coef g c /\ vec_is c (n * dim * codom) (cur k)) b lo hi v) as (g' & E & c & -> & Vc) end.
  - lia.
  - exists (gs_coef g). split; [destruct g; reflexivity|]. eapply vec_is_ext; [apply W|]. intros k Hk. unfold cur. apply (cf_nidx cf n). exact Hk.
  - intros iv g' Hiv (c & -> & Vc). assert (W' : gwf (with_coef g c) n codom tf (cur iv)) by (eapply gwf_with_coef; eauto).
    destruct (block_ok _ n codom tf _ iv W' ltac:(lia)) as (m & Em & Mm). change (gs_dim (with_coef g c)) with dim in Mm. rewrite Em. cbn [bind].
    destruct (Hh iv m) as (m' & Em' & Mm'); [lia| |].
    { eapply mat_is_ext; [exact Mm|]. intros i cc Hi Hc. unfold cur. cbn beta. rewrite nidx_at by auto. destruct (Nat.ltb_spec iv iv); [lia|]. reflexivity. }
    rewrite Em'. cbn [bind]. unfold set_block. change (gs_dim (with_coef g c)) with dim. change (gs_codom (with_coef g c)) with (gs_codom g).
    replace (gs_codom g) with codom by (symmetry; apply W). change (gs_coef (with_coef g c)) with c.
    pose proof (mflat_is m' dim codom _ Mm') as Mf. unfold vset_sized.
    replace (vlen (mflat m')) with (dim * codom)%nat by (symmetry; apply Mf). rewrite Nat.eqb_refl.
    destruct (seg_put c (mflat m') (n * dim * codom) iv (dim * codom) (fun k => G iv (k / dim) (k mod dim))%nat ltac:(apply Vc)) as (r & Er & Lr & Gr & Or).
    { nia. } { exact Mf. }
    rewrite Er. cbn [bind]. eexists. split; [reflexivity|]. exists r. split; [reflexivity|]. apply vec_nodes; [exact Lr|].
    intros iv' cc i A B C. replace ((iv' * codom + cc) * dim + i)%nat with (iv' * (dim * codom) + (cc * dim + i))%nat by nia.
    destruct (Nat.eq_dec iv' iv) as [->|Ne].
    + rewrite Gr by nia. destruct (Nat.ltb_spec iv (S iv)); [|lia]. rewrite (Nat.add_comm (cc * dim) i), Nat.div_add, Nat.mod_add by lia.
      rewrite Nat.div_small, Nat.mod_small by auto. reflexivity.
    + rewrite Or by (auto; nia). destruct Vc as [_ Gc]. rewrite Gc by (assert (cc * dim + i < dim * codom)%nat by nia; nia).
      replace (iv' * (dim * codom) + (cc * dim + i))%nat with ((iv' * codom + cc) * dim + i)%nat by nia. unfold cur. rewrite nidx_at by auto.
      destruct (Nat.ltb_spec iv' iv), (Nat.ltb_spec iv' (S iv)); try lia; reflexivity.
  - exists c. split; [exact E|]. eapply vec_is_ext; [exact Vc|]. intros k Hk. unfold cur.
    destruct (nidx_split n codom dim k Hk) as (iv & cc & i & A & B & C & ->). rewrite !nidx_at by auto. destruct (Nat.ltb_spec iv n); [reflexivity|lia].
Qed.
End G.
