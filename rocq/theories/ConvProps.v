(** C89: making a collocation spline out of another spline. *)
From Coquelicot Require Import Coquelicot.
From Coq Require Import List Arith Lia Bool ZArith Reals Lra.
From Verif Require Import Num Outcome LinAlg RSum RPoly LegendreSpec LegendreModel LagrangeSpec LagrangeModel LagrangeMath LagrangeProofs
  Basis0101Model BasisModel SplineSpec BasisFn BasisProofs BasisProofs2 BasisProofs3 ToolsModel FunModel GSplineModel GSplineProofs GSplineProofs2
  GSplineProofs4 GSplineProofs6 GLSpec GLModel GLProofs GLProofs2 GLProps GLLModel GLLProofs GLLProofs2 GLLProofs3 GLLProps GSplineProps ConvModel.
From Verif Require ToolsSpec ToolsProofs.
Import ListNotations.
Local Open Scope R_scope.
Local Opaque gl_iters.

Section Any.
Context {T : Type} `{HN : Num T}.
Implicit Types (g r a b : gspline T).
(** Every well-formed spline is accepted, whatever its basis, and the result is the same function. *)
Theorem C89_same_function rv g n codom tf cf : gwf g n codom tf cf -> (1 <= n)%nat ->
  exists r, gll_from rv g = Ok r /\ gs_dom r = gs_dom g /\ gs_basis r = gs_basis g /\ gwf r n codom tf cf /\
  forall pts np pf, vec_is pts np pf -> exists mr mg f, gs_value r pts = Ok mr /\ gs_value g pts = Ok mg /\ mat_is mr np codom f /\ mat_is mg np codom f.
Proof.
  intros W Hn. exists (gs_move g). split; [destruct rv; [reflexivity|apply (gwf_copy g n codom tf cf W)]|]. split; [reflexivity|]. split; [reflexivity|].
  pose proof (gwf_move g n codom tf cf W) as W'. split; [exact W'|]. intros pts np pf P.
  destruct (value_gen _ _ _ _ _ pts pf np W' Hn P) as (mr & Er & Mr). destruct (value_gen _ _ _ _ _ pts pf np W Hn P) as (mg & Eg & Mg).
  exists mr, mg. eexists. split; [exact Er|]. split; [exact Eg|]. split; [exact Mr|exact Mg].
Qed.
(** From a collocation spline it is a collocation spline with the same values at the nodes. *)
Theorem C89_collocation rv g dom n codom nglp tf V : colloc g dom n codom nglp tf V -> (2 <= nglp)%nat ->
  exists r, gll_from rv g = Ok r /\ colloc r dom n codom nglp tf V.
Proof.
  intros C Hn. exists (gs_move g). split; [destruct rv; [reflexivity|eapply colloc_copy; eauto]|]. apply colloc_move. exact C.
Qed.
(** The inherited constructors refuse a wrong number of coefficients and nothing else. *)
Theorem C89_inherited dom codom n (b : basis T) s coef tau :
  (vlen coef = (n * b_dim b * codom)%nat -> exists g, gll_with dom codom n b s coef tau = Ok g /\ gs_basis g = b /\ gs_coef g = coef) /\
  (vlen coef <> (n * b_dim b * codom)%nat -> gll_with dom codom n b s coef tau = Throw InvalidArgument).
Proof.
  unfold gll_with, gs_ctor. destruct (Nat.eqb_spec (vlen coef) (n * b_dim b * codom)); (split; intros X; [|]); try contradiction; [eexists; split; [reflexivity|split; reflexivity]|reflexivity].
Qed.
(** Assignment looks at sizes only: a collocation spline that is assigned a spline over another basis stores that spline's
    coefficients as its values at the nodes. *)
Theorem C89_assign move a b doma n codom nglp ta tb Va cb : colloc a doma n codom nglp ta Va -> (2 <= nglp)%nat ->
  gwf b n codom tb cb -> gs_dim b = nglp ->
  exists r, gll_assign move false a b = Ok r /\ colloc r (gs_dom b) n codom nglp ta (fun iv cc i => cb ((iv * codom + cc) * nglp + i)%nat).
Proof.
  intros Ca Hn Wb Db. destruct (colloc_shape _ _ _ _ _ _ _ Ca Hn) as (Na & Da & Ka). destruct Wb as (BO & Kb & Vb & Cb & Lb).
  assert (Nb : gs_n b = n) by (unfold gs_n; apply Vb).
  unfold gll_assign, same_discretization. rewrite andb_false_r. cbn [negb require bind]. rewrite Na, Nb, Da, Db, Ka, Kb, !Nat.eqb_refl. cbn [andb require bind].
  eexists. split; [reflexivity|]. unfold colloc. cbn [gs_dom gs_codom gs_tau gs_coef gs_buf gs_basis]. rewrite Db in Cb.
  split; [reflexivity|]. split; [reflexivity|]. split; [apply Ca|]. split; [apply Cb|]. split; [|destruct Ca as (_ & _ & _ & _ & _ & L & X); auto].
  intros iv cc i A B D. apply Cb. assert ((iv * codom + cc) * nglp + i < (iv * codom + cc + 1) * nglp)%nat by lia. assert ((iv * codom + cc + 1) * nglp <= (n * codom) * nglp)%nat by (apply Nat.mul_le_mono_r; nia). nia.
Qed.
(** REFUTED (assigning a function gives that function's values at the nodes): for a spline made from a Legendre spline the points of
    the basis are the empty vector, and every coefficient is left indeterminate. *)
Theorem C89_function_refuted g f n codom dim gr tf cf : gwf g n codom tf cf -> gs_basis g = BLegendre dim gr -> gs_codom f = codom ->
  exists r, gll_assign_fun false g (fo_of_gs f) = Ok r /\ gs_dom r = gs_dom f /\ vlen (gs_coef r) = (n * dim * codom)%nat /\
  forall k, (k < n * dim * codom)%nat -> vget (gs_coef r) k = None.
Proof.
  intros (BO & Ec & Vt & Cc & Lb) Eb Ef. assert (D : gs_dim g = dim) by (unfold gs_dim; rewrite Eb; reflexivity). rewrite D in *.
  unfold gll_assign_fun. cbn [negb require bind fo_of_gs fo_codom fo_dom fo_val]. rewrite Ec, Ef, Nat.eqb_refl. cbn [require bind].
  assert (Nn : gs_n g = n) by (unfold gs_n; apply Vt). rewrite Nn, Eb. cbn [b_params]. rewrite (osum_some n _ tf) by apply Vt. cbn [of_option bind].
  set (s := (_ / _)%num). set (tau := vscale (gs_tau g) s).
  assert (Vs : vec_is tau n (fun i => (tf i * s)%num)).
  { apply vscale_is; exact Vt. }
  assert (Ls : vlen tau = n) by apply Vs. rewrite Ls, D.
  match goal with |- context [for_ 0 n ?body ?z] =>
    destruct (for_ok (fun iv (st : vec T * mat T * T) => vlen (fst (fst st)) = (n * dim * codom)%nat /\ snd (fst st) = mnew dim codom /\
      forall k, (k < iv * dim * codom)%nat -> vget (fst (fst st)) k = None) body 0 n z) as ([[coef lv] lb] & E & A & B & X) end; [lia| | |].
  { cbn. split; [apply Cc|]. split; [reflexivity|]. intros k Hk. lia. }
  { intros iv [[coef lv] lb] Hiv (A & B & X). cbn [fst snd] in *. subst lv. rewrite (vread_ok tau n _ iv Vs) by lia. cbn [bind].
    unfold gs_value_impl, gl_affine. cbn [vlen vnew vmap1]. unfold for_ at 1. cbn [Nat.sub for_n bind fst].
    unfold vset_sized. cbn [mflat vlen mrows mcols mnew]. rewrite Nat.eqb_refl. unfold vset_segment. cbn [vlen mflat].
    assert (F : (iv * dim * codom + dim * codom <= n * dim * codom)%nat) by nia.
    cbn [mrows mcols mnew]. destruct (Nat.leb_spec (iv * dim * codom + dim * codom) (vlen coef)) as [Q|Q]; [|rewrite A in Q; lia].
    cbn [bind]. eexists. split; [reflexivity|]. cbn [fst snd vlen vget]. split; [exact A|]. split; [reflexivity|]. intros k Hk.
    destruct (Nat.leb_spec (iv * dim * codom) k); cbn [andb]; [|apply X; lia]. destruct (Nat.ltb_spec k (iv * dim * codom + dim * codom)); [reflexivity|nia]. }
  rewrite E. cbn [bind]. eexists. split; [reflexivity|]. cbn. auto.
Qed.
End Any.

(** ** Splines made from Legendre splines: two coefficients on one interval *)
Section Legendre.
Variables (g : gspline R) (t0 t1 : R) (tf cf : nat -> R).
Hypothesis (Rg : rep g (DLeg 2) 1 1 t0 t1 tf cf) (Ht : 0 < tf 0%nat) (He : t0 + tf 0%nat = t1).
Lemma leg_ends (x : nat -> R) pts : vec_is pts 2 x -> x 0%nat = t0 -> x 1%nat = t1 ->
  exists m, gs_value g pts = Ok m /\ mat_is m 2 1 (fun i _ => if Nat.eqb i 0 then cf 0%nat - cf 1%nat else cf 0%nat + cf 1%nat).
Proof.
  intros P X0 X1. destruct (C26_value g (DLeg 2) 1 1 t0 t1 tf cf pts x 2 Rg ltac:(lia)) as (m & E & M); [intros [|k] Hk; [exact Ht|lia]|exact P|intros; exact Logic.I|].
  exists m. split; [exact E|]. eapply mat_is_ext; [exact M|]. intros i j Hi Hj. cbn beta. unfold sfun.
  replace (locate t0 tf 1 (x i)) with 0%nat by reflexivity. unfold piece, tphi, phi, window, bp, legP. assert (j = 0)%nat by lia. subst j.
  destruct i as [|[|i]]; [rewrite X0|rewrite X1, <- He|lia]; cbn [d_dim Rsum Nat.mul Nat.add leg2 fst INR Nat.eqb]; field; lra.
Qed.
Lemma leg_grid : exists p, gll_discretization g = Ok p /\ vec_is p 2 (fun i => if Nat.eqb i 0 then t0 else t1).
Proof.
  pose proof Rg as (B & D & _ & Vt & _). destruct (gl_points_ok (T := R) 2 ltac:(lia)) as (p & Ep & P).
  destruct (C40_points t0 t1 2 1 p _ ltac:(lia) ltac:(lia) Ep P) as (r & Er & Lr & _ & G & _).
  exists r. unfold gll_discretization, gs_n, gs_dim. rewrite D, (is_basis_dim _ _ B). replace (vlen (gs_tau g)) with 1%nat by (symmetry; apply Vt). cbn [fst snd d_dim].
  split; [exact Er|]. split; [exact Lr|]. destruct (G 0%nat ltac:(lia)) as (G0 & G1). intros [|[|i]] Hi; [etransitivity; [exact G0|]|etransitivity; [exact G1|]|lia]; cbn; f_equal; field.
Qed.
Lemma leg_stored i : (i < 2)%nat -> exists v, value_at g i = Ok v /\ vec_is v 1 (fun _ => cf i).
Proof.
  intros Hi. pose proof (rep_gwf _ _ _ _ _ _ _ _ Rg) as W. assert (D : gs_dim g = 2%nat) by (unfold gs_dim; apply (is_basis_dim _ _ (proj1 Rg))).
  destruct (value_at_ok g 1 1 tf cf i W) as (v & E & V); [rewrite D; lia|]. exists v. split; [exact E|]. eapply vec_is_ext; [exact V|]. intros cc Hc. cbn beta. rewrite D.
  assert (cc = 0)%nat by lia. subst cc. destruct i as [|[|i]]; [reflexivity|reflexivity|lia].
Qed.
End Legendre.
Lemma from_rep rv g d n codom t0 t1 tf cf r : rep g d n codom t0 t1 tf cf -> gll_from rv g = Ok r -> r = gs_move g.
Proof. intros X E. destruct rv; cbn in E; [congruence|]. rewrite (gwf_copy g n codom tf cf (rep_gwf _ _ _ _ _ _ _ _ X)) in E. congruence. Qed.

(** REFUTED (value_at(i) is the value at the i-th point of get_domain_discretization()): for a spline made from such a Legendre
    spline this holds for the zero spline only. *)
Theorem C89_nodes_refuted rv g t0 t1 tf cf : rep g (DLeg 2) 1 1 t0 t1 tf cf -> 0 < tf 0%nat -> t0 + tf 0%nat = t1 ->
  exists r p m v0 v1, gll_from rv g = Ok r /\ gll_discretization r = Ok p /\ gs_value r p = Ok m /\ value_at r 0 = Ok v0 /\ value_at r 1 = Ok v1 /\
  (mget m 0 0 = vget v0 0 /\ mget m 1 0 = vget v1 0 <-> cf 0%nat = 0 /\ cf 1%nat = 0).
Proof.
  intros X Ht He. pose proof X as (B & D & K & Vt & Cc & Lb & _).
  destruct (leg_grid g t0 t1 tf cf X) as (p & Ep & P). destruct (leg_ends g t0 t1 tf cf X Ht He _ p P eq_refl eq_refl) as (m & Em & M).
  destruct (leg_stored g t0 t1 tf cf X 0 ltac:(lia)) as (v0 & E0 & V0). destruct (leg_stored g t0 t1 tf cf X 1 ltac:(lia)) as (v1 & E1 & V1).
  pose proof (rep_gwf _ _ _ _ _ _ _ _ X) as W. destruct (C89_same_function rv g 1 1 tf cf W ltac:(lia)) as (r & Er & _ & _ & _ & Val).
  destruct (Val p 2%nat _ P) as (mr & mg & f & Emr & Emg & Mr & Mg). rewrite Em in Emg. injection Emg as <-.
  pose proof (from_rep rv g _ _ _ _ _ _ _ r X Er) as Y. exists r, p, mr, v0, v1. split; [exact Er|]. split; [subst r; exact Ep|]. split; [exact Emr|]. split; [subst r; exact E0|]. split; [subst r; exact E1|].
  destruct Mr as (_ & _ & Gr). destruct Mg as (_ & _ & Gg). destruct M as (_ & _ & Gm). destruct V0 as (_ & V0). destruct V1 as (_ & V1).
  assert (Q : forall i, (i < 2)%nat -> mget mr i 0 = mget m i 0) by (intros i Hi; rewrite Gr, Gg by lia; reflexivity).
  rewrite !Q, !Gm, V0, V1 by lia. cbn [Nat.eqb]. split.
  - intros (A & C). injection A as A. injection C as C. lra.
  - intros (A & C). rewrite A, C. split; f_equal; lra.
Qed.
Lemma ends_refl (d : R * R) : same_ends d d = true.
Proof.
  apply ends_R. destruct d as (a, b). cbn [fst snd].
  assert (X : forall x, ToolsSpec.close (Rabs (x - x)) (Rabs x) (Rabs x) (1 / 1000000000)).
  { intros x. replace (x - x) with 0 by ring. rewrite Rabs_R0. unfold ToolsSpec.close. destruct (Rlt_dec (Rabs x) (1 / 1000000000)); lra. }
  auto.
Qed.
(** REFUTED (the product of collocation splines takes the products of the values at the nodes): for two such splines it does just
    when the two sums below vanish. *)
Theorem C89_product_refuted o g h t0 t1 tf cf tg cg : rep g (DLeg 2) 1 1 t0 t1 tf cf -> rep h (DLeg 2) 1 1 t0 t1 tg cg ->
  0 < tf 0%nat -> t0 + tf 0%nat = t1 -> 0 < tg 0%nat -> t0 + tg 0%nat = t1 ->
  exists q p mq mg mh, gll_mul o g h = Ok q /\ gll_discretization g = Ok p /\ gs_value q p = Ok mq /\ gs_value g p = Ok mg /\ gs_value h p = Ok mh /\
  ((forall i, (i < 2)%nat -> exists x y z, mget mq i 0 = Some x /\ mget mg i 0 = Some y /\ mget mh i 0 = Some z /\ x = y * z) <->
   cf 1%nat * cg 1%nat = 0 /\ cf 0%nat * cg 1%nat + cf 1%nat * cg 0%nat = 0).
Proof.
  intros X Y Hf Ef Hg Eg. pose proof (ends_refl (t0, t1)) as Se. pose proof (rep_gwf _ _ _ _ _ _ _ _ X) as W. pose proof (rep_gwf _ _ _ _ _ _ _ _ Y) as Wh.
  assert (D : gs_dim g = 2%nat) by (unfold gs_dim; apply (is_basis_dim _ _ (proj1 X))). assert (Dh : gs_dim h = 2%nat) by (unfold gs_dim; apply (is_basis_dim _ _ (proj1 Y))).
  assert (N : gs_n g = 1%nat) by (unfold gs_n; apply X). assert (Nh : gs_n h = 1%nat) by (unfold gs_n; apply Y).
  assert (K : gs_codom g = 1%nat) by apply X. assert (Kh : gs_codom h = 1%nat) by apply Y. assert (Eg' : gs_dom g = (t0, t1)) by apply X. assert (Eh' : gs_dom h = (t0, t1)) by apply Y.
  assert (Q : exists q, gll_mul o g h = Ok q /\ rep q (DLeg 2) 1 1 t0 t1 tf (fun i => cf i * cg i)).
  { assert (MB : forall s, s = g \/ s = gs_move g -> exists c, map_blocks (fun iv m => s <- value_block h iv ;; if Nat.eqb (mcols s) 0 then UB else Ok (mmap (fun i _ x => olift2 nmul x (mget s i 0)) m)) 1 s = Ok (with_coef s c) /\
      vec_is c 2 (fun i => cf i * cg i)).
    { intros s Es. assert (Ws : gwf s 1 1 tf cf) by (destruct Es as [->| ->]; [exact W|apply gwf_move; exact W]). assert (Ds : gs_dim s = 2%nat) by (destruct Es as [->| ->]; exact D).
      destruct (map_blocks_ok (fun iv m => s <- value_block h iv ;; if Nat.eqb (mcols s) 0 then UB else Ok (mmap (fun i _ x => olift2 nmul x (mget s i 0)) m)) s 1 1 tf cf (fun iv cc i => cf i * cg i) Ws) as (c & Ec & Vc).
      - intros iv m Hiv M. destruct (block_ok h 1 1 tg cg iv Wh Hiv) as (b & Eb & (Rb & Cb & Gb)). rewrite Eb. cbn [bind]. rewrite Cb. cbn [Nat.eqb].
        eexists. split; [reflexivity|]. destruct M as (Rm & Cm & Gm). split; [exact Rm|]. split; [exact Cm|]. intros i j Hi Hj. cbn [mmap mget]. rewrite Gm by auto. rewrite Ds in Hi. rewrite Gb by lia. cbn. rewrite Ds, Dh.
        assert (j = 0)%nat by lia. assert (iv = 0)%nat by lia. subst. cbn [Nat.mul Nat.add]. reflexivity.
      - exists c. split; [exact Ec|]. rewrite Ds in Vc. eapply vec_is_ext; [exact Vc|]. intros [|[|i]] Hi; [reflexivity|reflexivity|lia]. }
    assert (RR : forall s c, (s = g \/ s = gs_move g) -> vec_is c 2 (fun i => cf i * cg i) -> rep (with_coef s c) (DLeg 2) 1 1 t0 t1 tf (fun i => cf i * cg i) /\ rep (gs_move (with_coef s c)) (DLeg 2) 1 1 t0 t1 tf (fun i => cf i * cg i)).
    { intros s c Es Vc. assert (Rs : rep s (DLeg 2) 1 1 t0 t1 tf cf) by (destruct Es as [->| ->]; [exact X|apply rep_move; exact X]).
      assert (Rc : rep (with_coef s c) (DLeg 2) 1 1 t0 t1 tf (fun i => cf i * cg i)) by (eapply rep_with_coef; [exact Rs|exact Vc]). split; [exact Rc|apply rep_move; exact Rc]. }
    unfold gll_mul, same_discretization. rewrite D, Dh, N, Nh, K, Kh, Eg', Eh', Se. cbn [Nat.eqb andb orb require bind negb].
    rewrite (gwf_copy g 1 1 tf cf W).
    destruct (MB g (or_introl eq_refl)) as (c & Ec & Vc). destruct (MB (gs_move g) (or_intror eq_refl)) as (c' & Ec' & Vc').
    destruct (RR g c (or_introl eq_refl) Vc) as (R1 & R2). destruct (RR (gs_move g) c' (or_intror eq_refl) Vc') as (R3 & R4).
    destruct o; cbn [negb bind]; rewrite ?Ec, ?Ec'; cbn [bind]; eexists; split; reflexivity || eassumption. }
  destruct Q as (q & Eq & Rq). destruct (leg_grid g t0 t1 tf cf X) as (p & Ep & P).
  destruct (leg_ends q t0 t1 tf _ Rq Hf Ef _ p P eq_refl eq_refl) as (mq & Emq & (_ & _ & Gq)).
  destruct (leg_ends g t0 t1 tf cf X Hf Ef _ p P eq_refl eq_refl) as (mg & Emg & (_ & _ & Gg)). destruct (leg_ends h t0 t1 tg cg Y Hg Eg _ p P eq_refl eq_refl) as (mh & Emh & (_ & _ & Gh)).
  exists q, p, mq, mg, mh. repeat (split; [assumption|]). split.
  - intros Z. destruct (Z 0%nat ltac:(lia)) as (x & y & z & A & B & C & F). destruct (Z 1%nat ltac:(lia)) as (x' & y' & z' & A' & B' & C' & F').
    rewrite Gq in A, A' by lia. rewrite Gg in B, B' by lia. rewrite Gh in C, C' by lia. cbn [Nat.eqb] in *. injection A as <-. injection B as <-. injection C as <-. injection A' as <-. injection B' as <-. injection C' as <-.
    ring_simplify in F. ring_simplify in F'. split; lra.
  - intros (A & B) i Hi. do 3 eexists. split; [apply Gq; lia|]. split; [apply Gg; lia|]. split; [apply Gh; lia|]. destruct i as [|[|i]]; [| |lia]; cbn [Nat.eqb].
    + replace ((cf 0%nat - cf 1%nat) * (cg 0%nat - cg 1%nat)) with (cf 0%nat * cg 0%nat - (cf 0%nat * cg 1%nat + cf 1%nat * cg 0%nat) + cf 1%nat * cg 1%nat) by ring. rewrite A, B. ring.
    + replace ((cf 0%nat + cf 1%nat) * (cg 0%nat + cg 1%nat)) with (cf 0%nat * cg 0%nat + (cf 0%nat * cg 1%nat + cf 1%nat * cg 0%nat) + cf 1%nat * cg 1%nat) by ring. rewrite A, B. ring.
Qed.

(** ** Cases *)
Lemma leg_case a b : exists g, rep g (DLeg 2) 1 1 0 2 (fun i => nth i [2] 0) (fun i => nth i [a; b] 0).
Proof. destruct (leg_spline 2 (0, 2) 1 [2] [a; b]) as (bb & s & g & _ & _ & X & _); [lia|reflexivity|]. exists g. exact X. Qed.
Example C89_nodes_case : exists g, rep g (DLeg 2) 1 1 0 2 (fun i => nth i [2] 0) (fun i => nth i [0; 1] 0) /\ gwf g 1 1 (fun i => nth i [2] 0) (fun i => nth i [0; 1] 0) /\
  (0 < 2 /\ 0 + 2 = 2) /\ nth 1 [0; 1] 0 = 1 /\ 1 * 1 <> 0.
Proof. destruct (leg_case 0 1) as (g & X). exists g. split; [exact X|]. split; [apply (rep_gwf _ _ _ _ _ _ _ _ X)|]. split; [split; lra|]. split; [reflexivity|lra]. Qed.
(** REFUTED (after [a = b] the two are the same function): [a] is the identity on [0, 2], [b] was made from the Legendre spline
    t - 1 on the same interval; after the assignment a(0) = 0 and b(0) = -1. *)
Theorem C89_assign_refuted fresh : exists a g b r ma mb, gll_identity fresh true (0, 2) 2 1 = Ok a /\ rep g (DLeg 2) 1 1 0 2 (fun i => nth i [2] 0) (fun i => nth i [0; 1] 0) /\ gll_from false g = Ok b /\ gll_assign false false a b = Ok r /\ gs_dom r = gs_dom b /\ gs_value r (vconst 1 0) = Ok ma /\ gs_value b (vconst 1 0) = Ok mb /\ mget ma 0 0 = Some 0 /\ mget mb 0 0 = Some (-1).
Proof.
  destruct (ex_identity fresh 0 2) as (a & Ea & Ca). destruct (leg_case 0 1) as (g & X). pose proof (rep_move _ _ _ _ _ _ _ _ X) as Y.
  pose proof (rep_gwf _ _ _ _ _ _ _ _ Y) as W. assert (D : gs_dim (gs_move g) = 2%nat) by (unfold gs_dim; apply (is_basis_dim _ _ (proj1 Y))).
  destruct (C89_assign false a (gs_move g) _ _ _ _ _ _ _ _ Ca ltac:(lia) W D) as (r & Er & Cr).
  assert (Ed : gs_dom (gs_move g) = (0, 2)) by apply Y. rewrite Ed in Cr.
  destruct (colloc_nodes r _ 1 1 2 _ _ (vconst 1 0) 1 (fun _ => 0) (fun _ => 0%nat) (fun _ => 0%nat) Cr ltac:(lia) ltac:(lia)) as (mr & Emr & (_ & _ & Gr)).
  { intros; lra. } { exact good_2. } { apply vconst_is. }
  { intros k Hk. split; [lia|]. split; [lia|]. unfold on_interval, bp. cbn. rnum. field. } { intros; lia. }
  destruct (C26_value (gs_move g) (DLeg 2) 1 1 0 2 _ _ (vconst 1 0) (fun _ => 0) 1 Y ltac:(lia)) as (m & E & (_ & _ & G)); [intros [|k] Hk; [cbn; lra|lia]|apply vconst_is|intros; exact Logic.I|].
  exists a, g, (gs_move g), r, mr, m. split; [exact Ea|]. split; [exact X|]. split; [apply (gwf_copy g _ _ _ _ (rep_gwf _ _ _ _ _ _ _ _ X))|]. split; [exact Er|].
  split; [transitivity (0, 2); [apply Cr|symmetry; exact Ed]|]. split; [exact Emr|]. split; [exact E|]. rewrite Gr, G by lia. split; [reflexivity|]. f_equal.
  unfold sfun. replace (locate 0 (fun i => nth i [2] 0) 1 0) with 0%nat by reflexivity. unfold piece, tphi, phi, window, bp, legP. cbn [d_dim Rsum Nat.mul Nat.add leg2 fst INR nth]. field.
Qed.
(** a spline to convert and one to assign to the result *)
Example C89_function_case : exists g f gr, gwf g 1 1 (fun i => nth i [2] 0) (fun i => nth i [0; 1] 0) /\ gs_basis g = BLegendre 2 gr /\ gs_codom f = 1%nat /\ rep f (DLeg 2) 1 1 0 2 (fun i => nth i [2] 0) (fun i => nth i [3; 4] 0).
Proof.
  destruct (leg_case 0 1) as (g & X). destruct (leg_case 3 4) as (f & Y). destruct (gs_basis g) as [d gr|p w gr|al] eqn:E; pose proof (proj1 X) as B; rewrite E in B; cbn in B; try contradiction.
  exists g, f, gr. split; [apply (rep_gwf _ _ _ _ _ _ _ _ X)|]. split; [rewrite E; f_equal; lia|]. split; [apply Y|exact Y].
Qed.
Example C89_collocation_case fresh : exists g, gll_identity fresh true (0, 2) 2 1 = Ok g /\ colloc g (0, 2) 1 1 2 (fun _ => 2 - 0) (fun _ _ i => if Nat.eqb i 0 then 0 else 2).
Proof. apply ex_identity. Qed.
