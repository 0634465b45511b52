(** Properties C46 and C54: numerical integrals, inner products and norms of functions. *)
From Coquelicot Require Import Coquelicot.
From Coq Require Import List Arith Bool Reals Lia Lra.
From Verif Require Import Num Outcome LinAlg RSum RDeriv RPoly LegendreSpec SplineSpec BasisFn GSplineModel GSplineProofs GSplineProofs2 GSplineProofs6 GSplineProps FunModel FunSpec FunProofs FunProofs2 FunDeriv FunDeriv2 FunConcat FunProofs3 FunProps
  GSplineModel GLModel GLSpec GLProofs GLProps GLLModel GLLProofs QuadSpec QuadMath LobattoRoots IntegralModel IntegralProofs.
Import ListNotations.
Local Open Scope R_scope.

Lemma poly_isPoly d F : poly d F -> isPoly (S d) F.
Proof. intros (c & E). exists c. exact E. Qed.
Lemma isPoly_mult m k f g : isPoly (S m) f -> isPoly (S k) g -> isPoly (S (m + k)) (fun t => f t * g t).
Proof.
  intros (c & E) P. apply (isPoly_ext _ (fun t => Rsum (S m) (fun i => c i * (t ^ i * g t)))).
  { intros t. rewrite E. unfold peval. rewrite <- Rsum_scal_r. apply Rsum_ext. intros; ring. }
  apply isPoly_Rsum. intros i Hi. apply isPoly_scal. apply (isPoly_mono (i + S k)); [lia|]. clear E Hi.
  induction i as [|i IH]; [apply (isPoly_ext _ g); auto; intros; simpl; ring|]. apply (isPoly_ext _ (fun t => t * (t ^ i * g t))); [intros; simpl; ring|]. apply (isPoly_mulX (i + S k)). exact IH.
Qed.
Lemma nodes_ok n : (2 <= n)%nat -> exists p w x wf, gl_points_weights (T := R) n = Ok (p, w) /\ vec_is p n x /\ vec_is w n wf.
Proof. intros Hn. destruct (gl_ok (T := R) n Hn) as (p & w & E & P & W). exists p, w. eauto. Qed.

Lemma program_computes dbg p e : prog_ok p -> build p = Ok e -> computes dbg (fe e) (psem p) /\ ecod e = pcod p.
Proof.
  intros HP HB. destruct (build_ok p HP e HB) as (W & C & _ & D). split; [|exact C].
  destruct (computes_den dbg (fe e) W) as (A & B). split.
  - intros l. rewrite A. f_equal. apply map_ext. exact D.
  - intros t. rewrite <- D. apply B.
Qed.

(** ** C46 *)
(** the value is the composite quadrature of the integrand over its domain, with the library's nodes
    and the Gauss-Lobatto weights belonging to them *)
Theorem C46_quadrature dbg (f : fobj R) F nglp n : fo_codom f = 1%nat -> pointwise f F -> (2 <= nglp)%nat ->
  exists p w x wf, gl_points_weights nglp = Ok (p, w) /\ vec_is p nglp x /\ vec_is w nglp wf /\
    (forall i, (i < nglp)%nat -> wf i = lob_weight (nglp - 1) (x i)) /\
    integral dbg f nglp n = Ok (quad nglp n x wf (fst (fo_dom f)) (snd (fo_dom f)) (F 0%nat)).
Proof.
  intros C P Hn. destruct (nodes_ok nglp Hn) as (p & w & x & wf & E & X & W). exists p, w, x, wf.
  split; [exact E|]. split; [exact X|]. split; [exact W|]. split.
  - intros i Hi. eapply C39_weights; eauto.
  - eapply integral_ok; eauto.
Qed.
Example C46_quadrature_case dbg : fo_codom (fo_of_fn dbg (FSin D01)) = 1%nat /\ pointwise (fo_of_fn dbg (FSin D01)) (fun _ t => sin t).
Proof. split; [reflexivity|]. apply fn_pointwise. intros l. cbn. f_equal. now rewrite map_map. Qed.
(** the same for every program of function operators *)
Theorem C46_expression dbg p e nglp n pts w x wf : prog_ok p -> build p = Ok e -> pcod p = 1%nat ->
  gl_points_weights nglp = Ok (pts, w) -> vec_is pts nglp x -> vec_is w nglp wf ->
  integral dbg (fo_of_fn dbg (fe e)) nglp n = Ok (quad nglp n x wf (fst (edom e)) (snd (edom e)) (fun t => nth 0 (psem p t) 0)).
Proof.
  intros HP HB C E X W. destruct (program_computes dbg p e HP HB) as (K & Ce).
  rewrite (integral_ok dbg (fo_of_fn dbg (fe e)) (fun cc t => nth cc (psem p t) 0) nglp n pts x w wf); auto.
  - cbn. congruence.
  - apply computes_pointwise; auto.
Qed.
Example C46_expression_case : prog_ok ex_dot /\ pcod ex_dot = 1%nat /\ (exists e, build ex_dot = Ok e) /\ exists pts w x wf, gl_points_weights (T := R) 10 = Ok (pts, w) /\ vec_is pts 10 x /\ vec_is w 10 wf.
Proof. split; [apply ex_dot_ok|]. split; [reflexivity|]. split; [exact ex_dot_builds|]. apply nodes_ok. lia. Qed.
(** linear in the integrand *)
Theorem C46_linear dbg (f g h : fobj R) F G a b nglp n : fo_codom f = 1%nat -> fo_codom g = 1%nat -> fo_codom h = 1%nat ->
  pointwise f F -> pointwise g G -> pointwise h (fun j t => a * F j t + b * G j t) -> fo_dom g = fo_dom f -> fo_dom h = fo_dom f -> (2 <= nglp)%nat ->
  exists If Ig, integral dbg f nglp n = Ok If /\ integral dbg g nglp n = Ok Ig /\ integral dbg h nglp n = Ok (a * If + b * Ig).
Proof.
  intros Cf Cg Ch Pf Pg Ph Dg Dh Hn. destruct (nodes_ok nglp Hn) as (p & w & x & wf & E & X & W).
  rewrite (integral_ok dbg f F nglp n p x w wf), (integral_ok dbg g G nglp n p x w wf), (integral_ok dbg h _ nglp n p x w wf Ch Ph) by auto.
  rewrite Dg, Dh. do 2 eexists. split; [reflexivity|]. split; [reflexivity|]. f_equal. unfold quad.
  rewrite <- !Rsum_scal, <- Rsum_plus. apply Rsum_ext. intros iv _.
  match goal with |- ?l * _ = _ => generalize l end. intros l. rewrite <- !Rsum_scal, <- Rsum_plus. apply Rsum_ext. intros i _. ring.
Qed.
Example C46_linear_case dbg : pointwise (fo_of_fn dbg (FSin D01)) (fun _ t => sin t) /\ pointwise (fo_of_fn dbg (FCos D01)) (fun _ t => cos t) /\
  exists h, fcod h = 1%nat /\ fdom h = D01 /\ pointwise (fo_of_fn dbg h) (fun _ t => 2 * sin t + 3 * cos t).
Proof.
  split; [apply fn_pointwise; intros l; cbn; f_equal; now rewrite map_map|]. split; [apply fn_pointwise; intros l; cbn; f_equal; now rewrite map_map|].
  set (p := PAdd FunModel.LL (PScal true 2 (PLeaf D01 LSin)) (PScal true 3 (PLeaf D01 LCos))).
  assert (B : exists e, build p = Ok e /\ edom e = D01).
  { unfold p. assert (K : exists e, build (PAdd FunModel.LL (PScal true 2 (PLeaf D01 LSin)) (PScal true 3 (PLeaf D01 LCos))) = Ok e) by build_solve. destruct K as (e & E). exists e. split; [exact E|].
    revert E. build_solve. intros E. inversion E. reflexivity. }
  destruct B as (e & E & De). destruct (program_computes dbg p e ltac:(simpl; tauto) E) as (K & Ce).
  exists (fe e). split; [exact Ce|]. split; [exact De|]. intros pts np pf res V Hr Hc.
  destruct (computes_pointwise dbg (fe e) _ K pts np pf res V Hr Hc) as (m & Em & Mm). exists m. split; [exact Em|].
  apply (mat_is_ext _ _ _ _ _ Mm). intros i cc Hi Hcc. cbn [fo_of_fn fo_codom fe fcod] in Hcc. rewrite Ce in Hcc. cbn in Hcc. replace cc with 0%nat by lia. reflexivity.
Qed.
(** with exact nodes the value is the integral of every polynomial of degree at most 2 nglp - 3, on every domain and for every
    number of intervals *)
Theorem C46_exact dbg (f : fobj R) F nglp n p w x wf : fo_codom f = 1%nat -> pointwise f F -> (2 <= nglp)%nat -> (1 <= n)%nat ->
  gl_points_weights nglp = Ok (p, w) -> vec_is p nglp x -> vec_is w nglp wf -> lobatto_nodes (nglp - 1) x ->
  poly (2 * nglp - 3) (F 0%nat) ->
  exists v, integral dbg f nglp n = Ok v /\ is_RInt (F 0%nat) (fst (fo_dom f)) (snd (fo_dom f)) v.
Proof.
  intros C P Hg Hn E X W L HF. eexists. split; [eapply integral_ok; eauto|].
  apply (quad_exact (2 * S (nglp - 2))); auto.
  - intros G HG. destruct nglp as [|[|M]]; [lia|lia|]. replace (S (S M) - 1)%nat with (S M) in L by lia. replace (S (S M) - 2)%nat with M in HG by lia.
    pose proof (lobatto_exact M x L G HG) as K. eapply i_value; [|exact K].
    apply Rsum_ext. intros i Hi. rewrite (C39_weights _ _ _ _ _ i E X W Hi). replace (S (S M) - 1)%nat with (S M) by lia. reflexivity.
  - replace (2 * S (nglp - 2))%nat with (S (2 * nglp - 3)) by lia. apply poly_isPoly; auto.
Qed.
(** the two- and three-point rules of the library have exact nodes *)
Theorem C46_exact_two_points dbg (f : fobj R) F n : fo_codom f = 1%nat -> pointwise f F -> (1 <= n)%nat -> poly 1 (F 0%nat) ->
  exists v, integral dbg f 2 n = Ok v /\ is_RInt (F 0%nat) (fst (fo_dom f)) (snd (fo_dom f)) v.
Proof.
  intros C P Hn HF. destruct C39_exact_small as (p2 & w2 & p3 & w3 & E & X & W & _).
  apply (C46_exact dbg f F 2 n p2 w2 _ _ C P (le_n 2) Hn E X W); [apply lobatto_nodes_2|exact HF].
Qed.
Theorem C46_exact_three_points dbg (f : fobj R) F n : fo_codom f = 1%nat -> pointwise f F -> (1 <= n)%nat -> poly 3 (F 0%nat) ->
  exists v, integral dbg f 3 n = Ok v /\ is_RInt (F 0%nat) (fst (fo_dom f)) (snd (fo_dom f)) v.
Proof.
  intros C P Hn HF. destruct C39_exact_small as (p2 & w2 & p3 & w3 & _ & _ & _ & E & X & W).
  apply (C46_exact dbg f F 3 n p3 w3 _ _ C P ltac:(lia) Hn E X W); [apply lobatto_nodes_3|exact HF].
Qed.
Example C46_exact_case dbg : pointwise (fo_of_fn dbg (FPoly (1, 4) [1; 0; 0; 2])) (fun _ t => 1 + 2 * t ^ 3) /\ poly 3 (fun t => 1 + 2 * t ^ 3) /\
  exists n, (1 <= n)%nat /\ integral dbg (fo_of_fn dbg (FPoly (1, 4) [1; 0; 0; 2])) 3 n = Ok (261 / 2).
Proof.
  assert (P : pointwise (fo_of_fn dbg (FPoly (1, 4) [1; 0; 0; 2])) (fun _ t => 1 + 2 * t ^ 3)).
  { assert (B : build (PLeaf (1, 4) (LPoly [1; 0; 0; 2])) = Ok (to_expression (FPoly (1, 4) [1; 0; 0; 2]))) by reflexivity.
    apply fn_pointwise. intros l. pose proof (C01_expression_value dbg (PLeaf (1, 4) (LPoly [1; 0; 0; 2])) _ l ltac:(discriminate) B) as (K & _).
    unfold call in K. cbn in K. rewrite andb_false_r in K. cbn [fcod]. etransitivity; [exact K|]. f_equal. apply map_ext. intros t. cbn. f_equal. ring. }
  assert (Q : poly 3 (fun t => 1 + 2 * t ^ 3)).
  { exists (fun k => nth k [1; 0; 0; 2] 0). intros t. cbn. ring. }
  split; [exact P|]. split; [exact Q|]. exists 7%nat. split; [lia|].
  destruct (C46_exact_three_points dbg (fo_of_fn dbg (FPoly (1, 4) [1; 0; 0; 2])) (fun _ t => 1 + 2 * t ^ 3) 7 eq_refl P ltac:(lia) Q) as (v & E & I). rewrite E. f_equal.
  cbn [fo_of_fn fo_dom fdom fst snd] in I. apply (i_unique _ _ _ _ _ I).
  replace (261 / 2) with ((4 + 4 ^ 4 / 2) - (1 + 1 ^ 4 / 2)) by (simpl; lra).
  apply (i_ftc (fun t => t + t ^ 4 / 2)).
  - intros t. auto_derive; auto. simpl. field.
  - intros t. apply (ex_derive_continuous (fun t => 1 + 2 * t ^ 3)). auto_derive; auto.
Qed.
(** the nodes these statements speak of exist, for every number of points *)
Theorem C46_nodes_exist nglp : (2 <= nglp)%nat -> exists x, lobatto_nodes (nglp - 1) x /\ x 0%nat = -1 /\ x (nglp - 1)%nat = 1 /\
  (forall i j, (i < j)%nat -> (j < nglp)%nat -> x i < x j).
Proof.
  intros Hn. destruct (lobatto_nodes_exist (nglp - 1) ltac:(lia)) as (x & L & X0 & X1 & I). exists x. repeat (split; auto); try apply L.
  intros i j Hij Hj. apply I; lia.
Qed.
(** any such nodes carry positive weights of sum 2 and lie in [-1, 1] *)
Lemma lobatto_weights N x : (1 <= N)%nat -> lobatto_nodes N x -> (forall i, (i < S N)%nat -> -1 <= x i <= 1 /\ 0 < lob_weight N (x i)) /\ Rsum (S N) (fun i => lob_weight N (x i)) = 2.
Proof.
  intros HN L. destruct N as [|M]; [lia|]. split.
  - intros i Hi. split; [apply (lobatto_root_range (S M)); auto; apply L; lia|].
    destruct (nodes_weight M x L i ltac:(lia)) as (Nz & _). unfold lob_weight. pose proof (pos_INR M). rewrite S_INR.
    assert (0 < legP (S M) (x i) ^ 2) by (pose proof (pow2_ge_0 (legP (S M) (x i))); assert (legP (S M) (x i) ^ 2 <> 0) by (apply pow_nonzero; auto); lra).
    apply Rdiv_lt_0_compat; [lra|]. apply Rmult_lt_0_compat; auto. apply Rmult_lt_0_compat; lra.
  - pose proof (lobatto_exact M x L (fun _ => 1)) as K. assert (P : isPoly (2 * S M) (fun _ => 1)) by (apply isPoly_const; lia). specialize (K P).
    assert (K2 : is_RInt (fun _ => 1) (-1) 1 2).
    { eapply i_value; [|exact (is_RInt_const (-1) 1 1)]. change (2 = (1 - -1) * 1). ring. }
    rewrite <- (i_unique _ _ _ _ _ K K2). apply Rsum_ext. intros; ring.
Qed.
(** for any other integrand the error decreases with the number of intervals *)
Theorem C46_error dbg (f : fobj R) F nglp n p w x wf K v : fo_codom f = 1%nat -> pointwise f F -> (2 <= nglp)%nat -> (1 <= n)%nat ->
  gl_points_weights nglp = Ok (p, w) -> vec_is p nglp x -> vec_is w nglp wf -> lobatto_nodes (nglp - 1) x ->
  let a := fst (fo_dom f) in let b := snd (fo_dom f) in a <= b ->
  (forall s t, a <= s <= b -> a <= t <= b -> Rabs (F 0%nat s - F 0%nat t) <= K * Rabs (s - t)) -> is_RInt (F 0%nat) a b v ->
  exists q, integral dbg f nglp n = Ok q /\ Rabs (q - v) <= K * (b - a) ^ 2 / INR n.
Proof.
  intros C P Hg Hn E X W L a b Hab Lip HI. eexists. split; [eapply integral_ok; eauto|].
  destruct (lobatto_weights (nglp - 1) x ltac:(lia) L) as (B & S2). replace (S (nglp - 1)) with nglp in * by lia.
  apply quad_error; auto.
  - intros i Hi. rewrite (C39_weights _ _ _ _ _ i E X W Hi). destruct (B i Hi). lra.
  - rewrite <- S2. apply Rsum_ext. intros i Hi. apply (C39_weights _ _ _ _ _ i E X W Hi).
Qed.
Theorem C46_error_small dbg (f : fobj R) F nglp n K v : fo_codom f = 1%nat -> pointwise f F -> (nglp = 2 \/ nglp = 3)%nat -> (1 <= n)%nat ->
  let a := fst (fo_dom f) in let b := snd (fo_dom f) in a <= b ->
  (forall s t, a <= s <= b -> a <= t <= b -> Rabs (F 0%nat s - F 0%nat t) <= K * Rabs (s - t)) -> is_RInt (F 0%nat) a b v ->
  exists q, integral dbg f nglp n = Ok q /\ Rabs (q - v) <= K * (b - a) ^ 2 / INR n.
Proof.
  intros C P Hg Hn a b Hab Lip HI. destruct C39_exact_small as (p2 & w2 & p3 & w3 & E2 & X2 & W2 & E3 & X3 & W3). destruct Hg as [-> | ->].
  - apply (C46_error dbg f F 2 n p2 w2 _ _ K v C P (le_n 2) Hn E2 X2 W2); auto. apply lobatto_nodes_2.
  - apply (C46_error dbg f F 3 n p3 w3 _ _ K v C P ltac:(lia) Hn E3 X3 W3); auto. apply lobatto_nodes_3.
Qed.
Example C46_error_case dbg : exists q, integral dbg (fo_of_fn dbg (FSin D01)) 3 50 = Ok q /\ Rabs (q - (1 - cos 1)) <= 1 / 50.
Proof.
  destruct (C46_error_small dbg (fo_of_fn dbg (FSin D01)) (fun _ t => sin t) 3 50 1 (1 - cos 1) eq_refl (proj2 (C46_quadrature_case dbg)) (or_intror eq_refl) ltac:(lia)) as (q & E & B).
  - cbn. lra.
  - cbn. intros s t _ _. destruct (MVT_gen sin t s cos) as (c & _ & Ec).
    + intros y _. apply is_derive_Reals. apply derivable_pt_lim_sin.
    + intros y _. apply continuity_sin.
    + rewrite Ec, Rabs_mult. assert (Rabs (cos c) <= 1) by (apply Rabs_le; apply COS_bound). apply Rmult_le_compat_r; auto. apply Rabs_pos.
  - cbn. replace (1 - cos 1) with ((- cos 1) - (- cos 0)) by (rewrite cos_0; ring). apply (i_ftc (fun t => - cos t)).
    + intros t. auto_derive; auto. ring.
    + intros t. apply continuity_pt_filterlim, continuity_sin.
  - exists q. split; [exact E|]. cbn [fo_of_fn fo_dom fdom fst snd D01] in B. replace (1 * (1 - 0) ^ 2 / INR 50) with (1 / 50) in B by (simpl; lra). exact B.
Qed.
(** the computed nodes are in general only close to the exact ones: the result then is close to the exact one too *)
Lemma sum_stable m (g : R -> R) (x : nat -> R) : (forall i, (i < m)%nat -> continuous g (x i)) -> forall eta, 0 < eta ->
  exists delta, 0 < delta /\ forall y, (forall i, (i < m)%nat -> Rabs (y i - x i) < delta) -> Rabs (Rsum m (fun i => g (y i)) - Rsum m (fun i => g (x i))) < eta.
Proof.
  induction m as [|m IH]; intros C eta He.
  - exists 1. split; [lra|]. intros y _. cbn. rewrite Rminus_eq_0, Rabs_R0. auto.
  - destruct (IH ltac:(auto) (eta / 2) ltac:(lra)) as (d1 & H1 & D1).
    pose proof (C m ltac:(lia)) as Cm. assert (L : locally (g (x m)) (fun v => Rabs (v - g (x m)) < eta / 2)).
    { exists (mkposreal (eta / 2) ltac:(lra)). intros v Hv. exact Hv. }
    destruct (Cm _ L) as ((d2 & H2) & D2). exists (Rmin d1 d2). split; [apply Rmin_glb_lt; auto|]. intros y Hy. cbn [Rsum].
    replace (Rsum m (fun i => g (y i)) + g (y m) - (Rsum m (fun i => g (x i)) + g (x m))) with ((Rsum m (fun i => g (y i)) - Rsum m (fun i => g (x i))) + (g (y m) - g (x m))) by ring.
    eapply Rle_lt_trans; [apply Rabs_triang|]. replace eta with (eta / 2 + eta / 2) by field. apply Rplus_lt_compat.
    + apply D1. intros i Hi. eapply Rlt_le_trans; [apply Hy; lia|apply Rmin_l].
    + apply D2. eapply Rlt_le_trans; [apply Hy; lia|apply Rmin_r].
Qed.
Lemma lob_weight_continuous N x : legP N x <> 0 -> (1 <= N)%nat -> continuous (lob_weight N) x.
Proof.
  intros Nz HN. assert (0 < INR N) by (apply lt_0_INR; lia). unfold lob_weight. apply (continuous_mult (fun _ => 2) (fun t => / (INR N * (INR N + 1) * legP N t ^ 2))); [apply continuous_const|].
  apply continuous_Rinv_comp.
  - apply (continuous_mult (fun _ => INR N * (INR N + 1)) (fun t => legP N t ^ 2)); [apply continuous_const|].
    apply (continuous_mult (legP N) (fun t => legP N t * 1)); [apply LegendreMath.legP_continuous|].
    apply (continuous_mult (legP N) (fun _ => 1)); [apply LegendreMath.legP_continuous|apply continuous_const].
  - apply Rmult_integral_contrapositive_currified; [apply Rmult_integral_contrapositive_currified; lra|]. apply pow_nonzero; auto.
Qed.
Theorem C46_stable nglp n a b F eta x : (2 <= nglp)%nat -> (1 <= n)%nat -> poly (2 * nglp - 3) F -> 0 < eta -> lobatto_nodes (nglp - 1) x ->
  exists delta, 0 < delta /\ forall dbg (f : fobj R) Ff p w pf wf, fo_codom f = 1%nat -> pointwise f Ff -> (forall t, Ff 0%nat t = F t) -> fo_dom f = (a, b) ->
    gl_points_weights nglp = Ok (p, w) -> vec_is p nglp pf -> vec_is w nglp wf -> (forall i, (i < nglp)%nat -> Rabs (pf i - x i) < delta) ->
    exists q, integral dbg f nglp n = Ok q /\ Rabs (q - RInt F a b) < eta.
Proof.
  intros Hg Hn HF He L. set (N := (nglp - 1)%nat) in *. set (len := (b - a) / INR n).
  set (g := fun y => lob_weight N y * Rsum n (fun iv => len / 2 * F (on_interval (a + INR iv * len) len y))).
  assert (Q : forall z, quad nglp n z (fun i => lob_weight N (z i)) a b F = Rsum nglp (fun i => g (z i))).
  { intros z. unfold quad, g. fold len. rewrite (Rsum_ext n _ (fun iv => Rsum nglp (fun i => len / 2 * (lob_weight N (z i) * F (on_interval (a + INR iv * len) len (z i)))))) by (intros; rewrite <- Rsum_scal; reflexivity).
    rewrite Rsum_swap. apply Rsum_ext. intros i _. rewrite <- Rsum_scal. apply Rsum_ext. intros iv _. ring. }
  assert (CF : forall t, continuous F t) by (intros t; apply (isPoly_continuous (S (2 * nglp - 3))), poly_isPoly; auto).
  destruct (sum_stable nglp g x) with (eta := eta) as (delta & Hd & D); auto.
  { intros i Hi. unfold g. apply (continuous_mult (lob_weight N) (fun y => Rsum n (fun iv => len / 2 * F (on_interval (a + INR iv * len) len y)))).
    - apply lob_weight_continuous; [|unfold N; lia]. destruct nglp as [|[|M]]; [lia|lia|]. replace N with (S M) in * by (unfold N; lia). apply (nodes_weight M x L i). lia.
    - apply continuous_Rsum. intros iv _. apply (continuous_mult (fun _ => len / 2) (fun y => F (on_interval (a + INR iv * len) len y))); [apply continuous_const|].
      apply (continuous_comp (fun y => on_interval (a + INR iv * len) len y) F); [|apply CF]. apply (ex_derive_continuous (fun y => on_interval (a + INR iv * len) len y)). unfold on_interval. auto_derive; auto. }
  exists delta. split; [exact Hd|]. intros dbg f Ff p w pf wf C P EF Dm E X W Near. eexists. split; [eapply integral_ok; eauto|]. rewrite Dm. cbn [fst snd].
  replace (quad nglp n pf wf a b (Ff 0%nat)) with (Rsum nglp (fun i => g (pf i))).
  - replace (RInt F a b) with (Rsum nglp (fun i => g (x i))); [apply D; exact Near|]. rewrite <- Q. symmetry. apply is_RInt_unique.
    apply (quad_exact (2 * S (nglp - 2))); auto.
    + intros G HG. destruct nglp as [|[|M]]; [lia|lia|]. replace N with (S M) in * by (unfold N; lia). replace (S (S M) - 2)%nat with M in HG by lia.
      exact (lobatto_exact M x L G HG).
    + replace (2 * S (nglp - 2))%nat with (S (2 * nglp - 3)) by lia. apply poly_isPoly; auto.
  - rewrite <- Q. unfold quad. apply Rsum_ext. intros iv _. f_equal. apply Rsum_ext. intros i Hi. rewrite EF, (C39_weights _ _ _ _ _ i E X W Hi). reflexivity.
Qed.
(** splines can be integrated too *)
Theorem C46_spline dbg (g : gspline R) d n t0 t1 tf cf nglp ni p w x wf : rep g d n 1 t0 t1 tf cf -> (1 <= n)%nat -> (forall k, (k < n)%nat -> 0 < tf k) ->
  (forall t, exact_pt d (wpos t0 tf n t)) ->
  gl_points_weights nglp = Ok (p, w) -> vec_is p nglp x -> vec_is w nglp wf ->
  integral dbg (fo_of_gs g) nglp ni = Ok (quad nglp ni x wf t0 t1 (sfun d 1 n t0 tf cf 0)).
Proof.
  intros Rg H1 Pos Ex E X Wf. pose proof (rep_gwf _ _ _ _ _ _ _ _ Rg) as W. pose proof Rg as (B & D & C & _).
  pose proof (integral_ok dbg (fo_of_gs g) _ nglp ni p x w wf C (gs_pointwise g n 1 tf cf W H1) E X Wf) as K.
  cbn [fo_of_gs fo_dom] in K. rewrite D in K. cbn [fst snd] in K. rewrite K. f_equal. unfold quad.
  apply Rsum_ext. intros iv _. f_equal. apply Rsum_ext. intros i _. f_equal. apply gpt_R; auto.
Qed.
Example C46_spline_case : exists g, rep g (DLeg 3) 1 1 0 1 (fun i => nth i [1] 0) (fun i => nth i [1; 2; 3] 0) /\ (forall k, (k < 1)%nat -> 0 < nth k [1] 0) /\
  forall t, exact_pt (DLeg 3) (wpos 0 (fun i => nth i [1] 0) 1 t).
Proof.
  destruct GSplineProps.C30_ex as (g & h & A & _). exists g. split; [exact A|]. split; [|intros; exact I].
  intros [|k] Hk; [cbn; lra|lia].
Qed.
(** refusals *)
Theorem C46_no_interval dbg (f : fobj R) nglp : fo_codom f = 1%nat -> (2 <= nglp)%nat -> integral dbg f nglp 0 = Ok 0.
Proof.
  intros C Hn. unfold integral. rewrite C. cbn [Nat.eqb negb]. rewrite andb_false_r. destruct (nodes_ok nglp Hn) as (p & w & x & wf & E & _). rewrite E. cbn [bind]. reflexivity.
Qed.
Theorem C46_refusals : forall T (HN : Num T) (f : fobj T) nglp n,
  (fo_codom f <> 1%nat -> integral true f nglp n = Throw AssertFail) /\
  (forall dbg, fo_codom f = 1%nat -> (nglp < 2)%nat -> integral dbg f nglp n = UB).
Proof.
  intros T HN f nglp n. split.
  - intros C. unfold integral. destruct (Nat.eqb_spec (fo_codom f) 1); [contradiction|]. reflexivity.
  - intros dbg C Hn. unfold integral. rewrite C. cbn [Nat.eqb negb]. rewrite andb_false_r. rewrite gl_ub by auto. reflexivity.
Qed.
Example C46_refusals_case : fo_codom (fo_of_fn true (FConst (T := R) D01 [1; 2])) <> 1%nat /\ fo_codom (fo_of_fn true (FConst (T := R) D01 [1])) = 1%nat.
Proof. split; [discriminate|reflexivity]. Qed.

(** ** C54: inner products and norms *)
(** k-th derivatives of the components of a program *)
Definition dcomp (p : prog) (k : nat) (t : R) (j : nat) : R := Derive_n (fun u => nth j (psem p u) 0) k t.
(** sum over the terms (k, w) of w times the products of the k-th derivatives *)
Definition weighted (terms : list (nat * R)) (g : nat -> R) : R := fold_right (fun kw s => snd kw * g (fst kw) + s) 0 terms.

Lemma inner_map n (a b : nat -> R) : inner (map a (seq 0 n)) (map b (seq 0 n)) = Rsum n (fun j => a j * b j).
Proof.
  assert (G : forall m k, inner (map a (seq k m)) (map b (seq k m)) = Rsum m (fun j => a (k + j)%nat * b (k + j)%nat)).
  { induction m as [|m IH]; intros k; [reflexivity|]. rewrite Rsum_first. cbn [seq map]. unfold inner in *. cbn [zip_with fold_right]. rewrite IH.
    rewrite Nat.add_0_r. f_equal. apply Rsum_ext. intros j _. now rewrite Nat.add_succ_r. }
  apply (G n 0%nat).
Qed.
Lemma program_derives dbg p e k : prog_ok p -> prog_smooth p -> dots_close p /\ py_inside p -> build p = Ok e ->
  derives dbg (fe e) k (fun t => map (dcomp p k t) (seq 0 (pcod p))).
Proof.
  intros HP HS [HD HY] HB. destruct (program_computes dbg p e HP HB) as (_ & Ce). destruct (program_derivative dbg p e k HP HS HD (or_intror HY) HB) as (f' & Ef & Cf & G & HG & HL & HN).
  exists f'. split; [exact Ef|]. split; [cbn [fe fcod]; congruence|].
  assert (EG : forall t, G t = map (dcomp p k t) (seq 0 (pcod p))).
  { intros t. rewrite <- (list_seq (G t) 0), HL. apply map_ext. intros j. symmetry. apply is_derive_n_unique. exact (nth_derivative_is_derive_n k _ _ (HN j) t). }
  split.
  - intros pts. unfold call in HG. rewrite HG. f_equal. apply map_ext. exact EG.
  - intros t. rewrite map_length, seq_length. auto.
Qed.
Lemma total_weighted p q terms t : pcod p = pcod q ->
  total (map (term_fun (fun k t => map (dcomp p k t) (seq 0 (pcod p))) (fun k t => map (dcomp q k t) (seq 0 (pcod q)))) terms) t =
  weighted terms (fun k => Rsum (pcod p) (fun j => dcomp p k t j * dcomp q k t j)).
Proof.
  intros C. induction terms as [|[k w] terms IH]; [reflexivity|]. cbn [map total weighted fold_right fst snd]. rewrite IH. unfold term_fun at 1. cbn [fst snd]. rewrite <- C, inner_map. reflexivity.
Qed.
(** the inner product of two programs is the quadrature, over the domain of the first, of the weighted products of their derivatives *)
Theorem C54_inner_product dbg p q ep eq terms nglp n pts w x wf :
  prog_ok p -> prog_smooth p -> dots_close p /\ py_inside p -> build p = Ok ep -> prog_ok q -> prog_smooth q -> dots_close q /\ py_inside q -> build q = Ok eq -> pcod p = pcod q ->
  gl_points_weights nglp = Ok (pts, w) -> vec_is pts nglp x -> vec_is w nglp wf ->
  sobolev_semi_inner_product dbg (fe ep) (fe eq) terms nglp n =
  Ok (quad nglp n x wf (fst (edom ep)) (snd (edom ep)) (fun t => weighted terms (fun k => Rsum (pcod p) (fun j => dcomp p k t j * dcomp q k t j)))).
Proof.
  intros Hp Sp Dp Bp Hq Sq Dq Bq C E X W.
  rewrite (semi_ok dbg (fe ep) (fe eq) (fun k t => map (dcomp p k t) (seq 0 (pcod p))) (fun k t => map (dcomp q k t) (seq 0 (pcod q))) terms nglp n pts x w wf); auto.
  - f_equal. unfold quad. apply Rsum_ext. intros iv _. f_equal. apply Rsum_ext. intros i _. f_equal. apply total_weighted; auto.
  - destruct (program_computes dbg p ep Hp Bp) as (_ & A). destruct (program_computes dbg q eq Hq Bq) as (_ & B). cbn [fe fcod]. congruence.
  - intros k v _. split; apply program_derives; auto.
Qed.
Lemma unit_weighted deg g : weighted (unit_terms deg) g = Rsum (deg + 1) g.
Proof.
  assert (G : forall m k, weighted (map (fun i => (i, 1)) (seq k m)) g = Rsum m (fun j => g (k + j)%nat)).
  { induction m as [|m IH]; intros k; [reflexivity|]. rewrite Rsum_first. cbn [seq map weighted fold_right fst snd]. fold (weighted (map (fun i => (i, 1)) (seq (S k) m)) g). rewrite IH, Nat.add_0_r, Rmult_1_l.
    f_equal. apply Rsum_ext. intros j _. now rewrite Nat.add_succ_r. }
  exact (G (deg + 1)%nat 0%nat).
Qed.
(** all derivatives up to [deg] *)
Theorem C54_sobolev dbg p q ep eq deg nglp n pts w x wf :
  prog_ok p -> prog_smooth p -> dots_close p /\ py_inside p -> build p = Ok ep -> prog_ok q -> prog_smooth q -> dots_close q /\ py_inside q -> build q = Ok eq -> pcod p = pcod q ->
  gl_points_weights nglp = Ok (pts, w) -> vec_is pts nglp x -> vec_is w nglp wf ->
  sobolev_inner_product dbg (fe ep) (fe eq) deg nglp n =
  Ok (quad nglp n x wf (fst (edom ep)) (snd (edom ep)) (fun t => Rsum (deg + 1) (fun k => Rsum (pcod p) (fun j => dcomp p k t j * dcomp q k t j)))).
Proof.
  intros. unfold sobolev_inner_product. rewrite (C54_inner_product dbg p q ep eq (unit_terms deg) nglp n pts w x wf) by auto. f_equal. unfold quad. apply Rsum_ext. intros iv _. f_equal. apply Rsum_ext. intros i _. f_equal. apply unit_weighted.
Qed.
(** no derivative *)
Theorem C54_l2 dbg p q ep eq nglp n pts w x wf :
  prog_ok p -> prog_smooth p -> dots_close p /\ py_inside p -> build p = Ok ep -> prog_ok q -> prog_smooth q -> dots_close q /\ py_inside q -> build q = Ok eq -> pcod p = pcod q ->
  gl_points_weights nglp = Ok (pts, w) -> vec_is pts nglp x -> vec_is w nglp wf ->
  l2_inner_product dbg (fe ep) (fe eq) nglp n = Ok (quad nglp n x wf (fst (edom ep)) (snd (edom ep)) (fun t => Rsum (pcod p) (fun j => nth j (psem p t) 0 * nth j (psem q t) 0))) /\
  l2_norm dbg (fe ep) nglp n = Ok (quad nglp n x wf (fst (edom ep)) (snd (edom ep)) (fun t => Rsum (pcod p) (fun j => nth j (psem p t) 0 ^ 2))).
Proof.
  intros. split.
  - unfold l2_inner_product. rewrite (C54_sobolev dbg p q ep eq 0 nglp n pts w x wf) by auto. f_equal. unfold quad. apply Rsum_ext. intros iv _. f_equal. apply Rsum_ext. intros i _. f_equal. cbn [Nat.add Rsum]. rewrite Rplus_0_l. reflexivity.
  - unfold l2_norm. change (sobolev_norm dbg (fe ep) 0 nglp n) with (sobolev_inner_product dbg (fe ep) (fe ep) 0 nglp n). rewrite (C54_sobolev dbg p p ep ep 0 nglp n pts w x wf) by auto. f_equal. unfold quad. apply Rsum_ext. intros iv _. f_equal. apply Rsum_ext. intros i _. f_equal.
    cbn [Nat.add Rsum]. rewrite Rplus_0_l. apply Rsum_ext. intros j _. unfold dcomp. cbn [Derive_n]. ring.
Qed.
(** with exact nodes and polynomial components the squared L2 norm is the integral *)
Theorem C54_l2_exact dbg p e nglp n pts w x wf m : prog_ok p -> prog_smooth p -> dots_close p /\ py_inside p -> build p = Ok e -> (2 <= nglp)%nat -> (1 <= n)%nat ->
  gl_points_weights nglp = Ok (pts, w) -> vec_is pts nglp x -> vec_is w nglp wf -> lobatto_nodes (nglp - 1) x ->
  (forall j, (j < pcod p)%nat -> poly m (fun t => nth j (psem p t) 0)) -> (m + 2 <= nglp)%nat ->
  exists v, l2_norm dbg (fe e) nglp n = Ok v /\ is_RInt (fun t => Rsum (pcod p) (fun j => nth j (psem p t) 0 ^ 2)) (fst (edom e)) (snd (edom e)) v.
Proof.
  intros Hp Sp Dp Bp Hg Hn E X W L HF Hm. eexists. split; [apply (C54_l2 dbg p p e e nglp n pts w x wf); auto|].
  apply (quad_exact (2 * S (nglp - 2))); auto.
  - intros G HG. destruct nglp as [|[|M]]; [lia|lia|]. replace (S (S M) - 1)%nat with (S M) in L by lia. replace (S (S M) - 2)%nat with M in HG by lia.
    pose proof (lobatto_exact M x L G HG) as K. eapply i_value; [|exact K].
    apply Rsum_ext. intros i Hi. rewrite (C39_weights _ _ _ _ _ i E X W Hi). replace (S (S M) - 1)%nat with (S M) by lia. reflexivity.
  - apply isPoly_Rsum. intros j Hj. apply (isPoly_mono (S (m + m))); [lia|]. apply (isPoly_ext _ (fun t => nth j (psem p t) 0 * nth j (psem p t) 0)); [intros; ring|].
    apply isPoly_mult; apply poly_isPoly, HF; auto.
Qed.

(** the value as a form of the derivatives *)
Definition form (terms : list (nat * R)) (c nglp n : nat) (x wf : nat -> R) (a b : R) (P Q : nat -> R -> nat -> R) : R :=
  quad nglp n x wf a b (fun t => weighted terms (fun k => Rsum c (fun j => P k t j * Q k t j))).
Lemma weighted_plus terms g h : weighted terms (fun k => g k + h k) = weighted terms g + weighted terms h.
Proof. induction terms as [|[k w] r IH]; cbn [weighted fold_right]; [ring|]. fold (weighted r (fun k => g k + h k)) (weighted r g) (weighted r h). rewrite IH. cbn. ring. Qed.
Lemma weighted_scal terms s g : weighted terms (fun k => s * g k) = s * weighted terms g.
Proof. induction terms as [|[k w] r IH]; cbn [weighted fold_right]; [ring|]. fold (weighted r (fun k => s * g k)) (weighted r g). rewrite IH. cbn. ring. Qed.
Lemma weighted_ext terms g h : (forall k, g k = h k) -> weighted terms g = weighted terms h.
Proof. intros E. induction terms as [|[k w] r IH]; cbn [weighted fold_right]; [reflexivity|]. fold (weighted r g) (weighted r h). now rewrite IH, E. Qed.
Lemma weighted_nonneg terms g : (forall k w, In (k, w) terms -> 0 <= w) -> (forall k, 0 <= g k) -> 0 <= weighted terms g.
Proof.
  intros Hw Hg. induction terms as [|[k w] r IH]; cbn [weighted fold_right]; [lra|]. fold (weighted r g). apply Rplus_le_le_0_compat.
  - apply Rmult_le_pos; auto. apply (Hw k). now left.
  - apply IH. intros k' w' Hi. apply (Hw k'). now right.
Qed.
Lemma quad_ext np n x w a b F G : (forall t, F t = G t) -> quad np n x w a b F = quad np n x w a b G.
Proof. intros E. unfold quad. apply Rsum_ext. intros iv _. f_equal. apply Rsum_ext. intros i _. now rewrite E. Qed.
Lemma quad_plus np n x w a b F G : quad np n x w a b (fun t => F t + G t) = quad np n x w a b F + quad np n x w a b G.
Proof. unfold quad. rewrite <- Rsum_plus. apply Rsum_ext. intros iv _. match goal with |- ?l * _ = _ => generalize l end. intros l. rewrite <- Rmult_plus_distr_l, <- Rsum_plus. f_equal. apply Rsum_ext. intros i _. ring. Qed.
Lemma quad_scal np n x w a b s F : quad np n x w a b (fun t => s * F t) = s * quad np n x w a b F.
Proof. unfold quad. rewrite <- Rsum_scal. apply Rsum_ext. intros iv _. match goal with |- ?l * _ = _ => generalize l end. intros l. transitivity (l * (s * Rsum np (fun i => w i * F (on_interval (a + INR iv * ((b - a) / INR n)) ((b - a) / INR n) (x i))))); [|ring]. f_equal. rewrite <- Rsum_scal. apply Rsum_ext. intros i _. ring. Qed.
Lemma quad_nonneg np n x w a b F : a <= b -> (forall i, (i < np)%nat -> 0 <= w i) -> (forall t, 0 <= F t) -> 0 <= quad np n x w a b F.
Proof.
  intros Hab Hw HF. unfold quad. apply Rsum_nonneg. intros iv Hiv. apply Rmult_le_pos.
  - assert (0 < INR n) by (apply lt_0_INR; lia). apply Rmult_le_pos; [|lra]. apply Rmult_le_pos; [lra|]. apply Rlt_le, Rinv_0_lt_compat; auto.
  - apply Rsum_nonneg. intros i Hi. apply Rmult_le_pos; auto.
Qed.
Lemma lob_weight_nonneg N t : 0 <= lob_weight N t.
Proof.
  unfold lob_weight. assert (0 <= INR N * (INR N + 1) * legP N t ^ 2) by (apply Rmult_le_pos; [apply Rmult_le_pos; pose proof (pos_INR N); lra|apply pow2_ge_0]).
  destruct H as [H|H]; [apply Rlt_le, Rdiv_lt_0_compat; lra|]. rewrite <- H. unfold Rdiv. rewrite Rinv_0. lra.
Qed.
Section Form.
Variables (terms : list (nat * R)) (c nglp n : nat) (x wf : nat -> R) (a b : R).
Let V := form terms c nglp n x wf a b.
Lemma form_sym P Q : V P Q = V Q P.
Proof. apply quad_ext. intros t. apply weighted_ext. intros k. apply Rsum_ext. intros j _. ring. Qed.
Lemma form_lin P Q s : V (fun k t j => P k t j + s * Q k t j) (fun k t j => P k t j + s * Q k t j) = V P P + 2 * s * V P Q + s * s * V Q Q.
Proof.
  unfold V, form. rewrite <- !quad_scal, <- !quad_plus. apply quad_ext. intros t. rewrite <- !weighted_scal, <- !weighted_plus. apply weighted_ext. intros k.
  rewrite <- !Rsum_scal, <- !Rsum_plus. apply Rsum_ext. intros j _. ring.
Qed.
Hypothesis Hab : a <= b.
Hypothesis Hw : forall i, (i < nglp)%nat -> 0 <= wf i.
Hypothesis Ht : forall k w, In (k, w) terms -> 0 <= w.
Lemma form_nonneg P : 0 <= V P P.
Proof. apply quad_nonneg; auto. intros t. apply weighted_nonneg; auto. intros k. apply Rsum_nonneg. intros j _. pose proof (Rle_0_sqr (P k t j)). exact H. Qed.
Lemma form_cs P Q : V P Q ^ 2 <= V P P * V Q Q.
Proof.
  assert (H : forall s, 0 <= V P P + 2 * s * V P Q + s * s * V Q Q) by (intros s; rewrite <- form_lin; apply form_nonneg).
  pose proof (form_nonneg Q) as [Hq|Hq].
  - specialize (H (- V P Q / V Q Q)). replace (V P P + 2 * (- V P Q / V Q Q) * V P Q + - V P Q / V Q Q * (- V P Q / V Q Q) * V Q Q) with (V P P - V P Q ^ 2 / V Q Q) in H by (field; lra).
    apply (Rmult_le_reg_r (/ V Q Q)); [apply Rinv_0_lt_compat; auto|]. replace (V P P * V Q Q * / V Q Q) with (V P P) by (field; lra). unfold Rdiv in H. lra.
  - rewrite <- Hq in *. destruct (Req_dec (V P Q) 0) as [-> | Nz]; [simpl; lra|]. specialize (H (- (V P P + 1) / (2 * V P Q))).
    replace (V P P + 2 * (- (V P P + 1) / (2 * V P Q)) * V P Q + - (V P P + 1) / (2 * V P Q) * (- (V P P + 1) / (2 * V P Q)) * 0) with (-1) in H by (field; auto). lra.
Qed.
End Form.
Definition okp (p : prog) (e : expr R) : Prop := prog_ok p /\ prog_smooth p /\ (dots_close p /\ py_inside p) /\ build p = Ok e.
(** symmetric on a common domain, never negative, and bounded as an inner product must be *)
Theorem C54_form dbg p q ep eq terms nglp n : okp p ep -> okp q eq -> pcod p = pcod q -> edom eq = edom ep -> fst (edom ep) <= snd (edom ep) ->
  (forall k w, In (k, w) terms -> 0 <= w) -> (2 <= nglp)%nat ->
  exists pq pp qq, sobolev_semi_inner_product dbg (fe ep) (fe eq) terms nglp n = Ok pq /\ sobolev_semi_inner_product dbg (fe eq) (fe ep) terms nglp n = Ok pq /\
    sobolev_semi_norm dbg (fe ep) terms nglp n = Ok pp /\ sobolev_semi_norm dbg (fe eq) terms nglp n = Ok qq /\ 0 <= pp /\ 0 <= qq /\ pq ^ 2 <= pp * qq.
Proof.
  intros (Hp & Sp & Dp & Bp) (Hq & Sq & Dq & Bq) C D Hab Ht Hg. destruct (nodes_ok nglp Hg) as (pts & w & x & wf & E & X & W).
  assert (Hw : forall i, (i < nglp)%nat -> 0 <= wf i) by (intros i Hi; rewrite (C39_weights _ _ _ _ _ i E X W Hi); apply lob_weight_nonneg).
  set (V := form terms (pcod p) nglp n x wf (fst (edom ep)) (snd (edom ep))).
  exists (V (dcomp p) (dcomp q)), (V (dcomp p) (dcomp p)), (V (dcomp q) (dcomp q)).
  split; [apply (C54_inner_product dbg p q ep eq terms nglp n pts w x wf); auto|].
  split. { rewrite (C54_inner_product dbg q p eq ep terms nglp n pts w x wf); auto. rewrite D, <- C. f_equal. apply form_sym. }
  split; [apply (C54_inner_product dbg p p ep ep terms nglp n pts w x wf); auto|].
  split. { unfold sobolev_semi_norm. rewrite (C54_inner_product dbg q q eq eq terms nglp n pts w x wf); auto. rewrite D, <- C. reflexivity. }
  split; [apply form_nonneg; auto|]. split; [apply form_nonneg; auto|]. apply form_cs; auto.
Qed.
(** the "norms" are squared norms: scaling by s scales them by s * s *)
Theorem C54_norm_squares dbg p e es s nglp n : okp p e -> build (PScal true s p) = Ok es -> edom es = edom e -> (2 <= nglp)%nat ->
  exists v, l2_norm dbg (fe e) nglp n = Ok v /\ l2_norm dbg (fe es) nglp n = Ok (s * s * v).
Proof.
  intros (Hp & Sp & Dp & Bp) Bs D Hg. destruct (nodes_ok nglp Hg) as (pts & w & x & wf & E & X & W).
  eexists. split; [apply (C54_l2 dbg p p e e nglp n pts w x wf); auto|].
  rewrite (proj2 (C54_l2 dbg (PScal true s p) (PScal true s p) es es nglp n pts w x wf Hp Sp (conj (proj1 Dp) I) Bs Hp Sp (conj (proj1 Dp) I) Bs eq_refl E X W)). f_equal. rewrite D, <- quad_scal. apply quad_ext. intros t.
  cbn [pcod psem]. rewrite <- Rsum_scal. apply Rsum_ext. intros j _. 
  replace (nth j (map (Rmult s) (psem p t)) 0) with (s * nth j (psem p t) 0); [ring|]. replace 0 with (s * 0) at 2 by ring. symmetry. apply map_nth.
Qed.
(** operands with different numbers of components are refused where assertions are active *)
Theorem C54_refusal p q ep eq k w terms nglp n : okp p ep -> okp q eq -> pcod p <> pcod q ->
  sobolev_semi_inner_product true (fe ep) (fe eq) ((k, w) :: terms) nglp n = Throw AssertFail.
Proof.
  intros (Hp & Sp & Dp & Bp) (Hq & Sq & Dq & Bq) C.
  destruct (derivate_ok _ _ _ _ (program_derives true p ep k Hp Sp Dp Bp)) as (l & El & Cl & _).
  destruct (derivate_ok _ _ _ _ (program_derives true q eq k Hq Sq Dq Bq)) as (r & Er & Cr & _).
  destruct (program_computes true p ep Hp Bp) as (_ & A). destruct (program_computes true q eq Hq Bq) as (_ & B). cbn [fe fcod] in Cl, Cr.
  unfold sobolev_semi_inner_product. cbn [semi_terms]. unfold semi_term. cbn [fst snd]. rewrite El. cbn [bind]. rewrite Er. cbn [bind]. rewrite Cl, Cr, A, B.
  destruct (Nat.eqb_spec (pcod p) (pcod q)); [contradiction|]. reflexivity.
Qed.
Lemma leaf_okp d l : leaf_ok l -> leaf_smooth l -> ~ is_py l -> okp (PLeaf d l) (to_expression (leaf_fn d l)).
Proof. intros A B C. split; [exact A|]. split; [exact B|]. split; [split; [exact I|exact C]|reflexivity]. Qed.
Lemma quad_const np n x w a b s : (1 <= n)%nat -> Rsum np w = 2 -> quad np n x w a b (fun _ => s) = (b - a) * s.
Proof.
  intros Hn Hw. unfold quad. rewrite (Rsum_ext n _ (fun _ => (b - a) / INR n / 2 * (2 * s))).
  - rewrite Rsum_const. field. apply not_0_INR. lia.
  - intros iv _. f_equal. rewrite Rsum_scal_r, Hw. reflexivity.
Qed.
(** the domain of the second operand plays no role, so the product is not symmetric in general *)
Theorem C54_symmetry_refuted dbg n : (1 <= n)%nat -> exists p q ep eq, okp p ep /\ okp q eq /\ pcod p = pcod q /\
  l2_inner_product dbg (fe ep) (fe eq) 3 n = Ok 2 /\ l2_inner_product dbg (fe eq) (fe ep) 3 n = Ok 4.
Proof.
  intros Hn. exists (PLeaf (0, 1) (LConst [1])), (PLeaf (0, 2) (LConst [2])), (to_expression (FConst (0, 1) [1])), (to_expression (FConst (0, 2) [2])).
  assert (A : okp (PLeaf (0, 1) (LConst [1])) (to_expression (FConst (0, 1) [1]))) by (apply (leaf_okp (0, 1) (LConst [1])); [discriminate|exact I|exact (fun H => H)]).
  assert (B : okp (PLeaf (0, 2) (LConst [2])) (to_expression (FConst (0, 2) [2]))) by (apply (leaf_okp (0, 2) (LConst [2])); [discriminate|exact I|exact (fun H => H)]).
  split; [exact A|]. split; [exact B|]. split; [reflexivity|].
  destruct A as (A1 & A2 & A3 & A4). destruct B as (B1 & B2 & B3 & B4). destruct C39_exact_small as (p2 & w2 & p3 & w3 & _ & _ & _ & E & X & W).
  split.
  - rewrite (proj1 (C54_l2 dbg _ _ _ _ 3 n p3 w3 _ _ A1 A2 A3 A4 B1 B2 B3 B4 eq_refl E X W)). f_equal. cbn [psem lsem pcod lcod length Rsum nth to_expression edom fdom fst snd].
    etransitivity; [apply quad_const; auto; cbn; lra|]. ring.
  - rewrite (proj1 (C54_l2 dbg _ _ _ _ 3 n p3 w3 _ _ B1 B2 B3 B4 A1 A2 A3 A4 eq_refl E X W)). f_equal. cbn [psem lsem pcod lcod length Rsum nth to_expression edom fdom fst snd].
    etransitivity; [apply quad_const; auto; cbn; lra|]. ring.
Qed.
(** what is called a norm is the square of one *)
Theorem C54_norm_refuted dbg n : (1 <= n)%nat -> exists p e v, okp p e /\ l2_norm dbg (fe e) 3 n = Ok v /\
  is_RInt (fun t => nth 0 (psem p t) 0 ^ 2) (fst (edom e)) (snd (edom e)) v /\ v <> sqrt v.
Proof.
  intros Hn. assert (A : okp (PLeaf (0, 1) (LConst [2])) (to_expression (FConst (0, 1) [2]))) by (apply (leaf_okp (0, 1) (LConst [2])); [discriminate|exact I|exact (fun H => H)]).
  exists (PLeaf (0, 1) (LConst [2])), (to_expression (FConst (0, 1) [2])), 4. split; [exact A|].
  destruct A as (A1 & A2 & A3 & A4). destruct C39_exact_small as (p2 & w2 & p3 & w3 & _ & _ & _ & E & X & W). split.
  - rewrite (proj2 (C54_l2 dbg _ _ _ _ 3 n p3 w3 _ _ A1 A2 A3 A4 A1 A2 A3 A4 eq_refl E X W)). f_equal. cbn [psem lsem pcod lcod length Rsum nth to_expression edom fdom fst snd].
    etransitivity; [apply quad_const; auto; cbn; lra|]. simpl. ring.
  - split.
    + cbn. eapply i_value; [|exact (is_RInt_const 0 1 (2 * (2 * 1)))]. change (4 = (1 - 0) * (2 * (2 * 1))). ring.
    + replace 4 with (2 * 2) by ring. rewrite sqrt_square by lra. lra.
Qed.
Example C54_case : exists ep eq, okp ex_prog ep /\ okp ex_vec eq /\ pcod ex_prog = pcod ex_vec /\ pcod ex_prog = 2%nat /\ edom eq = edom ep /\ fst (edom ep) <= snd (edom ep) /\
  exists es, build (PScal true 3 ex_prog) = Ok es /\ edom es = edom ep.
Proof.
  destruct ex_prog_builds as (ep & E). assert (K : exists eq, build ex_vec = Ok eq) by (unfold ex_vec; build_solve). destruct K as (eq & Eq).
  assert (D1 : edom ep = D01). { revert E. unfold ex_prog, ex_vec. build_solve. intros E. inversion E. reflexivity. }
  assert (D2 : edom eq = D01). { revert Eq. unfold ex_vec. build_solve. intros Eq. inversion Eq. reflexivity. }
  assert (K : exists es, build (PScal true 3 ex_prog) = Ok es) by (unfold ex_prog, ex_vec; build_solve). destruct K as (es & Es).
  assert (D3 : edom es = D01). { revert Es. unfold ex_prog, ex_vec. build_solve. intros Es. inversion Es. reflexivity. }
  exists ep, eq. split. { split; [simpl; intuition discriminate|]. split; [simpl; tauto|]. split; [simpl; tauto|exact E]. }
  split. { split; [simpl; intuition discriminate|]. split; [simpl; tauto|]. split; [simpl; tauto|exact Eq]. }
  split; [reflexivity|]. split; [reflexivity|]. split; [congruence|]. split; [rewrite D1; cbn; lra|]. exists es. split; [exact Es|congruence].
Qed.
Example C54_l2_exact_case : okp (PLeaf (0, 2) (LPoly [1; 3])) (to_expression (FPoly (0, 2) [1; 3])) /\ poly 1 (fun t => nth 0 (psem (PLeaf (0, 2) (LPoly [1; 3])) t) 0) /\
  exists pts w, gl_points_weights 3 = Ok (pts, w) /\ vec_is pts 3 (fun i => nth i [-1; 0; 1] 0) /\ lobatto_nodes 2 (fun i => nth i [-1; 0; 1] 0).
Proof.
  split; [apply (leaf_okp (0, 2) (LPoly [1; 3])); [discriminate|exact I|exact (fun H => H)]|]. split; [exists (fun k => nth k [1; 3] 0); intros t; cbn; ring|].
  destruct C39_exact_small as (p2 & w2 & p3 & w3 & _ & _ & _ & E & X & W). exists p3, w3. split; [exact E|]. split; [exact X|apply lobatto_nodes_3].
Qed.
