(** C56, C46, C41, C42, C53, C44: consequences of the convergence of the computed nodes. *)
From Coquelicot Require Import Coquelicot.
From Coq Require Import List Arith Lia Bool ZArith Reals Lra Psatz.
From Verif Require Import Num Outcome LinAlg RSum RDeriv RPoly LegendreSpec LegendreMath LegendreModel LagrangeModel LagrangeMath LagrangeProofs
  Basis0101Model BasisModel SplineSpec BasisFn BasisProofs BasisProofs2 BasisProofs3 ToolsModel FunModel GSplineModel GSplineProofs GSplineProofs2 GSplineProofs4
  GLModel GLSpec GLProofs GLProofs2 GLProps QuadSpec QuadMath LobattoRoots LobattoLocate IntegralModel IntegralProofs IntegralProps
  GLLModel GLLProofs GLLProofs2 GLLProofs3 GLLProps GLFModel GLFProofs GLFProofs2 GLFProofs3 GLFProps GLConvSpec GLConv GLConv2 GLConv3 GLConvProps LagrangeSpec.
Import ListNotations.
Local Open Scope R_scope.
Local Opaque gX gl_iters.

(** a rule close to another one gives a close value *)
Lemma quad_perturb np n x w z v a b F K B d e : a <= b -> (1 <= n)%nat -> 0 <= d -> 0 <= e ->
  (forall i, (i < np)%nat -> -1 <= x i <= 1 /\ -1 <= z i <= 1 /\ Rabs (x i - z i) <= d /\ 0 <= v i /\ Rabs (w i - v i) <= e * v i) -> Rsum np v = 2 ->
  (forall s t, a <= s <= b -> a <= t <= b -> Rabs (F s - F t) <= K * Rabs (s - t)) -> (forall s, a <= s <= b -> Rabs (F s) <= B) ->
  Rabs (quad np n x w a b F - quad np n z v a b F) <= (b - a) * (B * e + K * ((b - a) / INR n / 2) * d).
Proof.
  intros Hab Hn Hd He Hx Hv Lip Bd. unfold quad. set (len := (b - a) / INR n). assert (Hi : 0 < INR n) by (apply lt_0_INR; lia).
  assert (Hlen : 0 <= len) by (unfold len; apply Rmult_le_pos; [lra|apply Rlt_le, Rinv_0_lt_compat; auto]).
  assert (Eb : b = a + INR n * len) by (unfold len; field; lra).
  assert (HB : 0 <= B) by (apply (Rle_trans _ (Rabs (F a))); [apply Rabs_pos|apply Bd; lra]).
  assert (HK : 0 <= K * len).
  { destruct (Req_dec a b) as [Eq|Ne].
    - assert (Z : len = 0) by (unfold len; rewrite Eq, Rminus_eq_0; unfold Rdiv; ring). rewrite Z. lra.
    - apply Rmult_le_pos; auto. specialize (Lip a b ltac:(lra) ltac:(lra)). pose proof (Rabs_pos (F a - F b)). rewrite (Rabs_left (a - b)) in Lip by lra. nra. }
  set (C := B * e + K * (len / 2) * d).
  assert (T : forall iv i, (iv < n)%nat -> (i < np)%nat ->
    Rabs (w i * F (on_interval (a + INR iv * len) len (x i)) - v i * F (on_interval (a + INR iv * len) len (z i))) <= v i * C).
  { intros iv i Hv' Hi'. destruct (Hx i Hi') as (X & Z & D & V & W).
    assert (In : a <= a + INR iv * len /\ a + INR iv * len + len <= b).
    { split; [assert (0 <= INR iv * len) by (apply Rmult_le_pos; auto; apply pos_INR); lra|]. rewrite Eb.
      assert ((INR iv + 1) * len <= INR n * len) by (apply Rmult_le_compat_r; auto; rewrite <- S_INR; apply le_INR; lia). lra. }
    set (al := a + INR iv * len) in *.
    assert (On : forall y, -1 <= y <= 1 -> a <= on_interval al len y <= b).
    { intros y Hy. unfold on_interval. assert (0 <= len * (y + 1) / 2 <= len); [|lra]. assert (0 <= len * (y + 1)) by (apply Rmult_le_pos; lra).
      assert (len * (y + 1) <= len * 2) by (apply Rmult_le_compat_l; lra). lra. }
    set (p := on_interval al len (x i)). set (q := on_interval al len (z i)).
    replace (w i * F p - v i * F q) with ((w i - v i) * F p + v i * (F p - F q)) by ring.
    eapply Rle_trans; [apply Rabs_triang|]. rewrite !Rabs_mult, (Rabs_pos_eq (v i)) by auto.
    assert (P1 : Rabs (w i - v i) * Rabs (F p) <= e * v i * B).
    { apply Rmult_le_compat; auto using Rabs_pos. apply Bd, On; auto. }
    assert (P2 : Rabs (F p - F q) <= K * (len / 2) * d).
    { eapply Rle_trans; [apply Lip; apply On; auto|]. replace (p - q) with (len / 2 * (x i - z i)) by (unfold p, q, on_interval; field).
      rewrite Rabs_mult, (Rabs_pos_eq (len / 2)) by lra. replace (K * (len / 2 * Rabs (x i - z i))) with (K * len / 2 * Rabs (x i - z i)) by field.
      replace (K * (len / 2) * d) with (K * len / 2 * d) by field. apply Rmult_le_compat_l; lra. }
    assert (P3 : v i * Rabs (F p - F q) <= v i * (K * (len / 2) * d)) by (apply Rmult_le_compat_l; auto). unfold C. lra. }
  rewrite <- Rsum_minus. apply (Rle_trans _ (Rsum n (fun _ => len * C))).
  - apply Rsum_abs_le. intros iv Hv'. rewrite <- Rmult_minus_distr_l, <- Rsum_minus, Rabs_mult, (Rabs_pos_eq (len / 2)) by lra.
    replace (len * C) with (len / 2 * (Rsum np v * C)) by (rewrite Hv; field). apply Rmult_le_compat_l; [lra|].
    rewrite <- Rsum_scal_r. apply Rsum_abs_le. intros i Hi'. apply T; auto.
  - rewrite Rsum_const. right. unfold C. replace (b - a) with (INR n * len) by lra. ring.
Qed.
Lemma rule_quad p w x wf nglp z : gl_points_weights nglp = Ok (p, w) -> vec_is p nglp x -> vec_is w nglp wf -> rule_nodes (nglp - 1) z ->
  let e := INR nglp ^ 2 / 2000000000 in e <= 1 / 10 ->
  (forall i, (i < nglp)%nat -> -1 <= x i <= 1 /\ -1 <= z i <= 1 /\ Rabs (x i - z i) <= e ^ 3 /\ 0 <= lob_weight (nglp - 1) (z i) /\
    Rabs (wf i - lob_weight (nglp - 1) (z i)) <= e ^ 6 * lob_weight (nglp - 1) (z i)) /\
  Rsum nglp (fun i => lob_weight (nglp - 1) (z i)) = 2.
Proof.
  intros E X W Hz e He. destruct (points_are nglp p w x E X) as (Hn & Ep).
  destruct (lobatto_weights (nglp - 1) z ltac:(lia) (proj1 Hz)) as (Wz & Sz). replace (S (nglp - 1)) with nglp in * by lia. split; [|exact Sz].
  intros i Hi. destruct (Wz i Hi) as (Rz & Pz). destruct (C56_sharp nglp p w x wf z i E X W Hz Hi He) as (A & B).
  pose proof (rule_incr _ _ Hz) as I. destruct Hz as (L & Z0 & Z1 & _). split; [rewrite Ep by auto; apply (gpoint_range (nglp - 1) z); auto; lia|].
  split; [exact Rz|]. split; [exact A|]. split; [lra|]. rewrite Rabs_pos_eq by lra. apply B.
Qed.
(** ** C46 *)
(** for every number of points up to 14142 and every number of intervals: on polynomials of degree at most 2 nglp - 3 the value is the
    integral up to a term of the order of the cube of nglp^2 / 2e9 *)
Theorem C46_accuracy dbg (f : fobj R) F nglp n K B : fo_codom f = 1%nat -> pointwise f F -> (2 <= nglp)%nat -> (1 <= n)%nat ->
  let a := fst (fo_dom f) in let b := snd (fo_dom f) in let e := INR nglp ^ 2 / 2000000000 in a <= b -> e <= 1 / 10 ->
  (forall s t, a <= s <= b -> a <= t <= b -> Rabs (F 0%nat s - F 0%nat t) <= K * Rabs (s - t)) -> (forall s, a <= s <= b -> Rabs (F 0%nat s) <= B) ->
  poly (2 * nglp - 3) (F 0%nat) ->
  exists q v, integral dbg f nglp n = Ok q /\ is_RInt (F 0%nat) a b v /\ Rabs (q - v) <= (b - a) * (B * e ^ 6 + K * ((b - a) / INR n / 2) * e ^ 3).
Proof.
  intros C P Hg Hn a b e Hab He Lip Bd HF. destruct (nodes_ok nglp Hg) as (p & w & x & wf & E & X & W). destruct (rule_nodes_exist (nglp - 1) ltac:(lia)) as (z & Hz).
  destruct (rule_quad p w x wf nglp z E X W Hz He) as (Q & Sz). fold e in Q. assert (E0 : 0 <= e) by (unfold e; apply Rmult_le_pos; [apply pow2_ge_0|lra]).
  exists (quad nglp n x wf a b (F 0%nat)), (quad nglp n z (fun i => lob_weight (nglp - 1) (z i)) a b (F 0%nat)). split; [eapply integral_ok; eauto|]. split.
  - apply (quad_exact (2 * S (nglp - 2))); auto.
    + intros G HG. destruct nglp as [|[|m]]; [lia|lia|]. destruct Hz as (L & _). replace (S (S m) - 1)%nat with (S m) in * by lia. replace (S (S m) - 2)%nat with m in HG by lia.
      exact (lobatto_exact m z L G HG).
    + replace (2 * S (nglp - 2))%nat with (S (2 * nglp - 3)) by lia. apply poly_isPoly; auto.
  - apply quad_perturb; auto using pow_le.
Qed.
(** and for every Lipschitz function the value converges to the integral *)
Theorem C46_error_all dbg (f : fobj R) F nglp n K B v : fo_codom f = 1%nat -> pointwise f F -> (2 <= nglp)%nat -> (1 <= n)%nat ->
  let a := fst (fo_dom f) in let b := snd (fo_dom f) in let e := INR nglp ^ 2 / 2000000000 in a <= b -> e <= 1 / 10 ->
  (forall s t, a <= s <= b -> a <= t <= b -> Rabs (F 0%nat s - F 0%nat t) <= K * Rabs (s - t)) -> (forall s, a <= s <= b -> Rabs (F 0%nat s) <= B) ->
  is_RInt (F 0%nat) a b v ->
  exists q, integral dbg f nglp n = Ok q /\ Rabs (q - v) <= K * (b - a) ^ 2 / INR n + (b - a) * (B * e ^ 6 + K * ((b - a) / INR n / 2) * e ^ 3).
Proof.
  intros C P Hg Hn a b e Hab He Lip Bd HI. destruct (nodes_ok nglp Hg) as (p & w & x & wf & E & X & W). destruct (rule_nodes_exist (nglp - 1) ltac:(lia)) as (z & Hz).
  destruct (rule_quad p w x wf nglp z E X W Hz He) as (Q & Sz). fold e in Q. assert (E0 : 0 <= e) by (unfold e; apply Rmult_le_pos; [apply pow2_ge_0|lra]).
  eexists. split; [eapply integral_ok; eauto|]. fold a b. set (q := quad nglp n x wf a b (F 0%nat)).
  pose proof (quad_perturb nglp n x wf z (fun i => lob_weight (nglp - 1) (z i)) a b (F 0%nat) K B (e ^ 3) (e ^ 6) Hab Hn (pow_le _ 3 E0) (pow_le _ 6 E0) Q Sz Lip Bd) as A1. fold q in A1.
  pose proof (quad_error nglp n z (fun i => lob_weight (nglp - 1) (z i)) a b (F 0%nat) K v Hab Hn ltac:(intros i Hi; specialize (Q i Hi); tauto) Sz Lip HI) as A2.
  set (r := quad nglp n z (fun i => lob_weight (nglp - 1) (z i)) a b (F 0%nat)) in *. replace (q - v) with (r - v + (q - r)) by ring. eapply Rle_trans; [apply Rabs_triang|]. lra.
Qed.
(** the cosine over [0, 2] with ten points and n intervals *)
Example C46_error_all_case dbg n : (1 <= n)%nat -> exists q, integral dbg (fo_of_fn dbg (FCos (0, 2))) 10 n = Ok q /\ Rabs (q - sin 2) <= 4 / INR n + / 10 ^ 20.
Proof.
  intros Hn. assert (P : pointwise (fo_of_fn dbg (FCos (0, 2))) (fun _ t => cos t)).
  { apply fn_pointwise. intros l. cbn. f_equal. now rewrite map_map. }
  assert (E10 : INR 10 = 10) by (simpl; lra).
  destruct (C46_error_all dbg (fo_of_fn dbg (FCos (0, 2))) (fun _ t => cos t) 10 n 1 1 (sin 2) eq_refl P ltac:(lia) Hn) as (q & E & B); cbn [fo_of_fn fo_dom fdom fst snd] in *.
  - lra.
  - rewrite E10. lra.
  - intros s t _ _. destruct (MVT_cor4 cos (fun y => - sin y) t (mkposreal (Rabs (s - t) + 1) ltac:(pose proof (Rabs_pos (s - t)); lra))) with (b := s) as (y & Ey & _).
    + intros y _. auto_derive; auto. ring.
    + simpl. lra.
    + rewrite Ey, Rabs_mult. rewrite Rmult_1_l. rewrite <- (Rmult_1_l (Rabs (s - t))) at 2. apply Rmult_le_compat_r; [apply Rabs_pos|]. rewrite Rabs_Ropp. apply Rabs_le. apply SIN_bound.
  - intros s _. apply Rabs_le. apply COS_bound.
  - replace (sin 2) with (sin 2 - sin 0) by (rewrite sin_0; ring). apply (i_ftc sin cos); [intros t; auto_derive; auto; ring|]. intros t. apply (ex_derive_continuous cos). auto_derive; auto.
  - exists q. split; [exact E|]. eapply Rle_trans; [exact B|]. rewrite E10. assert (1 <= INR n) by (replace 1 with (INR 1) by reflexivity; apply le_INR; auto).
    assert ((2 - 0) / INR n / 2 <= 1). { apply (Rmult_le_reg_r (INR n)); [lra|]. replace ((2 - 0) / INR n / 2 * INR n) with 1 by (field; lra). lra. }
    assert (0 <= (2 - 0) / INR n / 2). { apply Rmult_le_pos; [|lra]. apply Rmult_le_pos; [lra|]. apply Rlt_le, Rinv_0_lt_compat. lra. }
    replace (1 * (2 - 0) ^ 2 / INR n) with (4 / INR n) by (field; lra). apply Rplus_le_compat_l.
    replace (10 ^ 2 / 2000000000) with (/ 20000000) by field. simpl. lra.
Qed.

(** ** the nodes serve the collocation classes *)
Lemma near_close a b : -1 <= a <= 1 -> near a b -> Rabs (a - b) < / 1000000000.
Proof.
  intros Ha N. unfold near in N. cbv zeta in N. destruct N as [(_ & H)|(_ & H & _)]; auto. eapply Rlt_le_trans; [exact H|].
  rewrite <- (Rmult_1_r (/ 1000000000)) at 2. apply Rmult_le_compat_l; [lra|]. apply Rabs_le; lra.
Qed.
Theorem C56_usable nglp p pf : gl_points nglp = Ok p -> vec_is p nglp pf -> INR nglp ^ 2 <= 1000000000 -> good_nodes nglp pf.
Proof.
  intros E P Hb. destruct (points_of nglp p pf E P) as (w & Ew). destruct (points_are nglp p w pf Ew P) as (Hn & Ep).
  destruct (rule_nodes_exist (nglp - 1) ltac:(lia)) as (z & Hz). pose proof (rule_incr _ _ Hz) as I. destruct Hz as (L & Z0 & Z1 & _).
  assert (Rg : forall i, (i < nglp)%nat -> -1 <= pf i <= 1) by (intros i Hi; rewrite Ep by auto; apply (gpoint_range (nglp - 1) z); auto; lia).
  split; [|exact Rg]. assert (2 <= INR nglp) by (replace 2 with (INR 2) by (simpl; lra); apply le_INR; auto).
  assert (G : / 1000000000 <= 3 / 2 / (INR nglp - 1 / 2) ^ 2).
  { apply (Rmult_le_reg_r ((INR nglp - 1 / 2) ^ 2)); [apply pow_lt; lra|]. replace (3 / 2 / (INR nglp - 1 / 2) ^ 2 * (INR nglp - 1 / 2) ^ 2) with (3 / 2) by (field; lra). nra. }
  assert (D : forall i j, (i < j)%nat -> (j < nglp)%nat -> / 1000000000 < pf j - pf i).
  { intros i j Hij Hj. pose proof (C56_ordered nglp p w pf i j Ew P Hij Hj). lra. }
  intros i j Hi Hj Hne Nr. apply near_close in Nr; [|apply Rg; auto]. destruct (Nat.lt_total i j) as [K|[K|K]]; [|lia|].
  - pose proof (D i j K Hj). rewrite Rabs_left in Nr by lra. lra.
  - pose proof (D j i K Hi). rewrite Rabs_right in Nr by lra. lra.
Qed.
Lemma points_distinct nglp p pf : gl_points nglp = Ok p -> vec_is p nglp pf -> distinct nglp pf.
Proof.
  intros E P. destruct (points_of nglp p pf E P) as (w & Ew). destruct (points_are nglp p w pf Ew P) as (Hn & _).
  assert (2 <= INR nglp) by (replace 2 with (INR 2) by (simpl; lra); apply le_INR; auto).
  assert (G : 0 < 3 / 2 / (INR nglp - 1 / 2) ^ 2) by (apply Rdiv_lt_0_compat; [lra|apply pow_lt; lra]).
  intros i j Hi Hj Hne Eq. destruct (Nat.lt_total i j) as [K|[K|K]]; [|lia|].
  - pose proof (C56_ordered nglp p w pf i j Ew P K Hj). lra.
  - pose proof (C56_ordered nglp p w pf j i Ew P K Hi). lra.
Qed.
(** C41 with no assumption on the nodes *)
Theorem C41_interpolates_all fresh (f : fobj R) F lb rb nglp n : pointwise f F -> fo_dom f = (lb, rb) -> lb < rb ->
  (2 <= nglp)%nat -> (1 <= n)%nat -> INR nglp ^ 2 <= 1000000000 ->
  let len := (rb - lb) / INR n in
  exists p pf g, gl_points nglp = Ok p /\ vec_is p nglp pf /\
  gll_approximate fresh f nglp n = Ok g /\ gs_dom g = (lb, rb) /\ gs_codom g = fo_codom f /\ gs_dim g = nglp /\ gs_n g = n /\
  (forall k, (k < n)%nat -> vget (gs_tau g) k = Some len) /\
  exists grid t m, gll_discretization g = Ok grid /\ vec_is grid (nglp * n) t /\
    (forall iv i, (iv < n)%nat -> (i < nglp)%nat -> t (iv * nglp + i)%nat = on_interval (lb + INR iv * len) len (pf i)) /\
    gs_value g grid = Ok m /\ mat_is m (nglp * n) (fo_codom f) (fun k cc => F cc (t k)).
Proof.
  intros HF Ed Hlt Hn H1 Hb len. destruct (gl_points_ok (T := R) nglp Hn) as (p & E & P).
  destruct (C41_interpolates fresh f F lb rb nglp n p _ HF Ed Hlt Hn H1 E P (C56_usable nglp p _ E P Hb)) as (g & X). exists p, (gpoint (nglp - 1)), g. split; [exact E|]. split; [exact P|]. exact X.
Qed.
(** every polynomial of degree below nglp is reproduced at every instant which does not fall on the tolerance of a node *)
Theorem C41_polynomials_all fresh (f : fobj R) F lb rb nglp n p pf pts np t : pointwise f F -> fo_dom f = (lb, rb) -> lb < rb ->
  (2 <= nglp)%nat -> (1 <= n)%nat -> INR nglp ^ 2 <= 1000000000 -> gl_points nglp = Ok p -> vec_is p nglp pf ->
  (forall cc, (cc < fo_codom f)%nat -> isPoly nglp (F cc)) ->
  vec_is pts np t -> (forall k, (k < np)%nat -> exact_at nglp pf (wpos lb (fun _ => (rb - lb) / INR n) n (t k))) ->
  exists g m, gll_approximate fresh f nglp n = Ok g /\ gs_value g pts = Ok m /\ mat_is m np (fo_codom f) (fun k cc => F cc (t k)).
Proof. intros HF Ed Hlt Hn H1 Hb E P. apply C41_polynomials with (p := p); auto. apply (C56_usable nglp p); auto. Qed.
Theorem C42_from_function_all (f : fobj R) F g dom n codom nglp tf V p pf lb rb : colloc g dom n codom nglp tf V -> pointwise f F ->
  fo_dom f = (lb, rb) -> lb < rb -> fo_codom f = codom -> (2 <= nglp)%nat -> (1 <= n)%nat -> (forall k, (k < n)%nat -> 0 < tf k) ->
  INR nglp ^ 2 <= 1000000000 -> gl_points nglp = Ok p -> vec_is p nglp pf ->
  let tf' := fun i => tf i * ((rb - lb) / Rsum n tf) in
  exists r, gll_assign_fun false g f = Ok r /\ gs_dom r = (lb, rb) /\ (forall k, (k < n)%nat -> vget (gs_tau r) k = Some (tf' k)) /\ bp lb tf' n = rb /\
  forall pts np t (iv i : nat -> nat), vec_is pts np t ->
    (forall k, (k < np)%nat -> (iv k < n)%nat /\ (i k < nglp)%nat /\ t k = on_interval (bp lb tf' (iv k)) (tf' (iv k)) (pf (i k))) ->
    exists m, gs_value r pts = Ok m /\ mat_is m np codom (fun k cc => F cc (t k)).
Proof. intros C HF Ed Hlt Ec Hn H1 Ht Hb E P. apply (C42_from_function f F g dom n codom nglp tf V p pf lb rb); auto. apply (C56_usable nglp p); auto. Qed.
Theorem C53_storage_all (g : gspline R) dom n codom nglp tf V p pf pts np t (iv i : nat -> nat) : colloc g dom n codom nglp tf V -> (2 <= nglp)%nat -> (1 <= n)%nat ->
  (forall k, (k < n)%nat -> 0 < tf k) -> INR nglp ^ 2 <= 1000000000 -> gl_points nglp = Ok p -> vec_is p nglp pf ->
  (forall k cc, (S k < n)%nat -> (cc < codom)%nat -> V k cc (nglp - 1)%nat = V (S k) cc 0%nat) -> vec_is pts np t ->
  (forall k, (k < np)%nat -> (iv k < n)%nat /\ (i k < nglp)%nat /\ t k = on_interval (bp (fst dom) tf (iv k)) (tf (iv k)) (pf (i k))) ->
  exists m, gs_value g pts = Ok m /\ mat_is m np codom (fun k cc => V (iv k) cc (i k)).
Proof. intros C Hn H1 Ht Hb E P. apply (C53_storage g dom n codom nglp tf V p pf); auto. apply (C56_usable nglp p); auto. Qed.
(** C44 with no assumption on the nodes: the distance is non-negative *)
Theorem C44_distance_all fresh (f fd : fobj R) F F' lb rb nglp n : pointwise f F -> pointwise fd F' -> fo_dom f = (lb, rb) -> fo_dom fd = (lb, rb) -> fo_codom fd = fo_codom f ->
  lb < rb -> (2 <= nglp)%nat -> (1 <= n)%nat -> INR nglp ^ 2 <= 200000000 ->
  exists p w x wf s, gl_points_weights nglp = Ok (p, w) /\ vec_is p nglp x /\ vec_is w nglp wf /\
  let len := (rb - lb) / INR n in let codom := fo_codom f in let J := sobolev_distance nglp x wf n codom lb len F F' in
  sd_ctor fresh f fd nglp n = Ok s /\ forall g c, rep g (DLag nglp x) n codom lb rb (fun _ => len) c ->
    (exists v, sd_value fresh s g = Ok v /\ vec_is v 1 (fun _ => J c)) /\ 0 <= J c /\
    exists m G, sd_diff_matrix fresh s g = Ok m /\ mat_is m 1 (n * nglp * codom) (fun _ j => G j) /\ is_gradient (n * nglp * codom) J c G.
Proof.
  intros HF HF' Ed Ed' Ec Hlt Hn H1 Hb. destruct (nodes_ok nglp Hn) as (p & w & x & wf & E & X & W).
  assert (Ew : gl_weights nglp = Ok w) by (unfold gl_weights; rewrite E; reflexivity). assert (Ep : gl_points nglp = Ok p) by (unfold gl_points; rewrite E; reflexivity).
  destruct (C44_distance fresh f fd F F' lb rb nglp n p x w wf HF HF' Ed Ed' Ec Hlt Hn H1 Ep X (points_distinct nglp p x Ep X) Ew W) as (s & Es & K).
  exists p, w, x, wf, s. split; [exact E|]. split; [exact X|]. split; [exact W|]. cbv zeta. split; [exact Es|].
  intros g c Rp. destruct (K g c Rp) as (A & B & D). split; [exact A|]. split; [|exact D]. apply B.
  destruct (rule_nodes_exist (nglp - 1) ltac:(lia)) as (z & Hz). destruct (rule_quad p w x wf nglp z E X W Hz ltac:(lra)) as (Q & _).
  intros i Hi. destruct (Q i Hi) as (_ & _ & _ & V & _). destruct (C56_sharp nglp p w x wf z i E X W Hz Hi ltac:(lra)) as (_ & S). lra.
Qed.
(** seven points, three intervals, the cosine on [0, 2] *)
Example C41_interpolates_all_case fresh : 7 ^ 2 <= 1000000000 /\ exists g m, gll_approximate fresh (fo_of_fn true (FCos (0, 2))) 7 3 = Ok g /\
  (grid <- gll_discretization g ;; gs_value g grid) = Ok m /\ mget m 20 0 = Some (cos 2).
Proof.
  split; [lra|]. assert (E7 : INR 7 = 7) by (simpl; lra).
  destruct (C41_interpolates_all fresh (fo_of_fn true (FCos (0, 2))) _ 0 2 7 3 (cos_pointwise _ _) eq_refl ltac:(lra) ltac:(lia) ltac:(lia) ltac:(rewrite E7; lra))
    as (p & pf & g & Ep & P & Eg & _ & _ & _ & _ & _ & grid & t & m & Ed & _ & Ht & Em & Mm).
  exists g, m. split; [exact Eg|]. rewrite Ed. cbn [bind]. split; [exact Em|]. destruct Mm as (_ & _ & G).
  etransitivity; [exact (G 20%nat 0%nat ltac:(lia) ltac:(cbn; lia))|]. do 2 f_equal. pose proof (Ht 2%nat 6%nat ltac:(lia) ltac:(lia)) as X. cbn in X. etransitivity; [exact X|].
  assert (X6 : pf 6%nat = 1) by (rewrite (gl_points_is 7 p pf ltac:(lia) Ep P 6%nat) by lia; change 6%nat with (7 - 1)%nat; apply gpoint_last; lia).
  rewrite X6. unfold on_interval. simpl. field.
Qed.
(** a cubic over [1, 4], ten points, any number of intervals *)
Example C46_accuracy_case dbg n : (1 <= n)%nat -> exists q, integral dbg (fo_of_fn dbg (FPoly (1, 4) [1; 0; 0; 2])) 10 n = Ok q /\ Rabs (q - 261 / 2) <= / 10 ^ 18.
Proof.
  intros Hn. destruct C46_exact_case with (dbg := dbg) as (P & _ & _). assert (E10 : INR 10 = 10) by (simpl; lra).
  destruct (C46_accuracy dbg (fo_of_fn dbg (FPoly (1, 4) [1; 0; 0; 2])) _ 10 n 96 129 eq_refl P ltac:(lia) Hn) as (q & v & E & I & B); cbn [fo_of_fn fo_dom fdom fst snd] in *.
  - lra.
  - rewrite E10; lra.
  - intros s t Hs Ht. replace (1 + 2 * s ^ 3 - (1 + 2 * t ^ 3)) with (2 * (s * s + s * t + t * t) * (s - t)) by (simpl; ring). rewrite Rabs_mult. apply Rmult_le_compat_r; [apply Rabs_pos|].
    apply Rabs_le. nra.
  - intros s Hs. apply Rabs_le. assert (0 <= s * s <= 16) by nra. simpl. nra.
  - exists (fun k => nth k [1; 0; 0; 2] 0). intros t. cbn. ring.
  - exists q. split; [exact E|].
    replace v with (261 / 2) in B.
    + eapply Rle_trans; [exact B|]. rewrite E10. assert (1 <= INR n) by (replace 1 with (INR 1) by reflexivity; apply le_INR; auto).
      assert ((4 - 1) / INR n / 2 <= 3 / 2). { apply (Rmult_le_reg_r (INR n)); [lra|]. replace ((4 - 1) / INR n / 2 * INR n) with (3 / 2) by (field; lra). lra. }
      replace (10 ^ 2 / 2000000000) with (/ 20000000) by field. simpl. lra.
    + apply (i_unique _ 1 4 _ _) with (2 := I). replace (261 / 2) with ((4 + 4 ^ 4 / 2) - (1 + 1 ^ 4 / 2)) by (simpl; lra). apply (i_ftc (fun t => t + t ^ 4 / 2)).
      * intros t. auto_derive; auto. simpl. field.
      * intros t. apply (ex_derive_continuous (fun t => 1 + 2 * t ^ 3)). auto_derive; auto.
Qed.
(** a five-node spline of two intervals takes the sine over [0, 1]; its middle breakpoint then gives sin (1/2) *)
Example C42_from_function_all_case fresh : exists g r, gll_approximate fresh (fo_of_fn true (FCos (0, 2))) 5 2 = Ok g /\ 5 ^ 2 <= 1000000000 /\
  gll_assign_fun false g (fo_of_fn true (FSin (0, 1))) = Ok r /\ exists m, gs_value r (vconst 1 (1 / 2)) = Ok m /\ mget m 0 0 = Some (sin (1 / 2)).
Proof.
  destruct (approx_ok fresh (fo_of_fn true (FCos (0, 2))) _ 5 2 ltac:(lia) (cos_pointwise _ _)) as (g & Eg & _ & C). destruct (gl_points_ok (T := R) 5 ltac:(lia)) as (p & E & P).
  assert (Ps : pointwise (fo_of_fn true (FSin (0, 1))) (fun _ t => sin t)) by (apply fn_pointwise; intros l; cbn; f_equal; now rewrite map_map).
  assert (E5 : INR 5 = 5) by (simpl; lra).
  destruct (C42_from_function_all (fo_of_fn true (FSin (0, 1))) _ g _ _ _ _ _ _ p _ 0 1 C Ps eq_refl ltac:(lra) eq_refl ltac:(lia) ltac:(lia) ltac:(intros; cbn [fo_of_fn fo_dom fdom fst snd]; rewrite nofnat_INR; rnum; simpl; lra) ltac:(rewrite E5; lra) E P)
    as (r & Er & _ & _ & _ & X).
  exists g, r. split; [exact Eg|]. split; [lra|]. split; [exact Er|].
  destruct (X (vconst 1 (1 / 2)) 1%nat (fun _ => 1 / 2) (fun _ => 1%nat) (fun _ => 0%nat)) as (m & Em & Mm); [apply vconst_is| |].
  { intros k Hk. split; [lia|]. split; [lia|]. rewrite (gpoint_first 5) by lia. unfold on_interval, bp. cbn [Rsum fo_of_fn fo_dom fdom fst snd]. rewrite !nofnat_INR. rnum. simpl (INR 2). field. }
  exists m. split; [exact Em|]. destruct Mm as (_ & _ & G). exact (G 0%nat 0%nat ltac:(lia) ltac:(cbn; lia)).
Qed.
