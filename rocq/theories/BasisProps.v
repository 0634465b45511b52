(** Properties C22, C23, C24, C51: caches and spline matrices of a basis object. *)
From Coquelicot Require Import Coquelicot.
From Coq Require Import List Arith Lia Bool ZArith Reals Lra.
From Verif Require Import Num Outcome RSum LegendreSpec LegendreModel LegendreProofs LagrangeSpec LagrangeModel LagrangeProofs
  Basis0101Spec BasisModel SplineSpec BasisFn BasisProofs BasisProofs2 BasisProofs3.
Import ListNotations.
Local Open Scope R_scope.

(** ** C22: the differentiation-block cache does not depend on the history.
    Any arithmetic, any object, any sequence of requests (blocks, spline
    matrices, copies), any order: same matrix, same failure. *)
Theorem C22_history_independent : forall {T} `{Num T} (b : basis T) hist s k,
  serve_all b hist (bs_init b) = Ok s ->
  match get_block b k s, get_block b k (bs_init b) with
  | Ok (m, _), Ok (m', _) => m = m'
  | Throw e, Throw e' => e = e'
  | UB, UB => True
  | _, _ => False
  end.
Proof.
  intros T HT b hist s k E. assert (I : binv b s) by (eapply serve_all_binv; [apply binv_init|exact E]).
  pose proof (get_block_rel b k s (bs_init b) (binv_sim b s I)) as X. unfold orel in X.
  destruct (get_block b k s) as [[m u]| |], (get_block b k (bs_init b)) as [[m' u']| |]; try contradiction; auto. apply X.
Qed.

(** a request history that only uses sizes that fit always succeeds *)
Theorem C22_requests_succeed : forall b d hist, is_basis b d -> Forall (request_ok d) hist ->
  exists s, serve_all b hist (bs_init b) = Ok s.
Proof. intros b d hist B F. apply (serve_all_progress b d hist B F). apply binv_init. Qed.

(** and what the cache returns differentiates coefficient vectors: the series with
    coefficients fac * (M c) is the k-th time derivative of the series with
    coefficients c (basis0101: k <= 2, see C20) *)
Theorem C22_block_differentiates : forall b d k hist s, is_basis b d -> blk_ok d k ->
  serve_all b hist (bs_init b) = Ok s ->
  exists m s' M, get_block b k s = Ok (m, s') /\ mat_is m (d_dim d) (d_dim d) M /\
    forall t0 tau c t, tau <> 0 ->
      is_derive_n (series d t0 tau c) k t
        (series d t0 tau (fun i => (match d with D01 _ => 1 | _ => (2 / tau) ^ k end) * Rsum (d_dim d) (fun j => M i j * c j)) t).
Proof. exact block_correct. Qed.

Example C22_ex : exists g s m s', is_basis (BLegendre 3 g) (DLeg 3) /\
  serve_all (BLegendre 3 g) [RBlock 2; RCopy; RDer 2 1 1 (vec_of_list [1; 2]); RCont 2 3 2 (vec_of_list [1; 2]); RBlock 7]
    (bs_init (BLegendre 3 g)) = Ok s /\ get_block (BLegendre 3 g) 2 s = Ok (m, s').
Proof.
  destruct (leg_ctor_R 3) as (g & Eg & _). exists g.
  assert (B : is_basis (BLegendre 3 g) (DLeg 3)) by (repeat split; auto).
  assert (V : vec_is (vec_of_list [1; 2]) 2 (fun i => nth i [1; 2] 0)).
  { split; [reflexivity|]. intros [|[|i]] Hi; try reflexivity; lia. }
  destruct (C22_requests_succeed (BLegendre 3 g) (DLeg 3)
    [RBlock 2; RCopy; RDer 2 1 1 (vec_of_list [1; 2]); RCont 2 3 2 (vec_of_list [1; 2]); RBlock 7] B) as (s & E).
  { repeat apply Forall_cons; try apply Forall_nil; cbn [request_ok exact_pt]; eauto 8. }
  destruct (C22_block_differentiates (BLegendre 3 g) (DLeg 3) 2 _ s B I E) as (m & s' & M & Em & _).
  exists s, m, s'. auto.
Qed.

(** ** C23: spline matrices do not depend on the history *)
Theorem C23_continuity_history : forall {T} `{Num T} (b : basis T) hist s n codom ord taus,
  serve_all b hist (bs_init b) = Ok s ->
  match continuity_matrix b n codom ord taus s, continuity_matrix b n codom ord taus (bs_init b) with
  | Ok (m, _), Ok (m', _) => srows m = srows m' /\ scols m = scols m' /\ forall i j, sget m i j = sget m' i j
  | Throw e, Throw e' => e = e'
  | UB, UB => True
  | _, _ => False
  end.
Proof.
  intros T HT b hist s n codom ord taus E. assert (I : binv b s) by (eapply serve_all_binv; [apply binv_init|exact E]).
  pose proof (cont_query_rel b n codom ord taus s I) as X. unfold orel in X.
  destruct (continuity_matrix b n codom ord taus s) as [[m u]| |], (continuity_matrix b n codom ord taus (bs_init b)) as [[m' u']| |];
    try contradiction; auto. apply X.
Qed.
Theorem C23_derivative_history : forall {T} `{Num T} (b : basis T) hist s n codom ord taus,
  serve_all b hist (bs_init b) = Ok s ->
  match gspline_derivative_matrix b n codom ord taus s, gspline_derivative_matrix b n codom ord taus (bs_init b) with
  | Ok (m, _), Ok (m', _) => srows m = srows m' /\ scols m = scols m' /\ forall i j, sget m i j = sget m' i j
  | Throw e, Throw e' => e = e'
  | UB, UB => True
  | _, _ => False
  end.
Proof.
  intros T HT b hist s n codom ord taus E. assert (I : binv b s) by (eapply serve_all_binv; [apply binv_init|exact E]).
  pose proof (der_query_rel b n codom ord taus s I) as X. unfold orel in X.
  destruct (gspline_derivative_matrix b n codom ord taus s) as [[m u]| |], (gspline_derivative_matrix b n codom ord taus (bs_init b)) as [[m' u']| |];
    try contradiction; auto. apply X.
Qed.
(** right after a query the referenced buffer holds its result *)
Theorem C23_reference_fresh : forall {T} `{Num T} (b : basis T) n codom ord taus s m s',
  (gspline_derivative_matrix b n codom ord taus s = Ok (m, s') -> held_der s' n codom ord = Some m) /\
  (continuity_matrix b n codom ord taus s = Ok (m, s') -> held_cont s' n codom ord = Some m).
Proof. intros. split; [apply der_query_held|apply cont_query_held]. Qed.
(** FINDING: but a later query with the same sizes rewrites the matrix the first caller still refers to *)
Theorem C23_reference_refuted : exists g (t1 t2 : vec R) m1 s1 m2 s2, is_basis (BLegendre 2 g) (DLeg 2) /\
  gspline_derivative_matrix (BLegendre 2 g) 1 1 1 t1 (bs_init (BLegendre 2 g)) = Ok (m1, s1) /\
  held_der s1 1 1 1 = Some m1 /\ sget m1 0 1 = Some 1 /\
  gspline_derivative_matrix (BLegendre 2 g) 1 1 1 t2 s1 = Ok (m2, s2) /\
  exists m, held_der s2 1 1 1 = Some m /\ sget m 0 1 = Some 2.
Proof. exact der_alias_wrong. Qed.

(** ** C24: continuity matrix times coefficients = jumps, for Lagrange bases with end nodes, after any history *)
Theorem C24_lagrange_jumps : forall pts bw g n x nm1 codom ord (taus : vec R) tf t0 c hist s,
  is_basis (BLagrange pts bw g) (DLag n x) -> separated n x -> x 0%nat = -1 -> x (n - 1)%nat = 1 ->
  vec_is taus (S nm1) tf -> (forall i, (i < S nm1)%nat -> tf i <> 0) ->
  serve_all (BLagrange pts bw g) hist (bs_init (BLagrange pts bw g)) = Ok s ->
  exists m s', continuity_matrix (BLagrange pts bw g) (S nm1) codom ord taus s = Ok (m, s') /\
    srows m = (nm1 * codom * (ord + 1))%nat /\ scols m = (S nm1 * codom * n)%nat /\
    forall der iv cc, (der <= ord)%nat -> (iv < nm1)%nat -> (cc < codom)%nat ->
      smul m c (codom * nm1 * der + iv * codom + cc) = jump (DLag n x) codom t0 tf c der iv cc.
Proof. exact cont_lagrange_after. Qed.

Example C24_ex : exists pts bw g, let x := fun i => nth i [-1; 0; 1] 0 in
  is_basis (BLagrange pts bw g) (DLag 3 x) /\ separated 3 x /\ x 0%nat = -1 /\ x (3 - 1)%nat = 1.
Proof.
  set (x := fun i => nth i [-1; 0; 1] 0). assert (V : vec_is (vec_of_list [-1; 0; 1]) 3 x).
  { split; [reflexivity|]. intros [|[|[|i]]] Hi; try reflexivity; lia. }
  assert (S : separated 3 x).
  { assert (F : forall a b, 1 <= Rabs (a - b) -> Rabs a <= 1 -> Rabs b <= 1 -> ~ near a b).
    { intros a b H Ha Hb [[_ N]|[_ [N _]]]; lra. }
    assert (A1 : Rabs (-1) = 1) by (unfold Rabs; destruct Rcase_abs; lra). assert (A0 := Rabs_R0). assert (A2 := Rabs_R1).
    intros i j Hi Hj Hne. destruct i as [|[|[|i]]]; try lia; (destruct j as [|[|[|j]]]; try lia);
      unfold x; cbn [nth]; apply F; try lra; unfold Rabs; destruct Rcase_abs; lra. }
  destruct (lag_eval_R (vec_of_list [-1; 0; 1]) (vnew 3) 3 x 0 V (separated_distinct 3 x S) eq_refl) as (bw & _ & E & _).
  exists (vec_of_list [-1; 0; 1]), bw, []. cbv zeta. split; [|split; [exact S|split; reflexivity]].
  split; [exact V|]. split; [lia|]. split; [apply separated_distinct; exact S|exact E].
Qed.

(** the value rows are right for Legendre as well *)
Theorem C24_legendre_values : forall dim g nm1 codom ord (taus : vec R) tf t0 c,
  is_basis (BLegendre dim g) (DLeg dim) -> vec_is taus (S nm1) tf -> (forall i, (i < S nm1)%nat -> tf i <> 0) ->
  exists m s', continuity_matrix (BLegendre dim g) (S nm1) codom ord taus (bs_init (BLegendre dim g)) = Ok (m, s') /\
    srows m = (nm1 * codom * (ord + 1))%nat /\ scols m = (S nm1 * codom * dim)%nat /\
    (forall iv cc, (iv < nm1)%nat -> (cc < codom)%nat -> smul m c (iv * codom + cc) = jump (DLeg dim) codom t0 tf c 0 iv cc).
Proof.
  intros dim g nm1 codom ord taus tf t0 c B Vt Ht.
  destruct (cont_legendre_0 dim g nm1 codom ord taus tf t0 c B Vt Ht) as (m & s' & E & R & C & J & _). exists m, s'. auto.
Qed.
(** FINDING: the derivative rows are wrong for every Legendre basis, every partition with
    an interior breakpoint and every interval length: a jump of the first derivative goes unseen *)
Theorem C24_legendre_refuted : forall dim g nm1 codom ord (taus : vec R) tf t0, is_basis (BLegendre dim g) (DLeg dim) ->
  vec_is taus (S nm1) tf -> (forall i, (i < S nm1)%nat -> tf i <> 0) -> (1 <= nm1)%nat -> (1 <= codom)%nat -> (1 <= ord)%nat ->
  exists c m s', continuity_matrix (BLegendre dim g) (S nm1) codom ord taus (bs_init (BLegendre dim g)) = Ok (m, s') /\
    smul m c (codom * nm1) = 0 /\ jump (DLeg dim) codom t0 tf c 1 0 0 = 2 / tf 0%nat.
Proof. exact cont_legendre_wrong. Qed.
(** FINDING: for basis0101 already the value rows are wrong unless the interval has length 2 *)
Theorem C24_basis0101_refuted : forall alpha nm1 codom ord (taus : vec R) tf t0, 0 < alpha < 1 ->
  vec_is taus (S nm1) tf -> (forall i, (i < S nm1)%nat -> tf i <> 0) -> (1 <= nm1)%nat -> (1 <= codom)%nat ->
  exists c m s', continuity_matrix (B0101 alpha) (S nm1) codom ord taus (bs_init (B0101 alpha)) = Ok (m, s') /\
    smul m c 0 = 2 * b01K alpha /\ jump (D01 alpha) codom t0 tf c 0 0 0 = tf 0%nat * b01K alpha.
Proof. exact cont_b01_wrong. Qed.

(** ** C51: the derivative matrix maps coefficients to coefficients of the derivative *)
Theorem C51_derivative_matrix : forall b d n codom ord (taus : vec R) tf t0 c hist s, is_basis b d ->
  (forall a, d <> D01 a) -> vec_is taus n tf -> (forall i, (i < n)%nat -> tf i <> 0) ->
  serve_all b hist (bs_init b) = Ok s ->
  exists m s', gspline_derivative_matrix b n codom ord taus s = Ok (m, s') /\
    srows m = (n * codom * d_dim d)%nat /\ scols m = (n * codom * d_dim d)%nat /\
    (forall iv cc t, (iv < n)%nat -> (cc < codom)%nat ->
      Derive_n (piece d codom t0 tf c iv cc) ord t = piece d codom t0 tf (smul m c) iv cc t).
Proof. exact der_matrix_after. Qed.
(** FINDING: for basis0101 the time factor is applied twice *)
Theorem C51_basis0101_refuted : forall alpha n codom (taus : vec R) tf t0 t, 0 < alpha < 1 ->
  vec_is taus n tf -> (forall i, (i < n)%nat -> tf i <> 0) -> (1 <= n)%nat -> (1 <= codom)%nat ->
  exists c m s', gspline_derivative_matrix (B0101 alpha) n codom 1 taus (bs_init (B0101 alpha)) = Ok (m, s') /\
    Derive_n (piece (D01 alpha) codom t0 tf c 0 0) 1 t = 2 * b01K alpha /\
    piece (D01 alpha) codom t0 tf (smul m c) 0 0 t = 2 / tf 0%nat * (2 * b01K alpha).
Proof. exact der_b01_wrong. Qed.
Example C51_ex : exists g s, is_basis (BLegendre 4 g) (DLeg 4) /\ (forall a, DLeg 4 <> D01 a) /\
  vec_is (vec_of_list [1; 1 / 2; 3]) 3 (fun i => nth i [1; 1 / 2; 3] 0) /\
  (forall i, (i < 3)%nat -> nth i [1; 1 / 2; 3] 0 <> 0) /\
  serve_all (BLegendre 4 g) [RBlock 3; RCopy] (bs_init (BLegendre 4 g)) = Ok s.
Proof.
  destruct (leg_ctor_R 4) as (g & Eg & _). assert (B : is_basis (BLegendre 4 g) (DLeg 4)) by (repeat split; auto; lia).
  destruct (C22_requests_succeed (BLegendre 4 g) (DLeg 4) [RBlock 3; RCopy] B) as (s & E); [repeat apply Forall_cons; try apply Forall_nil; exact I|].
  exists g, s. split; auto. split; [discriminate|]. split; [|split; auto].
  - split; [reflexivity|]. intros [|[|[|i]]] Hi; try reflexivity; lia.
  - intros [|[|[|i]]] Hi; cbn [nth]; try lra; lia.
Qed.
