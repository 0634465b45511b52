(** C79: numerical integrals and composite grids computed in binary64. *)
From Coquelicot Require Import Coquelicot.
From Coq Require Import List Arith Lia Bool ZArith Reals Lra Psatz.
From Flocq Require Import Core Relative BinarySingleNaN.
From Verif Require Import Num Outcome LinAlg RSum RDeriv RPoly LegendreSpec LegendreMath LegendreModel IEEEModel IEEESpec IEEEProofs IEEEHorner IEEELegendre IEEEFunSpec IEEESpline IEEEFunProps
  GSplineModel FunModel ToolsModel GLModel GLSpec GLProofs GLProofs2 GLLModel GLLProofs IntegralModel QuadSpec QuadMath LobattoRoots IntegralProps GLConvSpec GLConv GLConv2 GLConv3 GLConvProps GLConvProps2
  GL64 GL64Spec GL64Weight GL64Nodes GL64Props Int64 Int64Sum Int64Spec Int64Rule.
Import ListNotations.
Local Open Scope R_scope.
Local Opaque gX gl_iters.

Section C79.
Variable m : libm.
Local Instance BN : Num b64 := B64num m.

(** what the computed rule provides *)
Lemma rule_props np p w pf wf eps : gl_points_weights (T := b64) np = Ok (p, w) -> vec_is p np pf -> vec_is w np wf -> (np <= 1001)%nat ->
  accurate_pi m -> accurate_cos m eps -> eps <= 1 / 1000000000 ->
  (2 <= np)%nat /\ (forall i, (i < np)%nat -> fin (pf i) /\ -1 <= val (pf i) <= 1 /\ fin (wf i)) /\ Rsum np (fun i => Rabs (val (wf i))) <= 2001 / 1000.
Proof.
  intros E P W Hm HP HC He. destruct (points_b64 m np p w pf wf E P W) as (Hn & _). destruct (rule_nodes_exist (np - 1) ltac:(lia)) as (z & Hz). split; [exact Hn|].
  destruct (C78_ordered m np p w pf wf eps E P W Hm HP HC He) as (P0 & P1 & PI & _). destruct (lobatto_weights (np - 1) z ltac:(lia) (proj1 Hz)) as (Wz & Sz). replace (S (np - 1)) with np in * by lia. split.
  - intros i Hi. split; [apply (C78_points m np p w pf wf z eps i); auto|]. split; [|apply (C78_weights m np p w pf wf z eps i); auto].
    split; [destruct (Nat.eq_dec i 0) as [->|]; [lra|pose proof (PI 0%nat i ltac:(lia) Hi); lra]|destruct (Nat.eq_dec i (np - 1)) as [->|]; [lra|pose proof (PI i (np - 1)%nat ltac:(lia) ltac:(lia)); lra]].
  - pose proof (c_R (np - 1) ltac:(lia)) as CR. cbv zeta in CR. assert (WE : weight_error (np - 1) <= / 5000) by (unfold weight_error; change (/ 2 ^ 53) with uu; lra). clear CR.
    apply Rle_trans with (Rsum np (fun i => 5001 / 5000 * lob_weight (np - 1) (z i))); [|rewrite Rsum_scal, Sz; lra]. apply Rsum_le'. intros i Hi. destruct (Wz i Hi) as (_ & Pz). destruct (C78_weights m np p w pf wf z eps i E P W Hm HP HC He Hz Hi) as (_ & B).
    set (v := lob_weight (np - 1) (z i)) in *. assert (weight_error (np - 1) * v <= / 5000 * v) by (apply Rmult_le_compat_r; lra). apply Rabs_le_between in B. apply Rabs_le. lra.
Qed.

(** ** C79 *)
(** the value is finite and near the exact rule with the exact nodes and weights, for any integrand *)
Theorem C79_rule dbg (f : fobj b64) Fb F np n z eps delta K Bd D : fo_codom f = 1%nat -> pointwise f Fb -> (2 <= np <= 1001)%nat -> (1 <= n)%nat -> INR n * uu <= / 1000 ->
  accurate_pi m -> accurate_cos m eps -> eps <= 1 / 1000000000 ->
  let A := fst (fo_dom f) in let B := snd (fo_dom f) in let a := val A in let b := val B in let err := delta + K * shift D in
  fin A -> fin B -> / 2 ^ 400 <= b - a -> Rabs a <= D -> Rabs b <= D -> D <= 2 ^ 400 ->
  near_on (Fb 0%nat) F (a - shift D) (b + shift D) delta -> lipschitz F K (a - shift D) (b + shift D) -> (forall t, a - shift D <= t <= b + shift D -> Rabs (F t) <= Bd) ->
  / 2 ^ 500 <= Bd -> Bd + err <= 2 ^ 400 -> rule_nodes (np - 1) z ->
  exists r, integral dbg f np n = Ok r /\ fin r /\
    Rabs (val r - quad np n z (fun i => lob_weight (np - 1) (z i)) a b F) <= (b - a) * (sum_error np n Bd err + rule_error np ((b - a) / INR n) Bd K).
Proof.
  intros Hc Pw Hnp Hn Hn2 HP HC He A B a b err FA FB Hab DA DB HD Ng Lip HB B1 B2 Hz.
  destruct (gl_ok (T := b64) np ltac:(lia)) as (p & w & E & P & W). set (x := gpoint (np - 1)) in *. set (wf := gwf2 (np - 1)) in *.
  destruct (rule_props np p w x wf eps E P W ltac:(lia) HP HC He) as (_ & Q & Sw). destruct (L_R A B D Hab DA DB) as (L2 & L0 & D0). fold a b in L2, L0.
  assert (SP : 0 <= shift D) by (unfold shift; change (/ 2 ^ 53) with uu; pose proof u1; apply Rmult_le_pos; lra).
  assert (d0 : 0 <= delta) by (destruct (Ng A FA ltac:(fold a; lra)) as (_ & Ea); eapply Rle_trans; [apply Rabs_pos|exact Ea]).
  assert (K0 : 0 <= K). { pose proof (Lip b a ltac:(lra) ltac:(lra)) as L. rewrite (Rabs_pos_eq (b - a)) in L by lra. pose proof (Rabs_pos (F b - F a)). apply Rnot_lt_le. intros C. assert (K * (b - a) < 0 * (b - a)) by (apply Rmult_lt_compat_r; lra). lra. }
  eexists. split; [exact (integral64 m dbg f Fb np n p x w wf Hc Pw E P W)|]. fold A B.
  destruct (total_err m A B n D FA FB Hab DA DB HD Hn Hn2 np x wf (Fb 0%nat) F Bd K delta ltac:(lia) (fun i Hi => conj (proj1 (Q i Hi)) (proj1 (proj2 (Q i Hi)))) (fun i Hi => proj2 (proj2 (Q i Hi))) Sw Ng Lip HB B1 B2 K0 d0) as (Fr & Er).
  split; [exact Fr|]. fold a b in Er. fold err in Er. unfold parts in Er. set (r := acc m n0 _ n) in *.
  destruct (lobatto_weights (np - 1) z ltac:(lia) (proj1 Hz)) as (Wz & Sz). replace (S (np - 1)) with np in * by lia.
  assert (QP : Rabs (quad np n (fun i => val (x i)) (fun i => val (wf i)) a b F - quad np n z (fun i => lob_weight (np - 1) (z i)) a b F) <= (b - a) * (Bd * weight_error (np - 1) + K * ((b - a) / INR n / 2) * node_error (np - 1))).
  { apply quad_perturb; auto; try lra.
    + apply (ne_R (np - 1)). lia.
    + pose proof (c_R (np - 1) ltac:(lia)) as CR. cbv zeta in CR. unfold weight_error. change (/ 2 ^ 53) with uu. lra.
    + intros i Hi. destruct (Wz i Hi) as (Rz & Pz). split; [apply (Q i Hi)|]. split; [exact Rz|]. split; [apply (C78_points m np p w x wf z eps i); auto; lia|]. split; [lra|]. apply (C78_weights m np p w x wf z eps i); auto; lia.
    + intros s t Hs Ht. apply Lip; lra.
    + intros s Hs. apply HB. lra. }
  set (q1 := quad np n (fun i => val (x i)) (fun i => val (wf i)) a b F) in *. set (q2 := quad np n z (fun i => lob_weight (np - 1) (z i)) a b F) in *.
  replace (val r - q2) with ((val r - q1) + (q1 - q2)) by ring. eapply Rle_trans; [apply Rabs_triang|]. unfold rule_error. change (@acc m) with (@acc m) in *. rewrite Rmult_plus_distr_l. apply Rplus_le_compat; [exact Er|exact QP].
Qed.
(** polynomials of degree at most 2 np - 3 are integrated up to rounding *)
Theorem C79_polynomials dbg (f : fobj b64) Fb F np n eps delta K Bd D : fo_codom f = 1%nat -> pointwise f Fb -> (2 <= np <= 1001)%nat -> (1 <= n)%nat -> INR n * uu <= / 1000 ->
  accurate_pi m -> accurate_cos m eps -> eps <= 1 / 1000000000 ->
  let A := fst (fo_dom f) in let B := snd (fo_dom f) in let a := val A in let b := val B in let err := delta + K * shift D in
  fin A -> fin B -> / 2 ^ 400 <= b - a -> Rabs a <= D -> Rabs b <= D -> D <= 2 ^ 400 ->
  near_on (Fb 0%nat) F (a - shift D) (b + shift D) delta -> lipschitz F K (a - shift D) (b + shift D) -> (forall t, a - shift D <= t <= b + shift D -> Rabs (F t) <= Bd) ->
  / 2 ^ 500 <= Bd -> Bd + err <= 2 ^ 400 -> poly (2 * np - 3) F ->
  exists r v, integral dbg f np n = Ok r /\ fin r /\ is_RInt F a b v /\
    Rabs (val r - v) <= (b - a) * (sum_error np n Bd err + rule_error np ((b - a) / INR n) Bd K).
Proof.
  intros Hc Pw Hnp Hn Hn2 HP HC He A B a b err FA FB Hab DA DB HD Ng Lip HB B1 B2 HF. destruct (rule_nodes_exist (np - 1) ltac:(lia)) as (z & Hz).
  destruct (C79_rule dbg f Fb F np n z eps delta K Bd D Hc Pw Hnp Hn Hn2 HP HC He FA FB Hab DA DB HD Ng Lip HB B1 B2 Hz) as (r & E & Fr & Er). fold A B in Er. fold a b in Er. fold err in Er.
  exists r, (quad np n z (fun i => lob_weight (np - 1) (z i)) a b F). split; [exact E|]. split; [exact Fr|]. split; [|exact Er].
  destruct (L_R A B D Hab DA DB) as (_ & L0 & _). fold a b in L0. apply (quad_exact (2 * S (np - 2))); auto; try lra.
  - intros H HH. destruct np as [|[|q]]; [lia|lia|]. destruct Hz as (L & _). replace (S (S q) - 1)%nat with (S q) in * by lia. replace (S (S q) - 2)%nat with q in HH by lia. exact (lobatto_exact q z L H HH).
  - replace (2 * S (np - 2))%nat with (S (2 * np - 3)) by lia. apply poly_isPoly; auto.
Qed.
(** every other integrand up to that and a term of order 1 / n *)
Theorem C79_lipschitz dbg (f : fobj b64) Fb F np n eps delta K Bd D v : fo_codom f = 1%nat -> pointwise f Fb -> (2 <= np <= 1001)%nat -> (1 <= n)%nat -> INR n * uu <= / 1000 ->
  accurate_pi m -> accurate_cos m eps -> eps <= 1 / 1000000000 ->
  let A := fst (fo_dom f) in let B := snd (fo_dom f) in let a := val A in let b := val B in let err := delta + K * shift D in
  fin A -> fin B -> / 2 ^ 400 <= b - a -> Rabs a <= D -> Rabs b <= D -> D <= 2 ^ 400 ->
  near_on (Fb 0%nat) F (a - shift D) (b + shift D) delta -> lipschitz F K (a - shift D) (b + shift D) -> (forall t, a - shift D <= t <= b + shift D -> Rabs (F t) <= Bd) ->
  / 2 ^ 500 <= Bd -> Bd + err <= 2 ^ 400 -> is_RInt F a b v ->
  exists r, integral dbg f np n = Ok r /\ fin r /\
    Rabs (val r - v) <= K * (b - a) ^ 2 / INR n + (b - a) * (sum_error np n Bd err + rule_error np ((b - a) / INR n) Bd K).
Proof.
  intros Hc Pw Hnp Hn Hn2 HP HC He A B a b err FA FB Hab DA DB HD Ng Lip HB B1 B2 HF. destruct (rule_nodes_exist (np - 1) ltac:(lia)) as (z & Hz).
  destruct (C79_rule dbg f Fb F np n z eps delta K Bd D Hc Pw Hnp Hn Hn2 HP HC He FA FB Hab DA DB HD Ng Lip HB B1 B2 Hz) as (r & E & Fr & Er). fold A B in Er. fold a b in Er. fold err in Er.
  exists r. split; [exact E|]. split; [exact Fr|]. destruct (L_R A B D Hab DA DB) as (_ & L0 & D0). fold a b in L0. destruct (lobatto_weights (np - 1) z ltac:(lia) (proj1 Hz)) as (Wz & Sz). replace (S (np - 1)) with np in * by lia.
  assert (SP : 0 <= shift D) by (unfold shift; change (/ 2 ^ 53) with uu; pose proof u1; apply Rmult_le_pos; lra).
  pose proof (quad_error np n z (fun i => lob_weight (np - 1) (z i)) a b F K v ltac:(lra) Hn ltac:(intros i Hi; destruct (Wz i Hi); split; [tauto|lra]) Sz ltac:(intros s t Hs Ht; apply Lip; lra) HF) as A2.
  set (q := quad np n z (fun i => lob_weight (np - 1) (z i)) a b F) in *. replace (val r - v) with ((q - v) + (val r - q)) by ring. eapply Rle_trans; [apply Rabs_triang|]. apply Rplus_le_compat; [exact A2|exact Er].
Qed.
(** the composite grid: points and weights *)
Theorem C79_grid np n z eps (A B : b64) D : (2 <= np <= 1001)%nat -> (1 <= n)%nat -> INR n * uu <= / 1000 -> accurate_pi m -> accurate_cos m eps -> eps <= 1 / 1000000000 ->
  let a := val A in let b := val B in let len := (b - a) / INR n in
  fin A -> fin B -> / 2 ^ 400 <= b - a -> Rabs a <= D -> Rabs b <= D -> D <= 2 ^ 400 -> rule_nodes (np - 1) z ->
  exists r, gl_grid_points A B np n = Ok r /\ vlen r = (np * n)%nat /\ forall iv i, (iv < n)%nat -> (i < np)%nat ->
    exists t, vget r (iv * np + i) = Some t /\ fin t /\ Rabs (val t - on_interval (a + INR iv * len) len (z i)) <= shift D + len / 2 * node_error (np - 1).
Proof.
  intros Hnp Hn Hn2 HP HC He a b len FA FB Hab DA DB HD Hz. destruct (gl_ok (T := b64) np ltac:(lia)) as (p & w & E & P & W). set (x := gpoint (np - 1)) in *. set (wf := gwf2 (np - 1)) in *.
  destruct (rule_props np p w x wf eps E P W ltac:(lia) HP HC He) as (_ & Q & _). destruct (grid_points_ok (T := b64) A B np n ltac:(lia)) as (r & Er & Lr & G). exists r. split; [exact Er|]. split; [exact Lr|].
  intros iv i Hi Hj. rewrite (G iv i Hi Hj). eexists. split; [reflexivity|]. fold x. destruct (Q i Hj) as (Fx & Rx & _). destruct (node_ok m A B n D FA FB Hab DA DB HD Hn Hn2 iv (x i) Hi Fx Rx) as (F & V). split; [exact F|].
  fold a b in V. fold len in V. pose proof (C78_points m np p w x wf z eps i E P W ltac:(lia) HP HC He Hz Hj) as (_ & Ez). destruct (len_R A B n D Hab DA DB Hn Hn2) as (_ & Lp). fold a b in Lp. fold len in Lp.
  change (20 * uu * D) with (shift D) in V. set (t0 := on_interval (a + INR iv * len) len (val (x i))) in *. set (t1 := on_interval (a + INR iv * len) len (z i)).
  assert (Et : Rabs (t0 - t1) <= len / 2 * node_error (np - 1)). { replace (t0 - t1) with (len / 2 * (val (x i) - z i)) by (unfold t0, t1, on_interval; field). rewrite Rabs_mult, (Rabs_pos_eq (len / 2)) by lra. apply Rmult_le_compat_l; lra. }
  match goal with |- Rabs (val ?t - _) <= _ => change t with (node64 m A B n iv (x i)) end. set (t := val (node64 m A B n iv (x i))) in *. replace (t - t1) with ((t - t0) + (t0 - t1)) by ring. eapply Rle_trans; [apply Rabs_triang|]. lra.
Qed.
Lemma lob_low N x : (1 <= N <= 1000)%nat -> -1 <= x <= 1 -> 0 < lob_weight N x -> / 2 ^ 30 <= lob_weight N x.
Proof.
  intros HN Hx Pw. unfold lob_weight in *. assert (N1 : 1 <= INR N) by (apply (le_INR 1); lia). assert (N2 : INR N <= 1000) by (replace 1000 with (INR 1000) by (rewrite INR_IZR_INZ; reflexivity); apply le_INR; lia).
  assert (PB : legP N x ^ 2 <= 1). { rewrite <- (pow1 2), <- (pow2_abs (legP N x)). apply pow_incr. split; [apply Rabs_pos|apply StabMath.legP_bound; exact Hx]. } pose proof (pow2_ge_0 (legP N x)) as PG.
  assert (Q1 : 0 < INR N * (INR N + 1)) by (apply Rmult_lt_0_compat; lra). assert (Q2 : INR N * (INR N + 1) <= 1000 * 1001) by (apply Rmult_le_compat; lra).
  assert (P0 : legP N x ^ 2 <> 0). { intros Z. rewrite Z, Rmult_0_r in Pw. unfold Rdiv in Pw. rewrite Rinv_0 in Pw. lra. }
  set (q := INR N * (INR N + 1) * legP N x ^ 2) in *. assert (q0 : 0 < q) by (apply Rmult_lt_0_compat; lra). assert (q1 : q <= 1000 * 1001 * 1) by (apply Rmult_le_compat; lra).
  apply Rmult_le_reg_r with q; auto. unfold Rdiv. rewrite Rmult_assoc, Rinv_l by lra. apply Rmult_le_reg_l with (2 ^ 30); [apply pow_lt; lra|]. rewrite <- Rmult_assoc, Rinv_r by (apply pow_nonzero; lra). simpl. lra.
Qed.
Theorem C79_grid_weights np n z eps (A B : b64) D : (2 <= np <= 1001)%nat -> (1 <= n)%nat -> INR n * uu <= / 1000 -> accurate_pi m -> accurate_cos m eps -> eps <= 1 / 1000000000 ->
  let a := val A in let b := val B in let len := (b - a) / INR n in
  fin A -> fin B -> / 2 ^ 400 <= b - a -> Rabs a <= D -> Rabs b <= D -> D <= 2 ^ 400 -> rule_nodes (np - 1) z ->
  exists r, gl_grid_weights A B np n = Ok r /\ vlen r = (np * n)%nat /\ forall iv i, (iv < n)%nat -> (i < np)%nat ->
    exists w, vget r (iv * np + i) = Some w /\ fin w /\ let l := lob_weight (np - 1) (z i) * (len / 2) in Rabs (val w - l) <= (weight_error (np - 1) + 5 * uu) * l.
Proof.
  intros Hnp Hn Hn2 HP HC He a b len FA FB Hab DA DB HD Hz. pose proof u1 as U. destruct (gl_ok (T := b64) np ltac:(lia)) as (p & w & E & P & W). set (x := gpoint (np - 1)) in *. set (wf := gwf2 (np - 1)) in *.
  destruct (rule_props np p w x wf eps E P W ltac:(lia) HP HC He) as (_ & Q & _). destruct (grid_weights_ok (T := b64) A B np n ltac:(lia)) as (r & Er & Lr & G). exists r. split; [exact Er|]. split; [exact Lr|].
  intros iv i Hi Hj. rewrite (G iv i Hi Hj). eexists. split; [reflexivity|]. fold wf. destruct (Q i Hj) as (_ & _ & Fw). destruct (C78_weights m np p w x wf z eps i E P W ltac:(lia) HP HC He Hz Hj) as (_ & Ew).
  destruct (len_R A B n D Hab DA DB Hn Hn2) as (LR & Lp). fold a b in LR, Lp. fold len in LR, Lp. destruct (len_ok m A B n D FA FB Hab DA DB HD Hn Hn2) as (Fl & l & Hl & El). fold a b in El. fold len in El. destruct (L_R A B D Hab DA DB) as (L2 & L0 & _). fold a b in L2, L0.
  destruct (lobatto_weights (np - 1) z ltac:(lia) (proj1 Hz)) as (Wz & Sz). replace (S (np - 1)) with np in * by lia. destruct (Wz i Hj) as (Rz & Pz). pose proof (lob_low (np - 1) (z i) ltac:(lia) Rz ltac:(lra)) as Lw.
  assert (Uw : lob_weight (np - 1) (z i) <= 2). { rewrite <- Sz. clear - Wz Hj. revert Wz Hj. generalize (np - 1)%nat. intros N Wz Hj. induction np as [|k IH]; [lia|]. cbn [Rsum]. assert (0 <= Rsum k (fun i => lob_weight N (z i))) by (apply Rsum_nonneg; intros j Hj'; destruct (Wz j ltac:(lia)); lra). destruct (Wz k ltac:(lia)). destruct (Nat.eq_dec i k) as [->|]; [lra|]. specialize (IH (fun j Hj' => Wz j ltac:(lia)) ltac:(lia)). lra. }
  pose proof (c_R (np - 1) ltac:(lia)) as CR. cbv zeta in CR. assert (WE : 0 <= weight_error (np - 1) <= / 5000) by (unfold weight_error; change (/ 2 ^ 53) with uu; lra). clear CR.
  match goal with |- fin ?t /\ _ => change t with (ndiv (nmul (wf i) (len64 m A B n)) c2) end. set (la := lob_weight (np - 1) (z i)) in *. clearbody la. set (we := weight_error (np - 1)) in *. clearbody we.
  set (v := wf i) in *. clearbody v. set (ll := len64 m A B n) in *. clearbody ll. clear G Er Lr Q E P W.
  destruct (two_v m) as (F2 & V2). change (@c2 b64 (GL64.BN m)) with (@c2 b64 BN) in *. set (t := c2 : b64) in *. clearbody t.
  assert (Rl : Rabs l <= / 1000000) by lra. pose proof Rl as Rl'. apply Rabs_le_between in Rl'.
  (* relative error of the weight *)
  assert (I30 : 0 < / 2 ^ 30) by (apply Rinv_0_lt_compat, pow_lt; lra). assert (l0 : 0 < la) by lra. set (o := val v / la - 1). assert (Eo : val v = la * (1 + o)) by (unfold o; field; lra).
  assert (Ho : Rabs o <= we). { apply Rmult_le_reg_r with la; auto. rewrite <- (Rabs_pos_eq la) at 1 by lra. rewrite <- Rabs_mult. replace (o * la) with (val v - la) by (rewrite Eo; ring). exact Ew. } clearbody o. clear Ew.
  assert (Ro : Rabs o <= / 5000) by lra. pose proof Ro as Ro'. apply Rabs_le_between in Ro'.
  assert (Ep : val v * val ll = la * len * (1 + (o + l + o * l))) by (rewrite Eo, El; ring). set (g := o + l + o * l) in *. assert (Hg : Rabs g <= we + 202 / 100 * uu). { eapply Rle_trans; [apply (rel2 _ _ we (201 / 100 * uu)); auto|]. assert (we * uu <= / 5000 * uu) by (apply Rmult_le_compat_r; lra). lra. }
  assert (Rg : Rabs g <= / 4000) by lra. pose proof Rg as Rg'. apply Rabs_le_between in Rg'. clearbody g.
  assert (ll0 : / 2 ^ 483 <= la * len). { change (/ 2 ^ 483) with (/ 2 ^ (30 + 453)). rewrite i2_split. assert (0 < / 2 ^ 453) by (apply Rinv_0_lt_compat, pow_lt; lra). apply Rmult_le_compat; lra. }
  assert (ll1 : la * len <= 2 * (2 * 2 ^ 400)) by (apply Rmult_le_compat; lra). assert (I483 : 0 < / 2 ^ 483) by (apply Rinv_0_lt_compat, pow_lt; lra).
  assert (I486 : / 2 ^ 960 <= / 2 ^ 483 * / 8). { replace (/ 2 ^ 483 * / 8) with (/ 2 ^ 486) by (change (/ 2 ^ 486) with (/ 2 ^ (483 + 3)); rewrite i2_split; f_equal; simpl; f_equal; ring). apply p2i. lia. }
  assert (Bp : la * len * (1 - / 4000) <= val v * val ll <= la * len * (1 + / 4000)) by (rewrite Ep; split; apply Rmult_le_compat_l; lra). pose proof p400 as P4.
  destruct (mul_ok v ll Fw Fl) as (Fm & Vm). { apply no_over4. rewrite Rabs_pos_eq; lra. } destruct (normal_500 (val v * val ll)) as (d1 & D1 & E1). { rewrite Rabs_pos_eq; lra. } rewrite E1, Ep in Vm. cbn [nmul ndiv BN B64num]. set (y := Bmult mode_NE v ll) in *. clearbody y.
  assert (Ey : val y = la * len * (1 + (g + d1 + g * d1))) by (rewrite Vm; ring). set (h := g + d1 + g * d1) in *. assert (Hh : Rabs h <= we + 303 / 100 * uu). { eapply Rle_trans; [apply (rel2 _ _ (we + 202 / 100 * uu) uu); auto|]. assert ((we + 202 / 100 * uu) * uu <= / 4000 * uu) by (apply Rmult_le_compat_r; lra). lra. }
  assert (Rh : Rabs h <= / 3000) by lra. pose proof Rh as Rh'. apply Rabs_le_between in Rh'. clearbody h. clear Vm.
  assert (By : la * len * (1 - / 3000) <= val y <= la * len * (1 + / 3000)) by (rewrite Ey; split; apply Rmult_le_compat_l; lra).
  destruct (div_ok y t Fm ltac:(rewrite V2; lra)) as (Fd & Vd). { rewrite V2. apply no_over4. rewrite Rabs_pos_eq; lra. } rewrite V2 in Vd. destruct (normal_500 (val y / 2)) as (d2 & D2 & E2). { rewrite Rabs_pos_eq; lra. } rewrite E2 in Vd. split; [exact Fd|]. cbv zeta. rewrite Vd, Ey.
  replace (la * len * (1 + h) / 2 * (1 + d2) - la * (len / 2)) with ((h + d2 + h * d2) * (la * (len / 2))) by field. rewrite Rabs_mult, (Rabs_pos_eq (la * (len / 2))) by (unfold Rdiv; rewrite <- Rmult_assoc; lra). apply Rmult_le_compat_r; [unfold Rdiv; rewrite <- Rmult_assoc; lra|].
  eapply Rle_trans; [apply (rel2 _ _ (we + 303 / 100 * uu) uu); auto|]. assert ((we + 303 / 100 * uu) * uu <= / 3000 * uu) by (apply Rmult_le_compat_r; lra). lra.
Qed.
End C79.

(** the cosine over [0, 2] with ten points and n intervals *)
Definition cos64 : fn b64 := FCos (b64_of_Z 0, b64_of_Z 2).
Lemma cos_lip s t : Rabs (cos s - cos t) <= 1 * Rabs (s - t).
Proof.
  destruct (MVT_cor4 cos (fun y => - sin y) t (mkposreal (Rabs (s - t) + 1) ltac:(pose proof (Rabs_pos (s - t)); lra))) with (b := s) as (y & Ey & _).
  - intros y _. auto_derive; auto. ring.
  - simpl. lra.
  - rewrite Ey, Rabs_mult. apply Rmult_le_compat_r; [apply Rabs_pos|]. rewrite Rabs_Ropp. apply Rabs_le. apply SIN_bound.
Qed.
Example C79_case dbg n : (1 <= n)%nat -> INR n * uu <= / 1000 -> exists r, integral (H := B64num nearest) dbg (fo_of_fn (H := B64num nearest) dbg cos64) 10 n = Ok r /\ fin r /\
  Rabs (val r - sin 2) <= 4 / INR n + (18000 + 3 * INR n) * uu.
Proof.
  intros Hn Hn2. pose proof u1 as U. destruct C78_nearest as (HP & HC & He). destruct (ofZ_ok 0 ltac:(lia)) as (F0 & V0). destruct (ofZ_ok 2 ltac:(lia)) as (F2 & V2). pose proof (n_1 n Hn) as N1.
  assert (S2 : shift 2 = 40 * uu) by (unfold shift; change (/ 2 ^ 53) with uu; ring).
  destruct (C79_lipschitz nearest dbg (fo_of_fn (H := B64num nearest) dbg cos64) (fun _ t => m_cos nearest t) cos 10 n (2 * uu) (2 * uu) 1 1 2 (sin 2)) as (r & E & Fr & Er); auto; try lia.
  - apply fn_pointwise. intros l. cbn. f_equal. now rewrite map_map.
  - cbn [fo_of_fn fo_dom fdom cos64 fst snd]. rewrite V0, V2. apply Rle_trans with (/ 1); [apply Rinv_le_contravar; [lra|apply pow_R1_Rle; lra]|lra].
  - cbn [fo_of_fn fo_dom fdom cos64 fst snd]. rewrite V0. rewrite Rabs_R0. lra.
  - cbn [fo_of_fn fo_dom fdom cos64 fst snd]. rewrite V2. rewrite Rabs_pos_eq; lra.
  - pose proof p400. apply Rle_trans with (2 ^ 1); [lra|apply Rle_pow; [lra|lia]].
  - intros t Ft _. apply HC. exact Ft.
  - intros s t _ _. apply cos_lip.
  - intros t _. apply Rabs_le. apply COS_bound.
  - rewrite <- Rinv_1. apply Rinv_le_contravar; [lra|apply pow_R1_Rle; lra].
  - rewrite S2. apply Rle_trans with (2 ^ 1); [lra|apply Rle_pow; [lra|lia]].
  - cbn [fo_of_fn fo_dom fdom cos64 fst snd]. rewrite V0, V2. replace (sin 2) with (sin 2 - sin 0) by (rewrite sin_0; ring). apply (i_ftc sin cos); [intros t; auto_derive; auto; ring|]. intros t. apply (ex_derive_continuous cos). auto_derive; auto.
  - exists r. split; [exact E|]. split; [exact Fr|]. cbn [fo_of_fn fo_dom fdom cos64 fst snd] in Er. rewrite V0, V2 in Er. eapply Rle_trans; [exact Er|]. unfold sum_error, rule_error, node_error, weight_error. rewrite S2. change (/ 2 ^ 53) with uu. replace (10 - 1)%nat with 9%nat by reflexivity.
    assert (S9 : sqrt (INR 9) = 3) by (replace (INR 9) with (3 * 3) by (simpl; lra); apply sqrt_square; lra). rewrite S9. replace (INR 9) with 9 by (simpl; lra). replace (INR 10) with 10 by (simpl; lra). replace (2 - 0) with 2 by ring.
    assert (I1 : 0 < / INR n <= 1) by (split; [apply Rinv_0_lt_compat; lra|rewrite <- Rinv_1; apply Rinv_le_contravar; lra]). unfold Rdiv at 1 2. set (j := / INR n) in *. replace (2 / INR n) with (2 * j) by reflexivity. replace (4 / INR n) with (4 * j) by reflexivity.
    assert (uu * j <= uu * 1) by (apply Rmult_le_compat_l; lra). assert (0 <= INR n * uu) by (apply Rmult_le_pos; lra). assert (INR n * uu * uu <= / 1000 * uu) by (apply Rmult_le_compat_r; lra). assert (uu * uu <= / 1000 * uu) by (apply Rmult_le_compat_r; lra). lra.
Qed.
(** the identity over [0, 2] with two points *)
Definition id64 : fn b64 := identity_function (H := B64num nearest) (b64_of_Z 0, b64_of_Z 2).
Example C79_polynomials_case dbg : exists r, integral (H := B64num nearest) dbg (fo_of_fn (H := B64num nearest) dbg id64) 2 7 = Ok r /\ fin r /\ Rabs (val r - 2) <= 400 * uu.
Proof.
  pose proof u1 as U. destruct C78_nearest as (HP & HC & He). destruct (ofZ_ok 0 ltac:(lia)) as (F0 & V0). destruct (ofZ_ok 2 ltac:(lia)) as (F2 & V2). assert (E7 : INR 7 = 7) by (simpl; lra).
  assert (S2 : shift 2 = 40 * uu) by (unfold shift; change (/ 2 ^ 53) with uu; ring).
  destruct (C79_polynomials nearest dbg (fo_of_fn (H := B64num nearest) dbg id64) (fun _ t => nmul (Num := B64num nearest) (n1 (Num := B64num nearest)) t) (fun t => t) 2 7 (2 * uu) 0 1 (201 / 100) 2) as (r & v & E & Fr & Iv & Er); auto; try lia;
    cbn [fo_of_fn fo_dom fdom id64 identity_function fst snd] in *; rewrite ?V0, ?V2, ?S2, ?E7 in *; try lra.
  - apply fn_pointwise. intros l. cbn. f_equal. now rewrite map_map.
  - rewrite Rabs_R0. lra.
  - rewrite Rabs_pos_eq; lra.
  - intros t Ft Rt. destruct (one_v nearest) as (F1 & V1). cbn [nmul B64num]. change (@n1 b64 (GL64.BN nearest)) with (@n1 b64 (B64num nearest)) in *. set (o := @n1 b64 (B64num nearest)) in *. clearbody o.
    destruct (mul_ok o t F1 Ft) as (Fm & Vm). { apply no_over4. rewrite V1, Rmult_1_l. pose proof p400. apply Rabs_le. lra. } split; [exact Fm|]. rewrite Vm, V1, Rmult_1_l. rewrite rnd_fmt by apply val_fmt. rewrite Rminus_diag_eq by reflexivity. rewrite Rabs_R0. lra.
  - intros s t _ _. lra.
  - intros t Ht. apply Rabs_le. lra.
  - exists (fun k => nth k [0; 1] 0). intros t. change (S (2 * 2 - 3)) with 2%nat. cbn [Rsum nth pow]. ring.
  - assert (Ev : v = 2). { rewrite <- (is_RInt_unique _ _ _ _ Iv). apply is_RInt_unique. replace 2 with (2 ^ 2 / 2 - 0 ^ 2 / 2) at 2 by field. apply (i_ftc (fun t => t ^ 2 / 2) (fun t => t)); [intros t; auto_derive; auto; field|]. intros t. apply continuous_id. }
    exists r. split; [exact E|]. split; [exact Fr|]. rewrite Ev in Er. eapply Rle_trans; [exact Er|]. unfold sum_error, rule_error, node_error, weight_error. change (/ 2 ^ 53) with uu. replace (2 - 1)%nat with 1%nat by reflexivity. rewrite E7. replace (INR 1) with 1 by reflexivity. rewrite sqrt_1. replace (INR 2) with 2 by (simpl; lra).
    assert (uu * uu <= / 1000 * uu) by (apply Rmult_le_compat_r; lra). lra.
Qed.
(** five points in each of three parts of [0, 2] *)
Example C79_grid_case : exists r w z, gl_grid_points (H := B64num nearest) (b64_of_Z 0) (b64_of_Z 2) 5 3 = Ok r /\ gl_grid_weights (H := B64num nearest) (b64_of_Z 0) (b64_of_Z 2) 5 3 = Ok w /\ rule_nodes 4 z /\
  forall iv i, (iv < 3)%nat -> (i < 5)%nat -> exists t x, vget r (iv * 5 + i) = Some t /\ vget w (iv * 5 + i) = Some x /\ Rabs (val t - (INR iv + (z i + 1) / 2) * (2 / 3)) <= 90 * uu /\
    Rabs (val x - lob_weight 4 (z i) / 3) <= 1029 * uu * (lob_weight 4 (z i) / 3).
Proof.
  pose proof u1 as U. destruct C78_nearest as (HP & HC & He). destruct (ofZ_ok 0 ltac:(lia)) as (F0 & V0). destruct (ofZ_ok 2 ltac:(lia)) as (F2 & V2). destruct (rule_nodes_exist 4 ltac:(lia)) as (z & Hz). assert (E3 : INR 3 = 3) by (simpl; lra).
  assert (S2 : shift 2 = 40 * uu) by (unfold shift; change (/ 2 ^ 53) with uu; ring). assert (S4 : sqrt (INR 4) = 2) by (replace (INR 4) with (2 * 2) by (simpl; lra); apply sqrt_square; lra).
  assert (H1 : / 2 ^ 400 <= val (b64_of_Z 2) - val (b64_of_Z 0)). { rewrite V0, V2. apply Rle_trans with (/ 1); [apply Rinv_le_contravar; [lra|apply pow_R1_Rle; lra]|lra]. }
  assert (H2 : Rabs (val (b64_of_Z 0)) <= 2) by (rewrite V0, Rabs_R0; lra). assert (H3 : Rabs (val (b64_of_Z 2)) <= 2) by (rewrite V2, Rabs_pos_eq; lra). assert (H4 : 2 <= 2 ^ 400) by (apply Rle_trans with (2 ^ 1); [lra|apply Rle_pow; [lra|lia]]).
  assert (H5 : INR 3 * uu <= / 1000) by (rewrite E3; lra).
  destruct (C79_grid nearest 5 3 z (2 * uu) (b64_of_Z 0) (b64_of_Z 2) 2 ltac:(lia) ltac:(lia) H5 HP HC He F0 F2 H1 H2 H3 H4 Hz) as (r & Er & _ & G).
  destruct (C79_grid_weights nearest 5 3 z (2 * uu) (b64_of_Z 0) (b64_of_Z 2) 2 ltac:(lia) ltac:(lia) H5 HP HC He F0 F2 H1 H2 H3 H4 Hz) as (w & Ew & _ & Gw).
  exists r, w, z. split; [exact Er|]. split; [exact Ew|]. split; [exact Hz|]. intros iv i Hi Hj. destruct (G iv i Hi Hj) as (t & Et & _ & At). destruct (Gw iv i Hi Hj) as (x & Ex & _ & Ax). exists t, x. split; [exact Et|]. split; [exact Ex|].
  rewrite V0, V2, ?E3, ?S2 in *. unfold on_interval, node_error, weight_error in *. replace (5 - 1)%nat with 4%nat in * by reflexivity. rewrite S4 in *. replace (INR 4) with 4 in * by (simpl; lra). change (/ 2 ^ 53) with uu in *. split.
  - replace (0 + INR iv * ((2 - 0) / 3) + (2 - 0) / 3 * (z i + 1) / 2) with ((INR iv + (z i + 1) / 2) * (2 / 3)) in At by field. lra.
  - cbv zeta in Ax. replace (lob_weight 4 (z i) * ((2 - 0) / 3 / 2)) with (lob_weight 4 (z i) / 3) in Ax by field. replace (32 * (4 * 4 * 2) * uu + 5 * uu) with (1029 * uu) in Ax by ring. exact Ax.
Qed.
