(** The numerical integral in binary64: the routine. *)
From Coquelicot Require Import Coquelicot.
From Coq Require Import ZArith Reals Lra Lia List Arith Bool Psatz.
From Flocq Require Import Core Relative BinarySingleNaN.
From Verif Require Import Num Outcome LinAlg LegendreModel RSum IEEEModel IEEESpec IEEEProofs IEEEHorner IEEELegendre IEEESpline GSplineModel FunModel GLModel GLSpec GLProofs GLLModel GLLProofs
  IntegralModel QuadSpec GL64 GL64Spec Int64 Int64Sum Int64Spec.
Local Open Scope R_scope.

Section Rule.
Variable m : libm.
Local Instance BN : Num b64 := B64num m.

Lemma col_dot64 (a : mat b64) w n F wf : mat_is a n 1 F -> vec_is w n wf -> col_dot a w = Ok (dot64 m n wf (fun i => F i 0%nat)).
Proof.
  intros M V. unfold col_dot. pose proof M as (-> & -> & _). pose proof V as (-> & _). rewrite !Nat.eqb_refl. cbn [andb].
  match goal with |- for_ ?lo ?hi ?g ?z = _ => destruct (for_ok (fun k s => s = acc m n0 (fun i => nmul (F i 0%nat) (wf i)) k) g lo hi z) as (s' & E & ->) end; auto; try lia.
  intros i s Hi ->. rewrite (mread_ok a n 1 F) by (auto; lia). cbn [bind]. rewrite (vread_ok w n wf) by (auto; lia). cbn [bind]. eexists. split; [reflexivity|]. reflexivity.
Qed.
Lemma integral64 dbg (f : fobj b64) Fb np n p x w wf : fo_codom f = 1%nat -> pointwise f Fb -> gl_points_weights np = Ok (p, w) -> vec_is p np x -> vec_is w np wf ->
  let A := fst (fo_dom f) in let B := snd (fo_dom f) in
  integral dbg f np n = Ok (acc m n0 (fun iv => part64 m np wf (fun i => Fb 0%nat (node64 m A B n iv (x i))) (len64 m A B n)) n).
Proof.
  intros Hc Pw E Vp Vw A B. unfold integral. rewrite Hc. cbn [Nat.eqb negb]. rewrite andb_false_r, E. cbn [bind].
  match goal with |- context [for_ ?lo ?hi ?g ?z] => destruct (for_ok (fun k st => mrows (fst st) = np /\ mcols (fst st) = 1%nat /\
     snd st = acc m n0 (fun iv => part64 m np wf (fun i => Fb 0%nat (node64 m A B n iv (x i))) (len64 m A B n)) k) g lo hi z) as ([mm r] & E1 & (_ & _ & Er)) end.
  - lia.
  - cbn. auto.
  - intros iv [mm r] Hi (Hm & Hk & Er). cbn [fst snd] in *. unfold int_step. fold A B.
    assert (Va : vec_is (gl_affine p (ndiv (nsub B A) (nofnat n)) (nadd A (nmul (nofnat iv) (ndiv (nsub B A) (nofnat n))))) np (fun i => node64 m A B n iv (x i))).
    { unfold gl_affine. exact (vmap1_is _ p np x Vp). }
    destruct (Pw _ np _ mm Va Hm) as (m' & E2 & M); [congruence|]. rewrite Hc in M.
    change (@bind) with (@bind). rewrite E2. cbn [bind]. rewrite (col_dot64 m' w np _ wf M Vw). cbn [bind]. eexists. split; [reflexivity|]. cbn [fst snd].
    split; [apply M|]. split; [apply M|]. rewrite Er. reflexivity.
  - cbn [snd] in Er. rewrite E1, Er. reflexivity.
Qed.

Variables (A B : b64) (n : nat) (D : R).
Let a := val A.
Let b := val B.
Let len := (b - a) / INR n.
Hypothesis FA : fin A.
Hypothesis FB : fin B.
Hypothesis Hab : / 2 ^ 400 <= b - a.
Hypothesis DA : Rabs a <= D.
Hypothesis DB : Rabs b <= D.
Hypothesis HD : D <= 2 ^ 400.
Hypothesis Hn : (1 <= n)%nat.
Hypothesis Hn2 : INR n * uu <= / 1000.
Variables (np : nat) (x w : nat -> b64) (g : b64 -> b64) (F : R -> R) (Bd K delta : R).
Hypothesis Hnp : (1 <= np <= 1001)%nat.
Hypothesis Fx : forall i, (i < np)%nat -> fin (x i) /\ -1 <= val (x i) <= 1.
Hypothesis Fw : forall i, (i < np)%nat -> fin (w i).
Hypothesis Sw : Rsum np (fun i => Rabs (val (w i))) <= 2001 / 1000.
Let lo := a - shift D.
Let hi := b + shift D.
Hypothesis Ng : near_on g F lo hi delta.
Hypothesis Lip : lipschitz F K lo hi.
Hypothesis HB : forall t, lo <= t <= hi -> Rabs (F t) <= Bd.
Let eps := delta + K * shift D.
Hypothesis B1 : / 2 ^ 500 <= Bd.
Hypothesis B2 : Bd + eps <= 2 ^ 400.
Hypothesis K0 : 0 <= K.
Hypothesis d0 : 0 <= delta.

Lemma shift_pos : 0 <= shift D.
Proof. unfold shift. change (/ 2 ^ 53) with uu. pose proof u1. destruct (L_R A B D Hab DA DB) as (_ & _ & P). apply Rmult_le_pos; lra. Qed.
Lemma node_in iv i : (iv < n)%nat -> (i < np)%nat -> let t := on_interval (a + INR iv * len) len (val (x i)) in a <= t <= b /\ fin (node64 m A B n iv (x i)) /\ Rabs (val (node64 m A B n iv (x i)) - t) <= shift D.
Proof.
  intros Hi Hj t. destruct (Fx i Hj) as (F1 & R1). destruct (len_R A B n D Hab DA DB Hn Hn2) as (_ & Lp). fold a b len in Lp. pose proof (left_R A B n D Hab DA DB Hn Hn2 iv ltac:(lia)) as LR. pose proof (left_R A B n D Hab DA DB Hn Hn2 (S iv) Hi) as LS. fold a b in LR, LS. fold len in LR, LS. rewrite S_INR in LS. split.
  - unfold t, on_interval. assert (0 <= len * (val (x i) + 1) / 2 <= len). { assert (0 <= len * (val (x i) + 1)) by (apply Rmult_le_pos; lra). assert (len * (val (x i) + 1) <= len * 2) by (apply Rmult_le_compat_l; lra). lra. } lra.
  - exact (node_ok m A B n D FA FB Hab DA DB HD Hn Hn2 iv (x i) Hi F1 R1).
Qed.
Lemma value_ok iv i : (iv < n)%nat -> (i < np)%nat -> let t := on_interval (a + INR iv * len) len (val (x i)) in
  fin (g (node64 m A B n iv (x i))) /\ Rabs (val (g (node64 m A B n iv (x i))) - F t) <= eps /\ Rabs (F t) <= Bd.
Proof.
  intros Hi Hj t. destruct (node_in iv i Hi Hj) as (Rt & Fn & En). fold t in Rt, En. pose proof shift_pos as SP. set (y := node64 m A B n iv (x i)) in *. clearbody y. pose proof En as En'. apply Rabs_le_between in En'.
  assert (Ry : lo <= val y <= hi) by (unfold lo, hi; lra). destruct (Ng y Fn Ry) as (Fg & Eg). assert (Rt' : lo <= t <= hi) by (unfold lo, hi; lra). pose proof (Lip (val y) t Ry Rt') as L. split; [exact Fg|]. split; [|apply HB; exact Rt'].
  replace (val (g y) - F t) with ((val (g y) - F (val y)) + (F (val y) - F t)) by ring. eapply Rle_trans; [apply Rabs_triang|]. unfold eps. assert (K * Rabs (val y - t) <= K * shift D) by (apply Rmult_le_compat_l; lra). lra.
Qed.
Lemma eps_pos : 0 <= eps. Proof. unfold eps. assert (0 <= K * shift D) by (apply Rmult_le_pos; [exact K0|apply shift_pos]). lra. Qed.
Definition parts iv : b64 := part64 m np w (fun i => g (node64 m A B n iv (x i))) (len64 m A B n).
Lemma part_err iv : (iv < n)%nat -> fin (parts iv) /\
  Rabs (val (parts iv) - len / 2 * Rsum np (fun i => val (w i) * F (on_interval (a + INR iv * len) len (val (x i))))) <= len * (10005 / 10000 * eps + 1018 / 1000 * (INR np + 5) * uu * (Bd + eps)) /\
  Rabs (val (parts iv)) <= 1002 / 1000 * (Bd + eps) * len.
Proof.
  intros Hi. destruct (len_ok m A B n D FA FB Hab DA DB HD Hn Hn2) as (Fl & l & Hl & El). fold a b in El. fold len in El. destruct (len_R A B n D Hab DA DB Hn Hn2) as (LR & Lp). fold a b in LR, Lp. fold len in LR, Lp. destruct (L_R A B D Hab DA DB) as (L2 & _ & _). fold a b in L2. pose proof eps_pos as EP.
  destruct (part_ok m np w (fun i => g (node64 m A B n iv (x i))) (Bd + eps)) with (ll := len64 m A B n) (len := len) (l := l) as (Fp & Ep & Ap); auto; try lia; try lra.
  { intros i Hj. apply (value_ok iv i Hi Hj). }
  { intros i Hj. destruct (value_ok iv i Hi Hj) as (_ & E1 & E2). apply Rabs_le_between in E1. apply Rabs_le_between in E2. apply Rabs_le. lra. }
  split; [exact Fp|]. split; [|exact Ap]. fold (parts iv) in Ep.
  set (S1 := Rsum np (fun i => val (g (node64 m A B n iv (x i))) * val (w i))) in *. set (S2 := Rsum np (fun i => val (w i) * F (on_interval (a + INR iv * len) len (val (x i))))).
  assert (D12 : Rabs (S1 - S2) <= 2001 / 1000 * eps).
  { apply Rle_trans with (Rsum np (fun i => eps * Rabs (val (w i)))).
    - apply Rsum_dist. intros i Hj. destruct (value_ok iv i Hi Hj) as (_ & E1 & _). replace (val (g (node64 m A B n iv (x i))) * val (w i) - val (w i) * F (on_interval (a + INR iv * len) len (val (x i)))) with ((val (g (node64 m A B n iv (x i))) - F (on_interval (a + INR iv * len) len (val (x i)))) * val (w i)) by ring.
      rewrite Rabs_mult. apply Rmult_le_compat_r; [apply Rabs_pos|exact E1].
    - rewrite Rsum_scal. rewrite Rmult_comm. apply Rmult_le_compat_r; auto. }
  replace (val (parts iv) - len / 2 * S2) with ((val (parts iv) - len / 2 * S1) + len / 2 * (S1 - S2)) by ring. eapply Rle_trans; [apply Rabs_triang|]. rewrite (Rabs_mult (len / 2)), (Rabs_pos_eq (len / 2)) by lra.
  assert (len / 2 * Rabs (S1 - S2) <= len / 2 * (2001 / 1000 * eps)) by (apply Rmult_le_compat_l; lra). lra.
Qed.
Lemma total_err : fin (acc m n0 parts n) /\ Rabs (val (acc m n0 parts n) - quad np n (fun i => val (x i)) (fun i => val (w i)) a b F) <= (b - a) * sum_error np n Bd eps.
Proof.
  pose proof u1 as U. destruct (len_R A B n D Hab DA DB Hn Hn2) as (LR & Lp). fold a b in LR, Lp. fold len in LR, Lp. destruct (L_R A B D Hab DA DB) as (L2 & L0 & _). fold a b in L2, L0. pose proof eps_pos as EP. pose proof (n_1 n Hn) as N1.
  assert (bP : 0 < Bd + eps) by (assert (0 < / 2 ^ 500) by (apply Rinv_0_lt_compat, pow_lt; lra); lra). assert (EL : INR n * len = b - a) by (unfold len; field; lra). set (be := Bd + eps) in *.
  set (M := Rsum n (fun iv => Rabs (val (parts iv)))). assert (HM : M <= 1002 / 1000 * be * (b - a)). { unfold M. apply Rle_trans with (Rsum n (fun _ => 1002 / 1000 * be * len)); [apply Rsum_le'; intros iv Hi; apply (part_err iv Hi)|]. rewrite Rsum_cst, <- EL. lra. }
  assert (M0 : 0 <= M) by (apply Rsum_nonneg; intros; apply Rabs_pos). pose proof (pow_1u_lin2 n Hn2) as PW. pose proof (pow_1u_ge1 n) as PG.
  assert (bL : be * (b - a) <= 2 ^ 400 * (2 * 2 ^ 400)) by (apply Rmult_le_compat; lra). pose proof p400_900 as P9. pose proof p900 as P16. assert (bL0 : 0 < be * (b - a)) by (apply Rmult_lt_0_compat; lra).
  assert (V0 : val (n0 : b64) = 0) by reflexivity. assert (EM : mag (val (n0 : b64)) (fun i => val (parts i)) n = M) by (unfold mag; rewrite V0, Rabs_R0; unfold M; ring).
  assert (PM : (1 + uu) ^ n * M <= (1002 / 1000) * (1002 / 1000 * be * (b - a))) by (apply Rmult_le_compat; lra).
  assert (HM2 : (1 + uu) ^ n * mag (val (n0 : b64)) (fun i => val (parts i)) n <= big). { rewrite EM. assert (2 ^ 400 * (2 * 2 ^ 400) * 2 <= big). { replace (2 ^ 400 * (2 * 2 ^ 400) * 2) with (2 ^ 802) by (change (2 ^ 802) with (2 ^ (400 + 400 + 2)); rewrite !pow_add; ring). unfold big. apply p2. lia. } lra. }
  destruct (acc_ok m n0 parts n (proj1 (zero64 m)) (fun i Hi => proj1 (part_err i Hi)) HM2 n ltac:(lia)) as (Fr & Er). split; [exact Fr|].
  change (Rabs (val (acc m n0 parts n) - (val (n0 : b64) + Rsum n (fun i => val (parts i)))) <= ((1 + uu) ^ n - 1) * mag (val (n0 : b64)) (fun i => val (parts i)) n) in Er. rewrite EM, V0, Rplus_0_l in Er.
  set (r := val (acc m n0 parts n)) in *. clearbody r. set (S1 := Rsum n (fun i => val (parts i))) in *.
  assert (D2 : Rabs (S1 - quad np n (fun i => val (x i)) (fun i => val (w i)) a b F) <= Rsum n (fun _ => len * (10005 / 10000 * eps + 1018 / 1000 * (INR np + 5) * uu * be))). { unfold quad. fold len. apply Rsum_dist. intros iv Hi. apply (part_err iv Hi). }
  rewrite Rsum_cst in D2. set (Q := quad np n (fun i => val (x i)) (fun i => val (w i)) a b F) in *.
  assert (D1 : ((1 + uu) ^ n - 1) * M <= 101 / 100 * (INR n * uu) * (1002 / 1000 * be * (b - a))) by (apply Rmult_le_compat; lra).
  replace (r - Q) with ((r - S1) + (S1 - Q)) by ring. eapply Rle_trans; [apply Rabs_triang|]. unfold sum_error. change (/ 2 ^ 53) with uu. fold be.
  assert (D3 : INR n * (len * (10005 / 10000 * eps + 1018 / 1000 * (INR np + 5) * uu * be)) = (b - a) * (10005 / 10000 * eps) + 1018 / 1000 * ((INR np + 5) * (uu * (be * (b - a))))) by (rewrite <- EL; ring).
  rewrite D3 in D2. assert (UB : 0 <= uu * (be * (b - a))) by (apply Rmult_le_pos; lra). set (X := uu * (be * (b - a))) in *. assert (NX : 0 <= INR n * X) by (apply Rmult_le_pos; lra). assert (NPX : 0 <= (INR np + 5) * X) by (apply Rmult_le_pos; [pose proof (pos_INR np); lra|lra]).
  assert (eL : 0 <= (b - a) * eps) by (apply Rmult_le_pos; lra).
  apply Rle_trans with (101 / 100 * (1002 / 1000) * (INR n * X) + ((b - a) * (10005 / 10000 * eps) + 1018 / 1000 * ((INR np + 5) * X))); [apply Rplus_le_compat; [|exact D2]; eapply Rle_trans; [exact Er|]; eapply Rle_trans; [exact D1|]; unfold X; right; ring|].
  replace ((b - a) * (1001 / 1000 * eps + 102 / 100 * (INR np + INR n + 5) * uu * be)) with (1001 / 1000 * ((b - a) * eps) + 102 / 100 * (INR n * X) + 102 / 100 * ((INR np + 5) * X)) by (unfold X; ring). lra.
Qed.
End Rule.
