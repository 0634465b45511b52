(** Newton's method for the Gauss-Lobatto nodes when every step is perturbed; size of P_N at the nodes. *)
From Coquelicot Require Import Coquelicot.
From Coq Require Import Arith Reals Lra Lia Psatz.
From Verif Require Import Num RSum RDeriv RPoly LegendreSpec LegendreMath GLSpec QuadSpec QuadMath LobattoRoots GLModel GLProofs GLProofs2 NewtonMath SturmMath LobattoLocate GLConv.
Local Open Scope R_scope.

(** ** P_N at zero *)
Lemma legP_zero_rec n : legP (S (S n)) 0 = - ((INR n + 1) / (INR n + 2)) * legP n 0.
Proof. rewrite legP_SS. pose proof (pos_INR n). rewrite ?S_INR. field. lra. Qed.
Lemma legP_zero_even m : 1 <= 2 * INR (2 * S m) * legP (2 * S m) 0 ^ 2.
Proof.
  induction m as [|m IH].
  - change (2 * 1)%nat with 2%nat. rewrite legP_zero_rec, legP_0. simpl. lra.
  - replace (2 * S (S m))%nat with (S (S (2 * S m))) by lia. rewrite legP_zero_rec, !S_INR. set (n := INR (2 * S m)) in *. set (a := legP (2 * S m) 0) in *.
    assert (Hn : 0 <= n) by apply pos_INR. replace (2 * (n + 1 + 1) * (- ((n + 1) / (n + 2)) * a) ^ 2) with (2 * n * a ^ 2 + 2 * a ^ 2 * / (n + 2)) by (field; lra).
    assert (0 <= 2 * a ^ 2 * / (n + 2)). { apply Rmult_le_pos; [|apply Rlt_le, Rinv_0_lt_compat; lra]. pose proof (pow2_ge_0 a). lra. } lra.
Qed.
(** Sonin's function *)
Definition sonin (N : nat) (t : R) : R := INR N * (INR N + 1) * (legP N t * legP N t) + (1 - t * t) * (LD 1 N t * LD 1 N t).
Lemma sonin_derive N t : is_derive (sonin N) t (2 * t * (LD 1 N t * LD 1 N t)).
Proof.
  unfold sonin. eapply is_derive_eq.
  - apply d_plus; [apply d_scal, d_mult; apply legP_derive|]. apply d_mult; [apply d_minus; [apply d_const|apply d_mult; apply d_id]|]. apply d_mult; apply LD_derive.
  - pose proof (leg_ode2 N t) as E. set (a := legP N t) in *. set (b := LD 1 N t) in *. set (c := LD 2 N t) in *.
 cbv beta. fold b.
    match goal with |- ?l = ?r => replace l with (r + 2 * b * (INR N * (INR N + 1) * a - (2 * t * b + (t * t - 1) * c))) by ring end. rewrite E. ring.
Qed.
Lemma sonin_zero N : (2 <= N)%nat -> INR N + 1 <= 2 * sonin N 0.
Proof.
  intros HN. unfold sonin. destruct (Nat.Even_or_Odd N) as [[m E]|[m E]].
  - destruct m as [|m]; [lia|]. pose proof (legP_zero_even m) as H. rewrite <- E in H. pose proof (pos_INR N). pose proof (Rle_0_sqr (LD 1 N 0)) as Q. unfold Rsqr in Q.
    set (a := legP N 0) in *. set (n := INR N) in *. assert ((n + 1) * 1 <= (n + 1) * (2 * n * a ^ 2)) by (apply Rmult_le_compat_l; lra). simpl in *. lra.
  - destruct m as [|m]; [lia|]. pose proof (legP_zero_even m) as H. replace N with (S (2 * S m)) by lia. rewrite (LD_id1 0 (2 * S m) 0). change (LD 0 (2 * S m) 0) with (legP (2 * S m) 0).
    rewrite S_INR. set (n := INR (2 * S m)) in *. set (a := legP (2 * S m) 0) in *. set (b := legP (S (2 * S m)) 0). pose proof (Rle_0_sqr b) as Q. unfold Rsqr in Q. simpl (INR 0).
    assert (Hn : 2 <= n) by (unfold n; replace 2 with (INR 2) by (simpl; lra); apply le_INR; lia).
    assert (0 <= (n + 1) * (n + 1 + 1) * (b * b)) by (apply Rmult_le_pos; auto; apply Rmult_le_pos; lra).
    assert (A : (n + 1) * (n + 1) * 1 <= (n + 1) * (n + 1) * (2 * n * a ^ 2)) by (apply Rmult_le_compat_l; [apply Rmult_le_pos; lra|lra]).
    assert (B : n + 1 + 1 <= 2 * ((n + 1) * (n + 1) * a ^ 2)); [|simpl in *; lra].
    apply (Rmult_le_reg_l n); [lra|]. simpl in *. nra.
Qed.
Lemma sonin_left N t : t <= 0 -> sonin N 0 <= sonin N t.
Proof.
  intros H. cut (- sonin N t <= - sonin N 0); [lra|].
  apply (mono_in (fun u => - sonin N u) (fun u => - (2 * u * (LD 1 N u * LD 1 N u)))); auto.
  - intros u Hu. apply d_opp, sonin_derive.
  - intros u Hu. apply (derive_continuous _ _ (- (2 * u * (LD 1 N u * LD 1 N u)))). apply d_opp, sonin_derive.
  - intros u Hu. pose proof (Rle_0_sqr (LD 1 N u)) as Q. unfold Rsqr in Q. assert (0 <= - u * (LD 1 N u * LD 1 N u)) by (apply Rmult_le_pos; lra). lra.
Qed.

Section Node.
Variables (N : nat) (x : nat -> R) (j : nat).
Hypothesis HN : (3 <= N)%nat.
Hypothesis HX : lobatto_nodes N x.
Hypothesis X0 : x 0%nat = -1.
Hypothesis X1 : x N = 1.
Hypothesis HI : incr (S N) x.
Hypothesis Hj : (1 <= j)%nat.
Hypothesis Hj2 : (2 * j < N)%nat.
Notation zz := (zz x j).
Notation qq := (qq N x j).
Notation Rg := (Rg N x j).
Notation Lf := (Lf N x j).
Notation near := (near N x j).
Local Notation lam := (Rabs (legP N zz)).
Lemma Qp : 0 < qq. Proof. exact (qq_pos N x j HN HX X0 X1 HI Hj Hj2). Qed.

Lemma lam_sq : 1 <= 2 * INR N * (lam * lam).
Proof.
  rewrite <- Rabs_mult, Rabs_pos_eq by (apply Rle_0_sqr). pose proof (zz_neg N x j HN HX X0 X1 HI Hj Hj2) as Zn. pose proof (N3 N HN) as H3.
  pose proof (sonin_left N zz ltac:(lra)) as A. pose proof (sonin_zero N ltac:(lia)) as B. unfold sonin at 2 in A.
  pose proof (proj1 HX j ltac:(lia)) as L. unfold lobatto in L. rewrite (is_derive_unique _ _ _ (legP_derive N _)) in L. fold zz in L.
  replace ((1 - zz * zz) * (LD 1 N zz * LD 1 N zz)) with ((1 - zz * zz) * LD 1 N zz * LD 1 N zz) in A by ring. change (x j) with zz in L. rewrite L in A.
  apply (Rmult_le_reg_l (INR N + 1)); [lra|]. lra.
Qed.
Lemma lam_pos : 0 < lam.
Proof. pose proof lam_sq as H. pose proof (Rabs_pos (legP N zz)) as P. destruct P as [P|P]; auto. rewrite <- P in H. lra. Qed.

(** a perturbed position *)
Lemma out_L A e w v : Lf A w -> 0 <= A -> 0 <= e -> Rabs (v - w) <= e * qq -> Lf (A + e) v \/ Rg e v.
Proof. pose proof Qp as Qp.
  intros [H1 H2] HA He H. apply Rabs_le_between in H. destruct (Rle_dec v zz) as [L|L]; [left; split; [rewrite Rmult_plus_distr_r|]; lra|].
  right. split; [lra|]. lra.
Qed.
Lemma out_R A e w v : Rg A w -> 0 <= A -> 0 <= e -> Rabs (v - w) <= e * qq -> Rg (A + e) v \/ Lf e v.
Proof. pose proof Qp as Qp.
  intros [H1 H2] HA He H. apply Rabs_le_between in H. destruct (Rle_dec zz v) as [L|L]; [left; split; [|rewrite Rmult_plus_distr_r]; lra|].
  right. split; [lra|]. lra.
Qed.
Definition kin (A B u : R) : Prop := Rg A u \/ Lf B u.
Lemma kin_le A B A' B' u : A <= A' -> B <= B' -> kin A B u -> kin A' B' u.
Proof. intros HA HB [H|H]; [left; apply (R_le N x j HN HX X0 X1 HI Hj Hj2 A)|right; apply (L_le N x j HN HX X0 X1 HI Hj Hj2 B)]; auto. Qed.
(** one perturbed step: Rg A goes to Lf (ca A), Lf B to Rg (cb B) *)
Lemma kin_step A B ca cb e u v : 0 <= A -> A <= 103 / 100 -> 0 <= B -> B <= 4 / 5 -> 0 <= ca -> 0 <= cb -> 0 <= e ->
  A * A / 3 <= ca * (1 - A * A / 2) -> B * B / 3 <= cb * (1 - 61 / 100 * B - B * B / 12 - B * B / 2) ->
  kin A B u -> Rabs (v - nmap N u) <= e * qq -> kin (cb * B + e) (ca * A + e) v.
Proof. pose proof Qp as Qp.
  intros A0 A1 B0 B1 C0 C1 He HA HB [H|H] Hv.
  - pose proof (R_step N x j HN HX X0 X1 HI Hj Hj2 A ca u A0 A1 C0 HA H) as G. assert (0 <= ca * A) by (apply Rmult_le_pos; auto). assert (0 <= cb * B) by (apply Rmult_le_pos; auto).
    destruct (out_L _ e _ v G) as [K|K]; auto; [right; exact K|left]. apply (R_le N x j HN HX X0 X1 HI Hj Hj2 e); auto; lra.
  - pose proof (L_step N x j HN HX X0 X1 HI Hj Hj2 B cb u B0 B1 C1 HB H) as G. assert (0 <= ca * A) by (apply Rmult_le_pos; auto). assert (0 <= cb * B) by (apply Rmult_le_pos; auto).
    destruct (out_R _ e _ v G) as [K|K]; auto; [left; exact K|right]. apply (L_le N x j HN HX X0 X1 HI Hj Hj2 e); auto; lra.
Qed.
Definition far (u : R) : Prop := kin (103 / 100) (785 / 1000) u.
Lemma far_slope u : far u -> lam / 3 <= Rabs (legP N u) <= lam.
Proof. pose proof Qp as Qp.
  pose proof lam_pos as LP. intros [H|H].
  - destruct (right_step N x j HN HX X0 X1 HI Hj Hj2 u (103 / 100) 1 H) as [_ [A B]]; try lra.
  - destruct (left_step N x j HN HX X0 X1 HI Hj Hj2 u (785 / 1000) 2 H) as [_ [A B]]; try lra.
Qed.
Lemma far_move u : far u -> Rabs (nmap N u - u) <= 182 / 100 * qq /\ Rabs (u - zz) <= Rabs (nmap N u - u).
Proof. pose proof Qp as Qp.
  intros [H|H].
  - pose proof (step1 N x j HN HX X0 X1 HI Hj Hj2 u H) as G. destruct H as [A B]. destruct G as [C D].
    rewrite (Rabs_left1 (nmap N u - u)), (Rabs_pos_eq (u - zz)) by lra. lra.
  - assert (G : Rg (1271 / 1000 * (785 / 1000)) (nmap N u)) by (apply (L_step N x j HN HX X0 X1 HI Hj Hj2 (785 / 1000)); try lra; exact H). destruct H as [A B]. destruct G as [C D].
    rewrite (Rabs_pos_eq (nmap N u - u)), (Rabs_left1 (u - zz)) by lra. lra.
Qed.
Lemma near_cubic Y u : 0 <= Y -> Y <= 11 / 100 -> near Y u -> near (2 / 5 * Y ^ 3) (nmap N u).
Proof.
  intros H0 H1. assert (Q : 0 <= Y * Y <= 11 / 100 * (11 / 100)) by (split; [apply Rmult_le_pos|apply Rmult_le_compat]; lra).
  replace (2 / 5 * Y ^ 3) with (2 / 5 * (Y * Y) * Y) by ring. intros [H|H]; [right; apply R_step|left; apply L_step]; auto; try lra.
  - assert (2 / 5 * (Y * Y) * (1 - 11 / 100 * (11 / 100) / 2) <= 2 / 5 * (Y * Y) * (1 - Y * Y / 2)) by (apply Rmult_le_compat_l; lra). lra.
  - assert (2 / 5 * (Y * Y) * (1 - 61 / 100 * (11 / 100) - 11 / 100 * (11 / 100) / 12 - 11 / 100 * (11 / 100) / 2) <= 2 / 5 * (Y * Y) * (1 - 61 / 100 * Y - Y * Y / 12 - Y * Y / 2)) by (apply Rmult_le_compat_l; lra). lra.
Qed.

(** ** The stages of a perturbed run: far steps off by at most qq / 500, near ones by at most e qq *)
Variable e : R.
Hypothesis He : 0 <= e <= 1 / 500.
Definition close (u : R) : Prop := near (15 / 1000) u.
Definition pert (u v : R) : Prop := Rabs (v - nmap N u) <= 1 / 500 * qq /\ (close u -> Rabs (v - nmap N u) <= e * qq).
Definition stage (i : nat) (u : R) : Prop :=
  match i with
  | O => kin (103 / 100) (785 / 1000) u
  | 1%nat => kin (1002 / 1000) (785 / 1000) u
  | 2%nat => kin (1002 / 1000) (677 / 1000) u
  | 3%nat => kin (326 / 1000) (677 / 1000) u
  | 4%nat => kin (326 / 1000) (15 / 1000) u
  | 5%nat => close u
  | S (S (S (S (S (S k))))) => near (11 / 1000 / 100 ^ k + 100 / 99 * e) u
  end.
Lemma tail_small k : 0 <= 11 / 1000 / 100 ^ k <= 11 / 1000.
Proof.
  assert (P : 1 <= 100 ^ k) by (apply pow_R1_Rle; lra). split; [apply Rdiv_le_0_compat; lra|]. apply (Rmult_le_reg_r (100 ^ k)); [lra|]. unfold Rdiv. rewrite Rmult_assoc, Rinv_l by lra. lra.
Qed.
Lemma stage_far i u : stage i u -> far u.
Proof.
  intros H. unfold far. destruct i as [|[|[|[|[|[|k]]]]]]; cbn [stage] in H; [| | | | |apply (kin_le (15 / 1000) (15 / 1000)); [lra..|exact H]|]; try (apply (kin_le _ _ (103 / 100) (785 / 1000)) in H; auto; lra).
  pose proof (tail_small k). apply (kin_le (15 / 1000) (15 / 1000)); [lra..|]. apply (near_mono N x j HN HX X0 X1 HI Hj Hj2 _ (15 / 1000)) in H; [|lra]. exact H.
Qed.
Lemma stage_close k u : stage (5 + k) u -> close u.
Proof. destruct k as [|k]; [exact (fun H => H)|]. cbn [stage Nat.add]. intros H. pose proof (tail_small k). apply (near_mono N x j HN HX X0 X1 HI Hj Hj2 _ (15 / 1000)) in H; [exact H|lra]. Qed.
Lemma stage_step i u v : stage i u -> pert u v -> stage (S i) v.
Proof. pose proof Qp as Qp.
  intros H [Hf Hn]. destruct i as [|[|[|[|[|[|k]]]]]].
  - cbn [stage] in *. apply (kin_le (1272 / 1000 * (785 / 1000) + 1 / 500) (754 / 1000 * (103 / 100) + 1 / 500)); [lra..|]. apply (kin_step (103 / 100) (785 / 1000) _ _ (1 / 500) u); auto; lra.
  - cbn [stage] in *. apply (kin_le (1272 / 1000 * (785 / 1000) + 1 / 500) (673 / 1000 * (1002 / 1000) + 1 / 500)); [lra..|]. apply (kin_step (1002 / 1000) (785 / 1000) _ _ (1 / 500) u); auto; lra.
  - cbn [stage] in *. apply (kin_le (4780 / 10000 * (677 / 1000) + 1 / 500) (673 / 1000 * (1002 / 1000) + 1 / 500)); [lra..|]. apply (kin_step (1002 / 1000) (677 / 1000) _ _ (1 / 500) u); auto; lra.
  - cbn [stage] in *. apply (kin_le (4780 / 10000 * (677 / 1000) + 1 / 500) (375 / 10000 * (326 / 1000) + 1 / 500)); [lra..|]. apply (kin_step (326 / 1000) (677 / 1000) _ _ (1 / 500) u); auto; lra.
  - cbn [stage] in *. apply (kin_le (1 / 100 * (15 / 1000) + 1 / 500) (375 / 10000 * (326 / 1000) + 1 / 500)); [lra..|]. apply (kin_step (326 / 1000) (15 / 1000) _ _ (1 / 500) u); auto; lra.
  - cbn [stage] in *. specialize (Hn H). unfold close in H. apply (near_step N x j HN HX X0 X1 HI Hj Hj2) in H; [|lra..]. apply near_abs in H; [|assumption..]. apply near_abs; [assumption..|]. 
    replace (v - zz) with ((v - nmap N u) + (nmap N u - zz)) by ring. eapply Rle_trans; [apply Rabs_triang|]. simpl.
    replace ((11 / 1000 / 1 + 100 / 99 * e) * qq) with (e * qq + 15 / 1000 / 100 * qq + (11 / 1000 - 15 / 1000 / 100 + / 99 * e) * qq) by field.
    assert (0 <= (11 / 1000 - 15 / 1000 / 100 + / 99 * e) * qq) by (apply Rmult_le_pos; lra). lra.
  - cbn [stage] in H |- *. pose proof (tail_small k) as T. assert (C : close u) by (apply (stage_close (S k)); exact H). specialize (Hn C).
    set (Y := 11 / 1000 / 100 ^ k + 100 / 99 * e) in *. pose proof (near_step N x j HN HX X0 X1 HI Hj Hj2 Y u ltac:(unfold Y; lra) ltac:(unfold Y; lra) H) as G.
    apply near_abs in G; [|assumption..]. apply near_abs; [assumption..|]. change (100 ^ S k) with (100 * 100 ^ k).
    assert (P : 1 <= 100 ^ k) by (apply pow_R1_Rle; lra). replace (11 / 1000 / (100 * 100 ^ k)) with (11 / 1000 / 100 ^ k / 100) by (field; lra).
    replace (v - zz) with ((v - nmap N u) + (nmap N u - zz)) by ring. eapply Rle_trans; [apply Rabs_triang|].
    replace ((11 / 1000 / 100 ^ k / 100 + 100 / 99 * e) * qq) with (e * qq + Y / 100 * qq) by (unfold Y; field; lra). lra.
Qed.
Lemma far_range u : far u -> -1 <= u <= 1 / 10.
Proof.
  pose proof (left_gap N x j HN HX X0 X1 HI Hj Hj2) as L. pose proof (qq_zz N x j HN HX X0 X1 HI Hj Hj2) as G. pose proof Qp as Qp. pose proof (zz_neg N x j HN HX X0 X1 HI Hj Hj2).
  assert (-1 <= x (j - 1)%nat). { destruct (Nat.eq_dec (j - 1) 0) as [->|E0]; [lra|]. rewrite <- X0. apply Rlt_le, HI; lia. }
  intros [[A B]|[A B]]; lra.
Qed.
Lemma far_next u : far u -> far (nmap N u).
Proof.
  intros H. pose proof Qp as Qp. apply (stage_far 1). apply (stage_step 0 u); [exact H|]. unfold pert. rewrite Rminus_eq_0, Rabs_R0. split; [|intros _]; apply Rmult_le_pos; lra.
Qed.
(** the loop's own test leaves it close to the node *)
Lemma settle D dt u v : far u -> pert u v -> Rabs (dt - (nmap N u - u)) <= 1 / 500 * qq -> (close u -> Rabs (dt - (nmap N u - u)) <= e * qq) ->
  Rabs dt <= D * qq -> 0 <= D <= 13 / 1000 -> near (2 / 5 * (D + e) ^ 3 + e) v.
Proof.
  intros Hu [P1 P2] D1 D2 HD HD2. pose proof Qp as Qp. destruct (far_move u Hu) as (_ & M2).
  assert (T : Rabs (nmap N u - u) <= Rabs dt + Rabs (dt - (nmap N u - u))).
  { replace (nmap N u - u) with (dt + - (dt - (nmap N u - u))) at 1 by ring. eapply Rle_trans; [apply Rabs_triang|]. rewrite Rabs_Ropp. lra. }
  assert (DQ : D * qq <= 13 / 1000 * qq) by (apply Rmult_le_compat_r; lra).
  assert (C : close u). { apply near_abs; [assumption..|]. lra. }
  specialize (P2 C). specialize (D2 C). assert (Nr : near (D + e) u). { apply near_abs; [assumption..|]. rewrite Rmult_plus_distr_r. lra. }
  apply near_cubic in Nr; try lra. apply near_abs in Nr; [|assumption..]. apply near_abs; [assumption..|]. rewrite Rmult_plus_distr_r.
  replace (v - zz) with ((v - nmap N u) + (nmap N u - zz)) by ring. eapply Rle_trans; [apply Rabs_triang|]. lra.
Qed.
End Node.
