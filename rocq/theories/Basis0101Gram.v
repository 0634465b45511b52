(** The closed-form Gram blocks of basis0101 against the integrals. *)
From Coquelicot Require Import Coquelicot.
From Coq Require Import Reals Lra Lia Arith.
From Verif Require Import Num Outcome LinAlg RSum RDeriv LegendreSpec Basis0101Spec Basis0101Math Basis0101Model.
Local Open Scope R_scope.

Lemma e2 x k : exp (2 * x * k) = exp (x * k) * exp (x * k).
Proof. rewrite <- exp_plus. f_equal. ring. Qed.
Lemma e4 x k : exp (4 * x * k) = exp (x * k) * exp (x * k) * (exp (x * k) * exp (x * k)).
Proof. rewrite <- !exp_plus. f_equal. ring. Qed.
Lemma em2 x k : exp (- (2) * x * k) = exp (- (x * k)) * exp (- (x * k)).
Proof. rewrite <- exp_plus. f_equal. ring. Qed.
Lemma em1 x k : exp (- x * k) = exp (- (x * k)).
Proof. f_equal. ring. Qed.
Lemma eem x : exp x * exp (- x) = 1.
Proof. rewrite <- exp_plus, Rplus_opp_r. apply exp_0. Qed.
Lemma ss x : sin x * sin x = 1 - cos x * cos x.
Proof. pose proof (sin2_cos2 x) as E. unfold Rsqr in E. lra. Qed.

Ltac open_block := cbn [Nat.eqb]; cbv beta iota delta [b01_Q b01_Qd1 b01_Qd2 b01_Qd3 b01_Qd1_dtau b01_Qd3_dtau npown]; rnum.
Ltac trig_norm th k :=
  rewrite ?e2, ?e4, ?em2, ?em1, ?cos_neg, ?sin_neg, ?Ropp_involutive;
  pose proof (eem (th * k)) as HE; pose proof (ss (th * k)) as HS;
  generalize dependent (exp (- (th * k))); generalize dependent (exp (th * k));
  generalize dependent (cos (th * k)); generalize dependent (sin (th * k)); intros S C HS E F HE.
Ltac trig_field := match goal with HS : _ = 1 - _, HE : _ * _ = 1 |- _ => first [ring [HS HE] | field [HS HE]; auto] end.
Ltac gram_entry k :=
  open_block; let th := fresh "th" in intros th;
  eapply is_derive_eq; [auto_derive; [repeat split; auto|reflexivity]|];
  cbn [fD b01f pow]; trig_norm th k; trig_field.
Ltac at0 :=
  open_block; rewrite ?Rmult_0_l, ?Rmult_0_r, ?Ropp_0, ?Rmult_0_l, ?exp_0, ?sin_0, ?cos_0; try field; auto.

Ltac all_entries i j tac :=
  destruct i as [|[|[|[|[|[|i]]]]]]; try lia; destruct j as [|[|[|[|[|[|j]]]]]]; try lia; tac.

Lemma Qd3_derive k i j th : k <> 0 -> (i < 6)%nat -> (j < 6)%nat ->
  is_derive (fun th => b01_Qd3 k th i j) th (((2 * k) ^ 3 * fD 3 i (th * k) * ((2 * k) ^ 3 * fD 3 j (th * k)) +
      (2 * k) ^ 3 * fD 3 i (- (th * k)) * ((2 * k) ^ 3 * fD 3 j (- (th * k)))) / 2).
Proof. intros Hk Hi Hj. revert th. all_entries i j ltac:(gram_entry k). Qed.
Lemma Qd3_0 k i j : k <> 0 -> (i < 6)%nat -> (j < 6)%nat -> b01_Qd3 k 0 i j = 0.
Proof. intros Hk Hi Hj. all_entries i j ltac:(at0). Qed.

Lemma Qd1_derive k i j th : k <> 0 -> (i < 6)%nat -> (j < 6)%nat ->
  is_derive (fun th => b01_Qd1 k th i j) th (((2 * k) ^ 1 * fD 1 i (th * k) * ((2 * k) ^ 1 * fD 1 j (th * k)) +
      (2 * k) ^ 1 * fD 1 i (- (th * k)) * ((2 * k) ^ 1 * fD 1 j (- (th * k)))) / 2).
Proof. intros Hk Hi Hj. revert th. all_entries i j ltac:(gram_entry k). Qed.
Lemma Qd1_0 k i j : k <> 0 -> (i < 6)%nat -> (j < 6)%nat -> b01_Qd1 k 0 i j = 0.
Proof. intros Hk Hi Hj. all_entries i j ltac:(at0). Qed.

Lemma Q_derive k i j th : k <> 0 -> (i < 6)%nat -> (j < 6)%nat -> ~ (i = 4 /\ j = 4)%nat ->
  is_derive (fun th => b01_Q k th i j) th (((2 * k) ^ 0 * fD 0 i (th * k) * ((2 * k) ^ 0 * fD 0 j (th * k)) +
      (2 * k) ^ 0 * fD 0 i (- (th * k)) * ((2 * k) ^ 0 * fD 0 j (- (th * k)))) / 2).
Proof. intros Hk Hi Hj H44. revert th. all_entries i j ltac:(try (exfalso; apply H44; split; reflexivity); gram_entry k). Qed.
Lemma Q_0 k i j : k <> 0 -> (i < 6)%nat -> (j < 6)%nat -> b01_Q k 0 i j = 0.
Proof. intros Hk Hi Hj. all_entries i j ltac:(at0). Qed.

(** the order-2 block without its factor tau^2/4 *)
Definition b01_G2 (k tau : R) (i j : nat) : R := match i, j with
  | 0%nat, 0%nat => 3 * 4 * (k ^ 3) * (exp (2 * tau * k)) * (((sin (tau * k))) ^ 2) - 2 * 4 * (k ^
    3) * (exp (2 * tau * k)) * (sin (tau * k)) * (cos (tau * k)) + 4 * (k ^ 3) * (exp (2 * tau * k))
    * (((cos (tau * k))) ^ 2) - (3 * 4 * (k ^ 3) * (((sin (tau * k))) ^ 2) + 2 * 4 * (k ^ 3) * (sin
    (tau * k)) * (cos (tau * k)) + 4 * (k ^ 3) * (((cos (tau * k))) ^ 2)) * (exp (- (2) * tau * k))
  | 0%nat, 1%nat => - 4 * (k ^ 3) * (exp (2 * tau * k)) * (((sin (tau * k))) ^ 2) - 2 * 4 * (k ^ 3)
    * (exp (2 * tau * k)) * (sin (tau * k)) * (cos (tau * k)) + 4 * (k ^ 3) * (exp (2 * tau * k)) *
    (((cos (tau * k))) ^ 2) - (- 4 * (k ^ 3) * (((sin (tau * k))) ^ 2) + 2 * 4 * (k ^ 3) * (sin (tau
    * k)) * (cos (tau * k)) + 4 * (k ^ 3) * (((cos (tau * k))) ^ 2)) * (exp (- (2) * tau * k))
  | 0%nat, 2%nat => - 8 * (4 * tau) * (k ^ 4) + 8 * 4 * (k ^ 3) * (sin (tau * k)) * (cos (tau * k))
  | 1%nat, 0%nat => - 4 * (k ^ 3) * (exp (2 * tau * k)) * (((sin (tau * k))) ^ 2) - 2 * 4 * (k ^ 3)
    * (exp (2 * tau * k)) * (sin (tau * k)) * (cos (tau * k)) + 4 * (k ^ 3) * (exp (2 * tau * k)) *
    (((cos (tau * k))) ^ 2) - (- 4 * (k ^ 3) * (((sin (tau * k))) ^ 2) + 2 * 4 * (k ^ 3) * (sin (tau
    * k)) * (cos (tau * k)) + 4 * (k ^ 3) * (((cos (tau * k))) ^ 2)) * (exp (- (2) * tau * k))
  | 1%nat, 1%nat => 4 * (k ^ 3) * (exp (2 * tau * k)) * (((sin (tau * k))) ^ 2) + 2 * 4 * (k ^ 3) *
    (exp (2 * tau * k)) * (sin (tau * k)) * (cos (tau * k)) + 3 * 4 * (k ^ 3) * (exp (2 * tau * k))
    * (((cos (tau * k))) ^ 2) - (4 * (k ^ 3) * (((sin (tau * k))) ^ 2) - 2 * 4 * (k ^ 3) * (sin (tau
    * k)) * (cos (tau * k)) + 3 * 4 * (k ^ 3) * (((cos (tau * k))) ^ 2)) * (exp (- (2) * tau * k))
  | 1%nat, 3%nat => - 8 * (4 * tau) * (k ^ 4) - 8 * 4 * (k ^ 3) * (sin (tau * k)) * (cos (tau * k))
  | 2%nat, 0%nat => - 8 * (4 * tau) * (k ^ 4) + 8 * 4 * (k ^ 3) * (sin (tau * k)) * (cos (tau * k))
  | 2%nat, 2%nat => 3 * 4 * (k ^ 3) * (exp (2 * tau * k)) * (((sin (tau * k))) ^ 2) - 2 * 4 * (k ^
    3) * (exp (2 * tau * k)) * (sin (tau * k)) * (cos (tau * k)) + 4 * (k ^ 3) * (exp (2 * tau * k))
    * (((cos (tau * k))) ^ 2) - (3 * 4 * (k ^ 3) * (((sin (tau * k))) ^ 2) + 2 * 4 * (k ^ 3) * (sin
    (tau * k)) * (cos (tau * k)) + 4 * (k ^ 3) * (((cos (tau * k))) ^ 2)) * (exp (- (2) * tau * k))
  | 2%nat, 3%nat => 4 * (k ^ 3) * (exp (2 * tau * k)) * (((sin (tau * k))) ^ 2) + 2 * 4 * (k ^ 3) *
    (exp (2 * tau * k)) * (sin (tau * k)) * (cos (tau * k)) - 4 * (k ^ 3) * (exp (2 * tau * k)) *
    (((cos (tau * k))) ^ 2) + (- 4 * (k ^ 3) * (((sin (tau * k))) ^ 2) + 2 * 4 * (k ^ 3) * (sin (tau
    * k)) * (cos (tau * k)) + 4 * (k ^ 3) * (((cos (tau * k))) ^ 2)) * (exp (- (2) * tau * k))
  | 3%nat, 1%nat => - 8 * (4 * tau) * (k ^ 4) - 8 * 4 * (k ^ 3) * (sin (tau * k)) * (cos (tau * k))
  | 3%nat, 2%nat => 4 * (k ^ 3) * (exp (2 * tau * k)) * (((sin (tau * k))) ^ 2) + 2 * 4 * (k ^ 3) *
    (exp (2 * tau * k)) * (sin (tau * k)) * (cos (tau * k)) - 4 * (k ^ 3) * (exp (2 * tau * k)) *
    (((cos (tau * k))) ^ 2) + (- 4 * (k ^ 3) * (((sin (tau * k))) ^ 2) + 2 * 4 * (k ^ 3) * (sin (tau
    * k)) * (cos (tau * k)) + 4 * (k ^ 3) * (((cos (tau * k))) ^ 2)) * (exp (- (2) * tau * k))
  | 3%nat, 3%nat => 4 * (k ^ 3) * (exp (2 * tau * k)) * (((sin (tau * k))) ^ 2) + 2 * 4 * (k ^ 3) *
    (exp (2 * tau * k)) * (sin (tau * k)) * (cos (tau * k)) + 3 * 4 * (k ^ 3) * (exp (2 * tau * k))
    * (((cos (tau * k))) ^ 2) - (4 * (k ^ 3) * (((sin (tau * k))) ^ 2) - 2 * 4 * (k ^ 3) * (sin (tau
    * k)) * (cos (tau * k)) + 3 * 4 * (k ^ 3) * (((cos (tau * k))) ^ 2)) * (exp (- (2) * tau * k))
  | _, _ => 0 end.
Lemma Qd2_G2 k tau i j : b01_Qd2 k tau i j = tau ^ 2 / 4 * b01_G2 k tau i j.
Proof.
  destruct i as [|[|[|[|[|[|i]]]]]]; destruct j as [|[|[|[|[|[|j]]]]]]; open_block; cbv beta iota delta [b01_G2]; field.
Qed.
Lemma G2_derive k i j th : k <> 0 -> (i < 6)%nat -> (j < 6)%nat ->
  is_derive (fun th => b01_G2 k th i j) th (((2 * k) ^ 2 * fD 2 i (th * k) * ((2 * k) ^ 2 * fD 2 j (th * k)) +
      (2 * k) ^ 2 * fD 2 i (- (th * k)) * ((2 * k) ^ 2 * fD 2 j (- (th * k)))) / 2).
Proof. intros Hk Hi Hj. revert th. all_entries i j ltac:(cbv beta iota delta [b01_G2]; gram_entry k). Qed.
Lemma G2_0 k i j : k <> 0 -> (i < 6)%nat -> (j < 6)%nat -> b01_G2 k 0 i j = 0.
Proof. intros Hk Hi Hj. all_entries i j ltac:(cbv beta iota delta [b01_G2]; at0). Qed.

Lemma Qd1_dtau_derive k i j th : k <> 0 -> is_derive (fun th => b01_Qd1 k th i j) th (b01_Qd1_dtau k th i j).
Proof.
  intros Hk. revert th.
  destruct i as [|[|[|[|[|[|i]]]]]]; destruct j as [|[|[|[|[|[|j]]]]]]; gram_entry k.
Qed.
Lemma Qd3_dtau_derive k i j th : k <> 0 -> is_derive (fun th => b01_Qd3 k th i j) th (b01_Qd3_dtau k th i j).
Proof.
  intros Hk. revert th.
  destruct i as [|[|[|[|[|[|i]]]]]]; destruct j as [|[|[|[|[|[|j]]]]]]; gram_entry k.
Qed.
