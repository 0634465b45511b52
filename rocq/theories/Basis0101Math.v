(** Analysis of the six functions of basis0101. *)
From Coquelicot Require Import Coquelicot.
From Coq Require Import Reals Lra Lia Arith.
From Verif Require Import RSum RDeriv LegendreSpec Basis0101Spec.
Local Open Scope R_scope.

(** d-th derivative with respect to p *)
Fixpoint fD (d i : nat) (p : R) : R :=
  match d with
  | O => b01f i p
  | S e =>
    match i with
    | 0%nat => fD e 0 p - fD e 1 p
    | 1%nat => fD e 0 p + fD e 1 p
    | 2%nat => - fD e 2 p - fD e 3 p
    | 3%nat => fD e 2 p - fD e 3 p
    | 4%nat => fD e 5 p
    | _ => 0
    end
  end.

Lemma fD_derive d : forall i p, is_derive (fD d i) p (fD (S d) i p).
Proof.
  induction d as [|d IH]; intros i p.
  - do 6 (try destruct i as [|i]); simpl; unfold b01f; (eapply is_derive_eq; [auto_derive; auto|simpl; ring]).
  - do 5 (try destruct i as [|i]).
    + apply (d_minus (fD d 0) (fD d 1)); apply IH.
    + apply (d_plus (fD d 0) (fD d 1)); apply IH.
    + apply (d_minus (fun p => - fD d 2 p) (fD d 3)); [apply d_opp|]; apply IH.
    + apply (d_minus (fD d 2) (fD d 3)); apply IH.
    + apply (IH 5%nat).
    + simpl. apply d_const.
Qed.

Lemma fD_cont d i p : continuous (fD d i) p.
Proof. eapply derive_continuous, fD_derive. Qed.

Lemma window_derive t0 tau t : is_derive (window t0 tau) t (2 / tau).
Proof. unfold window, Rdiv. eapply is_derive_eq; [auto_derive; auto|simpl; ring]. Qed.

Lemma b01_time_derive_n K t0 tau d i t : tau <> 0 ->
  is_derive_n (b01_time K t0 tau i) d t ((2 * K) ^ d * fD d i (tau * K * window t0 tau t)).
Proof.
  intros Ht.
  pose proof (is_derive_n_chain (fun d u => (2 * K) ^ d * fD d i (tau * K * window t0 tau u)) d t) as C.
  eapply is_derive_n_ext; [|apply C].
  - intros u. simpl. unfold b01_time. ring.
  - intros e u. eapply is_derive_eq.
    + apply d_scal. apply (d_comp (fD e i) (fun u => tau * K * window t0 tau u)); [apply fD_derive|].
      apply d_scal, window_derive.
    + simpl. field. auto.
Qed.

Lemma b01_tau_derive K d i s tau :
  is_derive (fun th => (2 * K) ^ d * fD d i (th * K * s)) tau ((2 * K) ^ d * (fD (S d) i (tau * K * s) * (s * K))).
Proof.
  apply d_scal. eapply is_derive_eq.
  - apply (d_comp (fD d i) (fun th => th * K * s)); [apply fD_derive|].
    apply (is_derive_eq _ _ (1 * K * s)); [|reflexivity].
    apply (d_scalr s), (d_scalr K), d_id.
  - ring.
Qed.

(** A function of tau that vanishes at 0 and has the right derivative is the integral. *)
Lemma gram_by_derivative (h Q : R -> R) k tau : k <> 0 -> (forall p, continuous h p) ->
  (forall th, is_derive Q th ((h (th * k) + h (- (th * k))) / 2)) -> Q 0 = 0 ->
  is_RInt (fun t => h (k * (2 * t - tau))) 0 tau (Q tau).
Proof.
  intros Hk Hc HQ H0. set (H := fun p => RInt h 0 p).
  assert (HH : forall p, is_derive H p (h p)).
  { intros p. unfold H. apply is_derive_RInt with (a := 0).
    - exists (mkposreal 1 Rlt_0_1). intros y _. apply i_exists. auto.
    - apply Hc. }
  assert (E : Q tau = H (k * (2 * tau - tau)) / (2 * k) - H (k * (2 * 0 - tau)) / (2 * k)).
  { set (D := fun th => Q th - (H (th * k) / (2 * k) - H (- (th * k)) / (2 * k))).
    assert (HD : forall th, is_derive D th 0).
    { intros th. unfold D. eapply is_derive_eq.
      - apply d_minus; [apply HQ|]. apply d_minus; apply d_divc.
        + apply (d_comp H (fun th => th * k)); [apply HH|]. apply (d_scalr k), d_id.
        + apply (d_comp H (fun th => - (th * k))); [apply HH|]. apply (d_opp (fun th => th * k)), (d_scalr k), d_id.
      - cbv beta. field. auto. }
    assert (D tau = D 0).
    { destruct (MVT_gen D 0 tau (fun _ => 0)) as (c & _ & Ec).
      - intros; apply HD.
      - intros x _. apply continuity_pt_filterlim. eapply derive_continuous, HD.
      - lra. }
    unfold D in H1. rewrite H0 in H1. replace (- (0 * k)) with (0 * k) in H1 by ring.
    replace (k * (2 * tau - tau)) with (tau * k) by ring.
    replace (k * (2 * 0 - tau)) with (- (tau * k)) by ring. lra. }
  rewrite E.
  apply (i_ftc (fun t => H (k * (2 * t - tau)) / (2 * k)) (fun t => h (k * (2 * t - tau)))).
  - intros t. eapply is_derive_eq.
    + apply d_divc. apply (d_comp H (fun t => k * (2 * t - tau))); [apply HH|].
      apply d_scal. apply d_minus; [apply d_scal, d_id|apply d_const].
    + cbv beta. field. auto.
  - intros t. apply (c_comp h (fun t => k * (2 * t - tau))); [|apply Hc].
    apply c_mult; [apply c_const|]. apply c_minus; [|apply c_const]. apply c_mult; [apply c_const|apply c_id].
Qed.

(** the integrand of [b01_gram] *)
Lemma gram_closed K tau d i j (Q : R -> R) : K <> 0 -> tau <> 0 ->
  (forall th, is_derive Q th (((2 * K) ^ d * fD d i (th * K) * ((2 * K) ^ d * fD d j (th * K)) +
      (2 * K) ^ d * fD d i (- (th * K)) * ((2 * K) ^ d * fD d j (- (th * K)))) / 2)) -> Q 0 = 0 ->
  b01_gram K tau d i j (Q tau).
Proof.
  intros HK Ht HQ H0. unfold b01_gram.
  pose proof (gram_by_derivative (fun p => (2 * K) ^ d * fD d i p * ((2 * K) ^ d * fD d j p)) Q K tau HK) as G.
  eapply i_ext; [|apply G; auto].
  - intros t. cbv beta.
    rewrite !(is_derive_n_unique _ _ _ _ (b01_time_derive_n K 0 tau d _ t Ht)).
    replace (tau * K * window 0 tau t) with (K * (2 * t - tau)); [reflexivity|].
    unfold window. field. auto.
  - intros p. apply c_mult; (apply c_mult; [apply c_const|apply fD_cont]).
Qed.
