From Coquelicot Require Import Coquelicot.
From Coq Require Import List Arith Lia Bool ZArith Reals Lra.
From Verif Require Import Num Outcome LinAlg ToolsSpec ToolsModel.
Import ListNotations.
Local Open Scope R_scope.

Lemma nmax_R a b : nmax a b = Rmax a b.
Proof. unfold nmax. rnum. destruct (Rltb_spec a b); [rewrite Rmax_right|rewrite Rmax_left]; lra. Qed.

Lemma maxcoeff_R r c (f : nat -> nat -> outcome R) F : (1 <= r)%nat -> (1 <= c)%nat ->
  (forall i j, (i < r)%nat -> (j < c)%nat -> f i j = Ok (F i j)) ->
  exists M, maxcoeff r c f = Ok M /\ (forall i j, (i < r)%nat -> (j < c)%nat -> F i j <= M) /\
    exists i j, (i < r)%nat /\ (j < c)%nat /\ M = F i j.
Proof.
  intros Hr Hc E. unfold maxcoeff. destruct (Nat.eqb_spec r 0); [lia|]. destruct (Nat.eqb_spec c 0); [lia|].
  cbn [orb]. rewrite E by lia. cbn [bind].
  match goal with |- context [for_ 0 c ?g ?v] =>
    destruct (for_ok (fun j acc => (forall i k, (i < r)%nat -> (k < j)%nat -> F i k <= acc) /\
       exists i k, (i < r)%nat /\ (k < c)%nat /\ acc = F i k) g 0%nat c v) as (M & EM & H1 & H2) end.
  - lia.
  - split; [intros; lia|]. exists 0%nat, 0%nat. split; [lia|]. split; [lia|]. reflexivity.
  - intros j acc Hj (A1 & A2).
    match goal with |- context [for_ 0 r ?g ?v] =>
      destruct (for_ok (fun i acc' => (forall i' k, (i' < r)%nat -> (k < j)%nat -> F i' k <= acc') /\
        (forall i', (i' < i)%nat -> F i' j <= acc') /\ exists i k, (i < r)%nat /\ (k < c)%nat /\ acc' = F i k) g 0%nat r v)
        as (M & EM & H1 & H2 & H3) end.
    + lia.
    + split; [auto|]. split; [intros; lia|auto].
    + intros i acc' Hi (B1 & B2 & B3). rewrite E by lia. cbn [bind]. eexists. split; [reflexivity|].
      rewrite nmax_R. split; [|split].
      * intros. eapply Rle_trans; [apply B1; auto|apply Rmax_l].
      * intros i' Hi'. destruct (Nat.eq_dec i' i) as [->|]; [apply Rmax_r|].
        eapply Rle_trans; [apply B2; lia|apply Rmax_l].
      * destruct (Rle_dec acc' (F i j)).
        -- rewrite Rmax_right by auto. exists i, j. split; [lia|]. split; [lia|]. reflexivity.
        -- rewrite Rmax_left by lra. exact B3.
    + exists M. split; [auto|]. split; [|auto]. intros i k Hi Hk.
      destruct (Nat.eq_dec k j) as [->|]; [apply H2; auto|]. apply H1; auto. lia.
  - exists M. auto.
Qed.

Lemma maxabs_unique r c F M M' : maxabs r c F M -> maxabs r c F M' -> M = M'.
Proof.
  intros (A & i & j & Hi & Hj & E) (A' & i' & j' & Hi' & Hj' & E'). apply Rle_antisym.
  - rewrite E. apply A'; auto.
  - rewrite E'. apply A; auto.
Qed.
Lemma maxabs_ext r c F G M : (forall i j, (i < r)%nat -> (j < c)%nat -> Rabs (F i j) = Rabs (G i j)) -> maxabs r c F M -> maxabs r c G M.
Proof.
  intros E (A & i & j & Hi & Hj & EM). split.
  - intros. rewrite <- E by auto. auto.
  - exists i, j. rewrite <- E by auto. auto.
Qed.

Lemma close_sym err la ra tol : close err la ra tol -> close err ra la tol.
Proof. unfold close. tauto. Qed.

Lemma approx_eq_R a b tol : approx_eq a b tol = true <-> close (Rabs (a - b)) (Rabs a) (Rabs b) tol.
Proof.
  unfold approx_eq, close. rnum.
  destruct (Rltb_spec (Rabs a) tol); cbn [orb].
  - rewrite Rltb_true. split; [tauto|]. intros [[_ X]|(X & _)]; auto. lra.
  - destruct (Rltb_spec (Rabs b) tol).
    + rewrite Rltb_true. split; [tauto|]. intros [[_ X]|(_ & X & _)]; auto. lra.
    + rewrite andb_true_iff, !Rltb_true. split; [|intros [[[X|X] _]|X]; try lra; tauto].
      intros (X & Y). right. repeat split; auto; lra.
Qed.

Lemma approx_eq_mat_R (a b : mat R) r c r' c' A B tol : mat_is a r c A -> mat_is b r' c' B -> 0 < tol ->
  exists v, approx_eq_mat a b tol = Ok v /\
    (v = true <-> r = r' /\ c = c' /\ ((r * c = 0)%nat \/ exists err la ra,
        maxabs r c (fun i j => A i j - B i j) err /\ maxabs r c A la /\ maxabs r c B ra /\ close err la ra tol)).
Proof.
  intros Ma Mb Ht. pose proof Ma as (Ra & Ca & Ga). pose proof Mb as (Rb & Cb & Gb).
  unfold approx_eq_mat. rewrite Ra, Ca, Rb, Cb.
  destruct (Nat.eqb_spec r r') as [<-|Nr]; cbn [andb negb].
  2: { exists false. split; [auto|]. split; [discriminate|]. intros (X & _). contradiction. }
  destruct (Nat.eqb_spec c c') as [<-|Nc]; cbn [andb negb].
  2: { exists false. split; [auto|]. split; [discriminate|]. intros (_ & X & _). contradiction. }
  destruct (Nat.eqb_spec (r * c) 0) as [Z|NZ].
  { exists true. split; [auto|]. split; auto. }
  assert (Hr : (1 <= r)%nat) by (destruct r; lia). assert (Hc : (1 <= c)%nat) by (destruct c; lia).
  destruct (maxcoeff_R r c (fun i j => x <- mread a i j ;; y <- mread b i j ;; Ok (nabs (nsub x y)))
      (fun i j => Rabs (A i j - B i j)) Hr Hc) as (err & E1 & X1).
  { intros i j Hi Hj. rewrite (mread_ok a r c A) by auto. cbn [bind]. rewrite (mread_ok b r c B) by auto. reflexivity. }
  destruct (maxcoeff_R r c (fun i j => x <- mread a i j ;; Ok (nabs x)) (fun i j => Rabs (A i j)) Hr Hc) as (la & E2 & X2).
  { intros i j Hi Hj. rewrite (mread_ok a r c A) by auto. reflexivity. }
  destruct (maxcoeff_R r c (fun i j => x <- mread b i j ;; Ok (nabs x)) (fun i j => Rabs (B i j)) Hr Hc) as (ra & E3 & X3).
  { intros i j Hi Hj. rewrite (mread_ok b r c B) by auto. reflexivity. }
  rewrite E1. cbn [bind]. rewrite E2. cbn [bind]. rewrite E3. cbn [bind].
  eexists. split; [reflexivity|]. rnum.
  assert (K : (if Rltb la tol || Rltb ra tol then Rltb err tol else Rltb (err / la) tol && Rltb (err / ra) tol) = true <->
    close err la ra tol).
  { unfold close. destruct (Rltb_spec la tol); cbn [orb].
    - rewrite Rltb_true. split; [tauto|]. intros [[_ X]|(X & _)]; auto. lra.
    - destruct (Rltb_spec ra tol).
      + rewrite Rltb_true. split; [tauto|]. intros [[_ X]|(_ & X & _)]; auto. lra.
      + rewrite andb_true_iff, !Rltb_true. assert (0 < la) by lra. assert (0 < ra) by lra.
        split; [|intros [[[X|X] _]|X]; try lra].
        * intros (X & Y). right. repeat split; try lra.
          -- apply (Rmult_lt_compat_r la) in X; auto. unfold Rdiv in X. rewrite Rmult_assoc, Rinv_l in X; lra.
          -- apply (Rmult_lt_compat_r ra) in Y; auto. unfold Rdiv in Y. rewrite Rmult_assoc, Rinv_l in Y; lra.
        * destruct X as (_ & _ & X & Y). split.
          -- apply (Rmult_lt_reg_r la); auto. unfold Rdiv. rewrite Rmult_assoc, Rinv_l; lra.
          -- apply (Rmult_lt_reg_r ra); auto. unfold Rdiv. rewrite Rmult_assoc, Rinv_l; lra. }
  rewrite K. split.
  - intros C. split; auto. split; auto. right. exists err, la, ra. auto.
  - intros (_ & _ & [X|(e' & l' & r' & Y1 & Y2 & Y3 & C)]); [contradiction|].
    rewrite (maxabs_unique _ _ _ _ _ X1 Y1), (maxabs_unique _ _ _ _ _ X2 Y2), (maxabs_unique _ _ _ _ _ X3 Y3). exact C.
Qed.

Lemma Rabs_sym_eq x y : Rabs (x - y) = Rabs (y - x).
Proof. apply Rabs_minus_sym. Qed.

Lemma approx_eq_mat_sym (a b : mat R) r c r' c' A B tol : mat_is a r c A -> mat_is b r' c' B -> 0 < tol ->
  approx_eq_mat a b tol = approx_eq_mat b a tol.
Proof.
  intros Ma Mb Ht. destruct (approx_eq_mat_R a b _ _ _ _ _ _ tol Ma Mb Ht) as (v & E & V).
  destruct (approx_eq_mat_R b a _ _ _ _ _ _ tol Mb Ma Ht) as (w & E' & W). rewrite E, E'. f_equal.
  apply eq_iff_eq_true. rewrite V, W. split.
  - intros (-> & -> & [Z|(e & l & q & X1 & X2 & X3 & C)]); split; auto; split; auto. right. exists e, q, l.
    split; [|split; [auto|split; [auto|apply close_sym; auto]]]. revert X1. apply maxabs_ext. intros. apply Rabs_minus_sym.
  - intros (-> & -> & [Z|(e & l & q & X1 & X2 & X3 & C)]); split; auto; split; auto. right. exists e, q, l.
    split; [|split; [auto|split; [auto|apply close_sym; auto]]]. revert X1. apply maxabs_ext. intros. apply Rabs_minus_sym.
Qed.

Lemma close_zero la ra tol : 0 < tol -> close 0 la ra tol.
Proof.
  intros Ht. unfold close. destruct (Rlt_le_dec la tol); [left; tauto|]. destruct (Rlt_le_dec ra tol); [left; tauto|].
  right. assert (0 < la * tol) by (apply Rmult_lt_0_compat; lra). assert (0 < ra * tol) by (apply Rmult_lt_0_compat; lra). lra.
Qed.

Lemma approx_eq_mat_same (a b : mat R) r c A tol : mat_is a r c A -> mat_is b r c A -> 0 < tol ->
  approx_eq_mat a b tol = Ok true.
Proof.
  intros Ma Mb Ht. destruct (approx_eq_mat_R a b _ _ _ _ _ _ tol Ma Mb Ht) as (v & E & V). rewrite E. f_equal.
  apply V. split; auto. split; auto. destruct (Nat.eq_dec (r * c) 0) as [Z|NZ]; auto. right.
  assert (Hr : (1 <= r)%nat) by (destruct r; lia). assert (Hc : (1 <= c)%nat) by (destruct c; lia).
  destruct (maxcoeff_R r c (fun i j => Ok (Rabs (A i j))) (fun i j => Rabs (A i j)) Hr Hc) as (la & _ & X); [reflexivity|].
  exists 0, la, la. split; [|split; [exact X|split; [exact X|apply close_zero; auto]]].
  assert (Z : forall x, Rabs (x - x) = 0) by (intros; rewrite Rminus_diag_eq by reflexivity; apply Rabs_R0).
  split.
  - intros. rewrite Z. lra.
  - exists 0%nat, 0%nat. rewrite Z. split; [lia|]. split; [lia|reflexivity].
Qed.

Lemma vmat_is (v : vec R) n f : vec_is v n f -> mat_is (vmat v) n 1 (fun i _ => f i).
Proof. intros [L G]. split; [exact L|]. split; [reflexivity|]. intros. simpl. auto. Qed.
Lemma approx_eq_vec_same (a b : vec R) n f tol : vec_is a n f -> vec_is b n f -> 0 < tol -> approx_eq_vec a b tol = Ok true.
Proof. intros Va Vb Ht. unfold approx_eq_vec. eapply approx_eq_mat_same; eauto using vmat_is. Qed.
Lemma approx_eq_vec_len (a b : vec R) tol : vlen a <> vlen b -> approx_eq_vec a b tol = Ok false.
Proof.
  intros N. unfold approx_eq_vec, approx_eq_mat. cbn [vmat mrows mcols].
  destruct (Nat.eqb_spec (vlen a) (vlen b)); [contradiction|reflexivity].
Qed.
Lemma ten_m_pos k : 0 < ten_m k.
Proof.
  unfold ten_m. rnum. rewrite npown_pow. unfold Rdiv. rewrite Rmult_1_l. apply Rinv_0_lt_compat. apply pow_lt. lra.
Qed.
