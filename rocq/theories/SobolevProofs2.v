(** Proofs about SobolevNorm: integrals, Gram families, the gradient. *)
From Coquelicot Require Import Coquelicot.
From Coq Require Import List Arith Lia Bool ZArith Reals Lra.
From Verif Require Import Num Outcome LinAlg RSum RMat RDeriv LegendreSpec LegendreMath LegendreModel LegendreProofs LegendreProps LagrangeSpec
  Basis0101Spec Basis0101Math Basis0101Model Basis0101Gram Basis0101Proofs Basis0101Props BasisModel SplineSpec BasisFn BasisProofs BasisProofs2 BasisProofs3
  ToolsModel GSplineModel GSplineProofs GSplineProofs2 GSplineProofs3
  InterpModel InterpSpec SolverSpec InterpProofs3 InterpProofs4 InterpMath InterpMath2 InterpProofs7 InterpProofs8 SobolevModel SobolevSpec SobolevProofs.
Import ListNotations.
Local Open Scope R_scope.

(** ** integrals over the whole domain *)
Lemma i_chasles (f : R -> R) a b c p q : is_RInt f a b p -> is_RInt f b c q -> is_RInt f a c (p + q).
Proof. intros A B. exact (is_RInt_Chasles f a b c p q A B). Qed.
Lemma shift_RInt (f : R -> R) a tau v : is_RInt f 0 tau v -> is_RInt (fun t => f (t - a)) a (a + tau) v.
Proof.
  intros H. pose proof (is_RInt_comp_lin f 1 (- a) a (a + tau) v) as K.
  replace (1 * a + - a) with 0 in K by ring. replace (1 * (a + tau) + - a) with tau in K by ring. specialize (K H).
  apply (i_ext (fun y => scal 1 (f (1 * y + - a)))); [|exact K].
  intros t. unfold scal; simpl; unfold mult; simpl. rewrite Rmult_1_l. f_equal. ring.
Qed.
Lemma Derive_tphi_shift d a tau i k t : tau <> 0 -> (i < d_dim d)%nat -> Derive_n (tphi d a tau i) k t = Derive_n (tphi d 0 tau i) k (t - a).
Proof. intros Ht Hi. rewrite !wD_tphi by auto. f_equal. unfold window. field. auto. Qed.
Lemma Rsum_prod n (f g : nat -> R) : Rsum n f * Rsum n g = Rsum n (fun i => Rsum n (fun j => f i * g j)).
Proof. rewrite <- Rsum_scal_r. apply Rsum_ext. intros i _. rewrite Rsum_scal. reflexivity. Qed.

Section Energy.
Variables (d : bdesc) (c n : nat) (t0 : R) (tf : nat -> R) (k : nat) (x y : nat -> R).
Variable Q : nat -> nat -> nat -> R.
Hypothesis P : forall i, (i < n)%nat -> 0 < tf i.
Hypothesis G : forall iv i j, (iv < n)%nat -> (i < d_dim d)%nat -> (j < d_dim d)%nat ->
  is_RInt (fun t => Derive_n (tphi d 0 (tf iv) i) k t * Derive_n (tphi d 0 (tf iv) j) k t) 0 (tf iv) (Q iv i j).

Lemma sfun_inside z cc t iv : inside t0 tf n t iv ->
  Derive_n (sfun d c n t0 tf z cc) k t = Rsum (d_dim d) (fun bb => z ((iv * c + cc) * d_dim d + bb)%nat * Derive_n (tphi d 0 (tf iv) bb) k (t - bp t0 tf iv)).
Proof.
  intros In. rewrite (Derive_n_ext_loc _ (piece d c t0 tf z iv cc)).
  - assert (Ht : tf iv <> 0) by (apply Rgt_not_eq, P; apply In).
    rewrite (is_derive_n_unique _ _ _ _ (piece_derive_n d c t0 tf z iv cc k t Ht)).
    apply Rsum_ext. intros i Hi. rewrite Derive_tphi_shift by auto. reflexivity.
  - generalize (inside_locally t0 tf n t iv P In). apply filter_imp. intros u U. unfold sfun. now rewrite U.
Qed.
Lemma energy_piece iv : (iv < n)%nat ->
  is_RInt (fun t => Rsum c (fun cc => Derive_n (sfun d c n t0 tf x cc) k t * Derive_n (sfun d c n t0 tf y cc) k t)) (bp t0 tf iv) (bp t0 tf (S iv))
    (Rsum c (fun cc => Rsum (d_dim d) (fun i => Rsum (d_dim d) (fun j => Q iv i j * x ((iv * c + cc) * d_dim d + i)%nat * y ((iv * c + cc) * d_dim d + j)%nat)))).
Proof.
  intros Hi. rewrite bp_S.
  apply (is_RInt_ext (fun t => Rsum c (fun cc => Rsum (d_dim d) (fun i => Rsum (d_dim d) (fun j =>
     (x ((iv * c + cc) * d_dim d + i)%nat * y ((iv * c + cc) * d_dim d + j)%nat) *
     (Derive_n (tphi d 0 (tf iv) i) k (t - bp t0 tf iv) * Derive_n (tphi d 0 (tf iv) j) k (t - bp t0 tf iv))))))).
  - intros t Ht. pose proof (P iv Hi) as Pi. rewrite Rmin_left, Rmax_right in Ht by lra.
    assert (In : inside t0 tf n t iv) by (split; [auto|]; rewrite bp_S; split; right; lra).
    apply Rsum_ext. intros cc _. rewrite !(sfun_inside _ cc t iv In), Rsum_prod. apply Rsum_ext. intros i _. apply Rsum_ext. intros j _. ring.
  - apply is_RInt_Rsum. intros cc _. apply is_RInt_Rsum. intros i Hi'. apply is_RInt_Rsum. intros j Hj.
    replace (Q iv i j * _ * _) with ((x ((iv * c + cc) * d_dim d + i)%nat * y ((iv * c + cc) * d_dim d + j)%nat) * Q iv i j) by ring.
    apply (i_scal (x ((iv * c + cc) * d_dim d + i)%nat * y ((iv * c + cc) * d_dim d + j)%nat) (fun t => Derive_n (tphi d 0 (tf iv) i) k (t - bp t0 tf iv) * Derive_n (tphi d 0 (tf iv) j) k (t - bp t0 tf iv))).
    apply (shift_RInt (fun t => Derive_n (tphi d 0 (tf iv) i) k t * Derive_n (tphi d 0 (tf iv) j) k t)). apply G; auto.
Qed.
Lemma energy_of_gram : is_energy d c n t0 tf k x y (bform (d_dim d) c n Q x y).
Proof.
  unfold is_energy, bform.
  assert (K : forall m, (m <= n)%nat -> is_RInt (fun t => Rsum c (fun cc => Derive_n (sfun d c n t0 tf x cc) k t * Derive_n (sfun d c n t0 tf y cc) k t)) t0 (bp t0 tf m)
    (Rsum m (fun iv => Rsum c (fun cc => Rsum (d_dim d) (fun i => Rsum (d_dim d) (fun j => Q iv i j * x ((iv * c + cc) * d_dim d + i)%nat * y ((iv * c + cc) * d_dim d + j)%nat)))))).
  { induction m as [|m IH]; intros Hm.
    - replace (bp t0 tf 0) with t0 by (unfold bp; simpl; ring). apply @is_RInt_point.
    - cbn [Rsum]. apply (i_chasles _ _ (bp t0 tf m)); [apply IH; lia|apply energy_piece; lia]. }
  apply K. lia.
Qed.
End Energy.
Lemma energy_unique d c n t0 tf k x y v v' : is_energy d c n t0 tf k x y v -> is_energy d c n t0 tf k x y v' -> v = v'.
Proof. apply i_unique. Qed.

(** ** the matrices of the bases *)
Definition gramQ (d : bdesc) (k : nat) (tau : R) (i j : nat) : R :=
  match d with
  | DLeg dim => leg_added dim k i j * leg_scale tau k
  | D01 a => match k with 0%nat => b01_Q | 1%nat => b01_Qd1 | 2%nat => b01_Qd2 | _ => b01_Qd3 end (b01_kq a) tau i j
  | DLag _ _ => 0
  end.
Definition gramB (d : bdesc) (k : nat) (tau : R) (i j : nat) : R :=
  match d with
  | DLeg dim => leg_added dim k i j * leg_scale_tau tau k
  | D01 a => match k with 1%nat => b01_Qd1_dtau | _ => b01_Qd3_dtau end (b01_kq a) tau i j
  | DLag _ _ => 0
  end.
(** orders the norm accepts; orders its gradient accepts *)
Definition order_ok (d : bdesc) (k : nat) : Prop := match d with DLeg _ => True | DLag _ _ => False | D01 _ => (k <= 3)%nat end.
Definition order_tau_ok (d : bdesc) (k : nat) : Prop := match d with DLeg _ => True | DLag _ _ => False | D01 _ => k = 1%nat \/ k = 3%nat end.
Lemma order_tau d k : order_tau_ok d k -> order_ok d k.
Proof. destruct d; simpl; auto. lia. Qed.

Lemma gram_adds b d ws t : is_basis b d -> (forall k w, In (k, w) ws -> order_ok d k) -> adds (b_add_gram b t) (b_dim b) ws (fun k => gramQ d k t).
Proof.
  intros B O k w m M I Mm. specialize (O k w I). destruct b as [dim g|pts bw g|a], d as [dim'|n x|a']; cbn in B; try contradiction; cbn [order_ok] in O; try contradiction.
  - destruct B as (<- & _ & E). cbn [b_add_gram b_dim gramQ] in *. apply leg_add_gram_R; auto.
  - destruct B as (<- & _). cbn [b_add_gram b_dim gramQ] in *. unfold b01_add_gram. destruct k as [|[|[|[|k]]]]; try lia; exact (b01_add_gen m M _ Mm).
Qed.
Lemma gram_tau_adds b d ws t : is_basis b d -> (forall k w, In (k, w) ws -> order_tau_ok d k) -> adds (b_add_gram_tau b t) (b_dim b) ws (fun k => gramB d k t).
Proof.
  intros B O k w m M I Mm. specialize (O k w I). destruct b as [dim g|pts bw g|a], d as [dim'|n x|a']; cbn in B; try contradiction; cbn [order_tau_ok] in O; try contradiction.
  - destruct B as (<- & _ & E). cbn [b_add_gram_tau b_dim gramB] in *. apply leg_add_gram_tau_R; auto.
  - destruct B as (<- & _). cbn [b_add_gram_tau b_dim gramB] in *. unfold b01_add_gram_tau. destruct O as [-> | ->]; exact (b01_add_gen m M _ Mm).
Qed.
Lemma gram_derive b d k tau i j : is_basis b d -> order_tau_ok d k -> 0 < tau -> is_derive (fun t => gramQ d k t i j) tau (gramB d k tau i j).
Proof.
  intros B O Ht. destruct b as [dim g|pts bw g|a], d as [dim'|n x|a']; cbn in B; try contradiction; cbn [order_tau_ok] in O; try contradiction.
  - cbn [gramQ gramB]. apply d_scal, leg_scale_derive. lra.
  - destruct B as (<- & Ha). assert (Hk : b01_kq a <> 0) by (apply Rgt_not_eq, b01_kq_pos; auto).
    destruct O as [-> | ->]; cbn [gramQ gramB]; [apply Qd1_dtau_derive|apply Qd3_dtau_derive]; auto.
Qed.
Lemma b01_gram_sym K tau k i j v w : b01_gram K tau k i j v -> b01_gram K tau k j i w -> v = w.
Proof. intros A B. eapply i_unique; [exact A|]. eapply i_ext; [|exact B]. intros t. cbv beta. ring. Qed.
Lemma legG_sym dim k i j : legG dim k i j = legG dim k j i.
Proof.
  assert (LS : forall p q, legL p q = legL q p).
  { intros p q. unfold legL. destruct (Nat.eqb_spec p q) as [->|Hne]; [rewrite Nat.eqb_refl; reflexivity|]. destruct (Nat.eqb_spec q p); [congruence|reflexivity]. }
  destruct k as [|k]; [apply LS|]. unfold legG, mprod, mT.
  rewrite (Rsum_ext _ _ (fun l => Rsum dim (fun l0 => mpow dim legT (S k) i l0 * legL l0 l * mpow dim legT (S k) j l))).
  2:{ intros l Hl. rewrite <- Rsum_scal_r. reflexivity. }
  rewrite Rsum_swap. apply Rsum_ext. intros p Hp. rewrite <- Rsum_scal_r. apply Rsum_ext. intros q Hq. rewrite (LS p q). ring.
Qed.
Lemma gram_sym b d k tau i j : is_basis b d -> order_ok d k -> 0 < tau -> (i < d_dim d)%nat -> (j < d_dim d)%nat -> gramQ d k tau i j = gramQ d k tau j i.
Proof.
  intros B O Ht Hi Hj. destruct b as [dim g|pts bw g|a], d as [dim'|n x|a']; cbn in B; try contradiction; cbn [order_ok] in O; try contradiction.
  - cbn [gramQ]. f_equal. unfold leg_added. destruct Nat.leb; auto. apply legG_sym.
  - destruct B as (<- & Ha). cbn [d_dim] in *. assert (Hk : b01_kq a <> 0) by (apply Rgt_not_eq, b01_kq_pos; auto). assert (Ht' : tau <> 0) by lra.
    destruct k as [|[|[|[|k]]]]; try lia; cbn [gramQ].
    + destruct (Nat.eq_dec i j) as [->|Ne]; [reflexivity|]. eapply b01_gram_sym; apply Q_gram; auto; lia.
    + eapply b01_gram_sym; apply Qd1_gram; auto.
    + apply (Rmult_eq_reg_l (4 / tau ^ 2)). 2:{ apply Rgt_not_eq. apply Rdiv_lt_0_compat; [lra|apply pow_lt; lra]. }
      eapply b01_gram_sym; apply Qd2_gram; auto.
    + eapply b01_gram_sym; apply Qd3_gram; auto.
Qed.
