(** Proofs about SobolevNorm: what its loops compute. *)
From Coquelicot Require Import Coquelicot.
From Coq Require Import List Arith Lia Bool ZArith Reals Lra.
From Verif Require Import Num Outcome LinAlg RSum RMat RDeriv LegendreSpec LegendreModel LegendreProofs
  Basis0101Spec Basis0101Math Basis0101Model Basis0101Gram Basis0101Proofs BasisModel SplineSpec BasisFn ToolsModel GSplineModel
  InterpModel InterpSpec SolverSpec InterpProofs3 InterpProofs7 InterpProofs8 SobolevModel SobolevSpec.
Import ListNotations.
Local Open Scope R_scope.

Lemma bilinear_ok dim x f m M y g : vec_is x dim f -> mat_is m dim dim M -> vec_is y dim g ->
  bilinear x m y = Ok (Rsum dim (fun i => Rsum dim (fun j => M i j * f i * g j))).
Proof.
  intros Vx Mm Vy. unfold bilinear. destruct (mvmul_is _ _ _ _ _ _ (mtrans_is _ _ _ _ Mm) Vx) as (r & E & Vr). rewrite E. cbn [bind].
  rewrite (vdot_is _ _ _ _ _ Vr Vy). f_equal. rewrite nsum_R, Rsum_swap. apply Rsum_ext. intros j Hj.
  replace (nsum dim (fun k => (M k j * f k)%num)) with (Rsum dim (fun k => M k j * f k)) by (symmetry; apply nsum_R).
  rnum. rewrite <- Rsum_scal_r. apply Rsum_ext. intros; ring.
Qed.

Definition adds (add : nat -> mat R -> outcome (mat R)) (dim : nat) (ws : list (nat * R)) (A : nat -> nat -> nat -> R) : Prop :=
  forall k w m M, In (k, w) ws -> mat_is m dim dim M -> exists m', add k m = Ok m' /\ mat_is m' dim dim (fun i j => M i j + A k i j).

Lemma weighted_ok add dim ws A : adds add dim ws A -> forall m M, mat_is m dim dim M ->
  exists m', weighted add ws m = Ok m' /\ mat_is m' dim dim (fun i j => wprod ws * M i j + ctotal ws (fun k => A k i j)).
Proof.
  induction ws as [|[k w] r IH]; intros Ad m M Mm; cbn [weighted wprod ctotal].
  - exists m. split; auto. eapply mat_is_ext; [exact Mm|]. intros; cbv beta. ring.
  - destruct (Ad k w m M (or_introl eq_refl) Mm) as (m1 & E & M1). rewrite E. cbn [bind].
    destruct (IH (fun k w m M I => Ad k w m M (or_intror I)) _ _ (mscale_is _ _ _ _ w M1)) as (m2 & E2 & M2).
    exists m2. split; auto. eapply mat_is_ext; [exact M2|]. intros i j Hi Hj. cbv beta. rnum. ring.
Qed.

(** ** sn_inner *)
Definition sn_ok (b : basis R) (d : bdesc) (c n : nat) (ws : list (nat * R)) (W : nat -> nat -> R) (sn : sobnorm R) : Prop :=
  sn_basis sn = b /\ sn_n sn = n /\ sn_codom sn = c /\ sn_weights sn = ws /\ reads (sn_wp sn) n c W /\ reached b d c n (sn_ip sn).

Lemma bound_ix iv n cc c dim : (iv < n)%nat -> (cc < c)%nat -> (iv * dim * c + dim * cc + dim <= dim * c * n)%nat.
Proof. intros. assert (S iv * c <= n * c)%nat by (apply Nat.mul_le_mono_r; lia). assert (dim * (iv * c + cc + 1) <= dim * (n * c))%nat by (apply Nat.mul_le_mono_l; lia). nia. Qed.
Lemma segment_ok dim c n (v : vec R) f iv cc : vec_is v (dim * c * n) f -> (iv < n)%nat -> (cc < c)%nat ->
  exists s, get_segment v dim c iv cc = Ok s /\ vec_is s dim (fun i => f ((iv * c + cc) * dim + i)%nat).
Proof.
  intros V Hi Hc. unfold get_segment. destruct (vsegment_is v _ f (iv * dim * c + dim * cc) dim V (bound_ix _ _ _ _ _ Hi Hc)) as (s & E & Vs).
  exists s. split; auto. eapply vec_is_ext; [exact Vs|]. intros i Hi'. cbv beta. f_equal. ring.
Qed.

Definition ctot (ws : list (nat * R)) (Q : nat -> R -> nat -> nat -> R) (tf : nat -> R) (iv i j : nat) : R := ctotal ws (fun k => Q k (tf iv) i j).

Lemma inner_ok b c n ws Q sn tau tf v1 x v2 y : sn_basis sn = b -> sn_n sn = n -> sn_codom sn = c -> sn_weights sn = ws ->
  (forall t, (exists iv, (iv < n)%nat /\ t = tf iv) -> adds (b_add_gram b t) (b_dim b) ws (fun k => Q k t)) ->
  vec_is tau n tf -> vec_is v1 (b_dim b * c * n) x -> vec_is v2 (b_dim b * c * n) y ->
  sn_inner sn tau v1 v2 = Ok (bform (b_dim b) c n (ctot ws Q tf) x y).
Proof.
  intros Eb En Ec Ew Ad V V1 V2. unfold sn_inner. rewrite Eb, En, Ec, Ew. unfold bform.
  match goal with |- for_ 0 n ?f ?s = _ => destruct (for_ok (fun k (acc : R) => acc = Rsum k (fun iv => Rsum c (fun cc => Rsum (b_dim b) (fun i => Rsum (b_dim b) (fun j =>
    ctot ws Q tf iv i j * x ((iv * c + cc) * b_dim b + i)%nat * y ((iv * c + cc) * b_dim b + j)%nat))))) f 0 n s) as (r & E & ->) end; auto; [lia|].
  intros iv acc Hi ->. rewrite (vread_ok tau n tf iv V) by lia. cbn [bind].
  destruct (weighted_ok _ _ ws _ (Ad (tf iv) (ex_intro _ iv (conj (proj2 Hi) eq_refl))) _ _ (mzero_isR _ _)) as (m & E & Mm).
  rewrite E. cbn [bind].
  match goal with |- context [for_ 0 c ?f ?s] => destruct (for_ok (fun k (acc : R) => acc = Rsum iv (fun iv => Rsum c (fun cc => Rsum (b_dim b) (fun i => Rsum (b_dim b) (fun j =>
    ctot ws Q tf iv i j * x ((iv * c + cc) * b_dim b + i)%nat * y ((iv * c + cc) * b_dim b + j)%nat)))) +
    Rsum k (fun cc => Rsum (b_dim b) (fun i => Rsum (b_dim b) (fun j => ctot ws Q tf iv i j * x ((iv * c + cc) * b_dim b + i)%nat * y ((iv * c + cc) * b_dim b + j)%nat)))) f 0 c s) as (r & E' & ->) end; [lia|simpl; ring| |].
  - intros cc acc Hc ->. destruct (segment_ok _ _ _ v1 x iv cc V1 ltac:(lia) ltac:(lia)) as (s1 & E1 & S1). destruct (segment_ok _ _ _ v2 y iv cc V2 ltac:(lia) ltac:(lia)) as (s2 & E2 & S2).
    rewrite E1. cbn [bind]. rewrite E2. cbn [bind]. rewrite (bilinear_ok _ _ _ _ _ _ _ S1 Mm S2). cbn [bind]. eexists. split; [reflexivity|].
    cbn [Rsum]. rnum. rewrite Rplus_assoc. f_equal. f_equal. apply Rsum_ext. intros i Hi'. apply Rsum_ext. intros j Hj. unfold ctot. ring.
  - exists (Rsum (S iv) (fun iv => Rsum c (fun cc => Rsum (b_dim b) (fun i => Rsum (b_dim b) (fun j =>
      ctot ws Q tf iv i j * x ((iv * c + cc) * b_dim b + i)%nat * y ((iv * c + cc) * b_dim b + j)%nat))))). split; [rewrite E'|]; reflexivity.
Qed.

(** linearity of the form in its matrix *)
Lemma bform_ext dim c n G G' x y : (forall iv i j, (iv < n)%nat -> (i < dim)%nat -> (j < dim)%nat -> G iv i j = G' iv i j) ->
  bform dim c n G x y = bform dim c n G' x y.
Proof. intros E. unfold bform. apply Rsum_ext. intros iv Hi. apply Rsum_ext. intros cc Hc. apply Rsum_ext. intros i Hi'. apply Rsum_ext. intros j Hj. now rewrite E. Qed.
Lemma bform_zero dim c n x y : bform dim c n (fun _ _ _ => 0) x y = 0.
Proof. unfold bform. apply Rsum_zero; intros; apply Rsum_zero; intros; apply Rsum_zero; intros; apply Rsum_zero; intros. ring. Qed.
Lemma bform_lin dim c n a G G' x y : bform dim c n (fun iv i j => a * G iv i j + G' iv i j) x y = a * bform dim c n G x y + bform dim c n G' x y.
Proof.
  unfold bform. rewrite <- Rsum_scal, <- Rsum_plus. apply Rsum_ext. intros iv _. rewrite <- Rsum_scal, <- Rsum_plus. apply Rsum_ext. intros cc _.
  rewrite <- Rsum_scal, <- Rsum_plus. apply Rsum_ext. intros i _. rewrite <- Rsum_scal, <- Rsum_plus. apply Rsum_ext. intros j _. ring.
Qed.
Lemma bform_ctot dim c n ws Q tf x y : bform dim c n (ctot ws Q tf) x y = ctotal ws (fun k => bform dim c n (fun iv => Q k (tf iv)) x y).
Proof.
  induction ws as [|[k w] r IH]; cbn [ctotal].
  - apply bform_zero.
  - rewrite <- IH. rewrite <- bform_lin. reflexivity.
Qed.
Lemma ctotal_later ws E k w : (forall k' w', In (k', w') ws -> w' = 1) -> ctotal ((k, w) :: ws) E = wtotal ((k, w) :: ws) E.
Proof.
  intros H. assert (Pr : forall l, (forall k' w', In (k', w') l -> w' = 1) -> wprod l = 1 /\ ctotal l E = wtotal l E).
  { induction l as [|[a b] l IH]; intros Hl; cbn [wprod ctotal wtotal]; auto. destruct (IH (fun k w I => Hl k w (or_intror I))) as (P1 & P2).
    rewrite P1, P2, (Hl a b (or_introl eq_refl)). split; ring. }
  destruct (Pr ws H) as (P1 & P2). cbn [ctotal wtotal]. rewrite P1, P2. ring.
Qed.
