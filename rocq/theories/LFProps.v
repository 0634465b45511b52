(** Property C63: linear functionals as objects *)
From Coquelicot Require Import Coquelicot.
From Coq Require Import List Arith Bool ZArith Reals Lra Lia.
From Verif Require Import Num Outcome LinAlg RSum LegendreProofs BasisModel GSplineModel GSplineProofs GSplineProofs5 GLModel GLFModel GLFProofs2 LFModel.
Import ListNotations.
Local Open Scope R_scope.

(** ** Specification: expressions as linear maps between spaces of given sizes *)
Definition entry (m : mat R) (i j : nat) : R := match mget m i j with Some x => x | None => 0 end.
Fixpoint act (e : lexpr R) (v : nat -> R) (i : nat) : R :=
  match e with
  | LObj o => Rsum (mcols (lo_mat o)) (fun j => entry (lo_mat o) i j * v j)
  | LMul a b => act a (act b v) i
  | LAdd a b => act a v i + act b v i
  | LSub a b => act a v i - act b v i
  | LNeg a => - act a v i
  | LScale x a => x * act a v i
  end.
Inductive sized : lexpr R -> nat -> nat -> Prop :=
| sz_obj o r c : mrows (lo_mat o) = r -> mcols (lo_mat o) = c -> sized (LObj o) r c
| sz_mul a b r k c : sized a r k -> sized b k c -> sized (LMul a b) r c
| sz_add a b r c : sized a r c -> sized b r c -> sized (LAdd a b) r c
| sz_sub a b r c : sized a r c -> sized b r c -> sized (LSub a b) r c
| sz_neg a r c : sized a r c -> sized (LNeg a) r c
| sz_scale x a r c : sized a r c -> sized (LScale x a) r c.
(** every matrix written, and the component count as constructed *)
Fixpoint leaves (P : lfun R -> Prop) (e : lexpr R) : Prop :=
  match e with LObj o => P o | LMul a b | LAdd a b | LSub a b => leaves P a /\ leaves P b | LNeg a | LScale _ a => leaves P a end.
Definition written (o : lfun R) : Prop := mat_is (lo_mat o) (mrows (lo_mat o)) (mcols (lo_mat o)) (entry (lo_mat o)).
Definition honest (o : lfun R) : Prop := lo_codom o = mrows (lo_mat o).

Lemma act_ext e : forall c r, sized e r c -> forall v w i, (forall j, (j < c)%nat -> v j = w j) -> (i < r)%nat -> act e v i = act e w i.
Proof.
  induction e as [o|a IHa b IHb|a IHa b IHb|a IHa b IHb|a IHa|x a IHa]; intros c r Sz v w i E Hi; inversion Sz; subst; cbn [act].
  - apply Rsum_ext. intros j Hj. now rewrite E.
  - eapply IHa; eauto.
  - f_equal; [eapply IHa|eapply IHb]; eauto.
  - f_equal; [eapply IHa|eapply IHb]; eauto.
  - f_equal. eapply IHa; eauto.
  - f_equal. eapply IHa; eauto.
Qed.
(** evaluation gives a matrix of the right size whose product with every vector is [act] *)
Lemma leval_ok e : forall r c, sized e r c -> leaves written e ->
  exists o F, leval e = Ok o /\ lo_kind o = lkind_of e /\ mat_is (lo_mat o) r c F /\
    (leaves honest e -> lo_codom o = r) /\
    forall v i, (i < r)%nat -> Rsum c (fun j => F i j * v j) = act e v i.
Proof.
  induction e as [o|a IHa b IHb|a IHa b IHb|a IHa b IHb|a IHa|x a IHa]; intros r c Sz Wr; inversion Sz; subst; cbn [leval leaves lkind_of act] in *.
  - exists o, (entry (lo_mat o)). repeat split; auto; apply Wr.
  - destruct Wr as (Wa & Wb). destruct (IHa r k) as (oa & Fa & Ea & Ka & Ma & Ca & Aa); auto. destruct (IHb k c) as (ob & Fb & Eb & Kb & Mb & Cb & Ab); auto.
    rewrite Ea, Eb. cbn [bind]. unfold lf_mul. destruct (mmul_is _ _ _ _ _ _ _ Ma Mb) as (m & -> & Mm). cbn [bind]. eexists. eexists. split; [reflexivity|]. split; [exact Ka|]. split; [exact Mm|].
    split; [intros _; apply Mm|]. intros v i Hi. cbn beta. rewrite <- (act_ext a k r H1 (fun l => Rsum c (fun j => Fb l j * v j)) (act b v) i); auto.
    rewrite <- Aa by auto. rewrite (Rsum_ext c _ (fun j => Rsum k (fun l => Fa i l * Fb l j * v j))).
    + rewrite Rsum_swap. apply Rsum_ext. intros l _. rewrite <- Rsum_scal. apply Rsum_ext. intros; ring.
    + intros j _. rewrite nsum_R, Rmult_comm, <- Rsum_scal. apply Rsum_ext. intros. rnum. ring.
  - destruct Wr as (Wa & Wb). destruct (IHa r c) as (oa & Fa & Ea & Ka & Ma & Ca & Aa); auto. destruct (IHb r c) as (ob & Fb & Eb & Kb & Mb & Cb & Ab); auto.
    rewrite Ea, Eb. cbn [bind]. unfold lf_add. destruct (mzip_is nadd _ _ _ _ _ _ Ma Mb) as (m & -> & Mm). cbn [bind]. eexists. eexists. split; [reflexivity|]. split; [exact Ka|]. split; [exact Mm|].
    split; [intros _; apply Mm|]. intros v i Hi. cbn beta. rewrite <- Aa, <- Ab by auto. rewrite <- Rsum_plus. apply Rsum_ext. intros. rnum. ring.
  - destruct Wr as (Wa & Wb). destruct (IHa r c) as (oa & Fa & Ea & Ka & Ma & Ca & Aa); auto. destruct (IHb r c) as (ob & Fb & Eb & Kb & Mb & Cb & Ab); auto.
    rewrite Ea, Eb. cbn [bind]. unfold lf_sub. destruct (mzip_is nsub _ _ _ _ _ _ Ma Mb) as (m & -> & Mm). cbn [bind]. eexists. eexists. split; [reflexivity|]. split; [exact Ka|]. split; [exact Mm|].
    split; [intros _; apply Mm|]. intros v i Hi. cbn beta. rewrite <- Aa, <- Ab by auto. unfold Rminus. rewrite <- Rsum_opp, <- Rsum_plus. apply Rsum_ext. intros. rnum. ring.
  - destruct (IHa r c) as (oa & Fa & Ea & Ka & Ma & Ca & Aa); auto. rewrite Ea. cbn [bind]. eexists. eexists. split; [reflexivity|]. split; [exact Ka|]. split; [exact (mscale_is _ _ _ _ _ Ma)|].
    split; [exact Ca|]. intros v i Hi. cbn beta. rewrite <- Aa by auto. rewrite <- Rsum_opp. apply Rsum_ext. intros. rnum. ring.
  - destruct (IHa r c) as (oa & Fa & Ea & Ka & Ma & Ca & Aa); auto. rewrite Ea. cbn [bind]. eexists. eexists. split; [reflexivity|]. split; [exact Ka|]. split; [exact (mscale_is _ _ _ _ _ Ma)|].
    split; [exact Ca|]. intros v i Hi. cbn beta. rewrite <- Aa by auto. rewrite <- Rsum_scal. apply Rsum_ext. intros. rnum. ring.
Qed.

(** ** C63 *)
(** every expression whose sizes fit is the linear map it denotes *)
Theorem C63_calculus (e : lexpr R) r c (g : gspline R) v : sized e r c -> leaves written e -> vec_is (gs_coef g) c v ->
  exists o w, leval e = Ok o /\ lo_kind o = lkind_of e /\ lo_call o g = Ok w /\ vec_is w r (act e v) /\
    (leaves honest e -> lo_codom o = vlen w).
Proof.
  intros Sz Wr V. destruct (leval_ok e r c Sz Wr) as (o & F & E & K & M & C & A). destruct (mvmul_is _ _ _ _ _ _ M V) as (w & Ew & W).
  exists o, w. split; [exact E|]. split; [exact K|]. split; [exact Ew|]. split.
  - destruct W as (L & G). split; [exact L|]. intros i Hi. rewrite G by auto. f_equal. rewrite nsum_R. apply A. exact Hi.
  - intros Hh. rewrite C by auto. symmetry. apply W.
Qed.
(** and nothing else evaluates *)
Theorem C63_sizes (e : lexpr R) : (exists o, leval e = Ok o) <-> (exists r c, sized e r c).
Proof.
  split.
  - intros (o & E). exists (mrows (lo_mat o)), (mcols (lo_mat o)). revert o E. induction e as [o'|a IHa b IHb|a IHa b IHb|a IHa b IHb|a IHa|x a IHa]; intros o E; cbn [leval] in E.
    + injection E as <-. now constructor.
    + destruct (leval a) as [oa| |]; try discriminate. destruct (leval b) as [ob| |]; try discriminate. cbn [bind] in E. unfold lf_mul, mmul in E. destruct (Nat.eqb_spec (mcols (lo_mat oa)) (mrows (lo_mat ob))) as [Ek|]; [|discriminate].
      injection E as <-. cbn. econstructor; [apply IHa; reflexivity|]. rewrite Ek. apply IHb. reflexivity.
    + destruct (leval a) as [oa| |]; try discriminate. destruct (leval b) as [ob| |]; try discriminate. cbn [bind] in E. unfold lf_add, mzip in E. destruct (Nat.eqb_spec (mrows (lo_mat oa)) (mrows (lo_mat ob))) as [Er|]; [|discriminate].
      destruct (Nat.eqb_spec (mcols (lo_mat oa)) (mcols (lo_mat ob))) as [Ec|]; [|discriminate]. injection E as <-. cbn. constructor; [apply IHa; reflexivity|]. rewrite Er, Ec. apply IHb. reflexivity.
    + destruct (leval a) as [oa| |]; try discriminate. destruct (leval b) as [ob| |]; try discriminate. cbn [bind] in E. unfold lf_sub, mzip in E. destruct (Nat.eqb_spec (mrows (lo_mat oa)) (mrows (lo_mat ob))) as [Er|]; [|discriminate].
      destruct (Nat.eqb_spec (mcols (lo_mat oa)) (mcols (lo_mat ob))) as [Ec|]; [|discriminate]. injection E as <-. cbn. constructor; [apply IHa; reflexivity|]. rewrite Er, Ec. apply IHb. reflexivity.
    + destruct (leval a) as [oa| |]; try discriminate. injection E as <-. constructor. apply (IHa oa). reflexivity.
    + destruct (leval a) as [oa| |]; try discriminate. injection E as <-. constructor. apply (IHa oa). reflexivity.
  - intros (r & c & Sz). assert (X : exists o, leval e = Ok o /\ mrows (lo_mat o) = r /\ mcols (lo_mat o) = c); [|destruct X as (o & E & _); eauto].
    induction Sz as [o r c Hr Hc|a b r k c _ (x & Ea & Ra & Ca) _ (y & Eb & Rb & Cb)|a b r c _ (x & Ea & Ra & Ca) _ (y & Eb & Rb & Cb)|a b r c _ (x & Ea & Ra & Ca) _ (y & Eb & Rb & Cb)|a r c _ (x & Ea & Ra & Ca)|q a r c _ (x & Ea & Ra & Ca)]; cbn [leval].
    + eauto.
    + rewrite Ea, Eb. cbn [bind]. unfold lf_mul, mmul. rewrite Ca, Rb, Nat.eqb_refl. cbn. eauto.
    + rewrite Ea, Eb. cbn [bind]. unfold lf_add, mzip. rewrite Ra, Rb, Ca, Cb, !Nat.eqb_refl. cbn. eauto.
    + rewrite Ea, Eb. cbn [bind]. unfold lf_sub, mzip. rewrite Ra, Rb, Ca, Cb, !Nat.eqb_refl. cbn. eauto.
    + rewrite Ea. cbn. eauto.
    + rewrite Ea. cbn. eauto.
Qed.
(** [set]: the values of the argument, the type and the component count of the object; dense values never get into a sparse object *)
Theorem C63_set {T} (o other : lfun T) :
  (lo_kind o = KDense \/ lo_kind other <> KDense -> exists o', lo_set o other = Ok o' /\ lo_values o' = lo_values other /\ lo_kind o' = lo_kind o /\ lo_codom o' = lo_codom o) /\
  (lo_kind o <> KDense -> lo_kind other = KDense -> lo_set o other = Throw RuntimeError).
Proof.
  split.
  - intros Hk. exists (mklfun (lo_codom o) (lo_kind o) (lo_mat other)). split; [|repeat split].
    unfold lo_set. destruct (lo_kind o) eqn:A, (lo_kind other) eqn:B; cbn; try reflexivity; exfalso; destruct Hk; congruence.
  - intros A B. unfold lo_set. rewrite B. destruct (lo_kind o); [congruence|reflexivity|reflexivity].
Qed.
(** the differential is the functional itself *)
Theorem C63_differential {T} {H : Num T} (o : lfun T) (g : gspline T) : lo_call (lo_differential o) g = lo_call o g /\ lo_codom (lo_differential o) = lo_codom o.
Proof. split; reflexivity. Qed.
(** Integral::update on another grid is the integral of that grid, whatever the object was before *)
Theorem C63_regrid {T} {H : Num T} (dom dom' : T * T) nglp n nglp' n' o : int_obj dom nglp n = Ok o -> int_regrid o dom' nglp' n' = int_obj dom' nglp' n'.
Proof.
  unfold int_obj, int_regrid, int_ctor. intros E. destruct (gl_grid_weights (fst dom) (snd dom) nglp n) as [w| |]; try discriminate. injection E as <-.
  destruct (gl_grid_weights (fst dom') (snd dom') nglp' n') as [w'| |]; reflexivity.
Qed.
(** a collocation spline by its coefficients; matrices by their entries *)
Definition lfg (l : list R) : gspline R := mkgs (0, 1) 1 (vec_of_list l) (vec_of_list [1]) (BLegendre (length l) []) (bs_init (BLegendre (length l) [])) (vnew 1).
Definition lfm (r c : nat) (f : nat -> nat -> R) : mat R := mkmat r c (fun i j => Some (f i j)).
(** REFUTED: after [set] the component count is that of the old matrix *)
Theorem C63_count_refuted : exists (o other o' : lfun R) (g : gspline R) w, honest o /\ honest other /\ lo_set o other = Ok o' /\ lo_call o' g = Ok w /\ vlen w = 2%nat /\ lo_codom o' = 1%nat.
Proof.
  exists (lo_make KDense (lfm 1 1 (fun _ _ => 1))), (lo_make KSparse (lfm 2 1 (fun _ _ => 1))). eexists. exists (lfg [3]). eexists.
  split; [reflexivity|]. split; [reflexivity|]. split; [reflexivity|]. split; [reflexivity|]. split; reflexivity.
Qed.
(** -(A B) + 2 C, A a row, B and C below it; on the vector (3, 5) *)
Example C63_case : exists o w, let A := lo_make KDense (lfm 1 2 (fun _ j => INR (S j))) in let B := lo_make KSparse (lfm 2 2 (fun i j => if Nat.eqb i j then 1 else 7)) in
  let C := lo_make KSparseRow (lfm 1 2 (fun _ _ => 1)) in
  leval (LAdd (LNeg (LMul (LObj A) (LObj B))) (LScale 2 (LObj C))) = Ok o /\ lo_call o (lfg [3; 5]) = Ok w /\ vget w 0 = Some (-74) /\ lo_codom o = 1%nat /\ lo_kind o = KDense.
Proof.
  set (A := lo_make KDense (lfm 1 2 (fun _ j => INR (S j)))). set (B := lo_make KSparse (lfm 2 2 (fun i j => if Nat.eqb i j then 1 else 7))). set (C := lo_make KSparseRow (lfm 1 2 (fun _ _ => 1))).
  destruct (C63_calculus (LAdd (LNeg (LMul (LObj A) (LObj B))) (LScale 2 (LObj C))) 1 2 (lfg [3; 5]) (fun i => nth i [3; 5] 0)) as (o & w & E & K & Ew & W & Cd).
  - constructor; constructor; [econstructor; constructor; reflexivity|constructor; reflexivity].
  - cbn [leaves]. repeat split.
  - apply (vec_of_list_is [3; 5] 0).
  - exists o, w. split; [exact E|]. split; [exact Ew|]. split; [|split; [|exact K]].
    + rewrite (proj2 W 0%nat) by lia. f_equal. cbn. ring.
    + rewrite Cd by (cbn [leaves]; repeat split). apply W.
Qed.
