(** Two references of one family are one vector. *)
From Coq Require Import List Arith Bool Lia.
From Verif Require Import Num Outcome LinAlg LegendreModel LagrangeModel Basis0101Model BasisModel BasisProofs ToolsModel GSplineModel InterpModel RefModel RefSpec RefProofs.
Import ListNotations.

Section Refs.
Context {T : Type} `{Num T}.

(** ** the product into a buffer *)
Lemma acc_cols_fixed (m : smat T) v n : forall i, acc_cols m (fun _ => vget v) n i = srow_dot m v i n.
Proof. induction n as [|n IH]; intros i; cbn [acc_cols srow_dot]; [reflexivity|]. rewrite IH. reflexivity. Qed.

(** ** the number of unknowns does not change *)
Lemma for_cols lo hi (f : nat -> smat T -> outcome (smat T)) m m' :
  (forall i a a', f i a = Ok a' -> srows a' = srows a) -> for_ lo hi f m = Ok m' -> srows m' = srows m.
Proof.
  intros F E. unfold for_ in E. generalize dependent m. generalize dependent lo. intros lo. generalize (hi - lo). intros k. revert lo. induction k as [|k IH]; intros lo m E; cbn [for_n] in E; [congruence|].
  destruct (f lo m) as [a| |] eqn:Ef; try discriminate. cbn [bind] in E. rewrite (IH _ _ E). eauto.
Qed.
Lemma sset_cols (m : smat T) i j x m' : sset m i j x = Ok m' -> srows m' = srows m.
Proof. unfold sset. destruct (_ && _)%bool; [|discriminate]. intros E. injection E as <-. reflexivity. Qed.
Ltac peel E := match type of E with bind ?a _ = Ok _ => let X := fresh "X" in destruct a eqn:X; [cbn [bind] in E|discriminate|discriminate] end.
Lemma position_cols c d i j p (m : smat T) m' : fill_position c d i j p m = Ok m' -> srows m' = srows m.
Proof.
  apply for_cols. intros cc a a'. apply for_cols. intros bb e e' E. peel E. eapply sset_cols; eauto.
Qed.
Lemma continuity_cols c d i j s p (m : smat T) m' : fill_continuity c d i j s p m = Ok m' -> srows m' = srows m.
Proof.
  apply for_cols. intros cc a a'. apply for_cols. intros bb e e'. apply for_cols. intros k g g' E. peel E. eapply sset_cols; eauto.
Qed.
Lemma boundary_cols c d i j p (m : smat T) m' : fill_boundary c d i j p m = Ok m' -> srows m' = srows m.
Proof.
  apply for_cols. intros cc a a'. apply for_cols. intros bb e e'. apply for_cols. intros k g g' E. peel E. eapply sset_cols; eauto.
Qed.
Ltac cols := repeat match goal with
  | X : fill_position _ _ _ _ _ _ = Ok _ |- _ => apply position_cols in X
  | X : fill_continuity _ _ _ _ _ _ _ = Ok _ |- _ => apply continuity_cols in X
  | X : fill_boundary _ _ _ _ _ _ = Ok _ |- _ => apply boundary_cols in X
  end.
Lemma interior_cols (b : basis T) c tau iv st st' : fill_interior b c tau iv st = Ok st' -> srows (snd st') = srows (snd st).
Proof.
  destruct st as [[[i0 j0] bufs] m]. unfold fill_interior. intros E.
  repeat peel E. cols. injection E as <-. cbn [snd]. congruence.
Qed.
Lemma fill_cols (b : basis T) c n tau bufs m r : fill_matrix b c n tau bufs m = Ok r -> srows (snd r) = srows m.
Proof.
  unfold fill_matrix. destruct (negb _); [discriminate|]. intros E. do 6 peel E. destruct (Nat.eqb n 1).
  - peel E. cols. injection E as <-. cbn [snd]. congruence.
  - do 2 peel E. cols.
    assert (L : forall lo hi s s', for_ lo hi (fill_interior b c tau) s = Ok s' -> srows (snd s') = srows (snd s)).
    { clear. intros lo hi s s' E. unfold for_ in E. revert E. generalize (hi - lo). intros k. revert lo s.
      induction k as [|k IH]; intros lo s E; cbn [for_n] in E; [congruence|].
      destruct (fill_interior b c tau lo s) as [a| |] eqn:Ef; try discriminate. cbn [bind] in E. rewrite (IH _ _ E). eapply interior_cols; eauto. }
    match goal with X : for_ _ _ _ _ = Ok _ |- _ => apply L in X; cbn [snd] in X end.
    match goal with X : srows (snd ?s) = _ |- _ => destruct s as [[[i0 j0] bf] mm]; cbn [snd] in X end.
    unfold fill_last in E. repeat peel E. cols. injection E as <-. cbn [snd]. congruence.
Qed.

(** ** sizes of the buffers *)
Definition dims (N : nat) (ip : interp T) : Prop :=
  srows (ip_mat ip) = N /\ vlen (ip_coef ip) = N /\ (vlen (ip_sol ip) = N \/ ip_sol ip = vnew 0).

Lemma ctor_dims c n (b : basis T) bst ip : ip_ctor c n b bst = Ok ip -> exists N, dims N ip.
Proof.
  unfold ip_ctor. destruct (negb _); [discriminate|]. destruct Nat.ltb; [discriminate|]. intros E. injection E as <-.
  eexists. repeat split. right. reflexivity.
Qed.
Lemma solve_dims N lu (ip : interp T) tau wp r ip' : sized lu -> dims N ip -> ip_solve lu ip tau wp = Ok (r, ip') ->
  dims N ip' /\ (ip_sol ip' = ip_sol ip \/ vlen (ip_sol ip') = N).
Proof.
  intros Hl (D1 & D2 & D3). unfold ip_solve. intros E. peel E. destruct a; [discriminate|]. peel E.
  match goal with X : fill_matrix _ _ _ _ _ _ = Ok ?r |- _ => destruct r as [[pos der] m]; apply fill_cols in X; cbn [snd] in X; rename X into Xc end.
  peel E. injection E as <- <-. unfold dims. cbn [ip_mat ip_coef ip_sol]. rewrite Xc.
  destruct (lu m) as [f|] eqn:El; [|auto]. rewrite (Hl _ _ a El). rewrite Xc. auto.
Qed.
Lemma interp_dims N lu (ip : interp T) tau wp g ip' : sized lu -> dims N ip -> ip_interpolate lu ip tau wp = Ok (g, ip') ->
  dims N ip' /\ (ip_sol ip' = ip_sol ip \/ vlen (ip_sol ip') = N).
Proof.
  intros Hl D. unfold ip_interpolate. intros E. peel E. destruct a as [sol ip1]. do 2 peel E. injection E as <- <-.
  eapply solve_dims; eauto.
Qed.
Lemma tau_dims N lu (ip : interp T) v tau idx r ip' : sized lu -> dims N ip -> ip_coeff_tau lu ip v tau idx = Ok (r, ip') -> dims N ip' /\ vlen r = N.
Proof.
  intros Hl (D1 & D2 & D3). unfold ip_coeff_tau. intros E. peel E. destruct a; [discriminate|].
  destruct (_ || _)%bool; [injection E as <- <-; repeat split; auto|].
  peel E. peel E. destruct a0 as [bufs m]. peel E. peel E.
  match goal with X : fill_matrix _ _ _ _ _ _ = Ok ?r |- _ => destruct r as [[pos der] mm]; apply fill_cols in X; cbn [snd] in X; rename X into Xc end.
  destruct (lu mm) as [f|] eqn:El; [|discriminate]. injection E as <- <-. unfold dims. cbn [ip_mat ip_coef ip_sol vscale vlen].
  rewrite (Hl _ _ a0 El), Xc. auto.
Qed.
Lemma self_dims N lu (ip : interp T) tau idx r ip' : sized lu -> dims N ip -> ip_coeff_tau_self lu ip tau idx = Ok (r, ip') -> dims N ip' /\ vlen r = N.
Proof.
  intros Hl (D1 & D2 & D3). unfold ip_coeff_tau_self. intros E. peel E. destruct a; [discriminate|].
  destruct (_ || _)%bool; [injection E as <- <-; repeat split; auto|].
  peel E. peel E. destruct a0 as [bufs m]. peel E. peel E.
  match goal with X : fill_matrix _ _ _ _ _ _ = Ok ?r |- _ => destruct r as [[pos der] mm]; apply fill_cols in X; cbn [snd] in X; rename X into Xc end.
  destruct (lu mm) as [f|] eqn:El; [|discriminate]. injection E as <- <-. unfold dims. cbn [ip_mat ip_coef ip_sol vscale vlen].
  rewrite (Hl _ _ a0 El), Xc. auto.
Qed.
Lemma call_dims N lu st i (ip : interp T) o tau idx r ip' : sized lu -> dims N ip -> tau_call lu st i ip o tau idx = Ok (r, ip') -> dims N ip' /\ vlen r = N.
Proof.
  intros Hl D. unfold tau_call. intros E. destruct o as [v|x]; [eapply tau_dims; eauto|].
  destruct (nth_error st x) as [[]|]; try (peel E; eapply tau_dims; eauto).
  destruct (_ && _)%bool; [eapply self_dims; eauto|]. peel E. eapply tau_dims; eauto.
Qed.
Lemma call_keeps lu st i (ip : interp T) o tau idx r ip' : tau_call lu st i ip o tau idx = Ok (r, ip') -> ip_coef ip' = r /\ ip_sol ip' = ip_sol ip.
Proof.
  unfold tau_call. intros E. destruct o as [v|x]; [eapply tau_keeps; eauto|].
  destruct (nth_error st x) as [[]|]; try (peel E; eapply tau_keeps; eauto).
  destruct (_ && _)%bool; [eapply self_keeps; eauto|]. peel E. eapply tau_keeps; eauto.
Qed.

(** sizes of the objects by number, once and for all *)
Definition cell_ok (size : nat -> nat) (st : list (cell T)) (x : nat) (c : cell T) : Prop :=
  match c with
  | CObj ip => dims (size x) ip
  | CSol i k => (k = size i \/ k = 0) /\ (i < x)%nat /\
      (k <> 0 -> match nth_error st i with Some (CObj ip) => vlen (ip_sol ip) = size i | Some CGone => True | _ => False end) /\
      (k = 0 -> match nth_error st i with Some (CObj _) | Some CGone => True | _ => False end)
  | CCoef i k => k = size i /\ (i < x)%nat /\ match nth_error st i with Some (CObj _) | Some CGone => True | _ => False end
  | _ => True
  end.
Definition cells_ok size st := forall x c, nth_error st x = Some c -> cell_ok size st x c.

Lemma cell_ok_set size (st : list (cell T)) i ip c0 : nth_error st i = Some (CObj ip) ->
  (match c0 with CObj ip' => ip_sol ip' = ip_sol ip \/ vlen (ip_sol ip') = size i | CGone => True | _ => False end) ->
  forall c x e, cell_ok size st x e -> cell_ok size (list_set st i c0 ++ [c]) x e \/ exists a, e = CObj a.
Proof.
  intros Ei K c x e A. destruct e as [a| |v|j k|j k]; cbn [cell_ok] in *; eauto.
  - left. destruct A as (A1 & A2 & A3 & A4). split; auto. split; auto.
    destruct (Nat.eq_dec j i) as [->|N].
    + rewrite (nth_keep _ _ _ _ (ls_same st i c0 (nth_lt _ _ _ Ei))). rewrite Ei in A3. split.
      * intros Hk. specialize (A3 Hk). destruct c0; auto. destruct K as [->| ->]; auto.
      * intros _. destruct c0; auto.
    + assert (Lj : j < length st).
      { destruct (nth_error st j) eqn:E; [eapply nth_lt; eauto|]. exfalso. destruct k as [|k]; [exact (A4 eq_refl)|exact (A3 (Nat.neq_succ_0 k))]. }
      rewrite nth_error_app1 by (rewrite ls_length; exact Lj). rewrite ls_other by exact N. auto.
  - left. destruct A as (A1 & A2 & A3). split; auto. split; auto.
    destruct (Nat.eq_dec j i) as [->|N].
    + rewrite (nth_keep _ _ _ _ (ls_same st i c0 (nth_lt _ _ _ Ei))). destruct c0; auto.
    + assert (Lj : j < length st) by (destruct (nth_error st j) eqn:E; [eapply nth_lt; eauto|contradiction]).
      rewrite nth_error_app1 by (rewrite ls_length; exact Lj). rewrite ls_other by exact N. exact A3.
Qed.
Lemma cells_app size (st : list (cell T)) c : cells_ok size st -> cell_ok size (st ++ [c]) (length st) c -> cells_ok size (st ++ [c]).
Proof.
  intros H0 Hc x e E. apply nth_snoc in E. destruct E as [(E & L)|(-> & ->)]; [|exact Hc]. specialize (H0 x e E).
  destruct e as [a| |v|j k|j k]; cbn [cell_ok] in *; auto.
  - destruct H0 as (A1 & A2 & A3 & A4). rewrite nth_error_app1 by lia. auto.
  - destruct H0 as (A1 & A2 & A3). rewrite nth_error_app1 by lia. auto.
Qed.
Lemma cells_set size (st : list (cell T)) i ip c0 c : cells_ok size st -> nth_error st i = Some (CObj ip) ->
  (match c0 with CObj ip' => dims (size i) ip' /\ (ip_sol ip' = ip_sol ip \/ vlen (ip_sol ip') = size i) | CGone => True | _ => False end) ->
  cell_ok size (list_set st i c0 ++ [c]) (length st) c -> cells_ok size (list_set st i c0 ++ [c]).
Proof.
  intros H0 Ei K Hc x e E. apply nth_snoc in E. rewrite ls_length in E. destruct E as [(E & L)|(-> & ->)]; [|exact Hc].
  destruct (Nat.eq_dec x i) as [->|N].
  - rewrite ls_same in E by exact L. injection E as <-. destruct c0; cbn; try contradiction; tauto.
  - rewrite ls_other in E by exact N. pose proof (H0 x e E) as A.
    assert (K' : match c0 with CObj ip' => ip_sol ip' = ip_sol ip \/ vlen (ip_sol ip') = size i | CGone => True | _ => False end) by (destruct c0; tauto).
    destruct (cell_ok_set size st i ip c0 Ei K' c x e A) as [A'|(a & ->)]; [exact A'|exact A].
Qed.

Lemma step_cells size s (st st' : list (cell T)) : (forall lu, solver_of s = Some lu -> sized lu) ->
  cells_ok size st -> exec s st = Ok st' ->
  exists size', (forall i, (i < length st)%nat -> size' i = size i) /\ cells_ok size' st' /\ length st' = S (length st) /\
    forall q i, belongs s q i -> exists k, nth_error st' (length st) = Some (match q with Solutions => CSol i k | Sensitivities => CCoef i k end).
Proof.
  intros Hs C E.
  destruct s as [c n b bst|lu i tau wp|lu i tau wp|lu i o tau idx|x|i]; cbn [exec solver_of belongs] in *.
  - peel E. injection E as <-. destruct (ctor_dims _ _ _ _ _ X) as (N & D).
    exists (fun i => if Nat.eqb i (length st) then N else size i). split; [intros i Hi; destruct (Nat.eqb_spec i (length st)); [lia|auto]|].
    split; [|split; [rewrite app_length; cbn; lia|contradiction]].
    apply cells_app; [|cbn; rewrite Nat.eqb_refl; exact D].
    intros x e Ee. specialize (C x e Ee). pose proof (nth_lt _ _ _ Ee) as L. destruct e as [a0| |v|j k|j k]; cbn [cell_ok] in *; auto.
    + destruct (Nat.eqb_spec x (length st)); [lia|auto].
    + destruct C as (A1 & A2 & A3 & A4). destruct (Nat.eqb_spec j (length st)); [lia|auto].
    + destruct C as (A1 & A2 & A3). destruct (Nat.eqb_spec j (length st)); [lia|auto].
  - peel E. apply object_some in X. peel E. destruct a0 as [sol ip']. injection E as <-.
    pose proof (C _ _ X) as D. cbn in D. pose proof (nth_lt _ _ _ X) as L.
    destruct (solve_dims _ _ _ _ _ _ _ (Hs lu eq_refl) D X0) as (D' & K). destruct (solve_keeps _ _ _ _ _ _ X0) as (K1 & _).
    exists size. split; auto. split; [|split; [rewrite app_length, ls_length; cbn; lia|]].
    + eapply cells_set; eauto. cbn [cell_ok]. rewrite (nth_keep _ _ _ _ (ls_same st i (CObj ip') L)).
      rewrite <- K1. destruct D' as (_ & _ & [D3|D3]); rewrite D3; cbn; repeat split; auto; try tauto.
    + intros q j (-> & ->). exists (vlen sol). pose proof (nth_last (list_set st j (CObj ip')) (CSol j (vlen sol))) as NL. rewrite ls_length in NL. exact NL.
  - peel E. apply object_some in X. peel E. destruct a0 as [g ip']. injection E as <-.
    pose proof (C _ _ X) as D. cbn in D. pose proof (nth_lt _ _ _ X) as L.
    destruct (interp_dims _ _ _ _ _ _ _ (Hs lu eq_refl) D X0) as (D' & K).
    exists size. split; auto. split; [|split; [rewrite app_length, ls_length; cbn; lia|contradiction]].
    eapply cells_set; eauto. exact Logic.I.
  - peel E. apply object_some in X. peel E. destruct a0 as [r ip']. injection E as <-.
    pose proof (C _ _ X) as D. cbn in D. pose proof (nth_lt _ _ _ X) as L.
    destruct (call_dims _ _ _ _ _ _ _ _ _ _ (Hs lu eq_refl) D X0) as (D' & K). destruct (call_keeps _ _ _ _ _ _ _ _ _ X0) as (K1 & K2).
    exists size. split; auto. split; [|split; [rewrite app_length, ls_length; cbn; lia|]].
    + eapply cells_set; eauto. cbn [cell_ok]. rewrite (nth_keep _ _ _ _ (ls_same st i (CObj ip') L)). auto.
    + intros q j (-> & ->). exists (vlen r). pose proof (nth_last (list_set st j (CObj ip')) (CCoef j (vlen r))) as NL. rewrite ls_length in NL. exact NL.
  - peel E. injection E as <-. exists size. split; auto. split; [apply cells_app; cbn; auto|]. split; [rewrite app_length; cbn; lia|contradiction].
  - peel E. apply object_some in X. injection E as <-. exists size. split; auto.
    split; [eapply cells_set; eauto; exact Logic.I|]. split; [rewrite app_length, ls_length; cbn; lia|contradiction].
Qed.

(** references stay references *)
Lemma step_fixed s (st st' : list (cell T)) x i k : exec s st = Ok st' ->
  (nth_error st x = Some (CSol i k) -> nth_error st' x = Some (CSol i k)) /\ (nth_error st x = Some (CCoef i k) -> nth_error st' x = Some (CCoef i k)).
Proof.
  intros E. assert (S1 : forall j ip c0 c e, nth_error st j = Some (CObj ip) -> nth_error st x = Some e -> (match e with CObj _ => False | _ => True end) ->
     nth_error (list_set st j c0 ++ [c]) x = Some e).
  { intros j ip c0 c e Ej Ee Ne. apply nth_keep. rewrite ls_other; auto. intros ->. rewrite Ej in Ee. injection Ee as <-. exact Ne. }
  destruct s as [c n b bst|lu j tau wp|lu j tau wp|lu j o tau idx|y|j]; cbn [exec] in E;
    repeat (peel E); try (match goal with X : object _ _ = Ok _ |- _ => apply object_some in X end);
    repeat match goal with a : (_ * _)%type |- _ => destruct a end; injection E as <-;
    (split; intros Ex; first [apply nth_keep; exact Ex | eapply S1; eauto; exact Logic.I]).
Qed.

Definition bound (done : list (stmt T)) (st : list (cell T)) : Prop :=
  forall x s q i, nth_error done x = Some s -> belongs s q i -> exists k, nth_error st x = Some (match q with Solutions => CSol i k | Sensitivities => CCoef i k end).

Lemma run_cells rest : (forall s lu, In s rest -> solver_of s = Some lu -> sized lu) ->
  forall done size (st st' : list (cell T)), cells_ok size st -> length st = length done -> bound done st -> run rest st = Ok st' ->
  exists size', cells_ok size' st' /\ bound (done ++ rest) st'.
Proof.
  induction rest as [|s rest IH]; intros Hs done size st st' C L B E; cbn [run] in E.
  - injection E as <-. rewrite app_nil_r. eauto.
  - peel E. destruct (step_cells size s st a (fun lu => Hs s lu (or_introl eq_refl)) C X) as (size' & _ & C' & L' & B').
    replace (done ++ s :: rest) with ((done ++ [s]) ++ rest) by (rewrite <- app_assoc; reflexivity).
    apply (IH (fun s0 lu I0 => Hs s0 lu (or_intror I0)) (done ++ [s]) size' a st'); auto.
    + rewrite app_length. cbn. lia.
    + intros x s0 q i Ex Bx. apply nth_snoc in Ex. destruct Ex as [(Ex & Lx)|(-> & ->)].
      * destruct (B x s0 q i Ex Bx) as (k & Ek). exists k. destruct (step_fixed s st a x i k X) as (F1 & F2). destruct q; auto.
      * rewrite <- L. apply B'. exact Bx.
Qed.

(** two results of one family of one object: the same vector, or the older one is empty *)
Theorem one_vector p (st : list (cell T)) x y sx sy q i : (forall s lu, In s p -> solver_of s = Some lu -> sized lu) ->
  run p [] = Ok st -> nth_error p x = Some sx -> nth_error p y = Some sy -> belongs sx q i -> belongs sy q i ->
  read st x = read st y \/ (q = Solutions /\ (read st x = Ok (vnew 0) \/ read st y = Ok (vnew 0))).
Proof.
  intros Hs E Ex Ey Bx By.
  destruct (run_cells p Hs [] (fun _ => 0) [] st) as (size & C & B); auto.
  { intros [|z] c Z; discriminate. } { intros [|z] c q0 i0 Z; discriminate. }
  cbn [app] in B. destruct (B x sx q i Ex Bx) as (kx & Kx). destruct (B y sy q i Ey By) as (ky & Ky).
  pose proof (C _ _ Kx) as Cx. pose proof (C _ _ Ky) as Cy. unfold read. rewrite Kx, Ky. destruct q; cbn [cell_ok] in Cx, Cy.
  - destruct (Nat.eq_dec kx ky) as [->|N]; [left; reflexivity|right; split; [reflexivity|]].
    destruct Cx as (Sx & _ & Cx & Cx0), Cy as (Sy & _ & Cy & Cy0).
    assert (Z : forall k ip, k <> 0 -> nth_error st i = Some (CObj ip) -> vlen (ip_sol ip) = size i -> k = size i -> through (ip_sol ip) 0 = Ok (vnew 0)).
    { intros k ip Hk _ V Ek. unfold through. destruct (Nat.eqb_spec (vlen (ip_sol ip)) 0); [congruence|reflexivity]. }
    destruct (Nat.eq_dec kx 0) as [->|Nx].
    + left. assert (Ny : ky <> 0) by congruence. specialize (Cy Ny). destruct (nth_error st i) as [[ip| | | |]|] eqn:Ei; try contradiction; try reflexivity.
      apply (Z ky ip); auto. tauto.
    + right. assert (ky = 0) as -> by (destruct Sx, Sy; congruence). specialize (Cx Nx).
      destruct (nth_error st i) as [[ip| | | |]|] eqn:Ei; try contradiction; try reflexivity.
      apply (Z kx ip); auto. tauto.
  - left. destruct Cx as (-> & _), Cy as (-> & _). reflexivity.
Qed.
End Refs.
