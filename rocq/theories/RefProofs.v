(** Programs that keep the rule compute with values (RefSpec). *)
From Coq Require Import List Arith Bool Lia.
From Verif Require Import Num Outcome LinAlg LegendreModel LagrangeModel Basis0101Model BasisModel ToolsModel GSplineModel InterpModel RefModel RefSpec.
Import ListNotations.

Lemma ls_length {A} (l : list A) : forall i x, length (list_set l i x) = length l.
Proof. induction l as [|y l IH]; intros [|i] x; cbn; auto. Qed.
Lemma ls_same {A} (l : list A) : forall i x, i < length l -> nth_error (list_set l i x) i = Some x.
Proof. induction l as [|y l IH]; intros [|i] x Hi; cbn in *; auto; try lia. apply IH. lia. Qed.
Lemma ls_other {A} (l : list A) : forall i j x, j <> i -> nth_error (list_set l i x) j = nth_error l j.
Proof. induction l as [|y l IH]; intros [|i] [|j] x Hn; cbn; auto; try lia. Qed.
Lemma nth_snoc {A} (l : list A) x j y : nth_error (l ++ [x]) j = Some y -> (nth_error l j = Some y /\ j < length l) \/ (j = length l /\ y = x).
Proof.
  intros E. destruct (Nat.lt_ge_cases j (length l)) as [L|L].
  - rewrite nth_error_app1 in E by exact L. auto.
  - rewrite nth_error_app2 in E by exact L. destruct (j - length l) as [|k] eqn:Ek; cbn in E.
    + right. split; [lia|congruence].
    + destruct k; discriminate.
Qed.
Lemma nth_last {A} (l : list A) x : nth_error (l ++ [x]) (length l) = Some x.
Proof. rewrite nth_error_app2, Nat.sub_diag by lia. reflexivity. Qed.
Lemma nth_lt {A} (l : list A) j y : nth_error l j = Some y -> j < length l.
Proof. intros E. apply nth_error_Some. congruence. Qed.
Lemma nth_keep {A} (l : list A) x j y : nth_error l j = Some y -> nth_error (l ++ [x]) j = Some y.
Proof. intros E. rewrite nth_error_app1 by (eapply nth_lt; eauto). exact E. Qed.

Section Refs.
Context {T : Type} `{Num T}.
Notation stmt := (stmt T). Notation cell := (cell T). Notation value := (value T).

(** reference x of family q of object i shows the value v *)
Definition shows (done : list stmt) (st : list cell) (x : nat) (q : family) (i k : nat) (v : vec T) : Prop :=
  (exists s, nth_error done x = Some s /\ belongs s q i) /\
  (good done x (length done) -> k = vlen v /\
     exists ip, nth_error st i = Some (CObj ip) /\ (match q with Solutions => ip_sol ip | Sensitivities => ip_coef ip end) = v).
Definition agrees (done : list stmt) (st : list cell) (x : nat) (c : cell) (w : value) : Prop :=
  match c, w with
  | CObj a, VObj b => a = b
  | CGone, VGone => True
  | COwn a, VVec b => a = b
  | CSol i k, VVec v => shows done st x Solutions i k v
  | CCoef i k, VVec v => shows done st x Sensitivities i k v
  | _, _ => False
  end.
Record related (done : list stmt) (st : list cell) (vst : list value) : Prop := {
  r_len : length st = length done; r_vlen : length vst = length done;
  r_all : forall x c w, nth_error st x = Some c -> nth_error vst x = Some w -> agrees done st x c w }.

Lemma pair_at done st vst x c : related done st vst -> nth_error st x = Some c -> exists w, nth_error vst x = Some w /\ agrees done st x c w.
Proof.
  intros R E. assert (L : x < length vst) by (rewrite (r_vlen _ _ _ R), <- (r_len _ _ _ R); eapply nth_lt; eauto).
  destruct (nth_error vst x) as [w|] eqn:Ew; [|apply nth_error_None in Ew; lia]. exists w. split; auto. eapply r_all; eauto.
Qed.
Lemma none_at done st vst x : related done st vst -> nth_error st x = None -> nth_error vst x = None.
Proof. intros R E. apply nth_error_None in E. apply nth_error_None. rewrite (r_vlen _ _ _ R), <- (r_len _ _ _ R). exact E. Qed.

Lemma object_agrees done st vst i : related done st vst -> object st i = vobject vst i.
Proof.
  intros R. unfold object, vobject. destruct (nth_error st i) as [c|] eqn:E.
  - destruct (pair_at _ _ _ _ _ R E) as (w & -> & A). destruct c, w; cbn in A; try contradiction; congruence.
  - rewrite (none_at _ _ _ _ R E). reflexivity.
Qed.
Lemma read_agrees done st vst x : related done st vst -> good done x (length done) -> read st x = vread_var vst x.
Proof.
  intros R G. unfold read, vread_var. destruct (nth_error st x) as [c|] eqn:E.
  - destruct (pair_at _ _ _ _ _ R E) as (w & -> & A). destruct c, w; cbn in A; try contradiction; try reflexivity.
    + congruence.
    + destruct A as (_ & A). destruct (A G) as (Ek & ip & -> & Es). unfold through. rewrite Es, Ek, Nat.eqb_refl. reflexivity.
    + destruct A as (_ & A). destruct (A G) as (Ek & ip & -> & Es). unfold through. rewrite Es, Ek, Nat.eqb_refl. reflexivity.
  - rewrite (none_at _ _ _ _ R E). reflexivity.
Qed.

Lemma good_back (done : list stmt) s x : x < length done -> good (done ++ [s]) x (S (length done)) ->
  good done x (length done) /\ forall s0 q i, nth_error done x = Some s0 -> belongs s0 q i -> ~ ends s q i.
Proof.
  intros L G. split.
  - intros s0 q i E B j s' Hj Ej. apply (G s0 q i (nth_keep _ _ _ _ E) B j s'); [lia|]. apply nth_keep. exact Ej.
  - intros s0 q i E B. apply (G s0 q i (nth_keep _ _ _ _ E) B (length done) s); [lia|]. apply nth_last.
Qed.

(** the objects change at most at [o], where the buffer of a family that is not ended stays *)
Definition kept (s : stmt) (st st' : list cell) : Prop :=
  forall i ip, nth_error st i = Some (CObj ip) -> (exists ip', nth_error st' i = Some (CObj ip') /\
     (~ ends s Solutions i -> ip_sol ip' = ip_sol ip) /\ (~ ends s Sensitivities i -> ip_coef ip' = ip_coef ip)) \/
     (ends s Solutions i /\ ends s Sensitivities i).
Lemma shows_step done s st st' x q i k v : x < length done -> kept s st st' -> shows done st x q i k v -> shows (done ++ [s]) st' x q i k v.
Proof.
  intros L K ((s0 & E0 & B0) & A). split; [exists s0; split; auto using nth_keep|].
  rewrite app_length. cbn [length]. rewrite Nat.add_1_r. intros G. destruct (good_back done s x L G) as (G' & N). specialize (N s0 q i E0 B0).
  destruct (A G') as (Ek & ip & Ei & Ev). split; [exact Ek|]. destruct (K i ip Ei) as [(ip' & Ei' & Hs & Hc)|[X Y]].
  - exists ip'. split; auto. destruct q; [rewrite Hs by exact N|rewrite Hc by exact N]; exact Ev.
  - destruct q; contradiction.
Qed.
Lemma agrees_step done s st st' x c w : x < length done -> kept s st st' -> agrees done st x c w -> agrees (done ++ [s]) st' x c w.
Proof. intros L K. destruct c, w; cbn; auto; apply shows_step; assumption. Qed.

Lemma kept_app (s : stmt) st c : kept s st (st ++ [c]).
Proof. intros i ip E. left. exists ip. split; [apply nth_keep; exact E|]. auto. Qed.

(** a statement that appends a variable and changes no object *)
Lemma related_app done s st vst c w : related done st vst -> agrees (done ++ [s]) (st ++ [c]) (length done) c w ->
  related (done ++ [s]) (st ++ [c]) (vst ++ [w]).
Proof.
  intros R A. split; [rewrite !app_length, (r_len _ _ _ R); reflexivity|rewrite !app_length, (r_vlen _ _ _ R); reflexivity|].
  intros x c' w' E1 E2. apply nth_snoc in E1. apply nth_snoc in E2. rewrite (r_len _ _ _ R) in E1. rewrite (r_vlen _ _ _ R) in E2.
  destruct E1 as [(E1 & L1)|(X1 & ->)], E2 as [(E2 & L2)|(X2 & ->)]; try lia.
  - apply (agrees_step _ _ st); auto using kept_app. eapply r_all; eauto.
  - subst. exact A.
Qed.
(** a statement that replaces object i *)
Lemma related_set done s st vst i ip c0 w0 c w : related done st vst -> nth_error st i = Some (CObj ip) ->
  kept s st (list_set st i c0 ++ [c]) -> (match c0, w0 with CObj a, VObj b => a = b | CGone, VGone => True | _, _ => False end) ->
  agrees (done ++ [s]) (list_set st i c0 ++ [c]) (length done) c w ->
  related (done ++ [s]) (list_set st i c0 ++ [c]) (list_set vst i w0 ++ [w]).
Proof.
  intros R Ei K A0 A. split; [rewrite !app_length, ls_length, (r_len _ _ _ R); reflexivity|rewrite !app_length, ls_length, (r_vlen _ _ _ R); reflexivity|].
  intros x c' w' E1 E2. apply nth_snoc in E1. apply nth_snoc in E2. rewrite ls_length, (r_len _ _ _ R) in E1. rewrite ls_length, (r_vlen _ _ _ R) in E2.
  destruct E1 as [(E1 & L1)|(X1 & ->)], E2 as [(E2 & L2)|(X2 & ->)]; try lia.
  - destruct (Nat.eq_dec x i) as [->|Ni].
    + rewrite ls_same in E1 by (eapply nth_lt; eauto). rewrite ls_same in E2 by (rewrite (r_vlen _ _ _ R); exact L2).
      injection E1 as <-. injection E2 as <-. destruct c0, w0; cbn; auto; contradiction.
    + rewrite ls_other in E1 by exact Ni. rewrite ls_other in E2 by exact Ni.
      apply (agrees_step _ _ st); auto. eapply r_all; eauto.
  - subst. exact A.
Qed.

Lemma object_some (st : list cell) i ip : object st i = Ok ip -> nth_error st i = Some (CObj ip).
Proof. unfold object. destruct (nth_error st i) as [[]|]; congruence. Qed.

(** which buffers the calls leave alone *)
Lemma solve_keeps lu (ip : interp T) tau wp r ip' : ip_solve lu ip tau wp = Ok (r, ip') -> ip_sol ip' = r /\ ip_coef ip' = ip_coef ip.
Proof.
  unfold ip_solve. destruct any_below as [[]| |]; try discriminate. cbn [bind].
  destruct fill_matrix as [[[pos der] m]| |]; try discriminate. cbn [bind].
  destruct fill_vector; try discriminate. cbn [bind]. intros E. injection E as <- <-. auto.
Qed.
Lemma interp_keeps lu (ip : interp T) tau wp g ip' : ip_interpolate lu ip tau wp = Ok (g, ip') -> ip_coef ip' = ip_coef ip.
Proof.
  unfold ip_interpolate. destruct ip_solve as [[sol ip1]| |] eqn:E; try discriminate. cbn [bind].
  destruct of_option; try discriminate. cbn [bind]. destruct gs_ctor; try discriminate. cbn [bind].
  intros X. injection X as _ <-. eapply solve_keeps; eauto.
Qed.
Lemma tau_keeps lu (ip : interp T) v tau idx r ip' : ip_coeff_tau lu ip v tau idx = Ok (r, ip') -> ip_coef ip' = r /\ ip_sol ip' = ip_sol ip.
Proof.
  unfold ip_coeff_tau. destruct any_below as [[]| |]; try discriminate. cbn [bind].
  destruct (_ || _)%bool; [intros E; injection E as <- <-; auto|].
  destruct of_option; try discriminate. cbn [bind]. destruct fill_matrix_tau as [[bufs m]| |]; try discriminate. cbn [bind].
  destruct smvmul; try discriminate. cbn [bind]. destruct fill_matrix as [[[pos der] b]| |]; try discriminate. cbn [bind].
  destruct lu; try discriminate. intros E. injection E as <- <-. auto.
Qed.
Lemma self_keeps lu (ip : interp T) tau idx r ip' : ip_coeff_tau_self lu ip tau idx = Ok (r, ip') -> ip_coef ip' = r /\ ip_sol ip' = ip_sol ip.
Proof.
  unfold ip_coeff_tau_self. destruct any_below as [[]| |]; try discriminate. cbn [bind].
  destruct (_ || _)%bool; [intros E; injection E as <- <-; auto|].
  destruct of_option; try discriminate. cbn [bind]. destruct fill_matrix_tau as [[bufs m]| |]; try discriminate. cbn [bind].
  destruct Nat.eqb; try discriminate. cbn [bind]. destruct fill_matrix as [[[pos der] b]| |]; try discriminate. cbn [bind].
  destruct lu; try discriminate. intros E. injection E as <- <-. auto.
Qed.

Definition both {A B} (P : A -> B -> Prop) (a : outcome A) (b : outcome B) : Prop :=
  match a, b with Ok x, Ok y => P x y | Throw e, Throw e' => e = e' | UB, UB => True | _, _ => False end.

Lemma kept_set (s : stmt) st i ip ip' c : nth_error st i = Some (CObj ip) ->
  (~ ends s Solutions i -> ip_sol ip' = ip_sol ip) -> (~ ends s Sensitivities i -> ip_coef ip' = ip_coef ip) ->
  kept s st (list_set st i (CObj ip') ++ [c]).
Proof.
  intros E Hs Hc i0 ip0 E0. left. destruct (Nat.eq_dec i0 i) as [->|N].
  - rewrite E in E0. injection E0 as <-. exists ip'. split; [apply nth_keep, ls_same; eapply nth_lt; eauto|auto].
  - exists ip0. split; [apply nth_keep; rewrite ls_other; auto|auto].
Qed.

Lemma step_related (done : list stmt) s st vst : related done st vst ->
  (forall x, uses s x -> x < length done -> good (done ++ [s]) x (S (length done))) ->
  both (related (done ++ [s])) (exec s st) (vstep s vst).
Proof.
  intros R G. assert (Go : forall x, uses s x -> read st x = vread_var vst x).
  { intros x U. destruct (Nat.lt_ge_cases x (length done)) as [L|L].
    - apply (read_agrees done); auto. apply (good_back done s x L (G x U L)).
    - unfold read, vread_var. rewrite (proj2 (nth_error_None st x)) by (rewrite (r_len _ _ _ R); lia).
      rewrite (proj2 (nth_error_None vst x)) by (rewrite (r_vlen _ _ _ R); lia). reflexivity. }
  destruct s as [c n b bst|lu i tau wp|lu i tau wp|lu i coef tau idx|x|i]; cbn [exec vstep].
  - destruct (ip_ctor c n b bst) as [ip| |]; cbn [bind both]; auto. apply related_app; cbn; auto.
  - rewrite (object_agrees _ _ _ i R). destruct (vobject vst i) as [ip| |] eqn:Eo; cbn [bind both]; auto.
    rewrite <- (object_agrees _ _ _ i R) in Eo. apply object_some in Eo.
    destruct (ip_solve lu ip tau wp) as [[r ip']| |] eqn:Es; cbn [bind both]; auto.
    destruct (solve_keeps _ _ _ _ _ _ Es) as (K1 & K2).
    eapply related_set; eauto; cbn [agrees].
    + eapply kept_set; eauto. intros N. exfalso. apply N. cbn. auto.
    + split; [eexists; split; [apply nth_last|cbn; auto]|]. intros _. split; [reflexivity|]. exists ip'.
      split; [|exact K1]. apply nth_keep, ls_same. eapply nth_lt; eauto.
  - rewrite (object_agrees _ _ _ i R). destruct (vobject vst i) as [ip| |] eqn:Eo; cbn [bind both]; auto.
    rewrite <- (object_agrees _ _ _ i R) in Eo. apply object_some in Eo.
    destruct (ip_interpolate lu ip tau wp) as [[r ip']| |] eqn:Es; cbn [bind both]; auto.
    pose proof (interp_keeps _ _ _ _ _ _ Es) as K2.
    eapply related_set; eauto; cbn [agrees]; auto.
    eapply kept_set; eauto. intros N. exfalso. apply N. cbn. auto.
  - rewrite (object_agrees _ _ _ i R). destruct (vobject vst i) as [ip| |] eqn:Eo; cbn [bind both]; auto.
    rewrite <- (object_agrees _ _ _ i R) in Eo. apply object_some in Eo.
    assert (Et : tau_call lu st i ip coef tau idx =
       bind (match coef with Val v => Ok v | Var x => vread_var vst x end) (fun v => ip_coeff_tau lu ip v tau idx)).
    { unfold tau_call. destruct coef as [v|x]; [reflexivity|]. rewrite <- (Go x) by reflexivity.
      destruct (nth_error st x) as [[]|] eqn:Ex; try reflexivity.
      destruct (Nat.eqb_spec i0 i) as [->|]; [|reflexivity]. exfalso.
      assert (L : x < length done) by (rewrite <- (r_len _ _ _ R); eapply nth_lt; eauto).
      destruct (pair_at _ _ _ _ _ R Ex) as (w & _ & A). destruct w; try contradiction. destruct A as ((s0 & E0 & B0) & _).
      destruct (good_back _ _ _ L (G x eq_refl L)) as (_ & N). apply (N s0 Sensitivities i E0 B0). cbn. auto. }
    rewrite Et. destruct (match coef with Val v => Ok v | Var x => vread_var vst x end) as [v| |]; cbn [bind both]; auto.
    destruct (ip_coeff_tau lu ip v tau idx) as [[r ip']| |] eqn:Es; cbn [bind both]; auto.
    destruct (tau_keeps _ _ _ _ _ _ _ Es) as (K1 & K2).
    eapply related_set; eauto; cbn [agrees].
    + eapply kept_set; eauto. intros N. exfalso. apply N. cbn. auto.
    + split; [eexists; split; [apply nth_last|cbn; auto]|]. intros _. split; [reflexivity|]. exists ip'.
      split; [|exact K1]. apply nth_keep, ls_same. eapply nth_lt; eauto.
  - rewrite (Go x) by reflexivity. destruct (vread_var vst x) as [v| |]; cbn [bind both]; auto. apply related_app; cbn; auto.
  - rewrite (object_agrees _ _ _ i R). destruct (vobject vst i) as [ip| |] eqn:Eo; cbn [bind both]; auto.
    rewrite <- (object_agrees _ _ _ i R) in Eo. apply object_some in Eo.
    eapply related_set; eauto; cbn [agrees]; auto.
    intros i0 ip0 E0. destruct (Nat.eq_dec i0 i) as [->|N]; [right; cbn; auto|].
    left. exists ip0. split; [apply nth_keep; rewrite ls_other; auto|auto].
Qed.

Lemma run_related rest : forall done st vst, related done st vst -> disciplined (done ++ rest) ->
  both (related (done ++ rest)) (run rest st) (vrun rest vst).
Proof.
  induction rest as [|s rest IH]; intros done st vst R D; cbn [run vrun].
  - rewrite app_nil_r. exact R.
  - assert (S1 : both (related (done ++ [s])) (exec s st) (vstep s vst)).
    { apply step_related; auto. intros x U L. assert (Ek : nth_error (done ++ s :: rest) (length done) = Some s).
      { rewrite nth_error_app2, Nat.sub_diag by lia. reflexivity. }
      pose proof (D _ _ _ Ek U L) as Gx. intros s0 q i E B j s' Hj Ej.
      assert (X : forall y z, nth_error (done ++ [s]) y = Some z -> nth_error (done ++ s :: rest) y = Some z).
      { intros y z Ey. replace (done ++ s :: rest) with ((done ++ [s]) ++ rest) by (rewrite <- app_assoc; reflexivity).
        rewrite nth_error_app1; [exact Ey|eapply nth_lt; eauto]. }
      apply (Gx s0 q i (X _ _ E) B j s' Hj (X _ _ Ej)). }
    destruct (exec s st) as [st1| |], (vstep s vst) as [v1| |]; cbn [both] in S1; try contradiction; cbn [bind both]; auto.
    replace (done ++ s :: rest) with ((done ++ [s]) ++ rest) in * by (rewrite <- app_assoc; reflexivity).
    apply IH; auto.
Qed.

Theorem discipline (p : list stmt) : disciplined p ->
  match run p [], vrun p [] with
  | Ok st, Ok vst => forall x, good p x (length p) -> read st x = vread_var vst x
  | Throw e, Throw e' => e = e'
  | UB, UB => True
  | _, _ => False
  end.
Proof.
  intros D. assert (R0 : related [] [] []) by (split; try reflexivity; intros [|x] c w E; discriminate).
  pose proof (run_related p [] [] [] R0 D) as B. cbn [app] in B.
  destruct (run p []) as [st| |], (vrun p []) as [vst| |]; cbn [both] in B; auto.
  intros x G. apply (read_agrees p); auto.
Qed.
End Refs.
