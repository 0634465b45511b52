(** C65: what a collocation spline holds after an operation that threw. *)
From Coquelicot Require Import Coquelicot.
From Coq Require Import List Arith Lia Bool Reals Lra.
From Verif Require Import Num Outcome LinAlg RSum RPoly LegendreSpec LegendreModel LagrangeSpec LagrangeModel LagrangeMath LagrangeProofs
  Basis0101Model BasisModel SplineSpec BasisFn BasisProofs BasisProofs2 BasisProofs3 ToolsModel FunModel GSplineModel GSplineProofs GSplineProofs2
  GLSpec GLModel GLProofs GLProofs2 GLProps GLLModel GLLProofs GLLProofs2 GLLProofs3 GLLProps ExnModel ExnProofs.
Import ListNotations.
Local Open Scope R_scope.
Local Opaque gl_iters.

(** ** The operations, and a program that uses them and catches every exception *)
Inductive op (T : Type) :=
| Assign (move self : bool) (that : gspline T)
| PlusEq (that : gspline T)
| MinusEq (that : gspline T)
| FromFunction (self : bool) (f : fobj T)
| FromArray (dom : T * T) (vals : list (outcome (vec T))).
Arguments Assign {T}. Arguments PlusEq {T}. Arguments MinusEq {T}. Arguments FromFunction {T}. Arguments FromArray {T}.
Definition call {T} {HN : Num T} (o : op T) : member (gspline T) unit :=
  match o with
  | Assign move self that => m_assign move self that
  | PlusEq that => m_pluseq that
  | MinusEq that => m_minuseq that
  | FromFunction self f => m_assign_fun self f
  | FromArray dom vals => m_set_from_array dom vals
  end.
(** the result of the same operation as a function of the object before it (GLLModel.v, GSplineModel.v) *)
Definition result {T} {HN : Num T} (o : op T) (g : gspline T) (r : outcome (gspline T)) : Prop :=
  match o with
  | Assign move self that => r = gll_assign move self g that
  | PlusEq that => r = gs_pluseq g that
  | MinusEq that => r = gs_minuseq g that
  | FromFunction self f => r = gll_assign_fun self g f
  | FromArray dom vals => exists l, vals = map (fun v => Ok v) l /\ r = gll_set_from_array g dom l
  end.
(** one entry per call: None if it returned, Some e if it threw e *)
Inductive session {T} {HN : Num T} : gspline T -> list (op T) -> list (option exn) -> gspline T -> Prop :=
| s_nil g : session g [] [] g
| s_ok g o g' os l r : call o g = (g', Ok tt) -> session g' os l r -> session g (o :: os) (None :: l) r
| s_throw g o g' e os l r : call o g = (g', Throw e) -> session g' os l r -> session g (o :: os) (Some e :: l) r.

(** sizes of the members agree *)
Definition sized {T} {HN : Num T} (g : gspline T) : Prop := vlen (gs_coef g) = (gs_n g * gs_dim g * gs_codom g)%nat.
Definition operand {T} {HN : Num T} (o : op T) : Prop := match o with Assign _ _ that => sized that | _ => True end.

(** The step by step model ends as the functional one does *)
Theorem C65_agrees T (HN : Num T) (o : op T) g r : result o g r ->
  match call o g with
  | (s, Ok _) => r = Ok s
  | (_, Throw e) => r = Throw e
  | (_, UB) => r = UB
  end.
Proof.
  destruct o; cbn [result call].
  - intros ->. apply (assign_ends move self g that).
  - intros ->. apply (pluseq_ends g that).
  - intros ->. apply (minuseq_ends g that).
  - intros ->. apply (assign_fun_ends self g f).
  - intros (l & -> & ->). apply (array_ends g dom l).
Qed.
(** Copy, move and compound assignment are all or nothing *)
Theorem C65_all_or_nothing T (HN : Num T) (o : op T) g g' e : call o g = (g', Throw e) ->
  match o with FromFunction _ _ | FromArray _ _ => True | _ => g' = g end.
Proof. destruct o; cbn [call]; auto; [apply assign_kept|apply pluseq_kept|apply minuseq_kept]. Qed.
(** A function refused for its codomain, or the object itself, changes nothing *)
Theorem C65_function_refused T (HN : Num T) self (f : fobj T) g : self = true \/ gs_codom g <> fo_codom f ->
  call (FromFunction self f) g = (g, Throw InvalidArgument).
Proof.
  intros X. cbn [call]. unfold m_assign_fun. unfold mbind at 1, reads at 1. destruct self; cbn [negb require]; [reflexivity|].
  unfold mbind at 1, reads at 1. destruct (Nat.eqb_spec (gs_codom g) (fo_codom f)); cbn [require]; [|reflexivity]. destruct X; [discriminate|contradiction].
Qed.
(** After any calls, whether they returned or threw, the sizes still agree and basis, codomain and number of
    intervals are the old ones *)
Theorem C65_sessions T (HN : Num T) (g : gspline T) os l r : sized g -> Forall operand os -> session g os l r ->
  sized r /\ gs_codom r = gs_codom g /\ gs_basis r = gs_basis g /\ gs_bst r = gs_bst g /\ gs_n r = gs_n g /\ gs_buf r = gs_buf g.
Proof.
  intros Sg Fo H. assert (Fr : forall o g, sized g -> operand o -> framed g (fst (call o g))).
  { clear. intros [move self that|that|that|self f|dom vals] g Sg So; cbn [call].
    - apply assign_frame; auto.
    - apply pluseq_frame.
    - apply minuseq_frame.
    - apply assign_fun_frame.
    - apply array_frame. }
  assert (St : forall (o : op T) g g', sized g -> framed g g' -> sized g').
  { clear. intros o g g' Sg (A & B & C & D & E & F). unfold sized, gs_n, gs_dim in *. rewrite A, B, E, F. exact Sg. }
  induction H as [g|g o g' os l r Ec H IH|g o g' e os l r Ec H IH].
  - auto 10.
  - inversion Fo; subst. pose proof (Fr o g Sg ltac:(assumption)) as F. rewrite Ec in F. cbn [fst] in F.
    destruct (IH (St o g g' Sg F) ltac:(assumption)) as (A & B & C & D & E & G). split; [exact A|]. destruct F as (? & ? & ? & ? & ? & ?). unfold gs_n in *. repeat split; congruence.
  - inversion Fo; subst. pose proof (Fr o g Sg ltac:(assumption)) as F. rewrite Ec in F. cbn [fst] in F.
    destruct (IH (St o g g' Sg F) ltac:(assumption)) as (A & B & C & D & E & G). split; [exact A|]. destruct F as (? & ? & ? & ? & ? & ?). unfold gs_n in *. repeat split; congruence.
Qed.
(** Assignment from a function that throws at interval k: domain and lengths are the new ones, the values before
    interval k are those of the function and the rest are the old ones *)
Theorem C65_function (g : gspline R) dom n codom nglp tf V (f : fobj R) k e p pf (F : nat -> nat -> nat -> R) : colloc g dom n codom nglp tf V -> (2 <= nglp)%nat ->
  fo_codom f = codom -> (k <= n)%nat -> gl_points nglp = Ok p -> vec_is p nglp pf ->
  let tf' := fun i => tf i * ((snd (fo_dom f) - fst (fo_dom f)) / Rsum n tf) in
  let block := fun iv pts => vec_is pts nglp (fun i => (pf i + 1) * tf' iv / 2 + (fst (fo_dom f) + Rsum iv tf')) in
  (forall iv pts res, (iv < k)%nat -> block iv pts -> mrows res = nglp -> mcols res = codom -> exists m, fo_val f pts res = Ok m /\ mat_is m nglp codom (fun i cc => F iv cc i)) ->
  (forall pts res, (k < n)%nat -> block k pts -> mrows res = nglp -> mcols res = codom -> fo_val f pts res = Throw e) ->
  exists g', call (FromFunction false f) g = (g', if Nat.ltb k n then Throw e else Ok tt) /\
    colloc g' (fo_dom f) n codom nglp tf' (fun iv cc i => if Nat.ltb iv k then F iv cc i else V iv cc i).
Proof.
  intros C Hn Ef Hk Ep P tf' block Good Bad. cbn [call].
  assert (Vx : vec_is (b_params (gs_basis g)) nglp pf).
  { destruct C as (_ & _ & _ & _ & _ & _ & p' & bw & gr & Eb & Ep' & _). rewrite Eb. rewrite Ep in Ep'. injection Ep' as <-. exact P. }
  assert (Et : forall i, tf i * ((snd (fo_dom f) - fst (fo_dom f)) / nsum n tf) = tf' i) by (intros i; unfold tf'; now rewrite nsum_R).
  assert (El : forall iv, lacc (fst (fo_dom f)) (fun i => tf i * ((snd (fo_dom f) - fst (fo_dom f)) / nsum n tf)) iv = fst (fo_dom f) + Rsum iv tf').
  { intros iv. rewrite lacc_bp. unfold bp. apply (f_equal (fun z => fst (fo_dom f) + z)). apply Rsum_ext; intros; apply Et. }
  assert (Eb : forall iv pts, vec_is pts nglp (fun i => ((pf i + n1) * (tf iv * ((snd (fo_dom f) - fst (fo_dom f)) / nsum n tf)) / c2 +
      lacc (fst (fo_dom f)) (fun i => tf i * ((snd (fo_dom f) - fst (fo_dom f)) / nsum n tf)) iv)%num) -> block iv pts).
  { intros iv pts W. unfold block. eapply vec_is_ext; [exact W|]. intros i Hi. cbn beta. rewrite El. rewrite <- Et. unfold c2. rnum. reflexivity. }
  destruct (assign_fun_steps f g dom n codom nglp tf V k e pf F C Hn Ef Hk Vx) as (s & E & Cs).
  - intros iv pts res Hiv W. apply Good; auto.
  - intros pts res Hlt W. apply Bad; auto.
  - exists s. split; [exact E|]. replace tf' with (fun i => (tf i * ((snd (fo_dom f) - fst (fo_dom f)) / nsum n tf))%num); [exact Cs|].
    apply FunctionalExtensionality.functional_extensionality. intros i. apply Et.
Qed.
(** set_from_array: with the right number of elements and the callback throwing at element k likewise, node by
    node; with the wrong number only the domain is changed *)
Theorem C65_array (g : gspline R) dom n codom nglp tf V dom' (vals : list (outcome (vec R))) : colloc g dom n codom nglp tf V -> (2 <= nglp)%nat ->
  (forall k e (F : nat -> nat -> R), length vals = (nglp * n)%nat -> (k <= nglp * n)%nat ->
    (forall j, (j < k)%nat -> exists v, nth_error vals j = Some (Ok v) /\ vec_is v codom (F j)) -> ((k < nglp * n)%nat -> nth_error vals k = Some (Throw e)) ->
    exists g', call (FromArray dom' vals) g = (g', if Nat.ltb k (nglp * n) then Throw e else Ok tt) /\
      colloc g' dom' n codom nglp (fun i => tf i * ((snd dom' - fst dom') / Rsum n tf)) (fun iv cc i => if Nat.ltb (iv * nglp + i) k then F (iv * nglp + i)%nat cc else V iv cc i)) /\
  (length vals <> (nglp * n)%nat -> exists g', call (FromArray dom' vals) g = (g', Throw RuntimeError) /\ colloc g' dom' n codom nglp tf V).
Proof.
  intros C Hn. split.
  - intros k e F Hl Hk Good Bad. cbn [call]. destruct (array_steps g dom n codom nglp tf V dom' vals k e F C Hn Hl Hk Good Bad) as (s & E & Cs). exists s. split; [exact E|].
    replace (fun i => tf i * ((snd dom' - fst dom') / Rsum n tf)) with (fun i => (tf i * ((snd dom' - fst dom') / nsum n tf))%num); [exact Cs|].
    apply FunctionalExtensionality.functional_extensionality. intros i. now rewrite nsum_R.
  - intros Ne. cbn [call]. exact (array_count g dom n codom nglp tf V dom' vals C Hn Ne).
Qed.
(** REFUTED: "an operation that throws leaves the object as it was".  An empty array throws, and afterwards the
    domain of the object is [0,2] with lengths that sum to 1 *)
Theorem C65_array_refuted fresh : exists g g', gll_identity fresh true (0, 1) 2 1 = Ok g /\ gs_dom g = (0, 1) /\ vec_is (gs_tau g) 1 (fun _ => 1) /\
  call (FromArray (0, 2) []) g = (g', Throw RuntimeError) /\ gs_dom g' = (0, 2) /\ vec_is (gs_tau g') 1 (fun _ => 1).
Proof.
  destruct (ex_identity fresh 0 1) as (g & E & C). destruct (C65_array g _ _ _ _ _ _ (0, 2) [] C ltac:(lia)) as (_ & X). destruct X as (g' & E' & C'); [discriminate|].
  assert (W : forall h dom V, colloc h dom 1 1 2 (fun _ => 1 - 0) V -> vec_is (gs_tau h) 1 (fun _ => 1)).
  { intros h d V (_ & _ & Vt & _). eapply vec_is_ext; [exact Vt|]. intros; cbn beta. ring. }
  exists g, g'. split; [exact E|]. split; [apply C|]. split; [eapply W; exact C|]. split; [exact E'|]. split; [apply C'|]. eapply W; exact C'.
Qed.
(** a function that is 7 left of t = 1 and throws elsewhere *)
Definition half_function : fobj R :=
  mkfo (0, 2) 1 (fun pts res => x <- vread pts 0 ;; if Rlt_dec x 1 then Ok (mkmat (mrows res) (mcols res) (fun _ _ => Some 7)) else Throw RuntimeError).
(** REFUTED for assignment from a function: the identity on two intervals of [0,1] becomes an object over
    [0,2] with the values 7, 7 on the first interval and the old 1/2, 1 on the second *)
Theorem C65_function_refuted fresh : exists g g', gll_identity fresh true (0, 1) 2 2 = Ok g /\ call (FromFunction false half_function) g = (g', Throw RuntimeError) /\
  colloc g (0, 1) 2 1 2 (fun _ => 1 / 2) (fun iv _ i => (INR iv + INR i) / 2) /\
  colloc g' (0, 2) 2 1 2 (fun _ => 1) (fun iv _ i => if Nat.eqb iv 0 then 7 else (1 + INR i) / 2).
Proof.
  destruct (approx_ok fresh _ _ 2 2 ltac:(lia) (identity_pointwise true (0, 1))) as (g & E & _ & C). cbn [fo_of_fn fo_dom fo_codom identity_function fdom fcod fst snd] in C.
  assert (C0 : colloc g (0, 1) 2 1 2 (fun _ => 1 / 2) (fun iv _ i => (INR iv + INR i) / 2)).
  { replace (fun _ : nat => 1 / 2) with (fun _ : nat => n1 * ((1 - 0) / nofnat 2)%num).
    - eapply colloc_ext; [exact C|]. intros [|[|iv]] cc [|[|i]] A B D; try lia; cbn; unfold c2; rewrite !nofnat_INR; rnum; simpl INR; field.
    - apply FunctionalExtensionality.functional_extensionality. intros _. rewrite nofnat_INR. rnum. simpl INR. field. }
  destruct (gl_points_ok (T := R) 2 ltac:(lia)) as (p & Ep & P).
  assert (G0 : gpoint (T := R) 1 0 = -1) by (cbn; rnum; lra). assert (G1 : gpoint (T := R) 1 1 = 1) by (cbn; rnum; lra).
  destruct (C65_function g (0, 1) 2 1 2 _ _ half_function 1 RuntimeError p _ (fun _ _ _ => 7) C0 ltac:(lia) eq_refl ltac:(lia) Ep P) as (g' & E' & C').
  - intros [|iv] pts res Hiv [L B] Rr Rc; [|lia]. cbn [half_function fo_val]. unfold vread. rewrite L. cbn [Nat.ltb Nat.leb]. rewrite (B 0%nat) by lia. cbn [of_option bind].
    change (2 - 1)%nat with 1%nat. rewrite G0. cbn. rnum. destruct (Rlt_dec _ 1) as [_|Bad]; [|exfalso; apply Bad; lra].
    eexists. split; [reflexivity|]. split; [exact Rr|]. split; [exact Rc|]. reflexivity.
  - intros pts res _ [L B] Rr Rc. cbn [half_function fo_val]. unfold vread. rewrite L. cbn [Nat.ltb Nat.leb]. rewrite (B 0%nat) by lia. cbn [of_option bind].
    change (2 - 1)%nat with 1%nat. rewrite G0. cbn. rnum. destruct (Rlt_dec _ 1) as [Bad|_]; [exfalso; lra|]. reflexivity.
  - exists g, g'. split; [exact E|]. split; [exact E'|]. split; [exact C0|].
    replace (fun _ : nat => 1) with (fun i : nat => (fun _ : nat => 1 / 2) i * ((snd (fo_dom half_function) - fst (fo_dom half_function)) / Rsum 2 (fun _ => 1 / 2))).
    + eapply colloc_ext; [exact C'|]. intros [|[|iv]] cc i A B D; try lia; cbn; reflexivity.
    + apply FunctionalExtensionality.functional_extensionality. intros _. cbn. field.
Qed.
(** a session: an assignment that returns, an array of the wrong size *)
Example C65_case fresh : exists g r, gll_identity fresh true (0, 1) 2 1 = Ok g /\ sized g /\ Forall operand [Assign false false g; FromArray (5, 6) []] /\
  session g [Assign false false g; FromArray (5, 6) []] [None; Some RuntimeError] r /\ gs_dom r = (5, 6) /\ gs_n r = 1%nat.
Proof.
  destruct (ex_identity fresh 0 1) as (g & E & C). destruct (colloc_shape _ _ _ _ _ _ _ C ltac:(lia)) as (N & D & K).
  assert (Sg : sized g) by (unfold sized; rewrite N, D, K; apply C).
  destruct (assign_ok false g g _ _ _ _ _ _ _ _ _ C C ltac:(lia)) as (g1 & E1 & C1).
  pose proof (C65_agrees R _ (Assign false false g) g _ eq_refl) as A. rewrite E1 in A.
  destruct (call (Assign false false g) g) as [g1' [[]| |]] eqn:Ec; try discriminate. injection A as <-.
  destruct (C65_array g1 _ _ _ _ _ _ (5, 6) [] C1 ltac:(lia)) as (_ & X). destruct X as (r & E2 & C2); [discriminate|].
  exists g, r. split; [exact E|]. split; [exact Sg|]. split; [repeat constructor; exact Sg|]. split; [|split; [apply C2|apply (colloc_shape _ _ _ _ _ _ _ C2); lia]].
  eapply s_ok; [exact Ec|]. eapply s_throw; [exact E2|]. apply s_nil.
Qed.
