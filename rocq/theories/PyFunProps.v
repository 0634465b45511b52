(** Property C76: function classes written in Python.

    The trampoline that makes a Python class a FunctionBase calls the Python
    method [deriv_impl] without the order of the derivative. *)
From Coquelicot Require Import Coquelicot.
From Coq Require Import List Arith Bool Reals Lia Lra.
From Verif Require Import Num Outcome LinAlg RSum FunModel FunSpec FunProofs FunProofs2 FunDeriv FunDeriv2 FunProps
  GSplineModel GLModel GLSpec GLProofs GLProps GLLModel GLLProofs QuadSpec LobattoRoots IntegralModel IntegralProofs IntegralProps.
Import ListNotations.
Local Open Scope R_scope.

(** First derivatives are right, wherever the Python classes occur. *)
Theorem C76_first_derivative : forall dbg p e, prog_ok p -> prog_smooth p -> dots_close p -> build p = Ok e ->
  exists f' G, deriv dbg (fe e) 1 = Ok f' /\ (forall pts, call dbg f' pts = Ok (map G pts)) /\
  (forall t, length (G t) = pcod p) /\
  forall j t, (j < pcod p)%nat -> is_derive (fun u => nth j (psem p u) 0) t (nth j (G t) 0).
Proof.
  intros dbg p e HP HS HD HB. destruct (program_derivative dbg p e 1 HP HS HD (or_introl eq_refl) HB) as (f' & Ef & _ & G & HG & HL & HN).
  exists f', G. split; [exact Ef|]. split; [exact HG|]. split; [exact HL|]. intros j t _.
  destruct (HN j) as (F & E & D). eapply is_derive_ext; [|exact (D t)]. intros u. symmetry. apply E.
Qed.

(** Higher derivatives are right when taken one at a time. *)
Theorem C76_repeated_derivative : forall dbg p e k, prog_ok p -> prog_smooth p -> dots_close p -> build p = Ok e ->
  exists f' G, deriv_times dbg k (fe e) = Ok f' /\ (forall pts, call dbg f' pts = Ok (map G pts)) /\
  (forall t, length (G t) = pcod p) /\
  forall j t, (j < pcod p)%nat -> is_derive_n (fun u => nth j (psem p u) 0) k t (nth j (G t) 0).
Proof.
  intros dbg p e k HP HS HD HB. destruct (program_derivative_times dbg p e k HP HS HD HB) as (f' & Ef & _ & G & HG & HL & HN).
  exists f', G. split; [exact Ef|]. split; [exact HG|]. split; [exact HL|]. intros j t _. apply (nth_derivative_is_derive_n k _ _ (HN j)).
Qed.

(** Asked for its derivative of any order, a Python class gives the first. *)
Theorem C76_order_ignored : forall dbg d c s k, leaf_ok (LPy c s) ->
  exists f', deriv dbg (fe (to_expression (leaf_fn d (LPy c s)))) k = Ok f' /\
  forall pts, call dbg f' pts = Ok (map (s 1%nat) pts).
Proof.
  intros dbg d c s k (Hc & HL). eexists. split.
  - cbn [fe to_expression leaf_fn ety edom ecod eargs deriv length Nat.eqb negb]. rewrite andb_false_r. cbn [bind]. reflexivity.
  - intros pts. unfold call. cbn. rewrite andb_false_r, Nat.eqb_refl. reflexivity.
Qed.

(** t -> t^2, its derivatives 2 t, 2, 0, ... *)
Definition square_chain (k : nat) (t : R) : list R :=
  [match k with O => t * t | S O => 2 * t | S (S O) => 2 | _ => 0 end].
Lemma square_ok : leaf_ok (LPy 1 square_chain).
Proof. split; [lia|reflexivity]. Qed.
Lemma square_smooth : leaf_smooth (LPy 1 square_chain).
Proof.
  intros k j t Hj. destruct j; [|lia]. destruct k as [|[|[|k]]]; cbn [nth square_chain]; auto_derive; auto; ring.
Qed.
Definition ex_square : prog := PLeaf D01 (LPy 1 square_chain).

(** the second derivative of t^2 is 2; at 3 the library answers 6 *)
Theorem C76_order_refuted : exists p e f', prog_ok p /\ prog_smooth p /\ dots_close p /\ build p = Ok e /\
  deriv false (fe e) 2 = Ok f' /\ call false f' [3] = Ok [[6]] /\
  is_derive_n (fun u => nth 0 (psem p u) 0) 2 3 2.
Proof.
  destruct (C76_order_ignored false D01 1 square_chain 2 square_ok) as (f' & E & V).
  exists ex_square, (to_expression (leaf_fn D01 (LPy 1 square_chain))), f'.
  split; [exact square_ok|]. split; [exact square_smooth|]. split; [exact I|]. split; [reflexivity|].
  split; [exact E|]. split.
  - rewrite V. cbn. apply (f_equal (fun x => Ok [[x]])). ring.
  - apply (is_derive_ext (fun u => 2 * u)).
    + intros t. symmetry. apply is_derive_unique. cbn. auto_derive; auto. ring.
    + auto_derive; auto. ring.
Qed.

(** a product with a library function: the second derivative is right *)
Definition ex_product : prog := PMul FunModel.LL ex_square (PLeaf D01 LSin).
Example C76_product_case : prog_ok ex_product /\ prog_smooth ex_product /\ dots_close ex_product /\ py_inside ex_product /\
  exists e f' G, build ex_product = Ok e /\ deriv true (fe e) 2 = Ok f' /\ (forall pts, call true f' pts = Ok (map G pts)) /\
  forall t, is_derive_n (fun u => nth 0 (psem ex_product u) 0) 2 t (nth 0 (G t) 0).
Proof.
  assert (P : prog_ok ex_product) by (split; [exact square_ok|exact I]).
  assert (Q : prog_smooth ex_product) by (split; [exact square_smooth|exact I]).
  assert (D : dots_close ex_product) by (split; exact I).
  assert (B : exists e, build ex_product = Ok e) by (unfold ex_product, ex_square; build_solve).
  split; [exact P|]. split; [exact Q|]. split; [exact D|]. split; [exact I|].
  destruct B as (e & B). exists e. destruct (C04_derivative_n true ex_product e 2 P Q D (or_intror I) B) as (f' & G & E & V & _ & H).
  exists f', G. split; [exact B|]. split; [exact E|]. split; [exact V|]. intros t. apply H. cbn. lia.
Qed.

(** So the functions that integrate squares of derivatives, the L2 norm among
    them, integrate the square of the first derivative for every order. *)
Theorem C76_norm : forall dbg d c s nglp n pts w x wf, leaf_ok (LPy c s) ->
  gl_points_weights nglp = Ok (pts, w) -> vec_is pts nglp x -> vec_is w nglp wf ->
  l2_norm dbg (leaf_fn d (LPy c s)) nglp n =
  Ok (quad nglp n x wf (fst d) (snd d) (fun t => inner (s 1%nat t) (s 1%nat t))).
Proof.
  intros dbg d c s nglp n pts w x wf (Hc & HL) E X W.
  change (l2_norm dbg (leaf_fn d (LPy c s)) nglp n) with (sobolev_semi_inner_product dbg (FPy d c s 0) (FPy d c s 0) (unit_terms 0) nglp n).
  assert (K : forall k, derives dbg (FPy d c s 0) k (s 1%nat)).
  { intros k. exists (FPy d c s 1). split; [reflexivity|]. split; [reflexivity|].
    apply (computes_den dbg (FPy d c s 1)). exact HL. }
  rewrite (semi_ok dbg (FPy d c s 0) (FPy d c s 0) (fun _ => s 1%nat) (fun _ => s 1%nat) (unit_terms 0) nglp n pts x w wf); auto.
  f_equal. cbn [fdom]. apply quad_ext. intros t. unfold unit_terms. cbn [Nat.add seq map]. unfold total, term_fun. cbn. ring.
Qed.
(** The L2 norm of the constant 1 over [0, 1] comes out as 0. *)
Definition one_chain (k : nat) (_ : R) : list R := [match k with O => 1 | _ => 0 end].
Theorem C76_norm_refuted : forall dbg n, (1 <= n)%nat -> exists d c s, leaf_ok (LPy c s) /\ leaf_smooth (LPy c s) /\
  l2_norm dbg (leaf_fn d (LPy c s)) 3 n = Ok 0 /\
  is_RInt (fun t => nth 0 (lsem (LPy c s) t) 0 ^ 2) (fst d) (snd d) 1.
Proof.
  intros dbg n Hn. exists (0, 1), 1%nat, one_chain.
  assert (K : leaf_ok (LPy 1 one_chain)) by (split; [lia|reflexivity]).
  split; [exact K|]. split.
  { intros k j t Hj. destruct j; [|lia]. destruct k as [|k]; cbn [nth one_chain]; auto_derive; auto. }
  destruct C39_exact_small as (p2 & w2 & p3 & w3 & _ & _ & _ & E & X & W). split.
  - rewrite (C76_norm dbg (0, 1) 1 one_chain 3 n p3 w3 _ _ K E X W). f_equal. cbn [fst snd].
    etransitivity; [apply quad_ext with (G := fun _ => 0); intros t; cbn; ring|].
    etransitivity; [apply quad_const; auto; cbn; lra|]. ring.
  - cbn. eapply i_value; [|exact (is_RInt_const 0 1 (1 * (1 * 1)))]. change (1 = (1 - 0) * (1 * (1 * 1))). ring.
Qed.
