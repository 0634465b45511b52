(** Properties C01-C09: function expressions. *)
From Coquelicot Require Import Coquelicot.
From Coq Require Import List Reals Lra Lia Bool Arith.
From Verif Require Import Num Outcome FunModel FunSpec FunProofs FunProofs2 FunDeriv FunDeriv2
  FunConcat FunProofs3.
Import ListNotations.
Local Open Scope R_scope.

(** ** Concrete programs used as witnesses *)
Definition D01 : R * R := (0, 1).
(** ((2 + 3t) * (sin o exp)) + [4,5].[t.., ] : nested operators of every kind *)
Definition ex_vec : prog :=
  PMul LR (PLeaf D01 (LConst [4; 5])) (PAdd LL (PLeaf D01 (LPoly [2; 3])) (PLeaf D01 LSin)).
Definition ex_prog : prog :=
  PAdd RL (PScal true 7 ex_vec) (PComp RL ex_vec (PComp LL (PLeaf D01 LExp) (PLeaf D01 (LDil 2)))).
Definition ex_dot : prog := PSub LL (PDot RR ex_prog ex_vec) D01 LCos.

Ltac build_solve := repeat (
  cbn [build bind to_expression leaf_fn identity_function const_function];
  unfold add, mul, scal, compose, sub, sum_throw, compatibility_mul, comp_throw, neg, dot,
    flat_or_clone, comp_args, first_or_max, second_or_min, const_const_handler, const_nonconst_handler,
    nonconst_const_handler, nonconst_nonconst_handler;
  cbn [bind to_expression edom ecod ety eargs fdom fcod leaf_fn negb Nat.eqb Nat.ltb Nat.leb andb length
       ftype_eqb orb app fe const_function repeat];
  rewrite ?same_domain_refl); eauto.

Example ex_prog_builds : exists e, build ex_prog = Ok e.
Proof. unfold ex_prog, ex_vec. build_solve. Qed.
Example ex_dot_builds : exists e, build ex_dot = Ok e.
Proof. unfold ex_dot, ex_prog, ex_vec. build_solve. Qed.
Example ex_dot_ok : prog_ok ex_dot /\ prog_smooth ex_dot /\ dots_close ex_dot.
Proof.
  split; [simpl; intuition discriminate|]. split; [simpl; tauto|].
  cbn [dots_close ex_dot]. split; [simpl; tauto|]. split; [simpl; tauto|].
  intros e1 e2 E1 E2. apply same_domain_close.
  assert (X1 : edom e1 = D01).
  { revert E1. unfold ex_prog, ex_vec. build_solve. intros E1. inversion E1. reflexivity. }
  assert (X2 : edom e2 = D01).
  { revert E2. unfold ex_vec. build_solve. intros E2. inversion E2. reflexivity. }
  rewrite X1, X2. apply same_domain_refl.
Qed.

(** ** C01 *)
Theorem C01_expression_value : forall dbg p e pts, prog_ok p -> build p = Ok e ->
  call dbg (fe e) pts = Ok (map (psem p) pts) /\ ecod e = pcod p.
Proof. exact program_value. Qed.
(** with concatenations anywhere *)
Theorem C01_expression_value_concat : forall dbg e F pts, means e F ->
  call dbg (fe e) pts = Ok (map F pts).
Proof. exact means_value. Qed.
Example C01_nonvacuous : prog_ok ex_dot /\ exists e, build ex_dot = Ok e.
Proof. split; [apply ex_dot_ok|exact ex_dot_builds]. Qed.

(** ((- sin) += cos) *= (2 + 3t), then added to and multiplied with itself *)
Definition ex_inplace : prog :=
  PIMulSelf (PIAddSelf (PIMul (PIAdd (PNeg D01 LSin) (PLeaf D01 LCos)) (PLeaf D01 (LPoly [2; 3])))).
Example C01_inplace_case : prog_ok ex_inplace /\ prog_smooth ex_inplace /\ exists e, build ex_inplace = Ok e /\
  forall dbg t, call dbg (fe e) [t] = Ok [[(2 * ((2 + 3 * t) * (cos t - sin t))) ^ 2]].
Proof.
  assert (K : prog_ok ex_inplace) by (simpl; intuition discriminate). split; [exact K|]. split; [simpl; tauto|].
  assert (B : exists e, build ex_inplace = Ok e) by (eexists; reflexivity). destruct B as (e & B). exists e. split; [exact B|].
  intros dbg t. rewrite (proj1 (C01_expression_value dbg _ _ [t] K B)). cbn [map psem ex_inplace lsem zip_with vprod first_comp nth]. do 3 f_equal. unfold power_sum. simpl. ring.
Qed.

Lemma ex_concat_means : exists e1 e2 r F G,
  means e1 F /\ means e2 G /\ concat_ LL e1 e2 = Ok r /\ means r (piecewise (edom e1) (edom e2) F G) /\
  exists s, add LL r r = Ok s.
Proof.
  set (e1 := to_expression (leaf_fn (0, 1) LSin)). set (e2 := to_expression (leaf_fn (1, 2) LCos)).
  assert (M1 : means e1 (lsem LSin)) by (apply MLeaf; exact I).
  assert (M2 : means e2 (lsem LCos)) by (apply MLeaf; exact I).
  destruct (proj2 (concat_accepts LL e1 e2)) as [r Hr].
  { split; auto. simpl. rewrite Rminus_eq_0, Rabs_R0. lra. }
  assert (ED : edom r = (0, 2)).
  { unfold concat_ in Hr. apply bind_ok in Hr. destruct Hr as ([] & _ & Hr). inversion Hr. reflexivity. }
  exists e1, e2, r, (lsem LSin), (lsem LCos).
  repeat split; auto.
  - eapply MConcat; eauto; simpl; try lra; try reflexivity.
  - apply add_accepts. split; auto. apply same_domain_close, same_domain_refl.
Qed.
Example C01_concat_nonvacuous : exists s F, means s F /\ exists pieces, eargs s = pieces /\ length pieces = 2%nat.
Proof.
  destruct ex_concat_means as (e1 & e2 & r & F & G & M1 & M2 & Hr & Mr & s & Hs).
  exists s. eexists. split; [eapply MAdd; [exact Mr|exact Mr|exact Hs]|].
  exists (eargs s). split; auto. unfold add in Hs. apply bind_ok in Hs. destruct Hs as ([] & _ & Hs).
  inversion Hs. unfold const_const_handler, flat_or_clone.
  unfold concat_ in Hr. apply bind_ok in Hr. destruct Hr as ([] & _ & Hr). inversion Hr. reflexivity.
Qed.

(** ** C02 *)
Theorem C02_neg_plain : forall dbg d l pts, leaf_ok l ->
  call dbg (fe (neg (to_expression (leaf_fn d l)))) pts
  = Ok (map (fun t => map Ropp (lsem l t)) pts).
Proof. intros. apply means_value. apply MNeg; auto. Qed.
Example C02_nonvacuous : leaf_ok (LPoly [1; 2]).
Proof. discriminate. Qed.
(** what the code computes instead, for every arithmetic *)
Theorem C02_neg_uses_first_operand_only : forall (T : Type) (N : Num T) (e : expr T) g rest pts,
  eargs e = g :: rest ->
  call false (fe (neg e)) pts = (r <- eval false g pts (ecod e) ;; Ok (rows_neg r)).
Proof. intros. unfold call. eapply neg_first_operand. eassumption. Qed.
Theorem C02_neg_aborts_with_assertions : forall (T : Type) (N : Num T) (e : expr T) g h rest pts,
  eargs e = g :: h :: rest -> call true (fe (neg e)) pts = Throw AssertFail.
Proof. intros. unfold call. eapply neg_abort. eassumption. Qed.

Definition cst (x : R) : expr R := to_expression (leaf_fn D01 (LConst [x])).
Lemma cst_means x : means (cst x) (fun _ => [x]).
Proof. apply (MLeaf D01 (LConst [x])). discriminate. Qed.
Lemma cst_add x y : add LL (cst x) (cst y) = Ok (mkexpr SUM D01 1 [FConst D01 [x]; FConst D01 [y]]).
Proof. unfold add, sum_throw. simpl edom. rewrite same_domain_refl. reflexivity. Qed.
Lemma cst_sum_means x y : means (mkexpr SUM D01 1 [FConst D01 [x]; FConst D01 [y]]) (fun _ => [x + y]).
Proof. apply (MAdd LL _ _ _ _ _ (cst_means x) (cst_means y) (cst_add x y)). Qed.

(** -(1+2) evaluates to -1 in a release build and aborts in a debug build *)
Theorem C02_unary_minus_refuted :
  exists e F, means e F /\
   (exists t, call false (fe (neg e)) [t] = Ok [[-1]] /\ map Ropp (F t) = [-3]) /\
   forall pts, call true (fe (neg e)) pts = Throw AssertFail.
Proof.
  eexists. eexists. split; [apply (cst_sum_means 1 2)|]. split.
  - exists 0. split.
    + rewrite (C02_neg_uses_first_operand_only R _ _ (FConst D01 [1]) [FConst D01 [2]]) by reflexivity.
      simpl. apply (f_equal (fun x => Ok [[x]])). simpl. ring.
    + simpl. apply (f_equal (fun x => [x])). lra.
  - intros. eapply C02_neg_aborts_with_assertions. reflexivity.
Qed.
(** -(-f) evaluates to -f *)
Theorem C02_double_negation_refuted :
  exists e F, means e F /\ F 0 = [-1] /\
  forall dbg, call dbg (fe (neg e)) [0] = Ok [[-1]].
Proof.
  exists (neg (cst 1)), (fun _ => [-1]). split; [|split; auto].
  - replace (fun _ : R => [-1]) with (fun t => map Ropp (lsem (LConst [1]) t)).
    + apply MNeg. discriminate.
    + reflexivity.
  - intros dbg. destruct dbg; simpl; unfold eval_const; simpl; apply (f_equal (fun x => Ok [[x]])); simpl; ring.
Qed.

(** ** C03 *)
Theorem C03_sub_plain : forall dbg o e1 F d l r pts, means e1 F -> leaf_ok l ->
  sub o e1 (to_expression (leaf_fn d l)) = Ok r ->
  call dbg (fe r) pts = Ok (map (fun t => zip_with Rminus (F t) (lsem l t)) pts).
Proof. exact sub_plain_value. Qed.
Example C03_nonvacuous : means (mkexpr SUM D01 1 [FConst D01 [1]; FConst D01 [2]]) (fun _ => [1 + 2]) /\
  exists r, sub RL (mkexpr SUM D01 1 [FConst D01 [1]; FConst D01 [2]])
                (to_expression (leaf_fn D01 LSin)) = Ok r.
Proof.
  split; [apply cst_sum_means|]. apply sub_accepts. split; auto.
  apply same_domain_close, same_domain_refl.
Qed.
(** 0 - (1+2) evaluates to -1 *)
Theorem C03_binary_minus_refuted :
  exists e1 e2 F G r, means e1 F /\ means e2 G /\ sub LL e1 e2 = Ok r /\
  call false (fe r) [0] = Ok [[-1]] /\ zip_with Rminus (F 0) (G 0) = [-3].
Proof.
  exists (cst 0), (mkexpr SUM D01 1 [FConst D01 [1]; FConst D01 [2]]), (fun _ => [0]), (fun _ => [1 + 2]).
  eexists. split; [apply cst_means|]. split; [apply cst_sum_means|]. split.
  - unfold sub, add, sum_throw. simpl edom. rewrite same_domain_refl. reflexivity.
  - split.
    + simpl. unfold eval_const. simpl. apply (f_equal (fun x => Ok [[x]])). simpl. ring.
    + simpl. apply (f_equal (fun x => [x])). ring.
Qed.

(** ** C04 *)
(** [k = 1 \/ py_inside p]: for classes written in Python see C76 *)
Theorem C04_derivative : forall dbg p e k, prog_ok p -> prog_smooth p -> dots_close p ->
  k = 1%nat \/ py_inside p -> build p = Ok e ->
  exists f', deriv dbg (fe e) k = Ok f' /\ fcod f' = pcod p /\
  exists G, (forall pts, call dbg f' pts = Ok (map G pts)) /\
            (forall t, length (G t) = pcod p) /\
            forall j, nth_derivative k (fun t => nth j (psem p t) 0) (fun t => nth j (G t) 0).
Proof. exact program_derivative. Qed.
(** the same in terms of Coquelicot's iterated derivative *)
Theorem C04_derivative_n : forall dbg p e k, prog_ok p -> prog_smooth p -> dots_close p ->
  k = 1%nat \/ py_inside p -> build p = Ok e ->
  exists f' G, deriv dbg (fe e) k = Ok f' /\
   (forall pts, call dbg f' pts = Ok (map G pts)) /\ (forall t, length (G t) = pcod p) /\
   forall j t, (j < pcod p)%nat -> is_derive_n (fun u => nth j (psem p u) 0) k t (nth j (G t) 0).
Proof.
  intros dbg p e k HP HS HD HY E. destruct (program_derivative dbg p e k HP HS HD HY E) as (f' & Ef & _ & G & HG & HL & HN).
  exists f', G. repeat split; auto. intros j t _. apply (nth_derivative_is_derive_n k _ _ (HN j)).
Qed.
Example C04_nonvacuous : prog_ok ex_dot /\ prog_smooth ex_dot /\ dots_close ex_dot /\ py_inside ex_dot /\ exists e, build ex_dot = Ok e.
Proof. split; [apply ex_dot_ok|]. split; [apply ex_dot_ok|]. split; [apply ex_dot_ok|]. split; [simpl; tauto|exact ex_dot_builds]. Qed.

(** ** C05 *)
Theorem C05_sum_overloads : forall (T : Type) (N : Num T) o (e1 e2 : expr T),
  add o e1 e2 = add LL e1 e2 /\ sub o e1 e2 = sub LL e1 e2.
Proof. intros. split; [apply add_overload|apply sub_overload]. Qed.
Theorem C05_product_overloads : forall (T : Type) (N : Num T) o (e1 e2 r r' : expr T),
  mul o e1 e2 = Ok r -> mul LL e1 e2 = Ok r' ->
  ety r = ety r' /\ ecod r = ecod r' /\ eargs r = eargs r' /\
  (edom r = edom e1 \/ edom r = edom e2) /\ (edom r' = edom e1 \/ edom r' = edom e2).
Proof. intros. eapply mul_overload; eassumption. Qed.
Theorem C05_product_overloads_throw : forall (T : Type) (N : Num T) o (e1 e2 : expr T) x,
  mul o e1 e2 = Throw x <-> mul LL e1 e2 = Throw x.
Proof. intros. apply mul_overload_throw. Qed.
Theorem C05_compose_overloads : forall (T : Type) (N : Num T) o (e1 e2 : expr T),
  o <> RL \/ ety e1 <> COMPOSITION -> compose o e1 e2 = compose LL e1 e2.
Proof.
  intros T N o e1 e2 [Ho|Ht]; [apply compose_overload; auto|].
  destruct o; try (apply compose_overload; discriminate). apply compose_overload_RL; auto.
Qed.
Theorem C05_concat_overloads : forall (T : Type) (N : Num T) o (e1 e2 : expr T),
  o = LR \/ ety e1 <> CONCATENATION -> concat_ o e1 e2 = concat_ LL e1 e2.
Proof. intros T N o e1 e2 [->|Ht]; [reflexivity|]. apply concat_overload; auto. Qed.
Example C05_nonvacuous : exists r r', mul RR (cst 1) (cst 2) = Ok r /\ mul LL (cst 1) (cst 2) = Ok r'.
Proof.
  destruct (proj2 (mul_accepts RR (cst 1) (cst 2))) as [r Hr].
  { split; [apply same_domain_close, same_domain_refl|simpl; lia]. }
  destruct (proj2 (mul_accepts LL (cst 1) (cst 2))) as [r' Hr'].
  { split; [apply same_domain_close, same_domain_refl|simpl; lia]. }
  eauto.
Qed.
Definition piece (a b : R) : expr R := to_expression (leaf_fn (a, b) LSin).
(** a moved composition keeps its old domain: (sin o cos) composed with a
    function on [5,6] reports [0,1] *)
Theorem C05_compose_domain_refuted :
  exists e1 e2 r r', compose LL (piece 0 1) (piece 0 1) = Ok e1 /\ e2 = piece 5 6 /\
  compose RL e1 e2 = Ok r /\ compose LL e1 e2 = Ok r' /\ edom r = (0, 1) /\ edom r' = (5, 6).
Proof.
  eexists. eexists. eexists. eexists. split; [reflexivity|]. split; [reflexivity|].
  split; [reflexivity|]. split; [reflexivity|]. split; reflexivity.
Qed.
Lemma concat_piece o (a b c : R) e : ety e <> CONCATENATION \/ o = LL -> edom e = (a, b) -> ecod e = 1%nat ->
  concat_ o e (piece b c) = Ok (mkexpr CONCATENATION (a, c) 1 (concat_args e ++ [fe (piece b c)])).
Proof.
  intros Ht ED EC. unfold concat_, concat_throw. rewrite ED, EC. cbn [fst snd edom piece to_expression fdom leaf_fn ecod fcod Nat.eqb negb].
  simpl nabs. simpl nsub. rewrite Rminus_eq_0, Rabs_R0.
  assert (X : (0 >? dom_tol)%num = false).
  { unfold dom_tol. simpl. apply Rltb_false. lra. }
  rewrite X. cbn [bind]. destruct o; auto; destruct (ety e) eqn:TE; simpl; auto; destruct Ht; congruence.
Qed.
(** f.concat(g).concat(h): the second call runs on an rvalue concatenation and
    reports [0,2] instead of [0,3]; a third .concat(k) with the abutting piece
    [3,4] is then rejected, although the const& overloads accept it. *)
Theorem C05_concat_chain_refuted :
  exists fg fgh fgh' r, concat_ LL (piece 0 1) (piece 1 2) = Ok fg /\
  concat_ RL fg (piece 2 3) = Ok fgh /\ edom fgh = (0, 2) /\
  concat_ RL fgh (piece 3 4) = Throw InvalidArgument /\
  concat_ LL fg (piece 2 3) = Ok fgh' /\ edom fgh' = (0, 3) /\
  concat_ LL fgh' (piece 3 4) = Ok r.
Proof.
  assert (Y : (Rabs (2 - 2) >? dom_tol)%num = false).
  { unfold dom_tol. simpl. rewrite Rminus_eq_0, Rabs_R0. apply Rltb_false. lra. }
  eexists. eexists. eexists. eexists. split.
  { eapply concat_piece; [right; reflexivity|reflexivity|reflexivity]. }
  split.
  { unfold concat_, concat_throw. simpl. simpl in Y. rewrite Y. reflexivity. }
  split; [reflexivity|]. split.
  { unfold concat_, concat_throw. simpl.
    assert (X : Rltb (1 / 1000000000) (Rabs (2 - 3)) = true).
    { apply Rltb_true. rewrite Rabs_minus_sym, Rabs_pos_eq; lra. }
    rewrite X. reflexivity. }
  split.
  { eapply concat_piece; [right; reflexivity|reflexivity|reflexivity]. }
  split; [reflexivity|]. eapply concat_piece; [right; reflexivity|reflexivity|reflexivity].
Qed.

(** ** C06 *)
Theorem C06_sum_checks : forall o e1 e2,
  ((exists r, add o e1 e2 = Ok r) <-> close (edom e1) (edom e2) /\ ecod e1 = ecod e2) /\
  (add o e1 e2 = Throw InvalidArgument <-> ~ (close (edom e1) (edom e2) /\ ecod e1 = ecod e2)).
Proof. intros. split; [apply add_accepts|apply add_rejects]. Qed.
Theorem C06_difference_checks : forall o e1 e2,
  ((exists r, sub o e1 e2 = Ok r) <-> close (edom e1) (edom e2) /\ ecod e1 = ecod e2) /\
  (sub o e1 e2 = Throw InvalidArgument <-> ~ (close (edom e1) (edom e2) /\ ecod e1 = ecod e2)).
Proof. intros. split; [apply sub_accepts|apply sub_rejects]. Qed.
Theorem C06_product_checks : forall o e1 e2,
  ((exists r, mul o e1 e2 = Ok r) <->
     close (edom e1) (edom e2) /\ (ecod e1 <= 1 \/ ecod e2 <= 1)%nat) /\
  (mul o e1 e2 = Throw InvalidArgument <->
     ~ (close (edom e1) (edom e2) /\ (ecod e1 <= 1 \/ ecod e2 <= 1)%nat)).
Proof. intros. split; [apply mul_accepts|apply mul_rejects]. Qed.
Theorem C06_compose_checks : forall o (e1 e2 : expr R),
  ((exists r, compose o e1 e2 = Ok r) <-> (ecod e2 <= 1)%nat) /\
  (compose o e1 e2 = Throw InvalidArgument <-> (1 < ecod e2)%nat).
Proof. intros. split; [apply compose_accepts|apply compose_rejects]. Qed.
Theorem C06_concat_checks : forall o (e1 e2 : expr R),
  ((exists r, concat_ o e1 e2 = Ok r) <->
     ecod e1 = ecod e2 /\ Rabs (snd (edom e1) - fst (edom e2)) <= 1 / 1000000000) /\
  (concat_ o e1 e2 = Throw InvalidArgument <->
     ~ (ecod e1 = ecod e2 /\ Rabs (snd (edom e1) - fst (edom e2)) <= 1 / 1000000000)).
Proof. intros. split; [apply concat_accepts|apply concat_rejects]. Qed.
(** += and *= accept operands that + and * reject; evaluating the result is
    then out of bounds *)
Theorem C06_inplace_unchecked_refuted :
  exists e1 e2 F G, means e1 F /\ means e2 G /\
  add LL e1 e2 = Throw InvalidArgument /\ (forall dbg t, call dbg (fe (iadd e1 e2)) [t] = UB) /\
  exists e3 H, means e3 H /\ mul LL e3 e2 = Throw InvalidArgument /\
  forall dbg t, call dbg (fe (imul e3 e2)) [t] = UB.
Proof.
  exists (cst 1), (to_expression (leaf_fn D01 (LConst [1; 2]))), (fun _ => [1]), (fun _ => [1; 2]).
  split; [apply cst_means|].
  assert (M : means (to_expression (leaf_fn D01 (LConst [1; 2]))) (fun _ => [1; 2])).
  { apply (MLeaf D01 (LConst [1; 2])). discriminate. }
  split; [exact M|].
  split; [apply add_rejects; simpl; intros [_ X]; discriminate|].
  split; [destruct dbg; reflexivity|].
  exists (to_expression (leaf_fn D01 (LConst [1; 2]))), (fun _ => [1; 2]).
  split; [exact M|]. split; [apply mul_rejects; simpl; intros [_ X]; lia|].
  destruct dbg; reflexivity.
Qed.

(** ** C07 *)
(** [piecewise] (FunSpec) is the documented behaviour: pieces on half-open
    intervals, clamped to the end values outside; it is total in t. *)
Theorem C07_concat_value : forall dbg o e1 e2 r F G pts, means e1 F -> means e2 G ->
  concat_ o e1 e2 = Ok r -> snd (edom e1) = fst (edom e2) ->
  fst (edom e1) < snd (edom e1) -> fst (edom e2) < snd (edom e2) ->
  edom r = (fst (edom e1), snd (edom e2)) ->
  call dbg (fe r) pts = Ok (map (piecewise (edom e1) (edom e2) F G) pts).
Proof. intros. apply means_value. eapply MConcat; eassumption. Qed.
Example C07_nonvacuous : exists r, concat_ LL (piece 0 1) (piece 1 2) = Ok r /\ edom r = (0, 2) /\
  means (piece 0 1) (lsem LSin) /\ means (piece 1 2) (lsem LSin).
Proof.
  eexists. split; [eapply concat_piece; [right; reflexivity|reflexivity|reflexivity]|]. split; [reflexivity|].
  split; apply MLeaf; exact I.
Qed.
Theorem C07_gap_throws : forall dbg e1 e2 F G r t, means e1 F -> means e2 G ->
  ety e1 <> CONCATENATION -> ety e2 <> CONCATENATION -> concat_ LL e1 e2 = Ok r ->
  fst (edom e1) < t -> snd (edom e1) < t -> t < fst (edom e2) -> t < snd (edom e2) ->
  call dbg (fe r) [t] = Throw InvalidArgument.
Proof. exact concat_gap. Qed.
(** there is an accepted concatenation and a point strictly inside its reported
    domain where evaluation throws *)
Theorem C07_totality_refuted : exists e1 e2 r t, concat_ LL e1 e2 = Ok r /\
  fst (edom r) < t < snd (edom r) /\ forall dbg, call dbg (fe r) [t] = Throw InvalidArgument.
Proof.
  set (g := 1 / 2000000000). assert (G : 0 < g < 1 / 1000000000) by (unfold g; lra).
  destruct (proj2 (concat_accepts LL (piece 0 1) (piece (1 + g) 2))) as [r Hr].
  { split; auto. simpl. rewrite Rabs_minus_sym, Rabs_pos_eq; lra. }
  exists (piece 0 1), (piece (1 + g) 2), r, (1 + g / 2). split; auto. split.
  - unfold concat_ in Hr. apply bind_ok in Hr. destruct Hr as ([] & _ & Hr). inversion Hr. simpl. lra.
  - intros dbg. eapply (concat_gap dbg (piece 0 1) (piece (1 + g) 2) (lsem LSin) (lsem LSin)); eauto;
      try (apply MLeaf; exact I); try discriminate; simpl; lra.
Qed.

(** ** C08 *)
Theorem C08_polynomial_value : forall dbg d c pts, c <> [] ->
  call dbg (FPoly d c) pts = Ok (map (fun t => [power_sum c t]) pts).
Proof. intros. apply eval_poly_ok. auto. Qed.
Theorem C08_polynomial_derivative : forall dbg d c k, c <> [] ->
  exists c', deriv dbg (FPoly d c) k = Ok (FPoly d c') /\ c' <> [] /\
  (forall t, is_derive_n (power_sum c) k t (power_sum c' t)) /\
  ((length c <= k)%nat -> c' = [0]).
Proof.
  intros dbg d c k Hc. destruct (poly_loop_ok k c Hc) as [H1 H2].
  exists (poly_deriv_loop k c). split; [|split; [auto|split]].
  - simpl. unfold deriv_poly. destruct k as [|k]; [reflexivity|].
    destruct (Nat.eqb_spec (length c) (S k)) as [E|E].
    + rewrite poly_loop_exhaust; auto. lia.
    + destruct c; [congruence|reflexivity].
  - apply nth_derivative_is_derive_n. auto.
  - intros. apply poly_loop_exhaust; auto.
Qed.
(** the power sum really is sum c_i t^i *)
Lemma power_sum_sum c t : power_sum c t = sum_f_R0 (fun i => nth i c 0 * t ^ i) (length c).
Proof.
  induction c as [|a c IH]; [simpl; ring|]. rewrite decomp_sum by (simpl; lia).
  simpl power_sum. rewrite IH. simpl. rewrite scal_sum. f_equal; [ring|]. apply sum_eq. intros; ring.
Qed.
Theorem C08_power_sum_meaning : forall c t,
  power_sum c t = sum_f_R0 (fun i => nth i c 0 * t ^ i) (length c).
Proof. exact power_sum_sum. Qed.
Theorem C08_empty_is_ub : forall (T : Type) (N : Num T) dbg d t k,
  call dbg (FPoly d []) [t] = UB /\ deriv dbg (FPoly d ([] : list T)) (S k) = UB.
Proof. intros. split; reflexivity. Qed.
Example C08_nonvacuous : exists c', deriv true (FPoly D01 [5; 4; 3]) 1 = Ok (FPoly D01 c') /\
  power_sum c' 2 = 16.
Proof. eexists. split; [reflexivity|]. simpl. unfold nofnat. simpl. ring. Qed.

(** ** C09 *)
Theorem C09_dot_value : forall dbg o e1 e2 F G pts, means e1 F -> means e2 G -> ecod e1 = ecod e2 ->
  call dbg (dot o (fe e1) (fe e2)) pts = Ok (map (fun t => [inner (F t) (G t)]) pts).
Proof.
  intros dbg o e1 e2 F G pts M1 M2 C. pose proof (means_value dbg _ _ pts (MDot o _ _ _ _ M1 M2 C)) as V.
  unfold call in V. simpl in V. rewrite andb_false_r in V. exact V.
Qed.
Theorem C09_dot_derivative : forall dbg o p q e1 e2 k,
  prog_ok p -> prog_ok q -> prog_smooth p -> prog_smooth q -> dots_close p -> dots_close q ->
  pcod p = pcod q -> build p = Ok e1 -> build q = Ok e2 -> close (edom e1) (edom e2) ->
  exists f' G, deriv dbg (fe (to_expression (dot o (fe e1) (fe e2)))) k = Ok f' /\
  (forall pts, call dbg f' pts = Ok (map (fun t => [G t]) pts)) /\
  forall t, is_derive_n (fun u => inner (psem p u) (psem q u)) k t (G t).
Proof.
  intros dbg o p q e1 e2 k P1 P2 S1 S2 D1 D2 C B1 B2 CL.
  destruct (program_derivative dbg (PDot o p q) (to_expression (dot o (fe e1) (fe e2))) k)
    as (f' & Ef & _ & G & HG & HL & HN).
  - simpl; auto.
  - simpl; auto.
  - simpl. split; auto. split; auto. intros x1 x2 X1 X2. congruence.
  - right. exact I.
  - cbn [build]. rewrite B1. cbn [bind]. rewrite B2. reflexivity.
  - exists f', (fun t => nth 0 (G t) 0). split; auto. split.
    + intros pts. rewrite HG. f_equal. apply map_ext. intros t. specialize (HL t). simpl in HL.
      destruct (G t) as [|x [|y l]]; simpl in *; try discriminate. reflexivity.
    + apply (nth_derivative_is_derive_n k _ _ (HN 0%nat)).
Qed.
Example C09_nonvacuous : exists e1 e2, build ex_vec = Ok e1 /\ build ex_prog = Ok e2 /\
  pcod ex_vec = pcod ex_prog /\ pcod ex_vec = 2%nat /\ close (edom e1) (edom e2).
Proof.
  destruct ex_prog_builds as [e2 E2].
  assert (X : exists e, build ex_vec = Ok e) by (unfold ex_vec; build_solve). destruct X as [e1 E1].
  exists e1, e2. repeat split; auto;
  destruct ex_dot_ok as (_ & _ & _ & _ & K); destruct (K _ _ E2 E1) as [K1 K2];
  rewrite Rabs_minus_sym; auto.
Qed.
(** derivate throws when the two domains differ by 1e-9 or more, although
    construction and evaluation accept them *)
Theorem C09_domain_mismatch_throws : forall dbg e1 e2 F G k, means e1 F -> means e2 G ->
  (exists d1, deriv1 dbg (fe e1) = Ok d1) -> (exists d2, deriv1 dbg (fe e2) = Ok d2) ->
  ~ close (edom e1) (edom e2) ->
  deriv dbg (dot LL (fe e1) (fe e2)) (S k) = Throw InvalidArgument.
Proof. exact dot_deriv_throws. Qed.
Example C09_mismatch_nonvacuous : means (piece 0 1) (lsem LSin) /\ means (piece 0 2) (lsem LSin) /\
  (exists d1, deriv1 true (fe (piece 0 1)) = Ok d1) /\ ~ close (edom (piece 0 1)) (edom (piece 0 2)).
Proof.
  split; [apply MLeaf; exact I|]. split; [apply MLeaf; exact I|]. split; [eexists; reflexivity|].
  unfold close; simpl. intros [_ X]. rewrite Rabs_minus_sym, Rabs_pos_eq in X; lra.
Qed.
