(** C81: ownership and value semantics of expression variables. *)
From Coquelicot Require Import Coquelicot.
From Coq Require Import List Arith Bool Lia Reals Lra.
From Verif Require Import Num Outcome FunModel FunSpec FunProofs FunProofs2 FunProofs3 FunProps.
From Verif Require Import HeapModel HeapSpec HeapProofs HeapProofs2 HeapProofs3 HeapProofs4.
Import ListNotations.
Local Open Scope R_scope.

(** A program that never reads a moved variable does, in memory, what the value operators of
    FunModel say: it throws the same exceptions, never meets a null pointer, and at the end
    every variable that was not moved holds its value, whatever was cloned, moved or shared in
    between; a moved variable owns nothing. *)
Theorem C81_value_semantics : forall (T : Type) (N : Num T) (p : list (stmt T)) r,
  steps [] p = Some r ->
  match r with
  | Ok vs => exists s, run start p = Ok s /\
      (forall x e, nth_error vs x = Some (Some e) -> look_var s x = Ok (fe e)) /\
      (forall x, nth_error vs x = Some None ->
         exists o, nth_error (st_vars s) x = Some o /\ forall q, In q (o_args o) -> q = None)
  | Throw e => run start p = Throw e
  | UB => False
  end.
Proof.
  intros T N p r E. pose proof (steps_ok p _ _ _ tracks_start E) as G. destruct r as [vs|e|]; cbn [agrees] in G; auto.
  destruct G as (s & R1 & Tr). exists s. split; [exact R1|]. split.
  - intros x e X. eapply tracks_look; eassumption.
  - intros x X. destruct (proj2 (proj2 Tr) _ X) as (o & K & Z). exists o. split; auto. intros [q|] I0; auto. exfalso.
    unfold null_obj, addresses in Z. assert (In q (flat_map (fun p => match p with Some a => [a] | None => [] end) (o_args o))).
    { apply in_flat_map. exists (Some q). split; auto. left. reflexivity. } rewrite Z in H. exact H.
Qed.

(** In every execution, moved-from variables and all, each node ever allocated is owned by
    exactly one pointer: nothing is leaked and nothing is freed twice. *)
Theorem C81_one_owner : forall (T : Type) (N : Num T) (p : list (stmt T)) s, run start p = Ok s ->
  forall a, count_occ Nat.eq_dec (owners s) a = if (a <? length (st_heap s))%nat then 1%nat else 0%nat.
Proof. intros T N. exact one_owner. Qed.

(** Nodes point to older nodes only, so that ownership has no cycle: cloning ends and
    destroying the variables reaches every node. *)
Theorem C81_no_cycles : forall (T : Type) (N : Num T) (p : list (stmt T)) s, run start p = Ok s ->
  forall a ty d c ps b, nth_error (st_heap s) a = Some (NExpr ty d c ps) -> In (Some b) ps -> (b < a)%nat.
Proof.
  intros T N p s E a ty d c ps b X I0. pose proof (run_tidy p _ _ tidy_start E) as (O & _). exact (O _ _ X b I0).
Qed.

(** Straight-line programs over variables mean the trees obtained by substitution. *)
Theorem C81_variables_are_trees : forall us ts s x p,
  trees [] us = Some ts -> run start (map lower us) = Ok s -> nth_error ts x = Some (Some p) ->
  exists e, build p = Ok e /\ look_var s x = Ok (fe e).
Proof.
  intros us ts s x p E R1 X. destruct (trees_ok us [] [] ts (Forall2_nil _) E) as (r & S1 & K).
  pose proof (steps_ok _ _ _ _ tracks_start S1) as G. destruct r as [vs|e|]; cbn [agrees] in G; [| congruence | destruct G].
  destruct G as (s' & R2 & Tr). assert (s' = s) by congruence. subst s'. specialize (K _ eq_refl).
  assert (P : tree_of ts x = Some p) by (unfold tree_of; rewrite X; reflexivity).
  destruct (shown_nth _ _ _ _ K P) as (e & V & B). exists e. split; auto. apply value_of_ok in V. eapply tracks_look; eassumption.
Qed.
(** ... and evaluate to their mathematical value. *)
Theorem C81_variables_evaluate : forall dbg us ts s x p pts,
  trees [] us = Some ts -> run start (map lower us) = Ok s -> nth_error ts x = Some (Some p) ->
  prog_ok p -> call_var dbg s x pts = Ok (map (psem p) pts).
Proof.
  intros dbg us ts s x p pts E R1 X W. destruct (C81_variables_are_trees _ _ _ _ _ E R1 X) as (e & B & L).
  unfold call_var. rewrite L. cbn [bind]. apply (program_value dbg p e pts W B).
Qed.

(** [x0 = sin; x1 = cos; x2 = x0 + std::move(x1); x2 += x2; x2 *= std::move(x0);]
    and a copy of x2 before the product. *)
Definition ex_vars : list ustmt :=
  [UNew D01 LSin; UNew D01 LCos; UDo (SBin BAdd (false, 0%nat) (true, 1%nat)); UDo (SIAdd 2%nat (false, 2%nat));
   UDo (SCopy (false, 2%nat)); UDo (SIMul 2%nat (true, 0%nat))].
Example C81_case : exists s, run start (map lower ex_vars) = Ok s /\
  forall dbg t, call_var dbg s 2%nat [t] = Ok [[sin t * (2 * (sin t + cos t))]] /\
                call_var dbg s 3%nat [t] = Ok [[2 * (sin t + cos t)]].
Proof.
  set (ts := [None; None; Some (PIMul (PIAddSelf (PAdd LR (PLeaf D01 LSin) (PLeaf D01 LCos))) (PLeaf D01 LSin));
             Some (PIAddSelf (PAdd LR (PLeaf D01 LSin) (PLeaf D01 LCos)))]).
  assert (E : trees [] ex_vars = Some ts) by reflexivity.
  assert (R1 : exists s, run start (map lower ex_vars) = Ok s).
  { cbn [ex_vars map lower run exec bind h_new alloc declare start st_heap st_vars length app leaf_fn fdom fcod].
    unfold h_add, declare, getv. cbn [st_vars st_heap app nth_error of_option bind snd].
    unfold shape, sum_throw. cbn [edom ecod o_dom o_cod]. rewrite same_domain_refl. eexists. reflexivity. }
  destruct R1 as (s & R1). exists s. split; [exact R1|]. intros dbg t. split.
  - rewrite (C81_variables_evaluate dbg ex_vars ts s 2 _ [t] E R1 eq_refl) by (simpl; tauto). reflexivity.
  - rewrite (C81_variables_evaluate dbg ex_vars ts s 3 _ [t] E R1 eq_refl) by (simpl; tauto). reflexivity.
Qed.
(** the moved variables of that program own nothing; six statements leave ten nodes *)
Example C81_case_owner : exists s, run start (map lower ex_vars) = Ok s /\
  map (@o_args R) (firstn 2 (st_vars s)) = [[]; [None]] /\ (10 <= length (st_heap s))%nat.
Proof.
  cbn [ex_vars map lower run exec bind h_new alloc declare start st_heap st_vars length app leaf_fn fdom fcod].
  unfold h_add, declare, getv. cbn [st_vars st_heap app nth_error of_option bind snd].
  unfold shape, sum_throw. cbn [edom ecod o_dom o_cod]. rewrite same_domain_refl. eexists. split; [reflexivity|]. split; [reflexivity|]. simpl. lia.
Qed.

(** Without the discipline: [x += std::move(x)] leaves the value as it was; the sum
    [std::move(x) + std::move(x)] is returned with a null pointer inside and evaluating it is
    undefined; [std::move(x) + x] dereferences a null pointer at once. *)
Theorem C81_moved_operand_refuted :
  let f := leaf_fn D01 (LConst [1]) in
  (exists s, run start [SNew f; SIAdd 0 (true, 0%nat)] = Ok s /\
     forall dbg, call_var dbg s 0 [0] = Ok [[1]]) /\
  (exists s, run start [SNew f; SBin BAdd (true, 0%nat) (true, 0%nat)] = Ok s /\
     forall dbg pts, call_var dbg s 1 pts = UB) /\
  run start [SNew f; SBin BAdd (true, 0%nat) (false, 0%nat)] = UB.
Proof.
  intros f. split; [|split].
  - eexists. split; [reflexivity|]. intros dbg. cbn. unfold eval_const. cbn. do 3 f_equal. lra.
  - cbn [run exec bind h_new alloc declare start st_heap st_vars length app].
    unfold h_add, declare, getv. cbn [st_vars st_heap app nth_error of_option bind snd].
    unfold shape, sum_throw. cbn [edom ecod o_dom o_cod]. rewrite same_domain_refl. eexists. split; [reflexivity|]. reflexivity.
  - cbn [run exec bind h_new alloc declare start st_heap st_vars length app].
    unfold h_add, declare, getv. cbn [st_vars st_heap app nth_error of_option bind snd].
    unfold shape, sum_throw. cbn [edom ecod o_dom o_cod]. rewrite same_domain_refl. reflexivity.
Qed.
