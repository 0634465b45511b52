(** C87: bases of the library used from Python evaluate to the functions they stand for. *)
From Coquelicot Require Import Coquelicot.
From Coq Require Import List Arith Lia Bool ZArith Reals Lra.
From Verif Require Import Num Outcome LinAlg RSum RMat RDeriv RPoly LegendreSpec LegendreModel LegendreMath LegendreProofs LagrangeSpec LagrangeModel LagrangeMath LagrangeProofs
  Basis0101Spec Basis0101Math Basis0101Model Basis0101Proofs BasisModel SplineSpec BasisFn BasisProofs BasisProofs2 BasisProofs3 ToolsModel GSplineModel InterpModel InterpSpec InterpProofs InterpProofs2 InterpProofs3
  InterpProofs4 SobolevModel PyBasisModel PyBasisSpec.
Import ListNotations.
Local Open Scope R_scope.

(** time at window coordinate s of the interval [t0, t0 + tau] *)
Definition at_window (t0 tau s : R) : R := t0 + tau * (s + 1) / 2.
Lemma window_at t0 tau s : tau <> 0 -> window t0 tau (at_window t0 tau s) = s.
Proof. intros H. unfold window, at_window. field. exact H. Qed.
Theorem C87_library_methods b d (st : bstate R) t0 s tau k buff : is_basis b d -> ord_ok d k -> exact_pt d s -> tau <> 0 -> vlen buff = d_dim d ->
  exists v v1 v2, a_eval (Cpp b st) s tau buff = Ok v /\ a_eval_deriv (Cpp b st) s tau k buff = Ok v1 /\ a_eval_deriv_tau (Cpp b st) s tau k buff = Ok v2 /\
  a_dim (Cpp b st) = d_dim d /\
  vec_is v (d_dim d) (fun i => phi d tau i s) /\
  vec_is v1 (d_dim d) (fun i => Derive_n (tphi d t0 tau i) k (at_window t0 tau s)) /\
  exists D, vec_is v2 (d_dim d) D /\
  forall i, (i < d_dim d)%nat -> is_derive (fun th => Derive_n (tphi d t0 th i) k (at_window t0 th s)) tau (D i).
Proof.
  intros B O P Ht L. destruct (b_eval_R b d s tau buff B P L) as (v & E & V).
  destruct (eval_wD b d s tau k buff B O P L) as (v1 & E1 & V1). destruct (eval_wDt b d s tau k buff B O P L) as (v2 & E2 & V2).
  exists v, v1, v2. cbn [a_eval a_eval_deriv a_eval_deriv_tau a_dim]. split; [exact E|]. split; [exact E1|]. split; [exact E2|]. split; [apply (is_basis_dim b d B)|]. split; [exact V|]. split.
  - eapply vec_is_ext; [exact V1|]. intros i Hi. cbv beta. rewrite (wD_tphi d t0 tau i k _ Ht Hi), (window_at t0 tau s Ht). reflexivity.
  - exists (fun i => wDt d tau k i s). split; [exact V2|]. intros i Hi. apply (is_derive_ext_loc (fun th => wD d th k i s)); [|apply wDt_derive; exact Ht].
    assert (Hp : 0 < Rabs tau) by (apply Rabs_pos_lt; exact Ht). exists (mkposreal _ Hp). intros th Hth. cbn in Hth. unfold AbsRing_ball, abs, minus, plus, opp in Hth. cbn in Hth.
    assert (th <> 0). { intros ->. rewrite Rplus_0_l, Rabs_Ropp in Hth. lra. }
    rewrite (wD_tphi d t0 th i k _ H Hi), (window_at t0 th s H). reflexivity.
Qed.
(** the dimension of a Python basis is the number its constructor was called with *)
Theorem C87_dimension n (e : option (R -> R -> vec R -> outcome (vec R))) e1 e2 : a_dim (Py (mkpb n e e1 e2)) = n.
Proof. reflexivity. Qed.
Example C87_library_methods_case : exists g, is_basis (BLegendre 2 g) (DLeg 2) /\ ord_ok (DLeg 2) 1 /\ exact_pt (DLeg 2) 0 /\ is_basis (B0101 (1 / 2)) (D01 (1 / 2)) /\ ord_ok (D01 (1 / 2)) 3.
Proof. destruct der_alias_wrong as (g & _ & _ & _ & _ & _ & _ & B & _). exists g. split; [exact B|]. split; [cbn; lia|]. split; [exact Logic.I|]. split; [cbn; lra|cbn; auto]. Qed.
