(** C87: bases defined in Python. *)
From Coq Require Import List Arith Lia Bool.
From Verif Require Import Num Outcome LinAlg BasisModel GSplineModel InterpModel SobolevModel PyBasisModel PyBasisSpec.
Import ListNotations.

Section Props.
Context {T : Type} `{Num T}.

Definition kind_of (b : abasis T) : kind := match b with Cpp _ _ => Library | Py _ => Python end.
Definition big_enough (b : abasis T) : Prop := match b with Cpp b _ => 2 <= b_dim b | Py _ => True end.
Definition tracked (st : pstate T) (k : list kind) : Prop :=
  Forall2 (fun p x => exists b, p = Some b /\ kind_of b = x) (pt_bases st) k.
Definition healthy (st : pstate T) : Prop :=
  Forall (fun p => forall b, p = Some b -> big_enough b) (pt_bases st) /\ Forall owns (pt_splines st).

Lemma tracked_nth (st : pstate T) k i b : tracked st k -> arg st i = Ok b -> nth_error k i = Some (kind_of b).
Proof.
  unfold tracked, arg. destruct st as [l g]; simpl. intros F. revert i. induction F as [|p x l k (c & -> & <-) F IH]; intros [|i]; simpl; try discriminate; [|apply IH]. intros E. injection E as ->. reflexivity.
Qed.
Lemma tracked_arg (st : pstate T) k i x : tracked st k -> nth_error k i = Some x -> exists b, arg st i = Ok b /\ kind_of b = x.
Proof.
  unfold tracked, arg. destruct st as [l g]; simpl. intros F. revert i. induction F as [|p y l k (c & -> & <-) F IH]; intros [|i]; simpl; try discriminate; [|apply IH]. intros E. injection E as <-. eauto.
Qed.
Lemma spl_in (st : pstate T) j g : spl st j = Ok g -> In g (pt_splines st).
Proof. unfold spl. destruct (nth_error (pt_splines st) j) eqn:E; [|discriminate]. intros X. injection X as <-. eapply nth_error_In. exact E. Qed.
Lemma arg_in (st : pstate T) i b : arg st i = Ok b -> In (Some b) (pt_bases st).
Proof. unfold arg. destruct (nth_error (pt_bases st) i) as [[c|]|] eqn:E; try discriminate. intros X. injection X as <-. eapply nth_error_In. exact E. Qed.
Lemma tracked_push (st : pstate T) k b : tracked st k -> tracked (mkpst (pt_bases st ++ [Some b]) (pt_splines st)) (k ++ [kind_of b]).
Proof. intros F. apply Forall2_app; [exact F|]. constructor; [|constructor]. eauto. Qed.
Lemma tracked_spl (st : pstate T) k l : tracked st k -> tracked (mkpst (pt_bases st) l) k.
Proof. intros F. exact F. Qed.
Lemma healthy_push (st : pstate T) b : healthy st -> big_enough b -> healthy (mkpst (pt_bases st ++ [Some b]) (pt_splines st)).
Proof. intros (A & B) C. split; [|exact B]. apply Forall_app. split; [exact A|]. constructor; [|constructor]. intros c E. injection E as <-. exact C. Qed.
Lemma healthy_spl (st : pstate T) g : healthy st -> owns g -> healthy (mkpst (pt_bases st) (pt_splines st ++ [g])).
Proof. intros (A & B) C. split; [exact A|]. apply Forall_app. split; [exact B|]. constructor; [exact C|constructor]. Qed.

Lemma pi_new_cpp codom n (c : basis T) t : 2 <= b_dim c -> pi_new codom n (Cpp c t) = Throw InvalidArgument \/ exists ip, pi_new codom n (Cpp c t) = Ok ip.
Proof.
  intros D. unfold pi_new. cbn [a_clone deref of_option bind a_dim]. destruct (negb (Nat.eqb (b_dim c mod 2) 0)); [auto|]. destruct (Nat.ltb_spec (b_dim c) 2); [lia|]. eauto.
Qed.
Lemma pexec_good (st : pstate T) k s : tracked st k -> healthy st -> sized s -> ~ hands_python k s ->
  (exists e, pexec st s = Throw e) \/ exists st', pexec st s = Ok st' /\ tracked st' (kinds_after k s) /\ healthy st'.
Proof.
  intros Tr He Si Hp.
  assert (A : forall i b, handed s = Some i -> arg st i = Ok b -> exists c t, b = Cpp c t /\ 2 <= b_dim c).
  { intros i b E1 E2. pose proof (tracked_nth _ _ _ _ Tr E2) as K. pose proof (proj1 (Forall_forall _ _) (proj1 He) _ (arg_in _ _ _ E2) b eq_refl) as B. destruct b as [c t|p]; [eauto|]. exfalso. apply Hp. exists i. auto. }
  destruct s as [b s|p|i dom codom n coef tau|i codom n|i wp|j|j]; simpl.
  - right. eexists. split; [reflexivity|]. split; [apply (tracked_push _ _ (Cpp b s)); exact Tr|apply healthy_push; [exact He|exact Si]].
  - right. eexists. split; [reflexivity|]. split; [apply (tracked_push _ _ (Py p)); exact Tr|apply healthy_push; [exact He|exact Logic.I]].
  - destruct (arg st i) as [b|e|] eqn:E; [|simpl; eauto|unfold arg in E; destruct (nth_error (pt_bases st) i) as [[?|]|]; discriminate].
    destruct (A i b eq_refl E) as (c & t & -> & D). unfold ps_new. simpl. destruct (Nat.eqb_spec (vlen coef) (n * b_dim c * codom)) as [Q|Q]; simpl; [|eauto].
    right. eexists. split; [reflexivity|]. split; [exact Tr|]. apply healthy_spl; [exact He|]. exists c, (bs_copy t), n. auto.
  - destruct (arg st i) as [b|e|] eqn:E; [|simpl; eauto|unfold arg in E; destruct (nth_error (pt_bases st) i) as [[?|]|]; discriminate].
    destruct (A i b eq_refl E) as (c & t & -> & D). destruct (pi_new_cpp codom n c t D) as [Q|(ip & Q)]; simpl bind; rewrite Q; simpl; [eauto|]. right. exists st. auto.
  - destruct (arg st i) as [b|e|] eqn:E; [|simpl; eauto|unfold arg in E; destruct (nth_error (pt_bases st) i) as [[?|]|]; discriminate].
    destruct (A i b eq_refl E) as (c & t & -> & D). unfold pn_new. simpl in Si. destruct (mrows wp) as [|r] eqn:R; [lia|]. destruct (pi_new_cpp (mcols wp) r c t D) as [Q|(ip & Q)]; simpl bind; simpl usub1; simpl of_option; simpl bind; rewrite Q; simpl; [eauto|]. right. exists st. auto.
  - destruct (spl st j) as [g|e|] eqn:E; [|simpl; eauto|unfold spl in E; destruct (nth_error (pt_splines st) j); discriminate].
    destruct (proj1 (Forall_forall _ _) (proj2 He) _ (spl_in _ _ _ E)) as (c & t & n & Eb & D & Q). unfold ps_copy. simpl. rewrite Eb. simpl. destruct (Nat.eqb_spec (vlen (ps_coef g)) (vlen (ps_tau g) * b_dim c * ps_codom g)) as [Q'|Q']; simpl; [|eauto].
    right. eexists. split; [reflexivity|]. split; [exact Tr|]. apply healthy_spl; [exact He|]. exists c, (bs_copy t), (vlen (ps_tau g)). auto.
  - destruct (spl st j) as [g|e|] eqn:E; [|simpl; eauto|unfold spl in E; destruct (nth_error (pt_splines st) j); discriminate].
    destruct (proj1 (Forall_forall _ _) (proj2 He) _ (spl_in _ _ _ E)) as (c & t & n & Eb & D & Q). unfold ps_get_basis. simpl. rewrite Eb. simpl. right. eexists. split; [reflexivity|]. split; [apply (tracked_push _ _ (Cpp c (bs_copy t))); exact Tr|apply healthy_push; [exact He|exact D]].
Qed.
Lemma start_good : tracked (@pstart T) [] /\ healthy (@pstart T).
Proof. split; [constructor|split; constructor]. Qed.
Lemma run_good (l : list (pstmt T)) : forall st k, tracked st k -> healthy st -> Forall sized l -> (forall l1 s l2, l = l1 ++ s :: l2 -> ~ hands_python (fold_left kinds_after l1 k) s) ->
  (exists e, prun st l = Throw e) \/ exists st', prun st l = Ok st' /\ tracked st' (fold_left kinds_after l k) /\ healthy st'.
Proof.
  induction l as [|s l IH]; intros st k Tr He Si Hp; simpl; [right; eauto|]. inversion Si as [|? ? S1 S2]; subst.
  destruct (pexec_good st k s Tr He S1 (Hp [] s l eq_refl)) as [(e & E)|(st' & E & Tr' & He')]; rewrite E; simpl; [eauto|]. apply IH; auto. intros l1 s' l2 ->. exact (Hp (s :: l1) s' l2 eq_refl).
Qed.
Lemma ub_of (st : pstate T) k s : tracked st k -> hands_python k s -> (forall i wp, s = PNorm i wp -> 1 <= mrows wp) -> pexec st s = UB.
Proof.
  intros Tr (i & E & K) Hw. destruct (tracked_arg _ _ _ _ Tr K) as (b & A & B). destruct b as [b t|p]; [discriminate|]. destruct s as [b s|q|i' dom codom n coef tau|i' codom n|i' wp|j|j]; simpl in E; try discriminate; injection E as ->; simpl; rewrite A; simpl; try reflexivity.
  unfold pn_new. specialize (Hw _ _ eq_refl). destruct (mrows wp) as [|r]; [lia|]. reflexivity.
Qed.
Lemma tracked_step (st : pstate T) k s st' : tracked st k -> healthy st -> sized s -> pexec st s = Ok st' -> tracked st' (kinds_after k s) /\ healthy st'.
Proof.
  intros Tr He Si E. assert (D : ~ hands_python k s). { intros C. destruct s; try (destruct C as (? & C & _); discriminate C); rewrite (ub_of st k _ Tr C) in E; try discriminate E; intros; try discriminate. injection H0 as <- <-. exact Si. }
  destruct (pexec_good _ _ _ Tr He Si D) as [(e & X)|(st2 & X & P)]; rewrite X in E; [discriminate|]. injection E as <-. exact P.
Qed.
Lemma run_tracked (l : list (pstmt T)) : forall st k st', tracked st k -> healthy st -> Forall sized l -> prun st l = Ok st' -> tracked st' (fold_left kinds_after l k) /\ healthy st'.
Proof.
  induction l as [|s l IH]; intros st k st' Tr He Si E; simpl in E; [injection E as <-; auto|]. inversion Si; subst. apply bind_ok in E as (st1 & E1 & E2). destruct (tracked_step _ _ _ _ Tr He H2 E1) as (A & B). simpl. eapply IH; eauto.
Qed.
Lemma prun_app (l1 : list (pstmt T)) : forall st l2, prun st (l1 ++ l2) = (st' <- prun st l1 ;; prun st' l2).
Proof. induction l1 as [|s l IH]; intros st l2; simpl; [reflexivity|]. destruct (pexec st s); simpl; auto. Qed.

(** A program that hands no Python basis to a constructor has no undefined behaviour; all its splines own a basis. *)
Theorem C87_library (l : list (pstmt T)) : Forall sized l -> clean l ->
  prun pstart l <> UB /\ forall st, prun pstart l = Ok st -> Forall owns (pt_splines st) /\ length (pt_bases st) = length (kinds l) /\ ~ In None (pt_bases st).
Proof.
  intros Si Hp. destruct start_good as (Tr & He). destruct (run_good l _ _ Tr He Si Hp) as [(e & E)|(st' & E & Tr' & He')]; rewrite E; (split; [discriminate|]); intros st X; [discriminate|]. injection X as <-.
  split; [exact (proj2 He')|]. split; [clear - Tr'; unfold tracked, kinds in *; induction Tr' as [|? ? ? ? ? ? IH]; simpl; congruence|]. intros N. unfold tracked in Tr'. induction Tr' as [|p x l0 k (b & -> & _) F IH]; [destruct N|]. destruct N as [N|N]; [discriminate|auto].
Qed.
(** A program that reaches such a call dereferences a null pointer there, whatever the other arguments are: the class of the basis is
    not checked, and the check of the number of coefficients comes too late. *)
Theorem C87_python_refuted (l : list (pstmt T)) s rest st : Forall sized (l ++ [s]) -> prun pstart l = Ok st -> hands_python (kinds l) s ->
  prun pstart (l ++ s :: rest) = UB.
Proof.
  intros Si E Hp. apply Forall_app in Si as (S1 & S2). inversion S2 as [|? ? S3 _]; subst. destruct start_good as (Tr & He). destruct (run_tracked _ _ _ _ Tr He S1 E) as (Tr' & _).
  rewrite prun_app, E. simpl. rewrite (ub_of _ _ _ Tr' Hp); [reflexivity|]. intros i wp ->. exact S3.
Qed.
(** With a basis of the library the constructors are those of the models of GSplineModel, InterpModel and SobolevModel, which the other properties are about. *)
Definition seen (g : pspline T) : option (gspline T) :=
  match ps_basis g with Some (Cpp b s) => Some (mkgs (ps_dom g) (ps_codom g) (ps_coef g) (ps_tau g) b s (ps_buf g)) | _ => None end.
Theorem C87_constructor dom codom n (b : basis T) s coef tau :
  match ps_new dom codom n (Cpp b s) coef tau, gs_ctor dom codom n b s coef tau with
  | Ok p, Ok g => seen p = Some g
  | Throw e, Throw e' => e = e'
  | UB, UB => True
  | _, _ => False
  end.
Proof. unfold ps_new, gs_ctor. simpl. destruct (Nat.eqb (vlen coef) (n * b_dim b * codom)); reflexivity. Qed.
Theorem C87_copy g p : seen p = Some g ->
  match ps_copy p, gs_copy g with
  | Ok p', Ok g' => seen p' = Some g'
  | Throw e, Throw e' => e = e'
  | UB, UB => True
  | _, _ => False
  end.
Proof.
  unfold seen. destruct (ps_basis p) as [[b s|q]|] eqn:E; try discriminate. intros X. injection X as <-. unfold ps_copy, gs_copy, gs_n, gs_dim. rewrite E. simpl. destruct (Nat.eqb (vlen (ps_coef p)) (vlen (ps_tau p) * b_dim b * ps_codom p)); reflexivity.
Qed.
Theorem C87_interpolator codom n (b : basis T) s :
  match pi_new codom n (Cpp b s), ip_ctor codom n b s with
  | Ok p, Ok q => pi_basis p = Some (Cpp (ip_basis q) (ip_bst q)) /\ pi_codom p = ip_codom q /\ pi_n p = ip_n q /\ srows (ip_mat q) = pi_size p /\ vlen (ip_coef q) = pi_size p
  | Throw e, Throw e' => e = e'
  | UB, UB => True
  | _, _ => False
  end.
Proof. unfold pi_new, ip_ctor. cbn [a_clone deref of_option bind a_dim]. destruct (negb (Nat.eqb (b_dim b mod 2) 0)); [reflexivity|]. destruct (Nat.ltb (b_dim b) 2); [exact Logic.I|]. simpl. auto. Qed.
Theorem C87_norm wp (b : basis T) s ws :
  match pn_new wp (Cpp b s), sn_ctor wp b s ws with
  | Ok (p, ip), Ok q => p = Some (Cpp (sn_basis q) (bs_copy s)) /\ pi_basis ip = Some (Cpp (ip_basis (sn_ip q)) (ip_bst (sn_ip q))) /\ pi_codom ip = sn_codom q /\ pi_n ip = sn_n q /\ vlen (ip_coef (sn_ip q)) = pi_size ip
  | Throw e, Throw e' => e = e'
  | UB, UB => True
  | _, _ => False
  end.
Proof.
  unfold pn_new, sn_ctor. destruct (usub1 (mrows wp)) as [n|]; [|exact Logic.I]. cbn [of_option bind]. unfold pi_new, ip_ctor. cbn [a_clone deref of_option bind a_dim]. destruct (negb (Nat.eqb (b_dim b mod 2) 0)); [reflexivity|]. destruct (Nat.ltb (b_dim b) 2); [exact Logic.I|]. cbn. auto.
Qed.
(** [get_basis] gives back the basis that the spline was made with. *)
Theorem C87_get_basis dom codom n (b : basis T) s coef tau p : ps_new dom codom n (Cpp b s) coef tau = Ok p -> exists s', ps_get_basis p = Ok (Some (Cpp b s')) /\ bs_blocks s' = bs_blocks s.
Proof. unfold ps_new. simpl. destruct (Nat.eqb (vlen coef) (n * b_dim b * codom)); [|discriminate]. intros E. injection E as <-. unfold ps_get_basis. simpl. eexists. split; reflexivity. Qed.
(** The methods of a Python basis called from Python: its own definition, or an exception if there is none. *)
Theorem C87_methods (p : pybasis T) a tau deg buff :
  (forall f, pb_eval p = Some f -> a_eval (Py p) a tau buff = f a tau buff) /\ (pb_eval p = None -> a_eval (Py p) a tau buff = Throw RuntimeError) /\
  (forall f, pb_eval_deriv p = Some f -> a_eval_deriv (Py p) a tau deg buff = f a tau deg buff) /\ (pb_eval_deriv p = None -> a_eval_deriv (Py p) a tau deg buff = Throw RuntimeError) /\
  (forall f, pb_eval_deriv_tau p = Some f -> a_eval_deriv_tau (Py p) a tau deg buff = f a tau deg buff) /\ (pb_eval_deriv_tau p = None -> a_eval_deriv_tau (Py p) a tau deg buff = Throw RuntimeError).
Proof. unfold a_eval, a_eval_deriv, a_eval_deriv_tau. repeat split; intros; match goal with E : _ = _ |- _ => rewrite E end; reflexivity. Qed.
End Props.

(** A Legendre basis with two functions beside a Python basis of the same size. *)
From Coq Require Import Reals.
Definition two_functions : basis R := BLegendre 2 [].
Definition my_basis : pybasis R := mkpb 2 (Some (fun s tau buff => Ok (vec_of_list [1%R; s]))) None None.
Definition line_coef : vec R := vec_of_list [0%R; 1%R].
Definition line_tau : vec R := vec_of_list [2%R].
Definition good_program : list (pstmt R) :=
  [PCpp two_functions (bs_init two_functions); PDefine my_basis; PNew 0 (0%R, 2%R) 1 1 line_coef line_tau; PGetBasis 0; PNew 2 (0%R, 2%R) 1 1 line_coef line_tau; PCopy 1; PInterp 2 1 3; PNorm 0 (mnew 3 1)].
Example C87_library_case : Forall sized good_program /\ clean good_program /\ (exists st, prun pstart good_program = Ok st /\ length (pt_splines st) = 3) /\ kinds good_program = [Library; Python; Library].
Proof.
  split; [repeat constructor|]. split; [|split; [eexists; split; reflexivity|reflexivity]].
  intros l1 s l2 E. do 8 (destruct l1 as [|? l1]; [injection E as <- <-; intros (i & A & B); simpl in A; try discriminate A; injection A as <-; discriminate B|injection E as <- E]). destruct l1; discriminate.
Qed.
(** the same spline over the Python basis; and a call with the wrong number of coefficients, which is not refused either *)
Example C87_python_case : prun pstart [PDefine my_basis; PNew 0 (0%R, 2%R) 1 1 line_coef line_tau] = UB /\ prun pstart [PDefine my_basis; PNew 0 (0%R, 2%R) 1 5 line_coef line_tau] = UB /\
  prun pstart [PDefine my_basis; PInterp 0 1 3] = UB /\ hands_python (T := R) (kinds [PDefine my_basis]) (PInterp 0 1 3).
Proof. split; [reflexivity|]. split; [reflexivity|]. split; [reflexivity|]. exists 0. split; reflexivity. Qed.
Example C87_wrong_number_case : prun pstart [PCpp two_functions (bs_init two_functions); PNew 0 (0%R, 2%R) 1 5 line_coef line_tau] = Throw InvalidArgument.
Proof. reflexivity. Qed.
Example C87_methods_case : a_eval (Py my_basis) 3%R 2%R (vnew 2) = Ok (vec_of_list [1%R; 3%R]) /\ a_eval_deriv (Py my_basis) 3%R 2%R 1 (vnew 2) = Throw RuntimeError.
Proof. split; reflexivity. Qed.
