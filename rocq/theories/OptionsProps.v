(** Property C47: solver options. *)
From Coq Require Import List String ZArith Lia Permutation.
From Verif Require Import Num ToolsModel OptionsModel OptionsSpec.
Import ListNotations.
Local Open Scope string_scope.
Local Open Scope list_scope.

Section One.
Context {V : Type}.
Implicit Types (l : list (string * V)).
Lemma find_assign_none name (v : V) l : find_assign name v l = None <-> ~ In name (map fst l).
Proof.
  induction l as [|(n, x) l IH]; cbn; [tauto|]. destruct (String.eqb_spec n name) as [->|Ne]; [split; [discriminate|tauto]|].
  destruct (find_assign name v l) eqn:E; split; intros K; try discriminate; auto.
  - exfalso. destruct IH as (_ & IH). assert (~ In name (map fst l)) by tauto. specialize (IH H). discriminate.
  - destruct IH as (IH & _). specialize (IH eq_refl). tauto.
Qed.
Lemma find_assign_some name (v : V) l l' : find_assign name v l = Some l' -> map fst l' = map fst l /\
  (NoDup (map fst l) -> forall n x, In (n, x) l' <-> (n = name /\ x = v) \/ (n <> name /\ In (n, x) l)) /\ In name (map fst l).
Proof.
  revert l'. induction l as [|(m, y) l IH]; intros l' E; cbn in E; [discriminate|]. destruct (String.eqb_spec m name) as [->|Ne].
  - injection E as <-. split; [reflexivity|]. split; [|now left]. intros ND n x. cbn in *. inversion ND as [|? ? Nin ND']; subst. split.
    + intros [K|K]; [injection K as <- <-; auto|]. right. split; auto. intros ->. apply Nin. now apply (in_map fst) in K.
    + intros [(-> & ->)|(Nn & [K|K])]; auto. injection K as <- _. contradiction.
  - destruct (find_assign name v l) as [r|] eqn:F; [|discriminate]. injection E as <-. destruct (IH r eq_refl) as (A & B & C).
    split; [cbn; now rewrite A|]. split; [|now right]. intros ND n x. inversion ND as [|? ? Nin ND']; subst. cbn. rewrite (B ND' n x). split.
    + intros [K|[K|K]]; auto; [injection K as <- <-; auto|]. destruct K; auto.
    + intros [K|(Nn & [K|K])]; auto.
Qed.
Lemma set_in_names name (v : V) l : map fst (set_in name v l) = map fst l ++ (if in_dec string_dec name (map fst l) then [] else [name]).
Proof.
  unfold set_in. destruct (find_assign name v l) as [l'|] eqn:E.
  - destruct (find_assign_some _ _ _ _ E) as (A & _ & I). rewrite A. destruct (in_dec _ _ _); [now rewrite app_nil_r|contradiction].
  - apply find_assign_none in E. destruct (in_dec _ _ _); [contradiction|]. now rewrite map_app.
Qed.
Lemma set_in_nodup name (v : V) l : NoDup (map fst l) -> NoDup (map fst (set_in name v l)).
Proof.
  intros ND. rewrite set_in_names. destruct (in_dec _ _ _); [now rewrite app_nil_r|]. apply (Permutation_NoDup (Permutation_cons_append (map fst l) name)). constructor; auto.
Qed.
Lemma set_in_In name (v : V) l : NoDup (map fst l) -> forall n x, In (n, x) (set_in name v l) <-> (n = name /\ x = v) \/ (n <> name /\ In (n, x) l).
Proof.
  intros ND n x. unfold set_in. destruct (find_assign name v l) as [l'|] eqn:E.
  - apply (find_assign_some _ _ _ _ E); auto.
  - apply find_assign_none in E. rewrite in_app_iff. cbn. split.
    + intros [K|[K|[]]]; [|injection K as <- <-; auto]. right. split; auto. intros ->. apply E. now apply (in_map fst) in K.
    + intros [(-> & ->)|(_ & K)]; auto.
Qed.
(** a history of settings of one type *)
Definition sets (h : list (string * V)) l : list (string * V) := fold_left (fun l s => set_in (fst s) (snd s) l) h l.
Lemma sets_nodup h : forall l, NoDup (map fst l) -> NoDup (map fst (sets h l)).
Proof. induction h as [|(n, v) h IH]; intros l ND; cbn; auto. apply IH. now apply set_in_nodup. Qed.
Lemma sets_In h : forall l, NoDup (map fst l) -> forall n x, In (n, x) (sets h l) <-> last_value n h = Some x \/ (last_value n h = None /\ In (n, x) l).
Proof.
  induction h as [|(m, v) h IH]; intros l ND n x; cbn [sets fold_left fst snd last_value].
  - split; [auto|intros [K|K]; [discriminate|tauto]].
  - fold (sets h (set_in m v l)). rewrite IH by now apply set_in_nodup. rewrite set_in_In by auto. destruct (last_value n h) as [y|] eqn:E.
    + split; [intros [K|(K & _)]; [auto|discriminate]|intros [K|(K & _)]; [auto|discriminate]].
    + destruct (String.eqb_spec m n) as [->|Ne].
      * split; [intros [K|(_ & [(_ & ->)|(K & _)])]; [discriminate|auto|contradiction]|]. intros [K|(K & _)]; [injection K as ->|discriminate]. auto.
      * split; [intros [K|(_ & [(K & _)|(_ & K)])]; [discriminate|congruence|auto]|]. intros [K|(_ & K)]; [discriminate|]. auto.
Qed.
Lemma firsts_ext h : forall a b, (forall n, In n a <-> In n b) -> firsts h a = firsts h b.
Proof.
  induction h as [|m h IH]; intros a b E; cbn; [reflexivity|]. destruct (in_dec string_dec m a) as [I|I], (in_dec string_dec m b) as [J|J]; try (exfalso; apply E in I || apply E in J; contradiction); auto.
  f_equal. apply IH. intros n. cbn. rewrite E. tauto.
Qed.
Lemma sets_names h : forall l, map fst (sets h l) = map fst l ++ firsts (map fst h) (map fst l).
Proof.
  induction h as [|(m, v) h IH]; intros l; cbn [sets fold_left fst snd map firsts]; [now rewrite app_nil_r|]. fold (sets h (set_in m v l)). rewrite IH, set_in_names.
  destruct (in_dec string_dec m (map fst l)).
  - now rewrite app_nil_r.
  - rewrite <- app_assoc. cbn. f_equal. f_equal. apply firsts_ext. intros n1. rewrite in_app_iff. cbn. tauto.
Qed.
End One.

Section All.
Context {T : Type} `{Num T}.
Lemma run_parts h : forall i, instance (run h i) = mkopts (sets (strings h) (string_options (instance i))) (sets (ints h) (int_options (instance i))) (sets (doubles h) (double_options (instance i))).
Proof.
  induction h as [|s h IH]; intros i; cbn [run strings ints doubles flat_map].
  - cbn. destruct (instance i); reflexivity.
  - rewrite IH. destruct s as [n v|n v|n v]; cbn [set_option instance string_options int_options double_options app]; reflexivity.
Qed.
Lemma default_nodup : NoDup (map fst (string_options (default_options (T := T)))) /\ NoDup (map fst (int_options (default_options (T := T)))) /\ NoDup (map fst (double_options (default_options (T := T)))).
Proof.
  split; [|split]; cbn; repeat constructor; cbn; intuition discriminate.
Qed.
Lemma In_strings (l : list (string * string)) (a : list (string * Z)) (b : list (string * T)) n v : In (SetStr n v) (map (fun p => SetStr (fst p) (snd p)) l ++ map (fun p => SetInt (fst p) (snd p)) a ++ map (fun p => SetDbl (fst p) (snd p)) b) <-> In (n, v) l.
Proof.
  rewrite !in_app_iff, !in_map_iff. split.
  - intros [((x, y) & E & K)|[((x, y) & E & K)|((x, y) & E & K)]]; try discriminate. injection E as <- <-. exact K.
  - intros K. left. now exists (n, v).
Qed.
Lemma In_ints (l : list (string * string)) (a : list (string * Z)) (b : list (string * T)) n v : In (SetInt n v) (map (fun p => SetStr (fst p) (snd p)) l ++ map (fun p => SetInt (fst p) (snd p)) a ++ map (fun p => SetDbl (fst p) (snd p)) b) <-> In (n, v) a.
Proof.
  rewrite !in_app_iff, !in_map_iff. split.
  - intros [((x, y) & E & K)|[((x, y) & E & K)|((x, y) & E & K)]]; try discriminate. injection E as <- <-. exact K.
  - intros K. right. left. now exists (n, v).
Qed.
Lemma In_doubles (l : list (string * string)) (a : list (string * Z)) (b : list (string * T)) n v : In (SetDbl n v) (map (fun p => SetStr (fst p) (snd p)) l ++ map (fun p => SetInt (fst p) (snd p)) a ++ map (fun p => SetDbl (fst p) (snd p)) b) <-> In (n, v) b.
Proof.
  rewrite !in_app_iff, !in_map_iff. split.
  - intros [((x, y) & E & K)|[((x, y) & E & K)|((x, y) & E & K)]]; try discriminate. injection E as <- <-. exact K.
  - intros K. right. right. now exists (n, v).
Qed.
(** ** C47: after any history the solver receives, for every name and type, the value set last, or the built-in one if it was never set *)
Theorem C47_last_wins (h : list (setting T)) n :
  let calls := fst (set_options_on_interface (run h None)) in
  (forall v, In (SetStr n v) calls <-> last_value n (strings h) = Some v \/ last_value n (strings h) = None /\
     In (n, v) [("linear_solver", "mumps"); ("jacobian_approximation", "exact"); ("fast_step_computation", "yes");
       ("derivative_test", "none"); ("hessian_approximation", "limited-memory"); ("jac_c_constant", "yes");
       ("print_timing_statistics", "no"); ("dependency_detector", "none"); ("dependency_detection_with_rhs", "no")]) /\
  (forall v, In (SetInt n v) calls <-> last_value n (ints h) = Some v \/ last_value n (ints h) = None /\ n = "print_level" /\ v = 0%Z) /\
  (forall v, In (SetDbl n v) calls <-> last_value n (doubles h) = Some v \/ last_value n (doubles h) = None /\ n = "tol" /\ v = (n1 / npown (nofZ 10) 3)%num).
Proof.
  destruct default_nodup as (N1 & N2 & N3). cbn [set_options_on_interface fst]. rewrite run_parts. cbn [string_options int_options double_options]. split; [|split]; intros v.
  - rewrite In_strings, sets_In by exact N1. cbn. tauto.
  - rewrite In_ints, sets_In by exact N2. cbn. split; intros [K|(K & K2)]; auto; right; split; auto.
    + destruct K2 as [K2|[]]. injection K2 as <- <-. auto.
    + destruct K2 as (-> & ->). auto.
  - rewrite In_doubles, sets_In by exact N3. cbn. split; intros [K|(K & K2)]; auto; right; split; auto.
    + destruct K2 as [K2|[]]. injection K2 as <- <-. auto.
    + destruct K2 as (-> & ->). auto.
Qed.
(** no option of one type is sent twice: every call is one of those of the previous theorem, and equal names of equal type occur once *)
Theorem C47_no_duplicates (h : list (setting T)) :
  let calls := fst (set_options_on_interface (run h None)) in
  NoDup (map fst (strings calls)) /\ NoDup (map fst (ints calls)) /\ NoDup (map fst (doubles calls)).
Proof.
  destruct default_nodup as (N1 & N2 & N3). cbn [set_options_on_interface fst]. rewrite run_parts. cbn [string_options int_options double_options].
  assert (G : forall l a b, let c := map (fun p => SetStr (fst p) (snd p)) l ++ map (fun p => SetInt (fst p) (snd p)) a ++ map (fun p : string * T => SetDbl (fst p) (snd p)) b in
    strings c = l /\ ints c = a /\ doubles c = b).
  { intros l a b c. unfold c, strings, ints, doubles. rewrite !flat_map_app.
    assert (E1 : forall l, flat_map (fun s : setting T => match s with SetStr n v => [(n, v)] | _ => [] end) (map (fun p => SetStr (fst p) (snd p)) l) = l) by (induction l0 as [|(x, y) r IH]; cbn; [|rewrite IH]; reflexivity).
    assert (E2 : forall l, flat_map (fun s : setting T => match s with SetStr n v => [(n, v)] | _ => [] end) (map (fun p => SetInt (fst p) (snd p)) l) = []) by (induction l0 as [|(x, y) r IH]; cbn; [|rewrite IH]; reflexivity).
    assert (E3 : forall l, flat_map (fun s : setting T => match s with SetStr n v => [(n, v)] | _ => [] end) (map (fun p : string * T => SetDbl (fst p) (snd p)) l) = []) by (induction l0 as [|(x, y) r IH]; cbn; [|rewrite IH]; reflexivity).
    assert (F1 : forall l, flat_map (fun s : setting T => match s with SetInt n v => [(n, v)] | _ => [] end) (map (fun p => SetStr (fst p) (snd p)) l) = []) by (induction l0 as [|(x, y) r IH]; cbn; [|rewrite IH]; reflexivity).
    assert (F2 : forall l, flat_map (fun s : setting T => match s with SetInt n v => [(n, v)] | _ => [] end) (map (fun p => SetInt (fst p) (snd p)) l) = l) by (induction l0 as [|(x, y) r IH]; cbn; [|rewrite IH]; reflexivity).
    assert (F3 : forall l, flat_map (fun s : setting T => match s with SetInt n v => [(n, v)] | _ => [] end) (map (fun p : string * T => SetDbl (fst p) (snd p)) l) = []) by (induction l0 as [|(x, y) r IH]; cbn; [|rewrite IH]; reflexivity).
    assert (G1 : forall l, flat_map (fun s : setting T => match s with SetDbl n v => [(n, v)] | _ => [] end) (map (fun p => SetStr (fst p) (snd p)) l) = []) by (induction l0 as [|(x, y) r IH]; cbn; [|rewrite IH]; reflexivity).
    assert (G2 : forall l, flat_map (fun s : setting T => match s with SetDbl n v => [(n, v)] | _ => [] end) (map (fun p => SetInt (fst p) (snd p)) l) = []) by (induction l0 as [|(x, y) r IH]; cbn; [|rewrite IH]; reflexivity).
    assert (G3 : forall l, flat_map (fun s : setting T => match s with SetDbl n v => [(n, v)] | _ => [] end) (map (fun p : string * T => SetDbl (fst p) (snd p)) l) = l) by (induction l0 as [|(x, y) r IH]; cbn; [|rewrite IH]; reflexivity).
    rewrite E1, E2, E3, F1, F2, F3, G1, G2, G3, !app_nil_r. auto. }
  destruct (G (sets (strings h) (string_options (instance None))) (sets (ints h) (int_options (instance None))) (sets (doubles h) (double_options (instance None)))) as (-> & -> & ->).
  split; [|split]; apply sets_nodup; assumption.
Qed.
(** order: strings, integers, doubles; in each group the built-in options come first, then the others in the order they were first set *)
Theorem C47_order (h : list (setting T)) :
  exists s i d, fst (set_options_on_interface (run h None)) = map (fun p => SetStr (fst p) (snd p)) s ++ map (fun p => SetInt (fst p) (snd p)) i ++ map (fun p => SetDbl (fst p) (snd p)) d /\
  map fst s = ["linear_solver"; "jacobian_approximation"; "fast_step_computation"; "derivative_test"; "hessian_approximation"; "jac_c_constant"; "print_timing_statistics"; "dependency_detector"; "dependency_detection_with_rhs"]
     ++ firsts (map fst (strings h)) ["linear_solver"; "jacobian_approximation"; "fast_step_computation"; "derivative_test"; "hessian_approximation"; "jac_c_constant"; "print_timing_statistics"; "dependency_detector"; "dependency_detection_with_rhs"] /\
  map fst i = "print_level" :: firsts (map fst (ints h)) ["print_level"] /\ map fst d = "tol" :: firsts (map fst (doubles h)) ["tol"].
Proof.
  cbn [set_options_on_interface fst]. rewrite run_parts. cbn [string_options int_options double_options]. do 3 eexists. split; [reflexivity|]. rewrite !sets_names. auto.
Qed.
(** using the options (as solving does) neither changes them nor depends on whether the instance existed before; settings of
    one type do not touch options of another *)
Theorem C47_use_is_neutral (h h' : list (setting T)) :
  set_options_on_interface (run h' (snd (set_options_on_interface (run h None)))) = set_options_on_interface (run (h ++ h') None).
Proof.
  assert (A : forall i, run (h ++ h') i = run h' (run h i)) by (induction h as [|s r IH]; intros i; cbn; auto). rewrite A.
  set (i := run h None). unfold set_options_on_interface at 1 3. rewrite !run_parts. cbn [set_options_on_interface snd instance]. reflexivity.
Qed.
End All.
(** a history with repetitions, new names and one name under two types *)
Example C47_case (T : Type) (HN : Num T) :
  let h : list (setting T) := [SetInt "print_level" 5; SetStr "linear_solver" "ma57"; SetInt "tol" 1; SetInt "print_level" 3; SetDbl "max_cpu_time" n1] in
  let calls := fst (set_options_on_interface (run h None)) in
  In (SetInt "print_level" 3) calls /\ ~ In (SetInt "print_level" 5) calls /\ In (SetStr "linear_solver" "ma57") calls /\ ~ In (SetStr "linear_solver" "mumps") calls /\
  In (SetInt "tol" 1) calls /\ (exists v, In (SetDbl "tol" v) calls) /\ List.length calls = 13%nat.
Proof. cbn. intuition (try discriminate). eexists. do 11 right. left. reflexivity. Qed.
