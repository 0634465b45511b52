(** Lemmas about the dictionary conversions. *)
From Coquelicot Require Import Coquelicot.
From Coq Require Import List Arith Lia Bool ZArith String Reals Lra.
From Verif Require Import Num Outcome LinAlg LegendreModel LagrangeSpec LagrangeModel LagrangeProofs BasisModel SplineSpec BasisFn ToolsModel ToolsProofs GLModel GLProofs GSplineModel
  GSplineProofs GSplineProofs2 GSplineProofs3 GSplineProofs4 GSplineProofs5 SerialModel SerialSpec.
Import ListNotations.
Local Open Scope string_scope.
Local Open Scope list_scope.
Local Open Scope nat_scope.
Local Open Scope num_scope.

Section Serial.
Context {T : Type} `{Num T}.
Variable fresh : nat -> nat -> option T.

Definition entries (n : nat) (f : nat -> T) : list T := map f (seq 0 n).
Lemma entries_len n f : List.length (entries n f) = n.
Proof. unfold entries. now rewrite map_length, seq_length. Qed.
Lemma entries_vec n f : vec_is (vec_of_list (entries n f)) n f.
Proof.
  split; [apply entries_len|]. intros i Hi. unfold vec_of_list, entries. cbn [vget]. rewrite (map_nth_error f i (seq 0 n) (d := i)); auto.
  rewrite (nth_error_nth' _ 0%nat) by (rewrite seq_length; auto). now rewrite seq_nth.
Qed.
Lemma read_all_ok (v : vec T) n f : vec_is v n f -> forall k i, (i + k <= n)%nat -> read_all v (seq i k) = Ok (map f (seq i k)).
Proof. intros V. induction k; intros i Hk; cbn [seq read_all map]; auto. rewrite (vread_ok v n f) by (auto; lia). cbn [bind]. rewrite IHk by lia. reflexivity. Qed.
Lemma py_list_ok (v : vec T) n f : vec_is v n f -> py_list v = Ok (PyList (map PyFloat (entries n f))).
Proof. intros V. unfold py_list. replace (vlen v) with n by (symmetry; apply V). rewrite (read_all_ok v n f V) by lia. reflexivity. Qed.
Lemma to_doubles_ok (l : list T) : to_doubles (map PyFloat l) = Ok l.
Proof. induction l; cbn; auto. now rewrite IHl. Qed.
Lemma to_size_ok n : to_size (PyInt (T := T) (Z.of_nat n)) = Ok n.
Proof. unfold to_size. destruct (Z.ltb_spec (Z.of_nat n) 0); [lia|]. now rewrite Nat2Z.id. Qed.

(** ** get_basis on the data of an object it made *)
Lemma params_is b : made fresh b -> exists n x, vec_is (b_params b) n x.
Proof.
  intros (name & dim & params & n & x & V & E). unfold get_basis in E.
  destruct (String.eqb name "lagrange").
  - apply bind_ok in E as (bw & _ & E). apply bind_ok in E as (glp & _ & E). apply bind_ok in E as (glw & _ & E). apply bind_ok in E as (gr & _ & E). injection E as <-. eauto.
  - destruct (String.eqb name "legendre"); [|destruct (String.eqb name "basis0101"); [|discriminate]].
    + apply bind_ok in E as (gr & _ & E). injection E as <-. exists 0%nat, (fun _ => n0). split; [reflexivity|]. intros; lia.
    + destruct negb; [discriminate|]. apply bind_ok in E as (a & _ & E). injection E as <-. exists 1%nat, (fun _ => a). split; [reflexivity|]. intros [|i] Hi; [reflexivity|lia].
Qed.
(** the three kinds of objects *)
Lemma made_cases b : made fresh b ->
  (exists dim g, b = BLegendre dim g /\ leg_ctor_buffer dim = Ok g) \/
  (exists p n x bw g, b = BLagrange p bw g /\ vec_is p n x /\ (2 <= n)%nat /\ vec_is bw n (gw x n)) \/ (exists a, b = B0101 a).
Proof.
  intros (name & dim & params & n & x & V & E). unfold get_basis in E.
  destruct (String.eqb name "lagrange").
  - right. left. apply bind_ok in E as (bw & Ebw & E). apply bind_ok in E as (glp & Eg & E). apply bind_ok in E as (glw & _ & E). apply bind_ok in E as (gr & _ & E). injection E as <-.
    destruct (bary_weights_gen params n x V) as (w & Ew & Vw). rewrite Ew in Ebw. injection Ebw as <-. exists params, n, x, w, gr. split; auto. split; auto. split; auto.
    replace (vlen params) with n in Eg by (symmetry; apply V). destruct n as [|[|n]]; [discriminate|discriminate|lia].
  - destruct (String.eqb name "legendre"); [|destruct (String.eqb name "basis0101"); [|discriminate]].
    + left. apply bind_ok in E as (gr & Eg & E). injection E as <-. eauto.
    + right. right. destruct negb; [discriminate|]. apply bind_ok in E as (a & _ & E). injection E as <-. eauto.
Qed.
Lemma remake_lag p n x : vec_is p n x -> (2 <= n)%nat -> exists bw g, get_basis fresh "lagrange" n p = Ok (BLagrange p bw g) /\ bary_weights p = Ok bw.
Proof.
  intros V Hn. unfold get_basis. cbn [String.eqb Ascii.eqb Bool.eqb]. destruct (bary_weights_gen p n x V) as (w & Ew & Vw). rewrite Ew. cbn [bind].
  replace (vlen p) with n by (symmetry; apply V). destruct (gl_points_ok n Hn) as (glp & -> & Vp). destruct (gl_weights_ok n Hn) as (glw & -> & Vg). cbn [bind].
  destruct (lag_ctor_gen p glp glw n x _ fresh V Vp ltac:(apply Vg)) as (buf & -> & _). cbn [bind]. eauto.
Qed.
(** the dictionary of a basis, and what is made of it *)
Lemma basis_dict b : made fresh b -> exists n x, vec_is (b_params b) n x /\
  basis_to_dict b = Ok [("name", PyStr (name_str (b_name b))); ("dim", PyInt (Z.of_nat (b_dim b))); ("parameters", PyList (map PyFloat (entries n x)))].
Proof. intros Mb. destruct (params_is b Mb) as (n & x & V). exists n, x. split; auto. unfold basis_to_dict. rewrite (py_list_ok _ n x V). reflexivity. Qed.
Lemma dict_basis name dim n x : dict_to_basis fresh [("name", PyStr name); ("dim", PyInt (Z.of_nat dim)); ("parameters", PyList (map PyFloat (entries n x)))] =
  get_basis fresh name dim (vec_of_list (entries n x)).
Proof. unfold dict_to_basis. cbn [dget find fst snd String.eqb Ascii.eqb Bool.eqb]. rewrite to_size_ok. cbn [bind]. rewrite to_doubles_ok. reflexivity. Qed.
Lemma basis_back b n x : made fresh b -> vec_is (b_params b) n x -> exists b', get_basis fresh (name_str (b_name b)) (b_dim b) (vec_of_list (entries n x)) = Ok b' /\
  b_name b' = b_name b /\ b_dim b' = b_dim b /\ vec_is (b_params b') n x /\ (b_name b <> NLagrange -> b' = b) /\
  (b_name b = NLagrange -> exists bw g, b' = BLagrange (vec_of_list (entries n x)) bw g /\ bary_weights (vec_of_list (entries n x)) = Ok bw).
Proof.
  intros Mb V. destruct (made_cases b Mb) as [(dim & g & -> & E)|[(p & m & y & bw & g & -> & Vp & Hm & _)|(a & ->)]]; cbn [b_name b_dim b_params name_str] in *.
  - exists (BLegendre dim g). unfold get_basis. cbn [String.eqb Ascii.eqb Bool.eqb]. rewrite E. cbn [bind]. repeat split; auto; try apply V. discriminate.
  - assert (n = m) as ->. { destruct V as (L & _), Vp as (L' & _). congruence. }
    destruct (remake_lag _ m x (entries_vec m x) Hm) as (w' & g' & E & Ew). eexists. replace (vlen p) with m by (symmetry; apply V). split; [exact E|]. cbn [b_name b_dim b_params].
    split; auto. split; [apply entries_len|]. split; [apply entries_vec|]. split; [congruence|]. intros _. eauto.
  - destruct V as (L & G). cbn in L. subst n. specialize (G 0%nat Nat.lt_0_1). cbn in G. injection G as G. subst a. exists (B0101 (x 0%nat)). unfold get_basis. cbn [String.eqb Ascii.eqb Bool.eqb vlen vec_of_list entries map seq List.length Nat.eqb negb].
    cbn. repeat split; auto; [|discriminate]. intros [|i] Hi; [reflexivity|lia].
Qed.
Lemma made_again b n x : made fresh b -> vec_is (b_params b) n x -> forall b', get_basis fresh (name_str (b_name b)) (b_dim b) (vec_of_list (entries n x)) = Ok b' -> made fresh b'.
Proof. intros Mb V b' E. do 3 eexists. exists n, x. split; [apply entries_vec|exact E]. Qed.

(** ** the dictionary of a spline *)
Definition the_dict (g : gspline T) bd (n : nat) (tf : nat -> T) (nc : nat) (cf : nat -> T) : pydict T :=
  [("domain_left_boundary", PyFloat (fst (gs_dom g))); ("domain_right_boundary", PyFloat (snd (gs_dom g)));
   ("codom_dim", PyInt (Z.of_nat (gs_codom g))); ("number_of_intervals", PyInt (Z.of_nat n));
   ("basis", PyDict bd); ("coefficients", PyList (map PyFloat (entries nc cf))); ("interval_lengths", PyList (map PyFloat (entries n tf)))].
Lemma spline_dict g bd n tf nc cf : basis_to_dict (gs_basis g) = Ok bd -> vec_is (gs_tau g) n tf -> vec_is (gs_coef g) nc cf ->
  gspline_to_dict g = Ok (the_dict g bd n tf nc cf).
Proof. intros Eb Vt Vc. unfold gspline_to_dict. rewrite Eb. cbn [bind]. rewrite (py_list_ok _ nc cf Vc), (py_list_ok _ n tf Vt). cbn [bind]. unfold gs_n. destruct Vt as (-> & _). reflexivity. Qed.
Lemma dict_spline g bd n tf nc cf : dict_to_gspline fresh (the_dict g bd n tf nc cf) =
  (b <- dict_to_basis fresh bd ;; gs_ctor (gs_dom g) (gs_codom g) n b (bs_init b) (vec_of_list (entries nc cf)) (vec_of_list (entries n tf))).
Proof.
  unfold dict_to_gspline, the_dict. cbn [dget find fst snd String.eqb Ascii.eqb Bool.eqb]. destruct (dict_to_basis fresh bd); cbn [bind]; auto.
  rewrite !to_size_ok. cbn [bind]. rewrite !to_doubles_ok. cbn [bind]. now destruct (gs_dom g).
Qed.
Lemma same_of (a b : vec T) n f : vec_is a n f -> vec_is b n f -> same_vec a b.
Proof. intros (L & G) (L' & G'). split; [congruence|]. intros i Hi. rewrite G, G'; auto; congruence. Qed.

Theorem round_trip g n tf cf : made fresh (gs_basis g) -> vec_is (gs_tau g) n tf -> vec_is (gs_coef g) (n * gs_dim g * gs_codom g) cf ->
  exists dct g', gspline_to_dict g = Ok dct /\ dict_to_gspline fresh dct = Ok g' /\ gspline_to_dict g' = Ok dct /\ same_spline g g' /\
    vec_is (gs_tau g') n tf /\ vec_is (gs_coef g') (n * gs_dim g * gs_codom g) cf /\ vlen (gs_buf g') = gs_dim g /\ made fresh (gs_basis g') /\ gs_bst g' = bs_init (gs_basis g') /\
    (b_name (gs_basis g) <> NLagrange -> gs_basis g' = gs_basis g) /\
    (b_name (gs_basis g) = NLagrange -> exists p bw gr, gs_basis g' = BLagrange p bw gr /\ bary_weights p = Ok bw /\ same_vec (b_params (gs_basis g)) p).
Proof.
  intros Mb Vt Vc. destruct (basis_dict _ Mb) as (m & x & Vp & Eb). destruct (basis_back _ m x Mb Vp) as (b' & E' & En & Ed & Vp' & Eq & El).
  set (nc := (n * gs_dim g * gs_codom g)%nat) in *. exists (the_dict g [("name", PyStr (name_str (b_name (gs_basis g)))); ("dim", PyInt (Z.of_nat (b_dim (gs_basis g)))); ("parameters", PyList (map PyFloat (entries m x)))] n tf nc cf).
  exists (mkgs (gs_dom g) (gs_codom g) (vec_of_list (entries nc cf)) (vec_of_list (entries n tf)) b' (bs_copy (bs_init b')) (vnew (b_dim b'))).
  split; [apply spline_dict; auto|]. split.
  { rewrite dict_spline, dict_basis, E'. cbn [bind]. unfold gs_ctor. cbn [vlen vec_of_list]. rewrite entries_len, Ed. unfold nc, gs_dim at 1. rewrite Nat.eqb_refl. reflexivity. }
  split. { rewrite (spline_dict _ [("name", PyStr (name_str (b_name b'))); ("dim", PyInt (Z.of_nat (b_dim b'))); ("parameters", PyList (map PyFloat (entries m x)))] n tf nc cf).
    - unfold the_dict. cbn [gs_dom gs_codom]. now rewrite En, Ed.
    - cbn [gs_basis]. unfold basis_to_dict. rewrite (py_list_ok _ m x Vp'). reflexivity.
    - apply entries_vec.
    - apply entries_vec. }
  split. { unfold same_spline. cbn [gs_dom gs_codom gs_coef gs_tau gs_basis]. repeat split; try congruence.
    - unfold gs_n. cbn [gs_tau vlen vec_of_list]. rewrite entries_len. apply Vt.
    - cbn [vlen vec_of_list]. rewrite entries_len. apply Vc.
    - apply (same_of _ _ nc cf); auto. apply entries_vec.
    - cbn [vlen vec_of_list]. rewrite entries_len. apply Vt.
    - apply (same_of _ _ n tf); auto. apply entries_vec.
    - apply (same_of _ _ m x); auto.
    - apply (same_of _ _ m x); auto. }
  cbn [gs_tau gs_coef gs_buf gs_basis gs_bst]. split; [apply entries_vec|]. split; [apply entries_vec|]. split; [cbn; exact Ed|]. split; [exact (made_again _ m x Mb Vp _ E')|].
  split; [reflexivity|]. split; auto. intros Hl. destruct (El Hl) as (bw & gr & -> & Ew). do 3 eexists. split; [reflexivity|]. split; auto. apply (same_of _ _ m x); auto using entries_vec.
Qed.

(** ** values *)
Lemma first_match_unique (x : nat -> T) s n m m' : first_match x s n m -> first_match x s n m' -> m = m'.
Proof.
  destruct m as [i|], m' as [j|]; cbn; auto.
  - intros (Hi & Ai & Bi) (Hj & Aj & Bj). destruct (lt_eq_lt_dec i j) as [[L|L]|L]; [|congruence|]; [rewrite (Bj i L) in Ai|rewrite (Bi j L) in Aj]; discriminate.
  - intros (Hi & Ai & _) K. rewrite (K i Hi) in Ai. discriminate.
  - intros K (Hj & Aj & _). rewrite (K j Hj) in Aj. discriminate.
Qed.
Lemma lag_same p p' bw bw' g g' n x w s tau i : vec_is p n x -> vec_is p' n x -> vec_is bw n w -> vec_is bw' n w -> (i < n)%nat ->
  bval (BLagrange p bw g) s tau i = bval (BLagrange p' bw' g') s tau i.
Proof.
  intros P P' W W' Hi. destruct (lag_eval_gen p bw (vnew (vlen p)) n x w s P W ltac:(apply P)) as (v & m & F & E & V).
  destruct (lag_eval_gen p' bw' (vnew (vlen p')) n x w s P' W' ltac:(apply P')) as (v' & m' & F' & E' & V'). rewrite (first_match_unique x s n m' m F' F) in V'.
  unfold bval. cbn [b_eval b_dim]. rewrite E, E'. destruct V as (_ & V), V' as (_ & V'). now rewrite V, V'.
Qed.
Lemma made_bok b : made fresh b -> (2 <= b_dim b)%nat -> bok b.
Proof.
  intros Mb Hd. destruct (made_cases b Mb) as [(dim & g & -> & E)|[(p & m & y & bw & g & -> & Vp & Hm & Vw)|(a & ->)]]; cbn; auto.
  replace (vlen p) with m by (symmetry; apply Vp). eauto.
Qed.
Theorem same_values g n tf cf dct g' pts pf np : made fresh (gs_basis g) -> vec_is (gs_tau g) n tf -> vec_is (gs_coef g) (n * gs_dim g * gs_codom g) cf ->
  vlen (gs_buf g) = gs_dim g -> (2 <= gs_dim g)%nat -> (1 <= n)%nat -> gspline_to_dict g = Ok dct -> dict_to_gspline fresh dct = Ok g' -> vec_is pts np pf ->
  exists m m' F, gs_value g pts = Ok m /\ gs_value g' pts = Ok m' /\ mat_is m np (gs_codom g) F /\ mat_is m' np (gs_codom g) F.
Proof.
  intros Mb Vt Vc Lb Hd Hn E1 E2 Vp. destruct (round_trip g n tf cf Mb Vt Vc) as (dct1 & g1 & F1 & F2 & _ & S & Vt' & Vc' & Lb' & Mb' & _ & Eq & El).
  rewrite E1 in F1. injection F1 as <-. rewrite E2 in F2. injection F2 as <-. destruct S as (D1 & D2 & _ & _ & _ & D3 & D4 & D5).
  assert (W : gwf g n (gs_codom g) tf cf) by (split; [apply made_bok; auto|auto]).
  assert (W' : gwf g' n (gs_codom g) tf cf). { split; [apply made_bok; auto; unfold gs_dim in Hd; congruence|]. unfold gs_dim in *. rewrite <- D4. auto. }
  destruct (value_gen g n _ tf cf pts pf np W Hn Vp) as (m & E & M). destruct (value_gen g' n _ tf cf pts pf np W' Hn Vp) as (m' & E' & M').
  exists m, m'. eexists. split; auto. split; auto. split; [exact M|]. apply (mat_is_ext _ _ _ _ _ M'). intros i j Hi Hj. rewrite <- D1. unfold gpt. rewrite <- D4.
  apply nsum_ext. intros k Hk. f_equal. destruct (b_name (gs_basis g)) eqn:En; try (rewrite (Eq ltac:(discriminate)); reflexivity).
  destruct (El eq_refl) as (p & bw & gr & Eg & Ew & Sp). rewrite Eg. destruct (gs_basis g) as [| p0 bw0 gr0|] eqn:Eg0; try discriminate. cbn [b_params b_dim] in *.
  destruct (made_cases _ Mb) as [(? & ? & X & _)|[(p1 & q & x & bw1 & gr1 & X & Vp1 & _ & Vw1)|(? & X)]]; try discriminate. injection X as <- <- <-.
  assert (Vp2 : vec_is p q x). { destruct Sp as (L & G). destruct Vp1 as (L1 & G1). split; [congruence|]. intros a Ha. rewrite <- G by congruence. auto. }
  destruct (bary_weights_gen p q x Vp2) as (bw2 & Ew2 & Vw2). rewrite Ew in Ew2. injection Ew2 as <-.
  symmetry. apply (lag_same p0 p bw0 bw gr0 gr q x (gw x q)); auto. replace q with (vlen p0); auto. apply Vp1.
Qed.
End Serial.
