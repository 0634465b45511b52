(** Property C49: conversion to a dictionary and back. *)
From Coquelicot Require Import Coquelicot.
From Coq Require Import List Arith Lia Bool ZArith String Reals Lra.
From Verif Require Import Num Outcome LinAlg LegendreModel LegendreProofs LagrangeSpec LagrangeModel LagrangeProofs BasisModel SplineSpec BasisFn ToolsModel ToolsProofs GLModel GLProofs GSplineModel
  GSplineProofs GSplineProofs2 GSplineProofs3 GSplineProofs4 GSplineProofs5 SerialModel SerialSpec SerialProofs.
Import ListNotations.
Local Open Scope string_scope.
Local Open Scope list_scope.
Local Open Scope nat_scope.
Local Open Scope num_scope.

(** in any arithmetic: the conversion back succeeds, no observable differs, converting again gives the same dictionary *)
Theorem C49_round_trip : forall T (HN : Num T) fresh (g : gspline T) n tf cf, made fresh (gs_basis g) -> vec_is (gs_tau g) n tf -> vec_is (gs_coef g) (n * gs_dim g * gs_codom g) cf ->
  exists dct g', gspline_to_dict g = Ok dct /\ dict_to_gspline fresh dct = Ok g' /\ same_spline g g' /\ gspline_to_dict g' = Ok dct.
Proof. intros T HN fresh g n tf cf Mb Vt Vc. destruct (round_trip fresh g n tf cf Mb Vt Vc) as (dct & g' & A & B & C & D & _). exists dct, g'. auto. Qed.
Theorem C49_basis_round_trip : forall T (HN : Num T) fresh (b : basis T), made fresh b ->
  exists dct b', basis_to_dict b = Ok dct /\ dict_to_basis fresh dct = Ok b' /\ b_name b' = b_name b /\ b_dim b' = b_dim b /\ same_vec (b_params b) (b_params b') /\ basis_to_dict b' = Ok dct.
Proof.
  intros T HN fresh b Mb. destruct (basis_dict fresh b Mb) as (n & x & V & E). destruct (basis_back fresh b n x Mb V) as (b' & E' & En & Ed & V' & _).
  do 2 eexists. split; [exact E|]. split; [rewrite dict_basis; exact E'|]. split; auto. split; auto. split; [exact (same_of _ _ n x V V')|].
  unfold basis_to_dict. rewrite (py_list_ok _ n x V'), En, Ed. reflexivity.
Qed.
(** bit for bit the same values, in any arithmetic *)
Theorem C49_same_values : forall T (HN : Num T) fresh (g : gspline T) n tf cf dct g' pts pf np, made fresh (gs_basis g) -> vec_is (gs_tau g) n tf ->
  vec_is (gs_coef g) (n * gs_dim g * gs_codom g) cf -> vlen (gs_buf g) = gs_dim g -> (2 <= gs_dim g)%nat -> (1 <= n)%nat ->
  gspline_to_dict g = Ok dct -> dict_to_gspline fresh dct = Ok g' -> vec_is pts np pf ->
  exists m m' F, gs_value g pts = Ok m /\ gs_value g' pts = Ok m' /\ mat_is m np (gs_codom g) F /\ mat_is m' np (gs_codom g) F.
Proof. intros. eapply same_values; eauto. Qed.
(** over the reals: both objects stand for the same spline (so all theorems about values, derivatives, scalings apply to both alike), and == says so *)
Theorem C49_same_function : forall fresh g d n c t0 t1 tf cf, rep g d n c t0 t1 tf cf -> made fresh (gs_basis g) ->
  exists dct g', gspline_to_dict g = Ok dct /\ dict_to_gspline fresh dct = Ok g' /\ rep g' d n c t0 t1 tf cf /\ gs_eqb g g' = Ok true.
Proof.
  intros fresh g d n c t0 t1 tf cf Rp Mb. pose proof Rp as (B & Ed & Ec & Vt & Vc & Lb & _). pose proof (is_basis_dim _ _ B) as Hd.
  destruct (round_trip fresh g n tf cf Mb Vt) as (dct & g' & E1 & E2 & _ & S & Vt' & Vc' & Lb' & Mb' & Bs & Eq & El); [unfold gs_dim; rewrite Hd, Ec; exact Vc|].
  exists dct, g'. split; auto. split; auto. destruct S as (D1 & D2 & _ & _ & _ & D3 & D4 & D5).
  assert (B' : is_basis (gs_basis g') d).
  { destruct (b_name (gs_basis g)) eqn:En; try (rewrite (Eq ltac:(discriminate)); exact B). destruct (El eq_refl) as (p & bw & gr & Eg & Ew & (L & G)). rewrite Eg.
    destruct (gs_basis g) as [| p0 bw0 gr0|]; try discriminate. destruct d as [|m x|]; try contradiction. destruct B as (Vp & Hm & Dx & _). cbn [b_params] in *.
    split; [|auto]. split; [destruct Vp; congruence|]. intros i Hi. rewrite <- G; [apply Vp; auto|]. destruct Vp; congruence. }
  assert (R' : rep g' d n c t0 t1 tf cf).
  { unfold gs_dim in *. rewrite Hd, Ec in Vc'. rewrite Hd in Lb'. split; auto. split; [congruence|]. split; [congruence|]. split; auto. split; auto. split; auto. exists []. cbn. now rewrite Bs. }
  split; auto. unfold gs_eqb, gs_approx_eq. rewrite (approx_eq_vec_same _ _ _ cf _ Vc) by (apply R' || apply ten_m_pos). cbn [oand bind].
  rewrite (approx_eq_vec_same _ _ _ tf _ Vt) by (auto || apply ten_m_pos). cbn [oand bind].
  pose proof (space_same g g' d n c t0 t1 t0 t1 tf cf cf Rp R') as Sp. unfold same_vector_space in Sp. destruct (basis_eqb (gs_basis g) (gs_basis g')) as [[|]| |]; try discriminate. reflexivity.
Qed.

(** ** what is refused *)
Inductive pytype := TFloat | TInt | TDict | TList | TStr.
Definition has_type {T} (ty : pytype) (v : pyval T) : Prop :=
  match ty with
  | TFloat => exists x, v = PyFloat x
  | TInt => (exists z, v = PyInt z) \/ (exists b, v = PyBool b)
  | TDict => exists l, v = PyDict l
  | TList => exists l, v = PyList l
  | TStr => exists s, v = PyStr s
  end.
Definition spline_keys : list (string * pytype) :=
  [("domain_left_boundary", TFloat); ("domain_right_boundary", TFloat); ("codom_dim", TInt); ("number_of_intervals", TInt); ("basis", TDict); ("coefficients", TList); ("interval_lengths", TList)].
Definition basis_keys : list (string * pytype) := [("name", TStr); ("dim", TInt); ("parameters", TList)].
(** a missing key or a value of the wrong type *)
Theorem C49_wrong_type : forall T (HN : Num T) fresh (d : pydict T) key ty, ~ has_type ty (dget d key) ->
  (In (key, ty) spline_keys -> dict_to_gspline fresh d = Throw TypeError) /\ (In (key, ty) basis_keys -> dict_to_basis fresh d = Throw TypeError).
Proof.
  intros T HN fresh d key ty Nt. split; intros I; cbn in I.
  - unfold dict_to_gspline. repeat (destruct I as [E|I]; [injection E as <- <-; cbn in Nt;
      repeat match goal with |- context [match dget d ?k with _ => _ end] => destruct (dget d k) eqn:?; try reflexivity end; exfalso; apply Nt; eauto|]). destruct I.
  - unfold dict_to_basis. repeat (destruct I as [E|I]; [injection E as <- <-; cbn in Nt;
      repeat match goal with |- context [match dget d ?k with _ => _ end] => destruct (dget d k) eqn:?; try reflexivity end; exfalso; apply Nt; eauto|]). destruct I.
Qed.
(** a key that no entry carries *)
Theorem C49_missing_key : forall T (HN : Num T) fresh (d : pydict T) key, (forall v, ~ In (key, v) d) ->
  (In key (map fst spline_keys) -> dict_to_gspline fresh d = Throw TypeError) /\ (In key (map fst basis_keys) -> dict_to_basis fresh d = Throw TypeError).
Proof.
  intros T HN fresh d key Nd. assert (E : dget d key = PyNone).
  { unfold dget. destruct (find _ d) as [[k v]|] eqn:F; [|reflexivity]. apply find_some in F as (I & K). cbn in K. apply String.eqb_eq in K. subst k. destruct (Nd v I). }
  assert (Nt : forall ty, ~ has_type ty (dget d key)) by (intros ty; rewrite E; destruct ty; cbn; [intros (? & ?)|intros [(? & ?)|(? & ?)]|intros (? & ?)|intros (? & ?)|intros (? & ?)]; discriminate).
  split; intros I; apply in_map_iff in I as ([k ty] & K & I); cbn in K; subst k; apply (C49_wrong_type T HN fresh d key ty (Nt ty)); exact I.
Qed.
Example C49_missing_case : forall T (HN : Num T) fresh (p : pyval T), dict_to_basis fresh [("name", PyStr "legendre"); ("parameters", p)] = Throw TypeError.
Proof. intros T HN fresh p. apply (C49_missing_key T HN fresh _ "dim"); [intros v [E|[E|[]]]; discriminate|right; now left]. Qed.
(** in particular a boundary given as an integer, while integers are accepted as coefficients *)
Example C49_integer_case : forall T (HN : Num T) fresh (rest : pydict T), dict_to_gspline fresh (("domain_left_boundary", PyInt 0) :: rest) = Throw TypeError /\ to_double (PyInt (T := T) 3) = Ok (nofZ 3).
Proof. intros T HN fresh rest. split; [|reflexivity]. apply (C49_wrong_type T HN fresh _ "domain_left_boundary" TFloat); [intros (x & E); discriminate|now left]. Qed.

(** a value of the right type that the C++ side cannot take: a negative size, or a list with something else than numbers *)
Definition is_number {T} (v : pyval T) : Prop := (exists x, v = PyFloat x) \/ (exists z, v = PyInt z) \/ (exists b, v = PyBool b).
Definition bad_size {T} (v : pyval T) : Prop := exists z, v = PyInt z /\ (z < 0)%Z.
Definition bad_list {T} (v : pyval T) : Prop := exists l x, v = PyList l /\ In x l /\ ~ is_number x.
Lemma bad_size_throws : forall T (v : pyval T), bad_size v -> to_size v = Throw TypeError.
Proof. intros T v (z & -> & Hz). cbn. now rewrite (proj2 (Z.ltb_lt z 0) Hz). Qed.
Lemma bad_list_throws : forall T (HN : Num T) (l : list (pyval T)) x, In x l -> ~ is_number x -> to_doubles l = Throw TypeError.
Proof.
  intros T HN l x. induction l as [|v r IH]; intros I Nx; [destruct I|]. cbn. destruct I as [->|I].
  - unfold to_double. destruct x; try reflexivity; exfalso; apply Nx; unfold is_number; eauto.
  - rewrite (IH I Nx). destruct v; reflexivity.
Qed.
Lemma to_size_cases : forall T (v : pyval T), (exists k, to_size v = Ok k) \/ to_size v = Throw TypeError.
Proof. intros T v. unfold to_size. destruct v; eauto. destruct (Z.ltb z 0); eauto. Qed.
Lemma to_doubles_cases : forall T (HN : Num T) (l : list (pyval T)), (exists k, to_doubles l = Ok k) \/ to_doubles l = Throw TypeError.
Proof.
  intros T HN l. induction l as [|v r IH]; [left; now eexists|]. cbn. destruct v; cbn; auto; destruct IH as [(k & ->)| ->]; cbn; eauto.
Qed.
Theorem C49_bad_value : forall T (HN : Num T) fresh (d : pydict T),
  (bad_size (dget d "dim") \/ bad_list (dget d "parameters") -> dict_to_basis fresh d = Throw TypeError) /\
  (bad_size (dget d "codom_dim") \/ bad_size (dget d "number_of_intervals") \/ bad_list (dget d "coefficients") \/ bad_list (dget d "interval_lengths") ->
   (forall g, dict_to_gspline fresh d <> Ok g) /\
   (forall bd b, dget d "basis" = PyDict bd -> dict_to_basis fresh bd = Ok b -> dict_to_gspline fresh d = Throw TypeError)).
Proof.
  intros T HN fresh d. split.
  - intros Bad. unfold dict_to_basis. destruct (dget d "name"); try reflexivity. destruct (dget d "dim") as [|bo|z| | | |] eqn:Ed; try reflexivity;
      destruct (dget d "parameters") as [| | | | |l|] eqn:Ep; try reflexivity.
    + destruct Bad as [(z & E & _)|(l' & x & E & I & Nx)]; [discriminate|]. injection E as <-. cbn [to_size bind]. now rewrite (bad_list_throws T HN l x I Nx).
    + destruct Bad as [Bs|(l' & x & E & I & Nx)]; [now rewrite (bad_size_throws _ _ Bs)|]. injection E as <-. rewrite (bad_list_throws T HN l x I Nx).
      destruct (to_size_cases T (PyInt z)) as [(k & ->)| ->]; reflexivity.
  - intros Bad. assert (K : forall bd b, dget d "basis" = PyDict bd -> dict_to_basis fresh bd = Ok b -> dict_to_gspline fresh d = Throw TypeError).
    { intros bd b Eb Eok. unfold dict_to_gspline. rewrite Eb.
      destruct (dget d "domain_left_boundary") as [| | |x0| | |]; try reflexivity. destruct (dget d "domain_right_boundary") as [| | |x1| | |]; try reflexivity.
      destruct (dget d "codom_dim") as [|b1|z1| | | |] eqn:E1; try reflexivity; destruct (dget d "number_of_intervals") as [|b2|z2| | | |] eqn:E2; try reflexivity;
      destruct (dget d "coefficients") as [| | | | |lc|] eqn:E3; try reflexivity; destruct (dget d "interval_lengths") as [| | | | |lt|] eqn:E4; try reflexivity;
      cbv beta iota; rewrite Eok; cbn [bind];
      (destruct Bad as [Bs|[Bs|[(l' & x & E & I & Nx)|(l' & x & E & I & Nx)]]];
       [try (destruct Bs as (? & Ed & _); discriminate Ed); rewrite (bad_size_throws _ _ Bs); reflexivity
       |try (destruct Bs as (? & Ed & _); discriminate Ed); rewrite (bad_size_throws _ _ Bs)
       |injection E as <-; rewrite (bad_list_throws T HN _ x I Nx)
       |injection E as <-; rewrite (bad_list_throws T HN _ x I Nx); destruct (to_doubles_cases T HN lc) as [(kc & ->)| ->]]);
      repeat match goal with |- context [to_size ?v] => destruct (to_size_cases T v) as [(? & ->)| ->]; cbn [bind] end; reflexivity. }
    split; [|exact K]. intros g Eg. assert (exists bd b, dget d "basis" = PyDict bd /\ dict_to_basis fresh bd = Ok b) as (bd & b & Eb & Eok).
    { revert Eg. unfold dict_to_gspline. repeat match goal with |- context [match dget d ?k with _ => _ end] => destruct (dget d k) eqn:?; try discriminate end;
      match goal with |- context [dict_to_basis fresh ?l] => destruct (dict_to_basis fresh l) as [bb| |] eqn:Ebb; try discriminate; intros _; exists l, bb; split; auto end. }
    rewrite (K bd b Eb Eok) in Eg. discriminate.
Qed.
(** integers and booleans in the lists are read as the numbers they are *)
Definition as_float {T} `{Num T} (v : pyval T) : pyval T := match v with PyInt z => PyFloat (nofZ z) | PyBool b => PyFloat (if b then n1 else n0) | _ => v end.
Lemma to_doubles_as_float : forall T (HN : Num T) (l : list (pyval T)), to_doubles (map as_float l) = to_doubles l.
Proof. intros T HN l. induction l as [|v r IH]; [reflexivity|]. cbn. rewrite IH. destruct v; reflexivity. Qed.
Theorem C49_integers : forall T (HN : Num T) fresh name dim (l : list (pyval T)),
  dict_to_basis fresh [("name", name); ("dim", dim); ("parameters", PyList l)] = dict_to_basis fresh [("name", name); ("dim", dim); ("parameters", PyList (map as_float l))].
Proof. intros T HN fresh name dim l. unfold dict_to_basis. cbn [dget find fst snd String.eqb Ascii.eqb Bool.eqb]. now rewrite (to_doubles_as_float T HN l). Qed.
(** and booleans as sizes: True is one, False is zero *)
Definition as_int {T} (v : pyval T) : pyval T := match v with PyBool b => PyInt (if b then 1 else 0) | _ => v end.
Theorem C49_booleans : forall T (HN : Num T) fresh name dim (l : pyval T) a z n codom b c tau,
  dict_to_basis fresh [("name", name); ("dim", dim); ("parameters", l)] = dict_to_basis fresh [("name", name); ("dim", as_int dim); ("parameters", l)] /\
  dict_to_gspline fresh [("domain_left_boundary", a); ("domain_right_boundary", z); ("codom_dim", codom); ("number_of_intervals", n); ("basis", b); ("coefficients", c); ("interval_lengths", tau)] =
  dict_to_gspline fresh [("domain_left_boundary", a); ("domain_right_boundary", z); ("codom_dim", as_int codom); ("number_of_intervals", as_int n); ("basis", b); ("coefficients", c); ("interval_lengths", tau)].
Proof.
  intros T HN fresh name dim l a z n codom b c tau. split.
  - unfold dict_to_basis. cbn [dget find fst snd String.eqb Ascii.eqb Bool.eqb]. destruct dim as [|[|]| | | | |]; reflexivity.
  - unfold dict_to_gspline. cbn [dget find fst snd String.eqb Ascii.eqb Bool.eqb]. destruct codom as [|[|]| | | | |]; destruct n as [|[|]| | | | |]; reflexivity.
Qed.
(** a Legendre basis of dimension False is one of dimension 0, and True one of dimension 1 *)
Example C49_boolean_case : forall T (HN : Num T) fresh,
  dict_to_basis fresh [("name", PyStr "legendre"); ("dim", PyBool true); ("parameters", PyList (T := T) [])] = dict_to_basis fresh [("name", PyStr "legendre"); ("dim", PyInt 1); ("parameters", PyList (T := T) [])] /\
  as_int (PyBool (T := T) false) = PyInt 0.
Proof. intros T HN fresh. split; [|reflexivity]. exact (proj1 (C49_booleans T HN fresh (PyStr "legendre") (PyBool true) (PyList []) PyNone PyNone PyNone PyNone PyNone PyNone PyNone)). Qed.
Example C49_bad_case : forall T (HN : Num T) fresh, dict_to_basis fresh [("name", PyStr "legendre"); ("dim", PyInt (-3)); ("parameters", PyList (T := T) [])] = Throw TypeError /\
  dict_to_basis fresh [("name", PyStr "basis0101"); ("dim", PyInt 6); ("parameters", PyList (T := T) [PyStr "half"])] = Throw TypeError.
Proof.
  intros T HN fresh. split; apply C49_bad_value; [left; exists (-3)%Z; split; [reflexivity|lia]|right].
  exists [PyStr "half"], (PyStr "half"). split; [reflexivity|]. split; [now left|]. intros [(x & E)|[(z & E)|(b & E)]]; discriminate.
Qed.

Theorem C49_get_basis : forall T (HN : Num T) fresh name dim (params : vec T),
  (name <> "lagrange" -> name <> "legendre" -> name <> "basis0101" -> get_basis fresh name dim params = Throw InvalidArgument) /\
  (vlen params <> 1%nat -> get_basis fresh "basis0101" dim params = Throw InvalidArgument) /\
  (forall a, vlen params = 1%nat -> vget params 0 = Some a -> get_basis fresh "basis0101" dim params = Ok (B0101 a)) /\
  (forall n x, vec_is params n x -> (2 <= n)%nat -> exists bw gr, get_basis fresh "lagrange" dim params = Ok (BLagrange params bw gr)) /\
  (vlen params < 2 -> forall n x, vec_is params n x -> get_basis fresh "lagrange" dim params = UB)%nat.
Proof.
  intros T HN fresh name dim params. split; [|split; [|split; [|split]]].
  - intros A B C. unfold get_basis. destruct (String.eqb_spec name "lagrange"); [contradiction|]. destruct (String.eqb_spec name "legendre"); [contradiction|]. destruct (String.eqb_spec name "basis0101"); [contradiction|]. reflexivity.
  - intros L. unfold get_basis. cbn [String.eqb Ascii.eqb Bool.eqb]. destruct (Nat.eqb_spec (vlen params) 1); [contradiction|]. reflexivity.
  - intros a L G. unfold get_basis. cbn [String.eqb Ascii.eqb Bool.eqb]. rewrite L. cbn [Nat.eqb negb]. unfold vread. rewrite L, G. reflexivity.
  - intros n x V Hn. destruct (remake_lag fresh params n x V Hn) as (bw & gr & E & _). exists bw, gr. exact E.
  - intros L n x V. unfold get_basis. cbn [String.eqb Ascii.eqb Bool.eqb]. destruct (bary_weights_gen params n x V) as (w & -> & _). cbn [bind]. destruct (vlen params) as [|[|k]]; [reflexivity|reflexivity|lia].
Qed.
(** FINDING: parts of a dictionary that say something else are not refused but ignored: the parameters of a Legendre basis, the dimension of the
    two others; the conversion of the result differs from the dictionary *)
Theorem C49_ignored_refuted : forall T (HN : Num T) fresh dim dim' (params params' : vec T),
  get_basis fresh "legendre" dim params = get_basis fresh "legendre" dim params' /\
  get_basis fresh "lagrange" dim params = get_basis fresh "lagrange" dim' params /\
  get_basis fresh "basis0101" dim params = get_basis fresh "basis0101" dim' params.
Proof. intros. split; [|split]; reflexivity. Qed.
Theorem C49_ignored_dim_refuted : forall T (HN : Num T) fresh a dim, dim <> 6%nat ->
  exists (d d' : pydict T) b, dict_to_basis fresh d = Ok b /\ dget d "dim" = PyInt (Z.of_nat dim) /\ basis_to_dict b = Ok d' /\ dget d' "dim" = PyInt 6 /\ d' <> d /\ dget d "parameters" = PyList [PyFloat a].
Proof.
  intros T HN fresh a dim Hd. exists [("name", PyStr "basis0101"); ("dim", PyInt (Z.of_nat dim)); ("parameters", PyList [PyFloat a])]. do 2 eexists.
  split; [exact (dict_basis fresh "basis0101" dim 1 (fun _ => a))|]. split; [reflexivity|]. split; [reflexivity|]. split; [reflexivity|]. split; [|reflexivity].
  intros E. injection E as E. lia.
Qed.
(** the number of coefficients is checked; FINDING: the number of interval lengths is not, and the object that comes out cannot be converted back and forth *)
Theorem C49_coefficients : forall T (HN : Num T) fresh (g : gspline T) bd n tf nc cf b, dict_to_basis fresh bd = Ok b ->
  (nc <> n * b_dim b * gs_codom g)%nat -> dict_to_gspline fresh (the_dict g bd n tf nc cf) = Throw InvalidArgument.
Proof.
  intros T HN fresh g bd n tf nc cf b E Hc. rewrite dict_spline, E. cbn [bind]. unfold gs_ctor. cbn [vlen vec_of_list]. rewrite entries_len. destruct (Nat.eqb_spec nc (n * b_dim b * gs_codom g)); [contradiction|reflexivity].
Qed.
Theorem C49_lengths_refuted : forall T (HN : Num T) fresh (x0 x1 x2 x3 len : T), exists d g d',
  dget d "number_of_intervals" = PyInt 2 /\ dget d "interval_lengths" = PyList [PyFloat len] /\ dict_to_gspline fresh d = Ok g /\ gs_n g = 1%nat /\
  gspline_to_dict g = Ok d' /\ dict_to_gspline fresh d' = Throw InvalidArgument.
Proof.
  intros T HN fresh x0 x1 x2 x3 len.
  exists [("domain_left_boundary", PyFloat x0); ("domain_right_boundary", PyFloat x1); ("codom_dim", PyInt 1); ("number_of_intervals", PyInt 2);
     ("basis", PyDict [("name", PyStr "basis0101"); ("dim", PyInt 6); ("parameters", PyList [PyFloat x2])]); ("coefficients", PyList (repeat (PyFloat x3) 12)); ("interval_lengths", PyList [PyFloat len])].
  do 2 eexists. repeat (split; [reflexivity|]). reflexivity.
Qed.
(** a Lagrange spline over two intervals *)
Example C49_case : exists g fresh, let x := fun i => match i with 0 => (-1)%R | 1 => 0%R | _ => 1%R end in let cf := fun i => (INR i * INR i - 3)%R in
  rep g (DLag 3 x) 2 2 1 4 (fun i => INR (S i)) cf /\ made fresh (gs_basis g).
Proof.
  set (x := fun i => match i with 0 => (-1)%R | 1 => 0%R | _ => 1%R end). set (cf := fun i => (INR i * INR i - 3)%R). set (fresh := fun _ _ : nat => Some 0%R).
  set (p := mkvec 3 (fun i => Some (x i))). assert (V : vec_is p 3 x) by (split; reflexivity).
  destruct (remake_lag fresh p 3 x V ltac:(lia)) as (bw & gr & E & Ew). set (b := BLagrange p bw gr).
  assert (B : is_basis b (DLag 3 x)).
  { split; auto. split; [lia|]. split; auto. intros i j Hi Hj Ne. unfold x. destruct i as [|[|[|i]]], j as [|[|[|j]]]; try lia; cbn; lra. }
  assert (Vt : vec_is (mkvec 2 (fun i => Some (INR (S i)))) 2 (fun i => INR (S i))) by (split; reflexivity).
  assert (Vc : vec_is (mkvec 12 (fun i => Some (cf i))) (2 * d_dim (DLag 3 x) * 2) cf) by (split; reflexivity).
  destruct (ctor_rep b (DLag 3 x) [] (bs_init b) (1%R, 4%R) 2 2 _ _ cf _ B eq_refl Vt Vc) as (g & Eg & Rp). exists g, fresh. cbv zeta. split; [exact Rp|].
  assert (gs_basis g = b) as ->. { unfold gs_ctor in Eg. destruct Nat.eqb; [|discriminate]. injection Eg as <-. reflexivity. }
  exists "lagrange", 3%nat, p, 3%nat, x. split; auto.
Qed.
