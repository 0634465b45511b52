(** C88: the error report of the comparisons. *)
From Coquelicot Require Import Coquelicot.
From Coq Require Import List Arith Lia Bool Reals Lra.
From Verif Require Import Num Outcome LinAlg BasisModel ToolsModel ToolsSpec ToolsProofs FunModel GSplineModel GLLModel ReportModel ReportSpec.
Import ListNotations.
Local Open Scope R_scope.

Section Any.
Context {T : Type} `{Num T}.
Lemma fst_lbind {A B} (m : logged (T := T) A) (k : A -> logged (T := T) B) : fst (lbind m k) = (x <- fst m ;; fst (k x)).
Proof. unfold lbind. destruct m as [[a|e|] l]; reflexivity. Qed.
Lemma fst_land (a b : logged (T := T) bool) : fst (land a b) = oand (fst a) (fst b).
Proof. unfold land, oand. rewrite fst_lbind. destruct (fst a) as [[|]| |]; reflexivity. Qed.
Lemma snd_land (a b : logged (T := T) bool) : fst a = Ok true -> snd (land a b) = snd a ++ snd b.
Proof. intros E. unfold land, lbind. rewrite E. reflexivity. Qed.
Lemma fst_mat (a b : mat T) tol : fst (l_eq_mat a b tol) = approx_eq_mat a b tol.
Proof.
  unfold l_eq_mat, approx_eq_mat. destruct (negb _); [reflexivity|]. destruct (Nat.eqb _ 0); [reflexivity|]. rewrite fst_lbind. cbn [quiet fst]. destruct (maxcoeff _ _ _) as [err| |]; cbn [bind]; [|reflexivity|reflexivity].
  rewrite fst_lbind. cbn [quiet fst]. destruct (maxcoeff _ _ _) as [la| |]; cbn [bind]; [|reflexivity|reflexivity]. rewrite fst_lbind. cbn [quiet fst]. destruct (maxcoeff _ _ _) as [lb| |]; cbn [bind]; [|reflexivity|reflexivity]. destruct (_ || _); reflexivity.
Qed.
Lemma fst_basis (a b : basis T) : fst (l_basis_eqb a b) = basis_eqb a b.
Proof. unfold l_basis_eqb, basis_eqb. destruct (negb _); [reflexivity|]. destruct (negb _); [reflexivity|]. destruct (negb _); [reflexivity|]. apply fst_mat. Qed.
(** The stores change nothing about the answers: those are the ones of the other properties (C10, C22), in any arithmetic. *)
Theorem C88_answers : (forall a b tol : T, fst (l_eq a b tol) = Ok (approx_eq a b tol)) /\ (forall (a b : mat T) tol, fst (l_eq_mat a b tol) = approx_eq_mat a b tol) /\
  (forall a tol : T, fst (l_zero a tol) = Ok (approx_zero a tol)) /\ (forall (a : mat T) tol, fst (l_zero_mat a tol) = approx_zero_mat a tol) /\
  (forall g h : gspline T, fst (l_space g h) = same_vector_space g h) /\ (forall (g h : gspline T) tol, fst (l_eq_spline g h tol) = gs_approx_eq g h tol) /\
  (forall d e : T * T, fst (l_ends d e) = Ok (same_ends d e)).
Proof.
  assert (E1 : forall a b tol : T, fst (l_eq a b tol) = Ok (approx_eq a b tol)) by (intros; unfold l_eq, approx_eq; destruct (_ || _); reflexivity).
  split; [exact E1|]. split; [exact fst_mat|]. split; [reflexivity|]. split.
  { intros a tol. unfold l_zero_mat, approx_zero_mat. destruct (Nat.eqb _ 0); [reflexivity|]. rewrite fst_lbind. reflexivity. }
  split. { intros g h. unfold l_space, same_vector_space. rewrite !fst_land, fst_basis. unfold l_eq_vec. rewrite fst_mat. reflexivity. }
  split. { intros g h tol. unfold l_eq_spline, gs_approx_eq. rewrite !fst_land, fst_basis. unfold l_eq_vec. rewrite !fst_mat. reflexivity. }
  intros d e. unfold l_ends, same_ends. rewrite fst_land, !E1. simpl. destruct (approx_eq (snd d) (snd e) dom_tol); reflexivity.
Qed.

(** stores come in pairs *)
Inductive paired : list (write T) -> Prop := paired_nil : paired [] | paired_cons x y l : paired l -> paired (WErr x :: WRel y :: l).
Lemma paired_app l1 l2 : paired l1 -> paired l2 -> paired (l1 ++ l2).
Proof. intros P Q. induction P; simpl; [exact Q|constructor; exact IHP]. Qed.
Lemma paired_lbind {A B} (m : logged (T := T) A) (k : A -> logged (T := T) B) : paired (snd m) -> (forall a, paired (snd (k a))) -> paired (snd (lbind m k)).
Proof. intros P Q. unfold lbind. destruct (fst m); simpl; [apply paired_app; auto|exact P|exact P]. Qed.
Lemma paired_land (a b : logged (T := T) bool) : paired (snd a) -> paired (snd b) -> paired (snd (land a b)).
Proof. intros P Q. apply paired_lbind; [exact P|]. intros [|]; [exact Q|constructor]. Qed.
Lemma paired_mat (a b : mat T) tol : paired (snd (l_eq_mat a b tol)).
Proof.
  unfold l_eq_mat. destruct (negb _); [constructor|]. destruct (Nat.eqb _ 0); [constructor|]. apply paired_lbind; [constructor|]. intros err. apply paired_lbind; [constructor|]. intros la. apply paired_lbind; [constructor|]. intros lb. destruct (_ || _); repeat constructor.
Qed.
Lemma paired_basis (a b : basis T) : paired (snd (l_basis_eqb a b)).
Proof. unfold l_basis_eqb. destruct (negb _); [constructor|]. destruct (negb _); [constructor|]. destruct (negb _); [constructor|]. apply paired_mat. Qed.
Lemma paired_eq (a b tol : T) : paired (snd (l_eq a b tol)).
Proof. unfold l_eq. destruct (_ || _); repeat constructor. Qed.
Lemma paired_stores (s : sop T) : paired (stores s).
Proof.
  assert (Sp : forall g h : gspline T, paired (snd (l_space g h))) by (intros; unfold l_space; apply paired_land; [apply paired_basis|apply paired_land; [constructor|apply paired_mat]]).
  destruct s; simpl; try apply Sp; try constructor.
  - unfold l_eq_spline. apply paired_land; [apply paired_mat|apply paired_land; [apply paired_mat|apply paired_basis]].
  - destruct (same_discretization g h); [|constructor]. unfold l_ends. apply paired_land; apply paired_eq.
Qed.

Lemma cut_nth (l : list (list (write T))) : forall i w l', cut l i = Some (w, l') -> exists t, nth_error l i = Some (w :: t) /\ nth_error l' i = Some t /\ forall j, j <> i -> nth_error l' j = nth_error l j.
Proof.
  induction l as [|x l IH]; intros [|i] w l' E; simpl in E; try discriminate.
  - destruct x as [|v t]; [discriminate|]. injection E as <- <-. exists t. split; [reflexivity|]. split; [reflexivity|]. intros [|j] N; [contradiction|reflexivity].
  - destruct (cut l i) as [[v m]|] eqn:C; [|destruct x; discriminate]. destruct (IH _ _ _ C) as (t & A & B & D). assert (l' = x :: m /\ v = w) as (-> & ->) by (destruct x; injection E as <- <-; auto).
    exists t. split; [exact A|]. split; [exact B|]. intros [|j] N; [reflexivity|]. simpl. apply D. lia.
Qed.
(** Threads of which at most one stores anything never race, and the report at the end is the one of that thread. *)
Theorem C88_one_writer (l : list (list (write T))) i t r c : nth_error l i = Some t -> (forall j, j <> i -> forall u, nth_error l j = Some u -> u = []) -> ssteps (l, r) c ->
  ~ store_race c /\ ((forall j u, nth_error (fst c) j = Some u -> u = []) -> snd c = after r t).
Proof.
  intros Hi Ho St. remember (l, r) as c0 eqn:E0. revert l t r E0 Hi Ho. induction St as [c|c c' c'' S1 St IH]; intros l t r -> Hi Ho.
  - split.
    + intros (a & b & x & y & s & u & Ne & A & B & _). cbn [fst] in *. destruct (Nat.eq_dec a i) as [->|Na]; [|specialize (Ho a Na _ A); discriminate]. assert (b <> i) by congruence. specialize (Ho b H0 _ B). discriminate.
    + intros Z. cbn [fst snd] in *. rewrite (Z i t Hi). reflexivity.
  - inversion S1 as [k l0 w l' r0 C]; subst. destruct (cut_nth _ _ _ _ C) as (u & A & B & D).
    assert (k = i) as -> by (destruct (Nat.eq_dec k i) as [->|N]; [reflexivity|specialize (Ho k N _ A); discriminate]). rewrite Hi in A. injection A as ->.
    destruct (IH l' u (store r w) eq_refl B) as (P & Q). { intros j N v Ev. rewrite D in Ev by auto. exact (Ho j N v Ev). } split; [exact P|]. intros Z. rewrite (Q Z). reflexivity.
Qed.
(** REFUTED: operations on different objects do not disturb each other.  Any two threads that both store race from the start. *)
Theorem C88_threads_refuted (ops : list (sop T)) i j a b r : i <> j -> nth_error ops i = Some a -> nth_error ops j = Some b -> stores a <> [] -> stores b <> [] ->
  store_race (map stores ops, r).
Proof.
  intros N Ea Eb Na Nb. pose proof (paired_stores a) as Pa. pose proof (paired_stores b) as Pb. inversion Pa as [Za|x y s Sa Za]; [symmetry in Za; contradiction|]. inversion Pb as [Zb|x' y' s' Sb Zb]; [symmetry in Zb; contradiction|].
  exists i, j, (WErr x), (WErr x'), (WRel y :: s), (WRel y' :: s'). split; [exact N|]. cbn [fst]. rewrite !nth_error_map, Ea, Eb. simpl. rewrite <- Za, <- Zb. auto.
Qed.
End Any.

(** ** Over the reals *)
Lemma nmax_div err la lb : 0 <= err -> 0 < la -> 0 < lb -> nmax (H := Rnum) (err / la) (err / lb) = err / Rmin la lb.
Proof.
  intros He Ha Hb. unfold nmax. cbn. unfold Rmin. destruct (Rle_dec la lb) as [L|L].
  - assert (err / lb <= err / la) by (unfold Rdiv; apply Rmult_le_compat_l; [lra|apply Rinv_le_contravar; lra]). assert (X : Rltb (err / la) (err / lb) = false) by (apply Rltb_false; lra). rewrite X. reflexivity.
  - assert (err / la <= err / lb) by (unfold Rdiv; apply Rmult_le_compat_l; [lra|apply Rinv_le_contravar; lra]). destruct (Rltb (err / la) (err / lb)) eqn:X; [reflexivity|]. apply Rltb_false in X. lra.
Qed.
Lemma below_min err la lb tol : 0 < la -> 0 < lb -> 0 < tol -> (err < la * tol /\ err < lb * tol) <-> err / Rmin la lb < tol.
Proof.
  intros Ha Hb Ht. assert (K : forall m, 0 < m -> err < m * tol <-> err / m < tol).
  { intros m Hm. split; intros X; [apply (Rmult_lt_reg_r m); [lra|]; unfold Rdiv; rewrite Rmult_assoc, Rinv_l by lra; lra|apply (Rmult_lt_compat_r m) in X; [|lra]; unfold Rdiv in X; rewrite Rmult_assoc, Rinv_l in X by lra; lra]. }
  assert (M : 0 < Rmin la lb) by (apply Rmin_glb_lt; auto). rewrite <- (K _ M). unfold Rmin. destruct (Rle_dec la lb) as [L|L].
  - assert (la * tol <= lb * tol) by (apply Rmult_le_compat_r; lra). lra.
  - assert (lb * tol <= la * tol) by (apply Rmult_le_compat_r; lra). lra.
Qed.
(** Two numbers that are not small: the report holds the error and the relative error, and the answer is whether the latter is below
    the tolerance. *)
Theorem C88_numbers (a b tol : R) r : 0 < tol -> tol <= Rabs a -> tol <= Rabs b ->
  let r' := after r (snd (l_eq a b tol)) in describes r' (Rabs (a - b)) (Rabs a) (Rabs b) /\ (approx_eq a b tol = true <-> last_relative r' < tol).
Proof.
  intros Ht Ha Hb. unfold l_eq, approx_eq, describes. cbn. rewrite (proj2 (Rltb_false (Rabs a) tol)), (proj2 (Rltb_false (Rabs b) tol)) by lra. cbn. rewrite nmax_div by (try apply Rabs_pos; lra).
  split; [auto|]. rewrite andb_true_iff, !Rltb_true. apply below_min; lra.
Qed.
Lemma mat_stores (a b : mat R) r c A B tol : mat_is a r c A -> mat_is b r c B -> (r * c <> 0)%nat ->
  exists err la lb, maxabs r c (fun i j => A i j - B i j) err /\ maxabs r c A la /\ maxabs r c B lb /\
    (la < tol \/ lb < tol -> snd (l_eq_mat a b tol) = []) /\ (tol <= la -> tol <= lb -> l_eq_mat a b tol = (Ok (Rltb (err / la) tol && Rltb (err / lb) tol), [WErr err; WRel (nmax (err / la) (err / lb))])).
Proof.
  intros Ma Mb NZ. pose proof Ma as (Ra & Ca & _). pose proof Mb as (Rb & Cb & _). assert (Hr : (1 <= r)%nat) by (destruct r; lia). assert (Hc : (1 <= c)%nat) by (destruct c; lia).
  destruct (maxcoeff_R r c (fun i j => x <- mread a i j ;; y <- mread b i j ;; Ok (nabs (nsub x y))) (fun i j => Rabs (A i j - B i j)) Hr Hc) as (err & E1 & X1).
  { intros i j Hi Hj. rewrite (mread_ok a r c A) by auto. cbn [bind]. rewrite (mread_ok b r c B) by auto. reflexivity. }
  destruct (maxcoeff_R r c (fun i j => x <- mread a i j ;; Ok (nabs x)) (fun i j => Rabs (A i j)) Hr Hc) as (la & E2 & X2).
  { intros i j Hi Hj. rewrite (mread_ok a r c A) by auto. reflexivity. }
  destruct (maxcoeff_R r c (fun i j => x <- mread b i j ;; Ok (nabs x)) (fun i j => Rabs (B i j)) Hr Hc) as (lb & E3 & X3).
  { intros i j Hi Hj. rewrite (mread_ok b r c B) by auto. reflexivity. }
  exists err, la, lb. split; [exact X1|]. split; [exact X2|]. split; [exact X3|]. unfold l_eq_mat. rewrite Ra, Ca, Rb, Cb, !Nat.eqb_refl. cbn [andb negb]. destruct (Nat.eqb_spec (r * c) 0) as [Z|_]; [contradiction|].
  rewrite E1, E2, E3. unfold lbind, quiet. cbn [fst snd app]. split.
  - intros X. change (nltb la tol) with (Rltb la tol). change (nltb lb tol) with (Rltb lb tol). destruct X as [X|X]; apply Rltb_true in X; rewrite X, ?orb_true_r; reflexivity.
  - intros P Q. change (nltb la tol) with (Rltb la tol). change (nltb lb tol) with (Rltb lb tol). rewrite (proj2 (Rltb_false la tol)), (proj2 (Rltb_false lb tol)) by lra. reflexivity.
Qed.
Lemma maxabs_pos r c F M : maxabs r c F M -> 0 <= M.
Proof. intros (_ & i & j & _ & _ & ->). apply Rabs_pos. Qed.
Lemma maxabs_unique r c F M N : maxabs r c F M -> maxabs r c F N -> M = N.
Proof. intros (U1 & i & j & Hi & Hj & E) (U2 & i' & j' & Hi' & Hj' & E'). apply Rle_antisym; [rewrite E; apply U2; auto|rewrite E'; apply U1; auto]. Qed.
(** The same for matrices and vectors of one shape, with the largest entries. *)
Theorem C88_matrices (a b : mat R) r c A B tol err la lb rep : mat_is a r c A -> mat_is b r c B -> 0 < tol -> maxabs r c (fun i j => A i j - B i j) err -> maxabs r c A la -> maxabs r c B lb -> tol <= la -> tol <= lb ->
  let r' := after rep (snd (l_eq_mat a b tol)) in describes r' err la lb /\ (approx_eq_mat a b tol = Ok true <-> last_relative r' < tol).
Proof.
  intros Ma Mb Ht Me Mla Mlb Pa Pb. assert (NZ : (r * c <> 0)%nat) by (destruct Mla as (_ & i & j & Hi & Hj & _); destruct r, c; lia).
  destruct (mat_stores a b r c A B tol Ma Mb NZ) as (err' & la' & lb' & X & Y & Z & _ & W). rewrite <- (maxabs_unique _ _ _ _ _ Me X), <- (maxabs_unique _ _ _ _ _ Mla Y), <- (maxabs_unique _ _ _ _ _ Mlb Z) in W. specialize (W Pa Pb).
  pose proof (maxabs_pos _ _ _ _ Me) as Pe. rewrite <- fst_mat, W. cbn [snd fst after fold_left store last_error last_relative]. unfold describes. cbn [last_error last_relative]. rewrite nmax_div by lra. split; [auto|].
  split; [intros E; injection E as E; apply andb_true_iff in E as (E1 & E2); apply Rltb_true in E1; apply Rltb_true in E2; unfold Rmin; destruct (Rle_dec la lb); lra|].
  intros E. f_equal. apply andb_true_iff. rewrite !Rltb_true. assert (K : forall m, Rmin la lb <= m -> err / m <= err / Rmin la lb) by (intros m Hm; unfold Rdiv; apply Rmult_le_compat_l; [lra|apply Rinv_le_contravar; [apply Rmin_glb_lt; lra|exact Hm]]).
  pose proof (K la (Rmin_l _ _)). pose proof (K lb (Rmin_r _ _)). lra.
Qed.
(** Comparison with zero always reports, except for empty matrices. *)
Theorem C88_zero : (forall (a tol : R) r, after r (snd (l_zero a tol)) = mkrep (Rabs a) (Rabs a)) /\
  (forall (a : mat R) r c A tol m rep, mat_is a r c A -> maxabs r c A m -> after rep (snd (l_zero_mat a tol)) = mkrep m m /\ (approx_zero_mat a tol = Ok true <-> m < tol)).
Proof.
  split; [reflexivity|]. intros a r c A tol m rep Ma M. pose proof Ma as (Ra & Ca & _). assert (Hr : (1 <= r)%nat /\ (1 <= c)%nat) by (destruct M as (_ & i & j & Hi & Hj & _); lia). destruct Hr as (Hr & Hc).
  destruct (maxcoeff_R r c (fun i j => x <- mread a i j ;; Ok (nabs x)) (fun i j => Rabs (A i j)) Hr Hc) as (la & E2 & X2).
  { intros i j Hi Hj. rewrite (mread_ok a r c A) by auto. reflexivity. }
  unfold l_zero_mat, approx_zero_mat. rewrite Ra, Ca. destruct (Nat.eqb_spec (r * c) 0) as [Z|_]; [destruct r, c; lia|]. rewrite E2. rewrite (maxabs_unique _ _ _ _ _ M X2). split; [reflexivity|]. cbn [bind]. split; [intros E; injection E as E; apply Rltb_true; exact E|]. intros E. f_equal. apply Rltb_true. exact E.
Qed.
(** REFUTED: the report is about the last comparison.  If an operand is small, or the shapes differ, the old report stays, also when the
    answer is "different". *)
Theorem C88_stale_refuted : (forall (a b tol : R) r, Rabs a < tol \/ Rabs b < tol -> after r (snd (l_eq a b tol)) = r) /\ (forall tol, 0 < tol -> exists a b : R, approx_eq a b tol = false /\ forall r, after r (snd (l_eq a b tol)) = r) /\
  (forall (a b : mat R) tol r, mrows a <> mrows b \/ mcols a <> mcols b -> approx_eq_mat a b tol = Ok false /\ after r (snd (l_eq_mat a b tol)) = r).
Proof.
  assert (S : forall (a b tol : R) r, Rabs a < tol \/ Rabs b < tol -> after r (snd (l_eq a b tol)) = r).
  { intros a b tol r X. unfold l_eq. cbn. destruct X as [X|X]; apply Rltb_true in X; rewrite X, ?orb_true_r; reflexivity. }
  split; [exact S|]. split.
  - intros tol Ht. exists 0, (2 * tol). split; [|intros r; apply S; left; rewrite Rabs_R0; exact Ht]. apply not_true_iff_false. rewrite approx_eq_R. replace (0 - 2 * tol) with (- (2 * tol)) by ring. rewrite Rabs_Ropp, Rabs_R0, (Rabs_pos_eq (2 * tol)) by lra. unfold close. lra.
  - intros a b tol r X. assert (E : l_eq_mat a b tol = quiet (Ok false)). { unfold l_eq_mat. destruct X as [X|X]; [destruct (Nat.eqb_spec (mrows a) (mrows b)); [contradiction|reflexivity]|destruct (Nat.eqb_spec (mcols a) (mcols b)); [contradiction|rewrite andb_false_r; reflexivity]]. }
    rewrite <- fst_mat, E. split; reflexivity.
Qed.
Lemma vmat_is (v : vec R) n F : vec_is v n F -> mat_is (vmat v) n 1 (fun i _ => F i).
Proof. intros (L & G). split; [exact L|]. split; [reflexivity|]. intros i j Hi _. exact (G i Hi). Qed.
(** REFUTED: after == of two splines the report tells how far their coefficients are apart.  If the answer is "equal", the lengths are the
    same numbers and not small, and the basis has no parameters, the report says 0. *)
Theorem C88_equal_refuted (g h : gspline R) n F tol M da db ga gb r : gs_approx_eq g h tol = Ok true -> gs_basis g = BLegendre da ga -> gs_basis h = BLegendre db gb -> vec_is (gs_tau g) n F -> vec_is (gs_tau h) n F ->
  0 < tol -> maxabs n 1 (fun i _ => F i) M -> tol <= M -> after r (snd (l_eq_spline g h tol)) = mkrep 0 0.
Proof.
  intros E Bg Bh Tg Th Ht Mx PM. unfold gs_approx_eq in E. unfold l_eq_spline. unfold oand in E. apply bind_ok in E as ([|] & E1 & E); [|discriminate]. apply bind_ok in E as ([|] & E2 & E3); [|discriminate].
  assert (NZ : (n * 1 <> 0)%nat) by (destruct Mx as (_ & i & j & Hi & Hj & _); lia).
  destruct (mat_stores _ _ n 1 _ _ tol (vmat_is _ _ _ Tg) (vmat_is _ _ _ Th) NZ) as (err & la & lb & X & Y & Z & _ & W). rewrite <- (maxabs_unique _ _ _ _ _ Mx Y), <- (maxabs_unique _ _ _ _ _ Mx Z) in W. specialize (W PM PM).
  assert (err = 0) as ->. { destruct X as (_ & i & j & _ & _ & ->). unfold Rminus. rewrite Rplus_opp_r. apply Rabs_R0. }
  rewrite !snd_land by (unfold l_eq_vec; rewrite fst_mat; assumption).
  assert (Q : snd (l_basis_eqb (gs_basis g) (gs_basis h)) = []). { rewrite Bg, Bh. unfold l_basis_eqb. cbn [b_name bname_eqb negb b_dim b_params vlen vnew]. destruct (negb (Nat.eqb da db)); reflexivity. }
  rewrite Q, app_nil_r. clear Q. change (snd (l_eq_vec (gs_tau g) (gs_tau h) tol)) with (snd (l_eq_mat (vmat (gs_tau g)) (vmat (gs_tau h)) tol)). rewrite W. cbn [snd]. unfold after. rewrite fold_left_app. cbn [fold_left store last_error last_relative]. rewrite nmax_div by lra. unfold Rdiv. rewrite Rmult_0_l. reflexivity.
Qed.
(** Every sum or difference of two splines that belong together stores, unless all lengths are below 10^-8. *)
Theorem C88_sums_store (g h : gspline R) n F G M N : same_vector_space g h = Ok true -> vec_is (gs_tau g) n F -> vec_is (gs_tau h) n G -> maxabs n 1 (fun i _ => F i) M -> maxabs n 1 (fun i _ => G i) N -> ten_m 8 <= M -> ten_m 8 <= N ->
  forall o, stores (Plus o g h) <> [] /\ stores (Minus o g h) <> [] /\ stores (PlusEq g h) <> [] /\ stores (MinusEq g h) <> [].
Proof.
  intros E Tg Th Mg Mh Pg Ph o. assert (X : snd (l_space g h) <> []); [|simpl; auto]. unfold same_vector_space in E. unfold oand in E. apply bind_ok in E as ([|] & E1 & E); [|discriminate]. apply bind_ok in E as ([|] & E2 & E3); [|discriminate].
  assert (NZ : (n * 1 <> 0)%nat) by (destruct Mg as (_ & i & j & Hi & Hj & _); lia).
  destruct (mat_stores _ _ n 1 _ _ (ten_m 8) (vmat_is _ _ _ Tg) (vmat_is _ _ _ Th) NZ) as (err & la & lb & X & Y & Z & _ & W). rewrite <- (maxabs_unique _ _ _ _ _ Mg Y), <- (maxabs_unique _ _ _ _ _ Mh Z) in W. specialize (W Pg Ph).
  unfold l_space. rewrite snd_land by (rewrite fst_basis; exact E1). rewrite snd_land by (exact E2). unfold l_eq_vec. rewrite W. cbn [quiet snd app]. intros C. apply app_eq_nil in C as (_ & C). discriminate.
Qed.

(** 2 and 1: error 1, relative error 1 *)
Example C88_numbers_case r : after r (snd (l_eq 2 1 (1 / 10))) = mkrep 1 1 /\ approx_eq 2 1 (1 / 10) = false.
Proof.
  destruct (C88_numbers 2 1 (1 / 10) r) as ((A & B) & C); try (rewrite ?Rabs_R1, ?(Rabs_pos_eq 2); lra). destruct (after r (snd (l_eq 2 1 (1 / 10)))) as [x y]. cbn [last_error last_relative] in *. rewrite Rabs_R1, (Rabs_pos_eq 2) in * by lra.
  replace (2 - 1) with 1 in * by ring. rewrite Rabs_R1 in *. rewrite Rmin_right in B by lra. split; [rewrite A, B; f_equal; field|]. apply not_true_iff_false. rewrite C, B. lra.
Qed.
(** two lines over one interval of length 2 *)
Definition line_over (c0 c1 : R) : gspline R := mkgs (0, 2) 1 (vec_of_list [c0; c1]) (vec_of_list [2]) (BLegendre 2 []) (bs_init (BLegendre 2 [])) (vnew 2).
Lemma line_tau c0 c1 : vec_is (gs_tau (line_over c0 c1)) 1 (fun _ => 2).
Proof. split; [reflexivity|]. intros [|i] Hi; [reflexivity|lia]. Qed.
Lemma line_coef c0 c1 : vec_is (gs_coef (line_over c0 c1)) 2 (fun i => if Nat.eqb i 0 then c0 else c1).
Proof. split; [reflexivity|]. intros [|[|i]] Hi; [reflexivity|reflexivity|lia]. Qed.
Lemma max2 : maxabs 1 1 (fun _ _ => 2) 2.
Proof. split; [intros; rewrite Rabs_pos_eq; lra|]. exists 0%nat, 0%nat. rewrite Rabs_pos_eq by lra. split; [lia|]. split; [lia|reflexivity]. Qed.
Lemma ten_small k : 0 < ten_m (T := R) k <= 1.
Proof.
  unfold ten_m. cbn. assert (X : 1 <= npown (nofZ 10%Z) k). { induction k as [|k IH]; simpl; [apply Rle_refl|]. change (1 <= npown (nofZ 10%Z) k) in IH. cbn. cbn in IH. rnum. lra. }
  cbn in X. rnum. split; [apply Rdiv_lt_0_compat; lra|]. unfold Rdiv. rewrite Rmult_1_l, <- Rinv_1. apply Rinv_le_contravar; lra.
Qed.
Lemma line_tau_eq c0 c1 d0 d1 tol : 0 < tol -> approx_eq_vec (gs_tau (line_over c0 c1)) (gs_tau (line_over d0 d1)) tol = Ok true.
Proof. intros Ht. exact (approx_eq_mat_same _ _ 1 1 _ tol (vmat_is _ _ _ (line_tau c0 c1)) (vmat_is _ _ _ (line_tau d0 d1)) Ht). Qed.
Lemma line_space c0 c1 d0 d1 : same_vector_space (line_over c0 c1) (line_over d0 d1) = Ok true.
Proof. unfold same_vector_space. rewrite line_tau_eq by apply ten_small. reflexivity. Qed.
(** two threads that add lines, and one that evaluates *)
Example C88_threads_case r pts : store_race (map stores [Plus LL (line_over 0 1) (line_over 1 1); Value (line_over 0 1) pts; Minus RL (line_over 5 6) (line_over 7 8)], r).
Proof.
  pose proof (ten_small 8) as H8. apply (C88_threads_refuted _ 0%nat 2%nat (Plus LL (line_over 0 1) (line_over 1 1)) (Minus RL (line_over 5 6) (line_over 7 8))); try reflexivity; try discriminate.
  - exact (proj1 (C88_sums_store _ _ 1 _ _ 2 2 (line_space 0 1 1 1) (line_tau 0 1) (line_tau 1 1) max2 max2 ltac:(lra) ltac:(lra) LL)).
  - exact (proj1 (proj2 (C88_sums_store _ _ 1 _ _ 2 2 (line_space 5 6 7 8) (line_tau 5 6) (line_tau 7 8) max2 max2 ltac:(lra) ltac:(lra) RL))).
Qed.
(** lines whose coefficients differ by 10^-8: equal, and the report says that there is no difference *)
Example C88_equal_case r : gs_approx_eq (line_over 1 2) (line_over 1 (2 + 1 / 100000000)) (1 / 10000000) = Ok true /\ after r (snd (l_eq_spline (line_over 1 2) (line_over 1 (2 + 1 / 100000000)) (1 / 10000000))) = mkrep 0 0.
Proof.
  assert (E : gs_approx_eq (line_over 1 2) (line_over 1 (2 + 1 / 100000000)) (1 / 10000000) = Ok true).
  { unfold gs_approx_eq. assert (C : approx_eq_vec (gs_coef (line_over 1 2)) (gs_coef (line_over 1 (2 + 1 / 100000000))) (1 / 10000000) = Ok true).
    { destruct (approx_eq_mat_R _ _ 2 1 2 1 _ _ (1 / 10000000) (vmat_is _ _ _ (line_coef 1 2)) (vmat_is _ _ _ (line_coef 1 (2 + 1 / 100000000))) ltac:(lra)) as (v & Ev & K). unfold approx_eq_vec. rewrite Ev. f_equal. apply K. split; [reflexivity|]. split; [reflexivity|]. right.
      assert (MX : forall x y, 0 <= x <= y -> maxabs 2 1 (fun i _ => if Nat.eqb i 0 then x else y) y). { intros x y Hxy. split; [intros [|[|i]] j Hi Hj; cbn [Nat.eqb]; try (rewrite Rabs_pos_eq; lra); lia|]. exists 1%nat, 0%nat. cbn [Nat.eqb]. rewrite Rabs_pos_eq by lra. split; [lia|]. split; [lia|reflexivity]. }
      exists (1 / 100000000), 2, (2 + 1 / 100000000). split; [|split; [apply MX; lra|split; [apply MX; lra|unfold close; lra]]].
      split; [intros [|[|i]] j Hi Hj; cbn [Nat.eqb]; [replace (1 - 1) with 0 by ring; rewrite Rabs_R0; lra|replace (2 - (2 + 1 / 100000000)) with (- (1 / 100000000)) by ring; rewrite Rabs_Ropp, Rabs_pos_eq; lra|lia]|]. exists 1%nat, 0%nat. cbn [Nat.eqb]. replace (2 - (2 + 1 / 100000000)) with (- (1 / 100000000)) by ring. rewrite Rabs_Ropp, Rabs_pos_eq by lra. split; [lia|]. split; [lia|reflexivity]. }
    rewrite C, line_tau_eq by lra. reflexivity. }
  split; [exact E|]. apply (C88_equal_refuted _ _ 1 (fun _ => 2) (1 / 10000000) 2 2 2 [] [] r E eq_refl eq_refl (line_tau _ _) (line_tau _ _)); [lra|exact max2|lra].
Qed.
(** REFUTED (the report is about one comparison): during a comparison the new error stands beside the old relative error, and two
    threads that compare numbers can leave the error of one comparison beside the relative error of the other. *)
Theorem C88_mixed_refuted (a b c d tol : R) r : 0 < tol -> tol <= Rabs a -> tol <= Rabs b -> tol <= Rabs c -> tol <= Rabs d ->
  let start := ([snd (l_eq a b tol); snd (l_eq c d tol)], r) in
  (exists l, ssteps start (l, mkrep (Rabs (a - b)) (last_relative r))) /\
  ssteps start ([[]; []], mkrep (Rabs (c - d)) (Rabs (a - b) / Rmin (Rabs a) (Rabs b))).
Proof.
  intros Ht Ha Hb Hc Hd start. assert (Q : forall x y, tol <= Rabs x -> tol <= Rabs y -> snd (l_eq x y tol) = [WErr (Rabs (x - y)); WRel (Rabs (x - y) / Rmin (Rabs x) (Rabs y))]).
  { intros x y Hx Hy. unfold l_eq. cbn. rewrite (proj2 (Rltb_false (Rabs x) tol)), (proj2 (Rltb_false (Rabs y) tol)) by lra. cbn. rewrite nmax_div by (try apply Rabs_pos; lra). reflexivity. }
  unfold start. rewrite (Q a b Ha Hb), (Q c d Hc Hd). split.
  - eexists. eapply ssteps_cons; [apply (sstep_one 0); reflexivity|apply ssteps_nil].
  - eapply ssteps_cons; [apply (sstep_one 0); reflexivity|]. eapply ssteps_cons; [apply (sstep_one 1); reflexivity|]. eapply ssteps_cons; [apply (sstep_one 1); reflexivity|]. eapply ssteps_cons; [apply (sstep_one 0); reflexivity|]. apply ssteps_nil.
Qed.
Example C88_mixed_case : ssteps ([snd (l_eq 1 2 (1 / 10)); snd (l_eq 1 4 (1 / 10))], mkrep 0 0) ([[]; []], mkrep 3 1).
Proof.
  destruct (C88_mixed_refuted 1 2 1 4 (1 / 10) (mkrep 0 0)) as (_ & X); [lra|unfold Rabs; destruct (Rcase_abs _); lra..|].
  replace (Rabs (1 - 4)) with 3 in X by (unfold Rabs; destruct (Rcase_abs _); lra). replace (Rabs (1 - 2)) with 1 in X by (unfold Rabs; destruct (Rcase_abs _); lra).
  replace (Rabs 1) with 1 in X by (unfold Rabs; destruct (Rcase_abs _); lra). replace (Rabs 2) with 2 in X by (unfold Rabs; destruct (Rcase_abs _); lra).
  replace (1 / Rmin 1 2) with 1 in X by (unfold Rmin; destruct (Rle_dec 1 2); lra). exact X.
Qed.
(** A spline is compared with zero by its coefficients: the report is the largest of them. *)
Theorem C88_zero_spline (g : gspline R) n F tol m rep : vec_is (gs_coef g) n F -> maxabs n 1 (fun i _ => F i) m ->
  after rep (snd (l_zero_spline g tol)) = mkrep m m /\ (fst (l_zero_spline g tol) = Ok true <-> m < tol).
Proof.
  intros V M. destruct C88_zero as (_ & Z). destruct (Z (vmat (gs_coef g)) n 1%nat (fun i _ => F i) tol m rep (vmat_is _ _ _ V) M) as (A & B).
  split; [exact A|]. rewrite <- B. unfold l_zero_spline, l_zero_mat, approx_zero_mat. destruct (Nat.eqb (mrows (vmat (gs_coef g)) * mcols (vmat (gs_coef g))) 0); [reflexivity|]. rewrite fst_lbind. reflexivity.
Qed.
Example C88_zero_spline_case : vec_is (gs_coef (line_over 2 2)) 2 (fun i => if Nat.eqb i 0 then 2 else 2) /\ maxabs 2 1 (fun i _ => if Nat.eqb i 0 then 2 else 2) 2.
Proof. split; [apply line_coef|]. assert (E : Rabs 2 = 2) by (apply Rabs_right; lra). split; [intros i j _ _; destruct (Nat.eqb i 0); lra|]. exists 0%nat, 0%nat. split; [lia|]. split; [lia|]. simpl. lra. Qed.
