(** Proofs about SobolevNorm: the value and its gradient. *)
From Coquelicot Require Import Coquelicot.
From Coq Require Import List Arith Lia Bool ZArith Reals Lra FunctionalExtensionality.
From Verif Require Import Num Outcome LinAlg RSum RMat RDeriv LegendreSpec LegendreModel
  BasisModel SplineSpec BasisFn BasisProofs3 ToolsModel GSplineModel
  InterpModel InterpSpec SolverSpec InterpProofs3 InterpMath InterpMath2 InterpProofs7 InterpProofs8 SobolevModel SobolevSpec SobolevProofs SobolevProofs2.
Import ListNotations.
Local Open Scope R_scope.

Lemma solve_ok b d c n ip tau tf wp W lu : reached b d c n ip -> exact_solver lu ->
  vec_is tau n tf -> (forall i, (i < n)%nat -> / 10 ^ 6 <= tf i) -> reads wp n c W ->
  exists r cf ip', ip_solve lu ip tau wp = Ok (r, ip') /\ vec_is r (d_dim d * c * n) cf /\ interpolates d c n 0 tf W cf /\ reached b d c n ip'.
Proof.
  intros Re Ex V Ht Rd. destruct (solve_system b d c n ip tau tf wp W Re V Ht Rd lu) as (A & v & bf & ip' & E & Vv & Sy & Ns & Re' & _).
  destruct (Ex _ A (proj1 (Sy 0)) Ns) as (f & El & F). destruct (F v bf Vv) as (xf & Vx & Sx). rewrite El in E.
  exists (f v), xf, ip'. split; auto. split; auto. split; auto. apply (is_system_solves d c n 0 tf W A bf xf (Sy 0)). exact Sx.
Qed.

Lemma ctotal_derive ws (F : nat -> R -> R) F' t : (forall k w, In (k, w) ws -> is_derive (F k) t (F' k)) ->
  is_derive (fun u => ctotal ws (fun k => F k u)) t (ctotal ws F').
Proof.
  induction ws as [|[k w] r IH]; intros D; cbn [ctotal].
  - apply d_const.
  - apply d_plus; [apply d_scal, (D k w), or_introl; reflexivity|]. apply IH. intros k' w' I. apply (D k' w'). now right.
Qed.
Lemma ctotal_ext ws E E' : (forall k w, In (k, w) ws -> E k = E' k) -> ctotal ws E = ctotal ws E'.
Proof.
  induction ws as [|[k w] r IH]; intros D; cbn [ctotal]; auto. rewrite (D k w (or_introl eq_refl)), IH; auto. intros k' w' I. apply (D k' w'). now right.
Qed.

(** derivative of the form when one length and the coefficients move *)
Lemma bform_derive dim c n ws Q B tf idx X dX :
  (idx < n)%nat ->
  (forall iv k w i j, (iv < n)%nat -> In (k, w) ws -> (i < dim)%nat -> (j < dim)%nat -> Q k (tf iv) i j = Q k (tf iv) j i) ->
  (forall k w i j, In (k, w) ws -> is_derive (fun t => Q k t i j) (tf idx) (B k (tf idx) i j)) ->
  (forall j, (j < dim * c * n)%nat -> is_derive (fun x => X x j) (tf idx) (dX j)) ->
  is_derive (fun x => bform dim c n (ctot ws Q (set_len tf idx x)) (X x) (X x)) (tf idx)
    (Rsum c (fun cc => Rsum dim (fun i => Rsum dim (fun j => ctotal ws (fun k => B k (tf idx) i j) *
        X (tf idx) ((idx * c + cc) * dim + i)%nat * X (tf idx) ((idx * c + cc) * dim + j)%nat))) +
     2 * bform dim c n (ctot ws Q tf) (X (tf idx)) dX).
Proof.
  intros Hidx Sy DQ DX. set (x0 := tf idx).
  set (D := fun iv i j => if Nat.eqb iv idx then ctotal ws (fun k => B k x0 i j) else 0).
  assert (E0 : forall iv, set_len tf idx x0 iv = tf iv).
  { intros iv. unfold set_len. destruct (Nat.eqb_spec iv idx) as [->|]; reflexivity. }
  assert (B1 : forall iv cc i, (iv < n)%nat -> (cc < c)%nat -> (i < dim)%nat -> ((iv * c + cc) * dim + i < dim * c * n)%nat).
  { intros iv cc i Hi Hc Hi'. pose proof (bound_ix iv n cc c dim Hi Hc). nia. }
  assert (E1 : forall iv i j, ctot ws Q (set_len tf idx x0) iv i j = ctot ws Q tf iv i j) by (intros; unfold ctot; now rewrite E0).
  set (a := fun iv cc i : nat => ((iv * c + cc) * dim + i)%nat).
  assert (T : forall iv cc i j, (iv < n)%nat -> (cc < c)%nat -> (i < dim)%nat -> (j < dim)%nat ->
    is_derive (fun x => ctot ws Q (set_len tf idx x) iv i j * X x (a iv cc i) * X x (a iv cc j)) x0
     ((D iv i j * X x0 (a iv cc i) + ctot ws Q tf iv i j * dX (a iv cc i)) * X x0 (a iv cc j) + ctot ws Q tf iv i j * X x0 (a iv cc i) * dX (a iv cc j))).
  { intros iv cc i j Hi Hc Hi' Hj. rewrite <- (E1 iv i j).
    apply (d_mult (fun x => ctot ws Q (set_len tf idx x) iv i j * X x (a iv cc i)) (fun x => X x (a iv cc j))); [|apply DX, B1; auto].
    apply (d_mult (fun x => ctot ws Q (set_len tf idx x) iv i j) (fun x => X x (a iv cc i))); [|apply DX, B1; auto].
    unfold ctot, D, set_len. destruct (Nat.eqb iv idx).
    - apply (ctotal_derive ws (fun k x => Q k x i j)). intros k w I. apply (DQ k w). exact I.
    - apply d_const. }
  eapply is_derive_eq.
  - unfold bform. apply is_derive_Rsum. intros iv Hi. apply is_derive_Rsum. intros cc Hc. apply is_derive_Rsum. intros i Hi'. apply is_derive_Rsum. intros j Hj.
    apply (T iv cc i j); auto.
  - assert (R1 : Rsum n (fun iv => Rsum c (fun cc => Rsum dim (fun i => Rsum dim (fun j => D iv i j * X x0 ((iv * c + cc) * dim + i)%nat * X x0 ((iv * c + cc) * dim + j)%nat)))) =
      Rsum c (fun cc => Rsum dim (fun i => Rsum dim (fun j => ctotal ws (fun k => B k x0 i j) * X x0 ((idx * c + cc) * dim + i)%nat * X x0 ((idx * c + cc) * dim + j)%nat)))).
    { rewrite (Rsum_delta n idx) by (try assumption; intros iv Hi Ne; apply Rsum_zero; intros; apply Rsum_zero; intros; apply Rsum_zero; intros; unfold D;
        destruct (Nat.eqb_spec iv idx); solve [lia|ring]).
      apply Rsum_ext; intros cc _; apply Rsum_ext; intros i _; apply Rsum_ext; intros j _. unfold D. now rewrite Nat.eqb_refl. }
    assert (R2 : bform dim c n (ctot ws Q tf) dX (X x0) = bform dim c n (ctot ws Q tf) (X x0) dX).
    { unfold bform. apply Rsum_ext; intros iv Hi; apply Rsum_ext; intros cc _. rewrite Rsum_swap. apply Rsum_ext; intros i Hi'; apply Rsum_ext; intros j Hj.
      replace (ctot ws Q tf iv j i) with (ctot ws Q tf iv i j); [ring|]. unfold ctot. apply ctotal_ext. intros k w I. now apply (Sy iv k w). }
    rewrite <- R1. replace (2 * bform dim c n (ctot ws Q tf) (X x0) dX) with (bform dim c n (ctot ws Q tf) dX (X x0) + bform dim c n (ctot ws Q tf) (X x0) dX) by (rewrite R2; ring).
    unfold bform. rewrite <- !Rsum_plus. apply Rsum_ext; intros iv Hi. rewrite <- !Rsum_plus. apply Rsum_ext; intros cc Hc.
    rewrite <- !Rsum_plus. apply Rsum_ext; intros i Hi'. rewrite <- !Rsum_plus. apply Rsum_ext; intros j Hj.
    unfold a. ring.
Qed.

(** ** operator() *)
Theorem value_ok b d c n ws W sn tau tf lu : sn_ok b d c n ws W sn -> (forall k w, In (k, w) ws -> order_ok d k) -> exact_solver lu ->
  vec_is tau n tf -> (forall i, (i < n)%nat -> / 10 ^ 6 <= tf i) ->
  exists cf sn', sn_value lu sn tau = Ok (bform (d_dim d) c n (ctot ws (gramQ d) tf) cf cf, sn') /\ interpolates d c n 0 tf W cf /\ sn_ok b d c n ws W sn'.
Proof.
  intros (Eb & En & Ec & Ew & Rd & Re) O Ex V P. pose proof Re as (B & _). destruct (solve_ok b d c n _ tau tf _ W lu Re Ex V P Rd) as (r & cf & ip' & E & Vr & S & Re').
  unfold sn_value. rewrite E. cbn [bind]. rewrite <- (is_basis_dim b d B) in Vr.
  rewrite (inner_ok b c n ws (gramQ d) sn tau tf r cf r cf Eb En Ec Ew (fun t _ => gram_adds b d ws t B O) V Vr Vr). cbn [bind].
  exists cf, (sn_with sn ip'). rewrite (is_basis_dim b d B). split; auto. split; auto. exact (conj Eb (conj En (conj Ec (conj Ew (conj Rd Re'))))).
Qed.

(** ** deriv_wrt_interval_len *)
Lemma grad_step_ok b d c n ws W sn tau tf lu coef X ip buff iv : sn_ok b d c n ws W sn -> (forall k w, In (k, w) ws -> order_tau_ok d k) -> exact_solver lu ->
  reached b d c n ip -> vec_is tau n tf -> (forall i, (i < n)%nat -> / 10 ^ 6 <= tf i) -> (iv < n)%nat -> vlen buff = n ->
  locally (tf iv) (fun x => interpolates d c n 0 (set_len tf iv x) W (X x)) -> vec_is coef (d_dim d * c * n) (X (tf iv)) ->
  exists ip' g, sn_grad_step lu sn tau coef iv (ip, buff) = (v <- vwrite buff iv g ;; Ok (ip', v)) /\ reached b d c n ip' /\
    is_derive (fun x => bform (d_dim d) c n (ctot ws (gramQ d) (set_len tf iv x)) (X x) (X x)) (tf iv) g.
Proof.
  intros (Eb & En & Ec & Ew & Rd & _) O Ex Re V P Hi L SX Vc. pose proof Re as (B & _). pose proof pos6 as P6.
  assert (Pt : forall i, (i < n)%nat -> 0 < tf i) by (intros i Hi'; specialize (P i Hi'); lra).
  destruct (coeff_tau_derives b d c n ip coef tau tf iv lu 0 W X Re Ex V P Hi SX Vc) as (r & rf & ip' & E & Vr & Re' & D).
  pose proof (fun k w I => order_tau d k (O k w I)) as O'.
  unfold sn_grad_step. rewrite E. cbn [bind]. rewrite (vread_ok tau n tf iv V Hi). cbn [bind]. rewrite Eb, Ec, Ew.
  destruct (weighted_ok _ _ ws _ (gram_tau_adds b d ws (tf iv) B O) _ _ (mzero_isR _ _)) as (m & Em & Mm). rewrite Em. cbn [bind].
  rewrite (is_basis_dim b d B) in *.
  match goal with |- context [for_ 0 c ?f ?s] => destruct (for_ok (fun k (acc : R) => acc = 
    Rsum k (fun cc => Rsum (d_dim d) (fun i => Rsum (d_dim d) (fun j => ctotal ws (fun k => gramB d k (tf iv) i j) *
        X (tf iv) ((iv * c + cc) * d_dim d + i)%nat * X (tf iv) ((iv * c + cc) * d_dim d + j)%nat)))) f 0 c s) as (q & E' & ->) end; [lia|reflexivity| |].
  - intros cc acc Hc ->. destruct (segment_ok _ _ _ coef _ iv cc Vc ltac:(lia) ltac:(lia)) as (s1 & E1 & S1).
    rewrite E1. cbn [bind]. rewrite (bilinear_ok _ _ _ _ _ _ _ S1 Mm S1). cbn [bind]. eexists. split; [reflexivity|].
    cbn [Rsum]. rnum. f_equal. apply Rsum_ext. intros i Hi'. apply Rsum_ext. intros j Hj. ring.
  - rewrite E'. cbn [bind].
    assert (Ei : sn_inner sn tau coef r = Ok (bform (d_dim d) c n (ctot ws (gramQ d) tf) (X (tf iv)) rf)).
    { rewrite <- (is_basis_dim b d B). apply (inner_ok b c n ws (gramQ d) sn tau tf coef (X (tf iv)) r rf Eb En Ec Ew (fun t _ => gram_adds b d ws t B O') V); rewrite (is_basis_dim b d B); auto. }
    rewrite Ei. cbn [bind]. eexists ip', _. split; [reflexivity|]. split; auto. unfold c2. rnum.
    apply (bform_derive (d_dim d) c n ws (gramQ d) (gramB d) tf iv X rf Hi); auto.
    + intros l k w i j Hl I Hi' Hj. apply (gram_sym b d k); auto. apply (O' k w I).
    + intros k w i j I. apply (gram_derive b); auto. apply (O k w I).
Qed.

(** ** the whole gradient *)
Theorem grad_ok b d c n ws W sn tau tf lu buff : sn_ok b d c n ws W sn -> (forall k w, In (k, w) ws -> order_tau_ok d k) -> exact_solver lu ->
  vec_is tau n tf -> (forall i, (i < n)%nat -> / 10 ^ 6 <= tf i) -> vlen buff = n ->
  exists v gf sn', sn_grad lu sn tau buff = Ok (v, sn') /\ vec_is v n gf /\ sn_ok b d c n ws W sn' /\
    forall idx, (idx < n)%nat -> / 10 ^ 6 < tf idx -> exists N : R -> R,
      locally (tf idx) (fun x => forall tau', vec_is tau' n (set_len tf idx x) -> exists sn'', sn_value lu sn tau' = Ok (N x, sn'')) /\
      is_derive N (tf idx) (gf idx).
Proof.
  intros Hs O Ex V P L. pose proof Hs as (Eb & En & Ec & Ew & Rd & Re). pose proof Re as (B & Ev & Hn & _). pose proof pos6 as P6.
  assert (Pt : forall i, (i < n)%nat -> 0 < tf i) by (intros i Hi'; specialize (P i Hi'); lra).
  destruct (reached_half _ _ _ _ _ Re) as (h & Hh & Hd).
  destruct (interp_map d h c n 0 (is_basis_desc _ _ B) Hh Hn Hd W) as (S & HS).
  destruct (solve_ok b d c n _ tau tf _ W lu Re Ex V P Rd) as (r & cf & ip1 & E & Vr & Sol & Re1).
  assert (Un : forall tf' x y, (forall i, (i < n)%nat -> 0 < tf' i) -> interpolates d c n 0 tf' W x -> interpolates d c n 0 tf' W y -> forall j, (j < d_dim d * c * n)%nat -> x j = y j).
  { intros tf' x y P' S1 S2. apply (interp_unique d h c n 0 (is_basis_desc _ _ B) Hh Hn Hd tf' W); auto. }
  assert (S0 : forall idx, (idx < n)%nat -> forall i, set_len tf idx (tf idx) i = tf i).
  { intros idx Hi i. unfold set_len. destruct (Nat.eqb_spec i idx) as [->|]; reflexivity. }
  unfold sn_grad. rewrite E. cbn [bind]. rewrite En.
  match goal with |- context [for_ 0 n ?f ?s] => destruct (for_ok (fun k (st : interp R * vec R) => reached b d c n (fst st) /\ vlen (snd st) = n /\
    exists gf, (forall i, (i < k)%nat -> vget (snd st) i = Some (gf i) /\
      is_derive (fun x => bform (d_dim d) c n (ctot ws (gramQ d) (set_len tf i x)) (S (set_len tf i x)) (S (set_len tf i x))) (tf i) (gf i))) f 0 n s)
      as ([ip' v] & E' & Re' & Lv & gf & G) end; [lia| | |].
  - cbn [fst snd]. split; auto. split; auto. exists (fun _ => 0). intros i Hi. lia.
  - intros iv [ip v] Hi (Rei & Lv & gf & G). cbn [fst snd] in *.
    destruct (grad_step_ok b d c n ws W sn tau tf lu r (fun x => S (set_len tf iv x)) ip v iv Hs O Ex Rei V P ltac:(lia) Lv) as (ip' & g & Es & Re' & D).
    + exists (mkposreal _ (Pt iv ltac:(lia))). intros x Bx. change (Rabs (x - tf iv) < tf iv) in Bx. apply Rabs_def2 in Bx. apply HS.
      intros i Hi'. unfold set_len. destruct (Nat.eqb_spec i iv); [lra|auto].
    + eapply vec_is_ext; [exact Vr|]. intros j Hj. apply (Un tf); auto.
      assert (SS := HS (set_len tf iv (tf iv))). assert (SSP : forall i, (i < n)%nat -> 0 < set_len tf iv (tf iv) i) by (intros i Hi'; rewrite S0 by lia; auto).
      specialize (SS SSP). replace (set_len tf iv (tf iv)) with tf in SS |- * by (symmetry; apply functional_extensionality; intros; apply S0; lia). exact SS.
    + rewrite Es. rewrite vwrite_lt by lia. cbn [bind]. eexists. split; [reflexivity|]. cbn [fst snd]. split; auto. split; [exact Lv|].
      exists (fun i => if Nat.eqb i iv then g else gf i). intros i Hi'. destruct (Nat.eqb_spec i iv) as [->|Ne].
      * cbn. rewrite Nat.eqb_refl. split; auto.
      * cbn. destruct (Nat.eqb_spec i iv); [lia|]. apply G. lia.
  - rewrite E'. cbn [bind]. exists v, gf, (sn_with sn ip'). split; auto. split; [split; [auto|intros i Hi; apply (G i Hi)]|]. split; [exact (conj Eb (conj En (conj Ec (conj Ew (conj Rd Re')))))|].
    intros idx Hi Hgt. exists (fun x => bform (d_dim d) c n (ctot ws (gramQ d) (set_len tf idx x)) (S (set_len tf idx x)) (S (set_len tf idx x))). split; [|apply (G idx Hi)].
    assert (Pe : 0 < tf idx - / 10 ^ 6) by lra. exists (mkposreal _ Pe). intros x Bx tau' V'. change (Rabs (x - tf idx) < tf idx - / 10 ^ 6) in Bx. apply Rabs_def2 in Bx.
    assert (P' : forall i, (i < n)%nat -> / 10 ^ 6 <= set_len tf idx x i) by (intros i Hi'; unfold set_len; destruct (Nat.eqb_spec i idx); [lra|auto]).
    destruct (value_ok b d c n ws W sn tau' (set_len tf idx x) lu Hs (fun k w I => order_tau d k (O k w I)) Ex V' P') as (cf' & sn'' & Ev' & Sol' & _).
    exists sn''. rewrite Ev'. do 2 f_equal. unfold bform. apply Rsum_ext; intros iv Hiv; apply Rsum_ext; intros cc Hc; apply Rsum_ext; intros i Hi'; apply Rsum_ext; intros j Hj.
    pose proof (bound_ix iv n cc c (d_dim d) Hiv Hc) as Bd.
    assert (U := Un (set_len tf idx x) cf' (S (set_len tf idx x))). rewrite !U; auto; try nia; try (intros l Hl; specialize (P' l Hl); lra); apply HS; intros l Hl; specialize (P' l Hl); lra.
Qed.
