(** C91: the discretization of the domain of a collocation spline whose intervals have different lengths. *)
From Coquelicot Require Import Coquelicot.
From Coq Require Import List Arith Lia Bool ZArith Reals Lra.
From Verif Require Import Num Outcome LinAlg RSum RPoly LegendreSpec LegendreModel LagrangeSpec LagrangeModel LagrangeMath LagrangeProofs
  Basis0101Model BasisModel SplineSpec BasisFn BasisProofs BasisProofs2 BasisProofs3 ToolsModel FunModel GSplineModel GSplineProofs GSplineProofs2
  GSplineProofs4 GSplineProofs6 GLSpec GLModel GLProofs GLProofs2 GLProps GLLModel GLLProofs GLLProofs2 GLLProofs3 GLLProps GSplineProps ConvModel ConvProps.
Import ListNotations.
Local Open Scope R_scope.
Local Opaque gl_iters.

(** the time of the i-th node of an interval *)
Definition node_time (lb : R) (tf pf : nat -> R) (iv i : nat) : R := on_interval (bp lb tf iv) (tf iv) (pf i).
(** The points of get_domain_discretization are the nodes exactly if all intervals have the same length. *)
Theorem C91_nodes (g : gspline R) lb rb n codom nglp tf V p pf : colloc g (lb, rb) n codom nglp tf V -> (2 <= nglp)%nat -> (1 <= n)%nat ->
  bp lb tf n = rb -> gl_points nglp = Ok p -> vec_is p nglp pf ->
  exists grid t, gll_discretization g = Ok grid /\ vec_is grid (nglp * n) t /\
  ((forall iv i, (iv < n)%nat -> (i < nglp)%nat -> t (iv * nglp + i)%nat = node_time lb tf pf iv i) <-> (forall j k, (j < n)%nat -> (k < n)%nat -> tf j = tf k)).
Proof.
  intros C Hn H1 Hb Ep P. destruct (colloc_shape _ _ _ _ _ _ _ C Hn) as (Sn & Sd & Sc). assert (Ed : gs_dom g = (lb, rb)) by apply C.
  destruct (C40_points lb rb nglp n p pf Hn H1 Ep P) as (grid & Eg & Lg & Gg & _). cbv zeta in Gg. set (len := (rb - lb) / INR n) in *.
  pose proof (gl_points_is nglp p pf Hn Ep P) as EP. assert (X0 : pf 0%nat = -1) by (rewrite EP by lia; apply gpoint_first; lia). assert (X1 : pf (nglp - 1)%nat = 1) by (rewrite EP by lia; apply gpoint_last; lia).
  assert (Hn0 : 0 < INR n) by (apply lt_0_INR; lia).
  exists grid, (fun k => on_interval (lb + INR (k / nglp) * len) len (pf (k mod nglp)%nat)).
  split. { unfold gll_discretization. rewrite Ed, Sd, Sn. exact Eg. }
  split. { split; [exact Lg|]. intros k Hk. assert (Hm : (k mod nglp < nglp)%nat) by (apply Nat.mod_upper_bound; lia).
    assert (Hq : (k / nglp < n)%nat) by (apply Nat.div_lt_upper_bound; lia).
    pose proof (Gg (k / nglp)%nat (k mod nglp)%nat Hq Hm) as X. rewrite Nat.mul_comm, <- Nat.div_mod in X by lia. exact X. }
  assert (Q : forall iv i, (i < nglp)%nat -> on_interval (lb + INR ((iv * nglp + i) / nglp) * len) len (pf ((iv * nglp + i) mod nglp)%nat) = on_interval (lb + INR iv * len) len (pf i)).
  { intros iv i Hi. rewrite (Nat.add_comm (iv * nglp) i), Nat.div_add, Nat.mod_add by lia. rewrite Nat.div_small, Nat.mod_small by auto. reflexivity. }
  split.
  - intros X. assert (K : forall k, (k < n)%nat -> tf k = len).
    { intros k Hk. pose proof (X k 0%nat Hk ltac:(lia)) as A. pose proof (X k (nglp - 1)%nat Hk ltac:(lia)) as B. cbv beta in A, B. rewrite Q in A, B by lia. unfold node_time, on_interval in A, B. rewrite X0 in A. rewrite X1 in B. lra. }
    intros j k Hj Hk. rewrite !K by auto. reflexivity.
  - intros X iv i Hiv Hi. cbv beta. rewrite Q by auto. assert (K : forall k, (k < n)%nat -> tf k = len).
    { intros k Hk. assert (S : bp lb tf n = lb + INR n * tf k). { unfold bp. rewrite (Rsum_ext n tf (fun _ => tf k)) by (intros i' Hi'; apply X; auto). rewrite Rsum_const. reflexivity. }
      unfold len. rewrite <- Hb, S. field. lra. }
    unfold node_time. rewrite (K iv Hiv). f_equal. unfold bp. rewrite (Rsum_ext iv tf (fun _ => len)) by (intros i' Hi'; apply K; lia). rewrite Rsum_const. reflexivity.
Qed.
(** With equal lengths the spline has its stored values there. *)
Theorem C91_values (g : gspline R) lb rb n codom nglp tf V p pf : colloc g (lb, rb) n codom nglp tf V -> (2 <= nglp)%nat -> (1 <= n)%nat ->
  bp lb tf n = rb -> gl_points nglp = Ok p -> vec_is p nglp pf -> good_nodes nglp pf -> (forall k, (k < n)%nat -> 0 < tf k) -> (forall j k, (j < n)%nat -> (k < n)%nat -> tf j = tf k) ->
  (forall k cc, (S k < n)%nat -> (cc < codom)%nat -> V k cc (nglp - 1)%nat = V (S k) cc 0%nat) ->
  exists m, (grid <- gll_discretization g ;; gs_value g grid) = Ok m /\ mrows m = (nglp * n)%nat /\
  forall k, (k < nglp * n)%nat -> exists v, value_at g k = Ok v /\ vlen v = codom /\ forall cc, (cc < codom)%nat -> exists x, vget v cc = Some x /\ mget m k cc = Some x.
Proof.
  intros C Hn H1 Hb Ep P Gd Ht Eq Co. destruct (C91_nodes g lb rb n codom nglp tf V p pf C Hn H1 Hb Ep P) as (grid & t & Eg & Vg & X). rewrite Eg. cbn [bind].
  pose proof (proj2 X Eq) as N. assert (Hm : forall k, (k mod nglp < nglp)%nat) by (intros; apply Nat.mod_upper_bound; lia).
  destruct (C53_storage g (lb, rb) n codom nglp tf V p pf grid (nglp * n) t (fun k => k / nglp)%nat (fun k => k mod nglp)%nat C Hn H1 Ht Ep P Gd Co Vg) as (m & Em & Mm).
  { intros k Hk. assert (Hq : (k / nglp < n)%nat) by (apply Nat.div_lt_upper_bound; lia). split; [exact Hq|]. split; [apply Hm|]. pose proof (N _ _ Hq (Hm k)) as Y. rewrite Nat.mul_comm, <- Nat.div_mod in Y by lia. exact Y. }
  exists m. split; [exact Em|]. pose proof Mm as (R1 & R2 & G). split; [exact R1|]. intros k Hk. destruct (colloc_gwf _ _ _ _ _ _ _ C Hn) as (D & W).
  assert (Hq : (k / nglp < n)%nat) by (apply Nat.div_lt_upper_bound; lia).
  destruct (value_at_ok g n codom tf (nidx codom nglp V) k W) as (v & E & (L & Gv)); [rewrite D; lia|]. exists v. split; [exact E|]. split; [exact L|]. intros cc Hc. eexists. split; [apply Gv; exact Hc|]. rewrite G by auto. f_equal.
  rewrite D. symmetry. apply nidx_at; auto.
Qed.

(** ** Splines over [0, 3] with three intervals and two points, made with the basis of another collocation spline *)
Definition three_lengths (x y z : R) : vec R := vec_of_list [x; y; z].
Definition identity_values (x y z : R) : vec R := vec_of_list [0; x; x; x + y; x + y; x + y + z].
Definition len_of (x y z : R) (k : nat) : R := nth k [x; y; z] 0.
Definition val_of (x y z : R) (iv cc i : nat) : R := nth (iv * 2 + i) [0; x; x; x + y; x + y; x + y + z] 0.
Lemma three_is (l : list R) n : length l = n -> vec_is (vec_of_list l) n (fun k => nth k l 0).
Proof. intros <-. split; [reflexivity|]. intros k Hk. cbn. apply nth_error_nth'. exact Hk. Qed.
Lemma three_ok fresh x y z : exists a g, gll_identity fresh true (0, 3) 2 1 = Ok a /\
  gll_with (0, 3) 1 3 (gs_basis a) (gs_bst a) (identity_values x y z) (three_lengths x y z) = Ok g /\ colloc g (0, 3) 3 1 2 (len_of x y z) (val_of x y z).
Proof.
  destruct (ex_identity fresh 0 3) as (a & Ea & Ca). destruct (colloc_shape _ _ _ _ _ _ _ Ca ltac:(lia)) as (Sn & Sd & Sc). unfold gs_dim in Sd.
  exists a. unfold gll_with, gs_ctor. eexists. split; [exact Ea|]. rewrite Sd. split; [reflexivity|].
  unfold colloc. cbn [gs_dom gs_codom gs_tau gs_coef gs_buf gs_basis]. split; [reflexivity|]. split; [reflexivity|]. split; [apply (three_is [x; y; z] 3); reflexivity|]. split; [reflexivity|].
  split. { intros iv cc i A B D. assert (cc = 0)%nat by lia. subst cc. destruct iv as [|[|[|iv]]]; destruct i as [|[|i]]; try lia; reflexivity. }
  split; [reflexivity|]. apply Ca.
Qed.
Lemma three_at g x y z V (t : R) iv i : colloc g (0, 3) 3 1 2 (len_of x y z) V -> 0 < x -> 0 < y -> 0 < z -> (iv < 3)%nat -> (i < 2)%nat ->
  V 0%nat 0%nat 1%nat = V 1%nat 0%nat 0%nat -> V 1%nat 0%nat 1%nat = V 2%nat 0%nat 0%nat -> t = on_interval (bp 0 (len_of x y z) iv) (len_of x y z iv) (if Nat.eqb i 0 then -1 else 1) ->
  exists m, gs_value g (vconst 1 t) = Ok m /\ mget m 0 0 = Some (V iv 0%nat i).
Proof.
  intros C Hx Hy Hz Hiv Hi C1 C2 Et. destruct (colloc_nodes g (0, 3) 3 1 2 (len_of x y z) V (vconst 1 t) 1 (fun _ => t) (fun _ => iv) (fun _ => i) C ltac:(lia) ltac:(lia)) as (m & E & M).
  - intros [|[|[|k]]] Hk; try lia; cbn; lra.
  - exact good_2.
  - apply vconst_is.
  - intros k Hk. split; [exact Hiv|]. split; [exact Hi|]. rewrite Et. cbn [fst]. destruct i as [|[|i]]; [cbn [Nat.eqb]; rewrite (gpoint_first 2) by lia; reflexivity| |lia]. cbn [Nat.eqb]. pose proof (gpoint_last 2 ltac:(lia)) as Q. change (2 - 1)%nat with 1%nat in *. rewrite Q. reflexivity.
  - intros [|[|k]] cc Hk Hc; try lia; assert (cc = 0)%nat by lia; subst cc; auto.
  - exists m. split; [exact E|]. apply M; lia.
Qed.
(** REFUTED (the value at the k-th point of the discretization is value_at(k)): the identity over [0, 3] with lengths 1/2, 1/2, 2.
    The point with index 1 is 1, and so is the value there; the stored value is 1/2. *)
Theorem C91_values_refuted fresh : exists a g grid m v, gll_identity fresh true (0, 3) 2 1 = Ok a /\
  gll_with (0, 3) 1 3 (gs_basis a) (gs_bst a) (identity_values (1 / 2) (1 / 2) 2) (three_lengths (1 / 2) (1 / 2) 2) = Ok g /\
  gll_discretization g = Ok grid /\ vget grid 1 = Some 1 /\ gs_value g (vconst 1 1) = Ok m /\ mget m 0 0 = Some 1 /\ value_at g 1 = Ok v /\ vget v 0 = Some (1 / 2).
Proof.
  destruct (three_ok fresh (1 / 2) (1 / 2) 2) as (a & g & Ea & Eg & C). destruct (colloc_shape _ _ _ _ _ _ _ C ltac:(lia)) as (Sn & Sd & Sc). destruct (colloc_gwf _ _ _ _ _ _ _ C ltac:(lia)) as (_ & W).
  destruct (gl_points_ok (T := R) 2 ltac:(lia)) as (p & Ep & P). destruct (C40_points 0 3 2 3 p _ ltac:(lia) ltac:(lia) Ep P) as (grid & Er & Lr & _ & G & _).
  destruct (three_at g (1 / 2) (1 / 2) 2 _ 1 1 1 C) as (m & Em & Mm); try lra; try lia; [cbn; lra|cbn; lra|unfold on_interval, bp; cbn; field|].
  destruct (value_at_ok g 3 1 _ _ 1 W) as (v & Ev & V); [rewrite Sd; lia|].
  exists a, g, grid, m, v. split; [exact Ea|]. split; [exact Eg|]. split. { unfold gll_discretization. rewrite Sd, Sn. replace (gs_dom g) with (0, 3) by (symmetry; apply C). exact Er. }
  split. { destruct (G 0%nat ltac:(lia)) as (_ & Q). etransitivity; [exact Q|]. f_equal. cbn. field. }
  split; [exact Em|]. split. { rewrite Mm. f_equal. cbn. lra. }
  split; [exact Ev|]. destruct V as (_ & Gv). rewrite Gv by lia. rewrite Sd. f_equal.
Qed.
(** REFUTED (the product of two splines over the same domain is their product): the lengths are not compared.  The identity over [0, 3]
    with lengths 1/2, 1/2, 2 times the identity with lengths 1, 1, 1 gives 2 at time 1. *)
Theorem C91_product_refuted fresh o : exists a g h r mg mh mr, gll_identity fresh true (0, 3) 2 1 = Ok a /\
  gll_with (0, 3) 1 3 (gs_basis a) (gs_bst a) (identity_values (1 / 2) (1 / 2) 2) (three_lengths (1 / 2) (1 / 2) 2) = Ok g /\
  gll_with (0, 3) 1 3 (gs_basis a) (gs_bst a) (identity_values 1 1 1) (three_lengths 1 1 1) = Ok h /\
  gll_mul o g h = Ok r /\ gs_value g (vconst 1 1) = Ok mg /\ gs_value h (vconst 1 1) = Ok mh /\ gs_value r (vconst 1 1) = Ok mr /\
  mget mg 0 0 = Some 1 /\ mget mh 0 0 = Some 1 /\ mget mr 0 0 = Some 2.
Proof.
  destruct (three_ok fresh (1 / 2) (1 / 2) 2) as (a & g & Ea & Eg & Cg). destruct (three_ok fresh 1 1 1) as (a' & h & Ea' & Eh & Ch). assert (a' = a) by congruence. subst a'.
  destruct (C53_product o g h _ _ _ _ _ _ _ _ _ _ Cg Ch ltac:(lia)) as (_ & X & _). destruct X as (r & Er & Cr); [apply ends_refl|reflexivity|].
  destruct (three_at g (1 / 2) (1 / 2) 2 _ 1 1 1 Cg) as (mg & Emg & Mg); try lra; try lia; [cbn; lra|cbn; lra|unfold on_interval, bp; cbn; field|].
  destruct (three_at h 1 1 1 _ 1 0 1 Ch) as (mh & Emh & Mh); try lra; try lia; [cbn; lra|cbn; lra|unfold on_interval, bp; cbn; field|].
  destruct (three_at r (1 / 2) (1 / 2) 2 _ 1 1 1 Cr) as (mr & Emr & Mr); try lra; try lia; [cbn; lra|cbn; lra|unfold on_interval, bp; cbn; field|].
  exists a, g, h, r, mg, mh, mr. repeat (split; [assumption|]). rewrite Mg, Mh, Mr. cbn. repeat split; f_equal; lra.
Qed.
Example C91_case fresh : exists a g p pf, gll_identity fresh true (0, 3) 2 1 = Ok a /\ gll_with (0, 3) 1 3 (gs_basis a) (gs_bst a) (identity_values 1 1 1) (three_lengths 1 1 1) = Ok g /\
  colloc g (0, 3) 3 1 2 (len_of 1 1 1) (val_of 1 1 1) /\ bp 0 (len_of 1 1 1) 3 = 3 /\ gl_points 2 = Ok p /\ vec_is p 2 pf /\ good_nodes 2 pf /\
  (forall k, (k < 3)%nat -> 0 < len_of 1 1 1 k) /\ (forall j k, (j < 3)%nat -> (k < 3)%nat -> len_of 1 1 1 j = len_of 1 1 1 k) /\
  (forall k cc, (S k < 3)%nat -> (cc < 1)%nat -> val_of 1 1 1 k cc 1 = val_of 1 1 1 (S k) cc 0).
Proof.
  destruct (three_ok fresh 1 1 1) as (a & g & Ea & Eg & C). destruct (gl_points_ok (T := R) 2 ltac:(lia)) as (p & Ep & P). exists a, g, p, (gpoint (2 - 1)).
  split; [exact Ea|]. split; [exact Eg|]. split; [exact C|]. split; [unfold bp; cbn; lra|]. split; [exact Ep|]. split; [exact P|]. split; [exact good_2|].
  split; [intros [|[|[|k]]] Hk; try lia; cbn; lra|]. split; [intros [|[|[|j]]] [|[|[|k]]] Hj Hk; try lia; reflexivity|].
  intros [|[|k]] cc Hk Hc; try lia; reflexivity.
Qed.
