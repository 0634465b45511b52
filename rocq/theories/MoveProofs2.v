From Coquelicot Require Import Coquelicot.
From Coq Require Import List Arith Lia Bool ZArith Reals Lra.
From Verif Require Import Num Outcome LinAlg RSum LegendreSpec Basis0101Spec BasisModel BasisProofs SplineSpec BasisFn
  ToolsModel GSplineModel GSplineProofs GSplineProofs2 GSplineProofs3 GSplineProofs4 GSplineProofs5 GSplineProofs6 MoveModel MoveSpec MoveProofs.
Import ListNotations.
Local Open Scope R_scope.

Lemma give_agree st e i o v : Forall2 agree st e -> denotes o v -> Forall2 agree (give st i o) (vput e i None ++ [Some v]).
Proof. intros F D. unfold give. apply F2_snoc; [apply F2_put; auto; exact (move_left o)|apply (move_live o v D)]. Qed.
Lemma get_live st e i v : Forall2 agree st e -> holds e i v -> exists o, sget_var st i = Ok o /\ denotes o v.
Proof. intros F E. destruct (F2_nth _ _ _ _ _ F E) as (o & Eo & D). exists o. unfold sget_var. rewrite Eo. auto. Qed.

(** coefficients of a sum or difference *)
Lemma map2_live f (g : R -> R -> R) a b v w : (forall x y, f x y = g x y) -> denotes a v -> denotes b w -> alike v w ->
  (forall iv cc t c c', piece (v_d v) (v_codom v) (v_t0 v) (v_tau v) (fun i => g (c i) (c' i)) iv cc t =
     g (piece (v_d v) (v_codom v) (v_t0 v) (v_tau v) c iv cc t) (piece (v_d v) (v_codom v) (v_t0 v) (v_tau v) c' iv cc t)) ->
  exists c, vmap2 f (so_coef a) (so_coef b) = Ok c /\
    (forall r, denotes r v -> denotes (so_with r c) (vmap (fun iv cc t => g (v_piece v iv cc t) (v_piece w iv cc t)) v)) /\
    denotes (so_with b c) (vmap (fun iv cc t => g (v_piece v iv cc t) (v_piece w iv cc t)) v).
Proof.
  intros Ef Da Db A L. pose proof (alike_denotes _ _ _ Db A) as Db'. destruct (denotes_coef _ _ Da) as (cf & V & F). destruct (denotes_coef _ _ Db') as (cf' & V' & F'). cbn in V', F'.
  destruct (vmap2_is f _ _ _ _ _ V V') as (c & E & Vc). exists c. split; auto.
  assert (Vc' : vec_is c (v_n v * d_dim (v_d v) * v_codom v) (fun i => g (cf i) (cf' i))) by (eapply vec_is_ext; [exact Vc|]; intros; cbv beta; apply Ef).
  assert (G : forall iv cc t, (iv < v_n v)%nat -> (cc < v_codom v)%nat -> g (v_piece v iv cc t) (v_piece w iv cc t) =
    piece (v_d v) (v_codom v) (v_t0 v) (v_tau v) (fun i => g (cf i) (cf' i)) iv cc t) by (intros; rewrite L, F, F' by auto; reflexivity).
  split; [intros r Dr; eapply with_live; eauto|]. apply (with_live b _ c _ _ Db' Vc' G).
Qed.

Lemma denotes_ext o v w : denotes o w -> alike v w -> (forall iv cc t, v_piece v iv cc t = v_piece w iv cc t) -> denotes o v.
Proof.
  intros D A E. destruct (alike_denotes _ _ _ D A) as (cf & Rp & P & Hn & Ht & HT & F). cbn in *. exists cf. repeat (split; [assumption|]). intros. rewrite E. auto.
Qed.
Lemma alike_sym a b : alike a b -> alike b a.
Proof. intros (E1 & E2 & E3 & E4 & E5 & E6). repeat split; auto. intros i Hi. symmetry. apply E6. congruence. Qed.
Lemma plus_step st e ri i rj j a b : Forall2 agree st e -> holds e i a -> holds e j b -> alike a b ->
  exists st', so_plus st ri i rj j = Ok st' /\ Forall2 agree st' (used ri i rj j e ++ [Some (vadd a b)]).
Proof.
  intros F Ha Hb A. destruct (get_live _ _ _ _ F Ha) as (oa & Ea & Da). destruct (get_live _ _ _ _ F Hb) as (ob & Eb & Db).
  unfold so_plus. rewrite Ea, Eb. cbn [bind]. rewrite (space_live _ _ _ _ Da Db A). cbn [bind].
  destruct ri; cbn [used].
  - destruct (map2_live nadd Rplus oa ob a b) as (c & E & L & _); auto. { intros; apply piece_plus. }
    rewrite E. cbn [bind]. eexists. split; [reflexivity|]. apply give_agree; [auto|apply L; auto].
  - destruct rj.
    + destruct (map2_live nadd Rplus ob oa b a) as (c & E & L & _); auto. { apply alike_sym; auto. } { intros; apply piece_plus. }
      rewrite E. cbn [bind]. eexists. split; [reflexivity|]. apply give_agree; [auto|]. eapply denotes_ext; [apply L; exact Db|exact A|]. intros. apply Rplus_comm.
    + destruct (copy_live _ _ Da) as (z & Ez & Dz & Ec). rewrite Ez. cbn [bind]. rewrite Ec.
      destruct (map2_live nadd Rplus oa ob a b) as (c & E & L & _); auto. { intros; apply piece_plus. }
      rewrite E. cbn [bind]. eexists. split; [reflexivity|]. apply F2_snoc; [auto|apply L; auto].
Qed.
Lemma minus_step st e ri i rj j a b : Forall2 agree st e -> holds e i a -> holds e j b -> alike a b ->
  exists st', so_minus st ri i rj j = Ok st' /\ Forall2 agree st' (used ri i rj j e ++ [Some (vsub a b)]).
Proof.
  intros F Ha Hb A. destruct (get_live _ _ _ _ F Ha) as (oa & Ea & Da). destruct (get_live _ _ _ _ F Hb) as (ob & Eb & Db).
  unfold so_minus. rewrite Ea, Eb. cbn [bind]. rewrite (space_live _ _ _ _ Da Db A). cbn [bind].
  destruct (map2_live nsub Rminus oa ob a b) as (c & E & L & L'); auto. { intros; apply piece_minus. }
  destruct ri; cbn [used].
  - rewrite E. cbn [bind]. eexists. split; [reflexivity|]. apply give_agree; [auto|apply L; auto].
  - destruct rj.
    + rewrite E. cbn [bind]. eexists. split; [reflexivity|]. apply give_agree; auto.
    + destruct (copy_live _ _ Da) as (z & Ez & Dz & Ec). rewrite Ez. cbn [bind]. rewrite Ec, E. cbn [bind].
      eexists. split; [reflexivity|]. apply F2_snoc; [auto|apply move_live, L; auto].
Qed.
Lemma assign_step f (g : R -> R -> R) st e i j a b : (forall x y, f x y = g x y) ->
  (forall d codom t0 tf iv cc t c c', piece d codom t0 tf (fun i => g (c i) (c' i)) iv cc t = g (piece d codom t0 tf c iv cc t) (piece d codom t0 tf c' iv cc t)) ->
  Forall2 agree st e -> holds e i a -> holds e j b -> alike a b ->
  exists st', so_assign f st i j = Ok st' /\ Forall2 agree st' (vput e i (Some (vmap (fun iv cc t => g (v_piece a iv cc t) (v_piece b iv cc t)) a))).
Proof.
  intros Ef Pg F Ha Hb A. destruct (get_live _ _ _ _ F Ha) as (oa & Ea & Da). destruct (get_live _ _ _ _ F Hb) as (ob & Eb & Db).
  unfold so_assign. rewrite Ea, Eb. cbn [bind]. rewrite (space_live _ _ _ _ Da Db A). cbn [bind].
  destruct (map2_live f g oa ob a b) as (c & E & L & _); auto. rewrite E. cbn [bind]. eexists. split; [reflexivity|]. apply F2_put; [auto|apply L; auto].
Qed.
Lemma scale_step x st e r i a : Forall2 agree st e -> holds e i a ->
  exists st', so_scale x st r i = Ok st' /\ Forall2 agree st' (used r i false i e ++ [Some (vmul x a)]).
Proof.
  intros F Ha. destruct (get_live _ _ _ _ F Ha) as (oa & Ea & Da). unfold so_scale. rewrite Ea. cbn [bind].
  destruct (denotes_coef _ _ Da) as (cf & V & Pc). pose proof (vscale_is _ _ _ x V) as Vs.
  assert (L : forall o, denotes o a -> denotes (so_with o (vscale (so_coef oa) x)) (vmul x a)).
  { intros o D. eapply with_live; [exact D|exact Vs|]. intros iv cc t Hi Hc. cbv beta. change (fun i0 => (cf i0 * x)%num) with (fun i0 : nat => cf i0 * x). rewrite piece_scal, Pc by auto. reflexivity. }
  destruct r; cbn [used].
  - eexists. split; [reflexivity|]. apply give_agree; auto.
  - destruct (copy_live _ _ Da) as (z & Ez & Dz & Ec). rewrite Ez. cbn [bind]. rewrite Ec. eexists. split; [reflexivity|]. apply F2_snoc; [auto|apply L; auto].
Qed.

(** ** derivatives: the cache of the source stays one that queries can produce *)
Definition reached (b : basis R) (s : bstate R) : Prop := exists h, serve_all b h (bs_init b) = Ok s.
Lemma for_pres {A} (P : A -> Prop) (f : nat -> A -> outcome A) : (forall i x y, P x -> f i x = Ok y -> P y) ->
  forall lo hi x y, P x -> for_ lo hi f x = Ok y -> P y.
Proof.
  intros S lo hi. unfold for_. generalize (hi - lo)%nat as n. intros n. revert lo. induction n as [|n IH]; intros lo x y Px E; cbn in E.
  - injection E as <-. auto.
  - apply bind_ok in E as (z & Ez & E). eapply IH; [|exact E]. eapply S; eauto.
Qed.
Lemma deriv_reached g k d bst : reached (gs_basis g) (gs_bst g) -> gs_deriv_impl g k = Ok (d, bst) -> reached (gs_basis g) bst.
Proof.
  intros H0 E. unfold gs_deriv_impl in E. apply bind_ok in E as ((coef & b') & Eb & E). apply bind_ok in E as (d' & _ & E). injection E as _ <-.
  destruct (Nat.ltb 0 k).
  - change (reached (gs_basis g) (snd (coef, b'))).
    apply (for_pres (fun st : vec R * bstate R => reached (gs_basis g) (snd st)) (fun iv st => for_ 0 (gs_codom g) (fun cc st => deriv_seg g k iv cc st) st)) with (lo := 0%nat) (hi := gs_n g) (x := (gs_coef g, gs_bst g)); auto.
    intros iv x y Px Ef. revert Ef. apply (for_pres (fun st : vec R * bstate R => reached (gs_basis g) (snd st)) (fun cc st => deriv_seg g k iv cc st)); auto.
    intros cc (c & s) (c' & s') (h & Hs) Es. cbn [snd] in *. unfold deriv_seg in Es. apply bind_ok in Es as (sc & _ & Es).
    apply bind_ok in Es as ((m & s1) & Eg & Es). apply bind_ok in Es as (seg & _ & Es). apply bind_ok in Es as (p & _ & Es).
    destruct (Nat.eqb _ _); [|discriminate]. apply bind_ok in Es as (c1 & _ & Es). injection Es as _ <-.
    exists (h ++ [RBlock k]). rewrite (serve_all_app _ _ _ _ _ Hs). cbn [serve_all serve]. rewrite Eg. reflexivity.
  - injection Eb as _ <-. auto.
Qed.
Lemma ctor_basis dom codom n b bst coef tau (g : gspline R) : gs_ctor dom codom n b bst coef tau = Ok g -> gs_basis g = b.
Proof. unfold gs_ctor. destruct (Nat.eqb _ _); [|discriminate]. intros E. injection E as <-. reflexivity. Qed.
Lemma copy_basis (g r : gspline R) : gs_copy g = Ok r -> gs_basis r = gs_basis g.
Proof. unfold gs_copy. destruct (Nat.eqb _ _); [|discriminate]. intros E. injection E as <-. reflexivity. Qed.
Lemma deriv_step k st e i a : Forall2 agree st e -> holds e i a -> blk_ok (v_d a) k ->
  exists st', so_deriv k st i = Ok st' /\ Forall2 agree st' (e ++ [Some (vder k a)]).
Proof.
  intros F Ha O. destruct (get_live _ _ _ _ F Ha) as (oa & Ea & Da). unfold so_deriv. rewrite Ea. cbn [bind].
  rewrite (live_basis _ _ Da). replace (if Nat.eqb (gs_n (so_g oa)) 0 then Ok (gs_basis (so_g oa)) else Ok (gs_basis (so_g oa))) with (Ok (gs_basis (so_g oa))) by (destruct (Nat.eqb _ _); reflexivity).
  cbn [bind]. rewrite with_basis_same. pose proof Da as (cf & Rp & P & Hn & Ht & HT & Pc).
  destruct (deriv_sfun _ _ _ _ _ _ _ _ k Rp O Ht) as (g' & cf' & E & R' & Pd & _). unfold gs_derivate in E. apply bind_ok in E as ((d & bst) & E1 & E2). cbn [fst] in E2.
  rewrite E1. cbn [bind]. rewrite E2. cbn [bind]. eexists. split; [reflexivity|]. apply F2_snoc.
  - eapply F2_put_same; [exact F|exact Ha|]. exists cf. cbn. split; [|auto 10].
    pose proof Rp as (B & D & C & V & K & L & hist). unfold rep. cbn. do 6 (split; [assumption|]).
    eapply deriv_reached; [|exact E1]. exact hist.
  - assert (Eb : gs_basis g' = gs_basis (so_g oa)).
    { rewrite (copy_basis _ _ E2). unfold gs_deriv_impl in E1. apply bind_ok in E1 as ((c & b') & _ & E1). apply bind_ok in E1 as (d' & Ec & E1). injection E1 as <- _. apply (ctor_basis _ _ _ _ _ _ _ _ Ec). }
    exists cf'. cbn. split; [exact R'|]. split; [rewrite Eb; exact P|]. do 3 (split; [assumption|]). intros iv cc t Hi Hc.
    rewrite (Derive_n_ext _ (piece (v_d a) (v_codom a) (v_t0 a) (v_tau a) cf iv cc)) by (intros; apply Pc; auto). apply is_derive_n_unique. apply Pd; auto.
Qed.
Lemma time_step l st e i a : Forall2 agree st e -> holds e i a -> / 10 ^ 8 <= l ->
  exists st', so_time l st i = Ok st' /\ Forall2 agree st' (e ++ [Some (vtime l a)]).
Proof.
  intros F Ha Hl. destruct (get_live _ _ _ _ F Ha) as (oa & Ea & Da). unfold so_time. rewrite Ea. cbn [bind].
  rewrite (live_basis _ _ Da). pose proof Da as (cf & Rp & P & Hn & Ht & HT & Pc).
  assert (L0 : 0 < l) by (assert (0 < / 10 ^ 8) by (apply Rinv_0_lt_compat, pow_lt; lra); lra).
  assert (Hf : 0 < l / (v_t1 a - v_t0 a)) by (apply Rmult_lt_0_compat; [auto|apply Rinv_0_lt_compat; lra]).
  destruct (linear_scaling_R _ _ _ _ _ _ _ _ l Rp HT Hl) as (g' & E & R' & _).
  assert (G : (l <? ten_m 8)%num = false). { destruct (l <? ten_m 8)%num eqn:Q; auto. unfold gs_linear_scaling in E. rewrite Q in E. discriminate. }
  rewrite G. cbn [bind]. rewrite with_basis_same, E. cbn [bind]. eexists. split; [reflexivity|]. apply F2_snoc; auto.
  exists cf. cbn. split; [exact R'|]. split; [|split; [exact Hn|split; [intros; apply Rmult_lt_0_compat; auto|split; [lra|]]]].
  - destruct (is_0101 (gs_basis (so_g oa))) eqn:Q; [reflexivity|]. rewrite P. unfold gs_linear_scaling in E. rewrite G in E. unfold gs_rescale in E.
    destruct (gs_basis (so_g oa)); try discriminate; rewrite (ctor_basis _ _ _ _ _ _ _ _ E); reflexivity.
  - intros iv cc t Hi Hc. rewrite piece_time; [apply Pc; auto|auto|]. apply Rgt_not_eq, Ht. auto.
Qed.

Lemma vexec_agree st e s e' : Forall2 agree st e -> vexec e s e' -> exists st', exec st s = Ok st' /\ Forall2 agree st' e'.
Proof.
  intros F V. destruct V.
  - destruct (ctor_rep b d hist bst (t0, t1) codom n coef tau cf tf H H0 H1 H2) as (g & E & Rg). cbn [exec]. rewrite E. cbn [bind]. eexists. split; [reflexivity|].
    apply F2_snoc; auto. exists cf. cbn. split; [exact Rg|]. split; [rewrite (ctor_basis _ _ _ _ _ _ _ _ E); reflexivity|]. auto 10.
  - destruct (get_live _ _ _ _ F H) as (o & E & D). destruct (copy_live _ _ D) as (z & Ez & Dz & _). cbn [exec]. rewrite E. cbn [bind]. rewrite Ez. cbn [bind].
    eexists. split; [reflexivity|]. apply F2_snoc; auto.
  - destruct (get_live _ _ _ _ F H) as (o & E & D). cbn [exec]. rewrite E. cbn [bind]. eexists. split; [reflexivity|]. apply give_agree; auto.
  - apply plus_step; auto.
  - apply minus_step; auto.
  - apply (assign_step nadd Rplus); auto. intros; apply piece_plus.
  - apply (assign_step nsub Rminus); auto. intros; apply piece_minus.
  - apply scale_step; auto.
  - cbn [exec]. replace (- n1)%num with (-1) by (rnum; ring). apply scale_step; auto.
  - apply deriv_step; auto.
  - apply time_step; auto.
Qed.
Lemma vrun_agree p : forall st e e', Forall2 agree st e -> vrun e p e' -> exists st', run st p = Ok st' /\ Forall2 agree st' e'.
Proof.
  induction p as [|s p IH]; intros st e e' F V; inversion V; subst.
  - exists st. auto.
  - destruct (vexec_agree _ _ _ _ F H2) as (st1 & E & F1). destruct (IH _ _ _ F1 H4) as (st2 & E2 & F2). exists st2. cbn [run]. rewrite E. auto.
Qed.
Lemma agree_length st e : Forall2 agree st e -> length st = length e.
Proof. induction 1; cbn; auto. Qed.

(** reading a live variable *)
Lemma denotes_value o v pts pf np : denotes o v -> vec_is pts np pf -> (forall i, (i < np)%nat -> exact_pt (v_d v) (wpos (v_t0 v) (v_tau v) (v_n v) (pf i))) ->
  exists m, so_value o pts = Ok m /\ mat_is m np (v_codom v) (fun i cc => v_at v cc (pf i)).
Proof.
  intros D V X. rewrite (live_value _ _ _ D). destruct D as (cf & Rp & P & Hn & Ht & HT & Pc).
  destruct (value_R _ _ _ _ _ _ _ _ pts pf np Rp Hn Ht V X) as (m & E & M). exists m. split; auto. eapply mat_is_ext; [exact M|].
  intros i cc Hi Hc. unfold v_at, sfun. symmetry. apply Pc; auto. apply locate_in; auto.
Qed.
