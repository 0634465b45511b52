(** Proofs about the states left by exceptions (ExnModel.v). *)
From Coq Require Import List Arith Lia Bool.
From Verif Require Import Num Outcome LinAlg LegendreModel LagrangeModel Basis0101Model BasisModel FunModel GSplineModel GLModel GLLModel GSplineProofs GLProofs GLLProofs GLLProofs2 ExnModel.
Import ListNotations.
Local Open Scope num_scope.

Section P.
Context {T : Type} {HN : Num T}.
Implicit Types (g that : gspline T) (f : fobj T).

(** ** Loops *)
Lemma mfor_steps {St A} (I : nat -> A -> St -> Prop) (body : nat -> A -> member St A) n : forall lo a s, I lo a s ->
  (forall k a s, lo <= k < lo + n -> I k a s -> exists a' s', body k a s = (s', Ok a') /\ I (S k) a' s')%nat ->
  exists a' s', mfor_n lo n body a s = (s', Ok a') /\ I (lo + n)%nat a' s'.
Proof.
  induction n as [|n IH]; intros lo a s I0 St'; cbn [mfor_n].
  - exists a, s. split; [reflexivity|]. now rewrite Nat.add_0_r.
  - destruct (St' lo a s ltac:(lia) I0) as (a' & s' & E & I1). unfold mbind. rewrite E.
    destruct (IH (S lo) a' s' I1) as (a'' & s'' & E' & I2); [intros; apply St'; auto; lia|].
    exists a'', s''. split; [exact E'|]. now replace (lo + S n)%nat with (S lo + n)%nat by lia.
Qed.
Lemma mfor_app {St A} (body : nat -> A -> member St A) n m : forall lo a s,
  mfor_n lo (n + m) body a s = mbind (mfor_n lo n body a) (mfor_n (lo + n) m body) s.
Proof.
  induction n as [|n IH]; intros lo a s; cbn [mfor_n Nat.add].
  - unfold mbind, reads. now rewrite Nat.add_0_r.
  - unfold mbind. destruct (body lo a s) as [s' [a'| |]]; auto. rewrite IH. unfold mbind. now replace (S lo + n)%nat with (lo + S n)%nat by lia.
Qed.
(** a loop whose body throws in iteration k *)
Lemma mfor_stops {St A} (I : nat -> A -> St -> Prop) (body : nat -> A -> member St A) n k a s e : (k < n)%nat -> I 0%nat a s ->
  (forall j a s, (j < k)%nat -> I j a s -> exists a' s', body j a s = (s', Ok a') /\ I (S j) a' s') ->
  (forall a s, I k a s -> body k a s = (s, Throw e)) ->
  exists a' s', mfor_n 0 n body a s = (s', Throw e) /\ I k a' s'.
Proof.
  intros Hk I0 St' Bad. replace n with (k + S (n - k - 1))%nat by lia. rewrite mfor_app.
  destruct (mfor_steps I body k 0 a s I0) as (a' & s' & E & I1); [intros; apply St'; auto; lia|]. cbn [Nat.add] in I1.
  unfold mbind at 1. rewrite E. cbn [mfor_n Nat.add]. unfold mbind. rewrite (Bad a' s' I1). eauto.
Qed.
(** an invariant of every iteration, however it ends *)
Lemma mfor_all {St A} (I : St -> Prop) (body : nat -> A -> member St A) n : forall lo a s, I s ->
  (forall k a s, I s -> I (fst (body k a s))) -> I (fst (mfor_n lo n body a s)).
Proof.
  induction n as [|n IH]; intros lo a s I0 St'; cbn [mfor_n]; [exact I0|].
  unfold mbind. specialize (St' lo a s I0) as I1. destruct (body lo a s) as [s' [a'| |]]; cbn [fst] in *; auto.
Qed.
Lemma mbind_all {St A B} (I : St -> Prop) (m : member St A) (k : A -> member St B) s : I (fst (m s)) ->
  (forall a s, I s -> I (fst (k a s))) -> I (fst (mbind m k s)).
Proof. intros I0 K. unfold mbind. destruct (m s) as [s' [a| |]]; cbn [fst] in *; auto. Qed.
(** the same, knowing what the first part returned *)
Lemma mbind_reads {St A B} (I : St -> Prop) (r : St -> outcome A) (k : A -> member St B) s : I s ->
  (forall a, r s = Ok a -> I (fst (k a s))) -> I (fst (mbind (reads r) k s)).
Proof. intros I0 K. unfold mbind, reads. destruct (r s) as [a| |]; cbn [fst] in *; auto. Qed.

(** ** How a call ended, against the functional model *)
Definition ends {A} (r : gspline T * outcome A) (o : outcome (gspline T)) : Prop :=
  match r with (s, Ok _) => o = Ok s | (_, Throw e) => o = Throw e | (_, UB) => o = UB end.

Lemma assign_ends move self g that : ends (m_assign move self that g) (gll_assign move self g that).
Proof.
  unfold m_assign, gll_assign, mbind, reads, changes, ends.
  destruct (require (negb (move && self))); cbn [bind]; auto. destruct (require (same_discretization g that)); cbn [bind]; auto.
  destruct (require (Nat.eqb (gs_codom g) (gs_codom that))); cbn [bind]; auto.
Qed.
Lemma pluseq_ends g that : ends (m_pluseq that g) (gs_pluseq g that).
Proof.
  unfold m_pluseq, gs_pluseq, mbind, reads, changes, ends. destruct (check_space g that); cbn [bind]; auto.
  destruct (vmap2 nadd (gs_coef g) (gs_coef that)); cbn [bind]; auto.
Qed.
Lemma minuseq_ends g that : ends (m_minuseq that g) (gs_minuseq g that).
Proof.
  unfold m_minuseq, gs_minuseq, mbind, reads, changes, ends. destruct (check_space g that); cbn [bind]; auto.
  destruct (vmap2 nsub (gs_coef g) (gs_coef that)); cbn [bind]; auto.
Qed.
Lemma assign_fun_ends self g f : ends (m_assign_fun self f g) (gll_assign_fun self g f).
Proof.
  unfold m_assign_fun, gll_assign_fun. unfold mbind at 1, reads at 1. destruct (require (negb self)); cbn [bind ends]; auto.
  unfold mbind at 1, reads at 1. destruct (require (Nat.eqb (gs_codom g) (fo_codom f))); cbn [bind ends]; auto.
  unfold mbind at 1, changes at 1. unfold mbind at 1, reads at 1. unfold gs_n. cbn [set_domain gs_tau].
  destruct (of_option (osum (vlen (gs_tau g)) (vget (gs_tau g)))) as [tot| |]; cbn [bind ends]; auto.
  unfold mbind at 1, changes at 1. cbn [set_domain set_tau gs_tau gs_dom gs_codom gs_coef gs_basis gs_bst gs_buf].
  set (tau := vscale (gs_tau g) ((snd (fo_dom f) - fst (fo_dom f)) / tot)).
  unfold mbind at 1, reads at 1. cbn [gs_tau gs_codom]. unfold gs_dim at 1. cbn [gs_basis]. unfold set_tau at 1 2. cbn [gs_basis gs_codom gs_tau].
  set (b := fun iv (st : mat T * T) => _ : member (gspline T) (mat T * T)).
  match goal with |- context [for_ 0 _ ?y _] => set (bf := y) end. unfold for_. rewrite Nat.sub_0_r.
  assert (L : forall N lo c lv lb,
    match mfor_n lo N b (lv, lb) (mkgs (fo_dom f) (gs_codom g) c tau (gs_basis g) (gs_bst g) (gs_buf g)) with
    | (s, Ok (lv', lb')) => for_n lo N bf (c, lv, lb) = Ok (gs_coef s, lv', lb') /\ s = mkgs (fo_dom f) (gs_codom g) (gs_coef s) tau (gs_basis g) (gs_bst g) (gs_buf g)
    | (s, Throw e) => for_n lo N bf (c, lv, lb) = Throw e
    | (s, UB) => for_n lo N bf (c, lv, lb) = UB
    end).
  { induction N as [|N IH]; intros lo c lv lb; cbn [mfor_n for_n]; [unfold reads; auto|].
    unfold mbind at 1. unfold b at 1. set (z := bf lo (c, lv, lb)). unfold bf in z. subst z. unfold mbind at 1, reads at 1. cbn [gs_tau]. destruct (vread tau lo) as [ti| |]; cbn [bind]; auto.
    unfold mbind at 1, reads at 1. cbn [gs_basis fst snd]. destruct (fo_val f _ _) as [lv'| |]; cbn [bind]; auto.
    unfold mbind at 1, reads at 1. cbn [gs_coef gs_codom]. unfold gs_dim at 1 2. cbn [gs_basis]. fold (gs_dim g).
    destruct (vset_sized c _ _ _) as [c'| |]; cbn [bind]; auto. unfold mbind, changes, reads, with_coef. cbn [gs_dom gs_codom gs_tau gs_basis gs_bst gs_buf]. apply IH. }
  specialize (L (vlen tau) 0%nat (gs_coef g) (mnew (gs_dim g) (gs_codom g)) (fst (fo_dom f))).
  unfold mbind, reads. unfold set_tau at 2. unfold set_domain at 1. cbn [gs_dom gs_codom gs_coef gs_basis gs_bst gs_buf].
  fold (gs_dim g).
  match goal with |- context [mfor_n 0 ?n ?bb ?aa ?ss] => change (mfor_n 0 n bb aa ss) with (mfor_n 0 (vlen tau) b (mnew (gs_dim g) (gs_codom g), fst (fo_dom f)) (mkgs (fo_dom f) (gs_codom g) (gs_coef g) tau (gs_basis g) (gs_bst g) (gs_buf g))) end.
  destruct (mfor_n 0 _ b _ _) as [s' [[lv' lb']| |]].
  - destruct L as [L ->]. rewrite L. reflexivity.
  - rewrite L. reflexivity.
  - rewrite L. reflexivity.
Qed.
Lemma array_ends g dom (vals : list (vec T)) : ends (m_set_from_array dom (map (fun v => Ok v) vals) g) (gll_set_from_array g dom vals).
Proof.
  unfold m_set_from_array, gll_set_from_array. unfold mbind at 1, changes at 1. unfold mbind at 1, reads at 1. rewrite map_length.
  unfold gs_dim at 1, gs_n at 1. unfold set_domain at 1 2. cbn [gs_basis gs_tau]. fold (gs_dim g) (gs_n g).
  destruct (Nat.eqb (length vals) (gs_dim g * gs_n g)); cbn [negb ends]; auto.
  unfold mbind at 1, reads at 1. unfold gs_n at 1. cbn [set_domain gs_tau]. fold (gs_n g).
  destruct (of_option (osum (gs_n g) (vget (gs_tau g)))) as [tot| |]; cbn [bind ends]; auto.
  unfold mbind at 1, changes at 1. unfold set_tau, set_domain. cbn [gs_dom gs_codom gs_coef gs_tau gs_basis gs_bst gs_buf].
  unfold for_. rewrite Nat.sub_0_r.
  match goal with |- context [for_n 0 _ ?y ?g0] => set (bf := y); set (s0 := g0) end.
  match goal with |- context [mfor_n 0 _ ?y tt] => set (b := y) end.
  assert (D0 : gs_dim s0 = gs_dim g) by reflexivity. generalize dependent s0. intros s0 D0.
  assert (L : forall N lo s, gs_dim s = gs_dim g ->
    match mfor_n lo N b tt s with
    | (s', Ok _) => for_n lo N bf s = Ok s'
    | (_, Throw e) => for_n lo N bf s = Throw e
    | (_, UB) => for_n lo N bf s = UB
    end).
  { induction N as [|N IH]; intros lo s Ds; cbn [mfor_n for_n]; [reflexivity|].
    unfold mbind at 1. unfold b at 1. set (z := bf lo s). unfold bf in z. subst z. unfold mbind at 1, reads at 1. rewrite nth_error_map.
    destruct (nth_error vals lo) as [v|]; cbn [option_map of_option bind]; auto.
    unfold mbind at 1, reads at 1. rewrite Ds. destruct (value_block s (lo / gs_dim g)) as [m| |]; cbn [bind]; auto.
    destruct (Nat.eqb (vlen v) (mcols m)); auto.
    destruct (set_block s _ _) as [s'| |] eqn:E; cbn [bind]; auto. unfold changes. apply IH.
    unfold set_block in E. destruct (vset_sized _ _ _ _) as [c| |]; cbn [bind] in E; try discriminate. injection E as <-. exact Ds. }
  specialize (L (length vals) 0%nat s0 D0). unfold ends. destruct (mfor_n 0 _ b tt s0) as [s' [u| |]]; auto.
Qed.

(** ** Copy, move and compound assignment: all or nothing *)
Lemma reads_kept {A B} (r : gspline T -> outcome A) (k : A -> member (gspline T) B) s s' e :
  mbind (reads r) k s = (s', Throw e) -> s' = s \/ exists a, r s = Ok a /\ k a s = (s', Throw e).
Proof. unfold mbind, reads. destruct (r s) as [a| |]; intros E; [right; eauto|left; congruence|discriminate]. Qed.
Lemma assign_kept move self that s s' e : m_assign move self that s = (s', Throw e) -> s' = s.
Proof.
  intros E. unfold m_assign in E. repeat (apply reads_kept in E; destruct E as [E|(? & _ & E)]; [exact E|]). discriminate.
Qed.
Lemma pluseq_kept that s s' e : m_pluseq that s = (s', Throw e) -> s' = s.
Proof. intros E. unfold m_pluseq in E. repeat (apply reads_kept in E; destruct E as [E|(? & _ & E)]; [exact E|]). discriminate. Qed.
Lemma minuseq_kept that s s' e : m_minuseq that s = (s', Throw e) -> s' = s.
Proof. intros E. unfold m_minuseq in E. repeat (apply reads_kept in E; destruct E as [E|(? & _ & E)]; [exact E|]). discriminate. Qed.

(** ** Sizes *)
Definition framed g s : Prop :=
  gs_codom s = gs_codom g /\ gs_basis s = gs_basis g /\ gs_bst s = gs_bst g /\ gs_buf s = gs_buf g /\ vlen (gs_tau s) = vlen (gs_tau g) /\ vlen (gs_coef s) = vlen (gs_coef g).
Lemma framed_refl g : framed g g. Proof. unfold framed; auto 10. Qed.
Lemma framed_coef g s c : framed g s -> vlen c = vlen (gs_coef s) -> framed g (with_coef s c).
Proof. unfold framed, with_coef. cbn. intuition congruence. Qed.
Lemma framed_dom g s d : framed g s -> framed g (set_domain d s). Proof. unfold framed, set_domain. cbn. intuition congruence. Qed.
Lemma framed_tau g s t : framed g s -> vlen t = vlen (gs_tau s) -> framed g (set_tau t s). Proof. unfold framed, set_tau. cbn. intuition congruence. Qed.
Lemma vset_sized_len (v : vec T) i0 len w c : vset_sized v i0 len w = Ok c -> vlen c = vlen v.
Proof.
  unfold vset_sized, vset_segment. destruct (Nat.eqb (vlen w) len); [|discriminate]. repeat match goal with |- context [if ?b then _ else _] => destruct b end; try discriminate.
  intros E. injection E as <-. reflexivity.
Qed.
Lemma set_block_frame g s iv m s' : framed g s -> set_block s iv m = Ok s' -> framed g s'.
Proof.
  intros F E. unfold set_block in E. destruct (vset_sized _ _ _ _) as [c| |] eqn:Ec; cbn [bind] in E; try discriminate. injection E as <-.
  apply framed_coef; auto. eapply vset_sized_len; eauto.
Qed.
Lemma vmap2_len (h : T -> T -> T) (a b c : vec T) : vmap2 h a b = Ok c -> vlen c = vlen a.
Proof. unfold vmap2. destruct (Nat.eqb _ _); [|discriminate]. intros E. injection E as <-. reflexivity. Qed.

Lemma assign_frame move self that g : vlen (gs_coef that) = (gs_n that * gs_dim that * gs_codom that)%nat -> vlen (gs_coef g) = (gs_n g * gs_dim g * gs_codom g)%nat ->
  framed g (fst (m_assign move self that g)).
Proof.
  intros L1 L2. unfold m_assign. apply mbind_reads; [apply framed_refl|intros _ _]. apply mbind_reads; [apply framed_refl|]. intros u E1.
  apply mbind_reads; [apply framed_refl|]. intros u' E2. unfold same_discretization in E1.
  destruct (Nat.eqb_spec (gs_dim g) (gs_dim that)); [|discriminate]. destruct (Nat.eqb_spec (gs_n g) (gs_n that)); [|discriminate].
  destruct (Nat.eqb_spec (gs_codom g) (gs_codom that)); [|discriminate]. unfold mbind, changes. cbn [fst].
  apply framed_coef; [apply framed_dom, framed_refl|]. cbn. congruence.
Qed.
Lemma pluseq_frame that g : framed g (fst (m_pluseq that g)).
Proof.
  unfold m_pluseq. apply mbind_reads; [apply framed_refl|intros _ _]. apply mbind_reads; [apply framed_refl|]. intros c Ec. unfold changes. cbn [fst].
  apply framed_coef; [apply framed_refl|]. eapply vmap2_len; eauto.
Qed.
Lemma minuseq_frame that g : framed g (fst (m_minuseq that g)).
Proof.
  unfold m_minuseq. apply mbind_reads; [apply framed_refl|intros _ _]. apply mbind_reads; [apply framed_refl|]. intros c Ec. unfold changes. cbn [fst].
  apply framed_coef; [apply framed_refl|]. eapply vmap2_len; eauto.
Qed.
Lemma assign_fun_frame self f g : framed g (fst (m_assign_fun self f g)).
Proof.
  unfold m_assign_fun. apply mbind_reads; [apply framed_refl|intros _ _]. apply mbind_reads; [apply framed_refl|intros _ _].
  apply mbind_all; [apply framed_dom, framed_refl|intros _ s F]. apply mbind_reads; [exact F|intros tot _].
  apply mbind_all; [apply framed_tau; [exact F|reflexivity]|]. clear s F. intros _ s F. apply mbind_reads; [exact F|]. intros s0 _.
  apply mbind_all; [|intros; auto]. apply mfor_all; [exact F|]. clear s F. intros iv st s F.
  apply mbind_reads; [exact F|intros ti _]. apply mbind_reads; [exact F|intros lv _]. apply mbind_reads; [exact F|intros c Ec].
  apply mbind_all; [|intros; auto]. apply framed_coef; [exact F|]. eapply vset_sized_len; eauto.
Qed.
Lemma array_frame dom vals g : framed g (fst (m_set_from_array dom vals g)).
Proof.
  unfold m_set_from_array. apply mbind_all; [apply framed_dom, framed_refl|intros _ s F]. apply mbind_reads; [exact F|intros _ _]. apply mbind_reads; [exact F|intros tot _].
  apply mbind_all; [apply framed_tau; [exact F|reflexivity]|]. clear s F. intros _ s F. apply mfor_all; [exact F|]. clear s F. intros k [] s F.
  apply mbind_reads; [exact F|intros v _]. apply mbind_reads; [exact F|intros s' E]. unfold changes. cbn [fst].
  destruct (value_block s _) as [m| |]; cbn [bind] in E; try discriminate. destruct (Nat.eqb _ _); [|discriminate]. eapply set_block_frame; eauto.
Qed.

(** ** Interrupted in the middle *)
Lemma colloc_dom g dom n codom nglp tf V d : colloc g dom n codom nglp tf V -> colloc (set_domain d g) d n codom nglp tf V.
Proof. unfold colloc, set_domain. cbn. intuition. Qed.
Lemma colloc_tau g dom n codom nglp tf V t tf' : colloc g dom n codom nglp tf V -> vec_is t n tf' -> colloc (set_tau t g) dom n codom nglp tf' V.
Proof. unfold colloc, set_tau. cbn. intuition. Qed.

(** one block replaced *)
Lemma colloc_block s dom n codom nglp tf V m iv (Q : nat -> nat -> T) : colloc s dom n codom nglp tf V -> (2 <= nglp)%nat -> (iv < n)%nat -> mat_is m nglp codom Q ->
  exists c, vset_sized (gs_coef s) (iv * (nglp * codom)) (nglp * codom) (mflat m) = Ok c /\
  colloc (with_coef s c) dom n codom nglp tf (fun iv' cc i => if Nat.eqb iv' iv then Q i cc else V iv' cc i).
Proof.
  intros C Hn Hiv M. pose proof (mflat_is _ _ _ _ M) as Mf. unfold vset_sized.
  replace (vlen (mflat m)) with (nglp * codom)%nat by (symmetry; apply Mf). rewrite Nat.eqb_refl.
  match type of Mf with vec_is ?w _ ?q => destruct (seg_put (gs_coef s) w (n * nglp * codom) iv (nglp * codom) q ltac:(apply C)) as (c & Ec & Lc & Gc & Oc) end.
  { nia. } { exact Mf. }
  exists c. split; [exact Ec|]. eapply (colloc_coef s); [exact C|exact Hn|].
  apply vec_nodes; [exact Lc|]. intros iv' cc i A B F'. replace ((iv' * codom + cc) * nglp + i)%nat with (iv' * (nglp * codom) + (cc * nglp + i))%nat by nia.
  destruct (Nat.eqb_spec iv' iv) as [->|Ne].
  - rewrite Gc by nia. rewrite (Nat.add_comm (cc * nglp) i), Nat.div_add, Nat.mod_add by lia. rewrite Nat.div_small, Nat.mod_small by auto. reflexivity.
  - rewrite Oc by (auto; nia). replace (iv' * (nglp * codom) + (cc * nglp + i))%nat with ((iv' * codom + cc) * nglp + i)%nat by nia. apply C; auto.
Qed.

Lemma assign_fun_steps f g dom n codom nglp tf V k e (p : nat -> T) (F : nat -> nat -> nat -> T) : colloc g dom n codom nglp tf V -> (2 <= nglp)%nat ->
  fo_codom f = codom -> (k <= n)%nat ->
  vec_is (b_params (gs_basis g)) nglp p ->
  let tf' := fun i => tf i * ((snd (fo_dom f) - fst (fo_dom f)) / nsum n tf) in
  let pos := fun iv i => (p i + n1) * tf' iv / c2 + lacc (fst (fo_dom f)) tf' iv in
  (forall iv pts res, (iv < k)%nat -> vec_is pts nglp (pos iv) -> mrows res = nglp -> mcols res = codom -> exists m, fo_val f pts res = Ok m /\ mat_is m nglp codom (fun i cc => F iv cc i)) ->
  (forall pts res, (k < n)%nat -> vec_is pts nglp (pos k) -> mrows res = nglp -> mcols res = codom -> fo_val f pts res = Throw e) ->
  exists s, m_assign_fun false f g = (s, if Nat.ltb k n then Throw e else Ok tt) /\
    colloc s (fo_dom f) n codom nglp tf' (fun iv cc i => if Nat.ltb iv k then F iv cc i else V iv cc i).
Proof.
  intros C Hn Ef Hk Vx tf' pos Good Bad. destruct (colloc_shape _ _ _ _ _ _ _ C Hn) as (N & D & K).
  unfold m_assign_fun. unfold mbind at 1, reads at 1. cbn [negb require]. unfold mbind at 1, reads at 1.
  rewrite Ef, K, Nat.eqb_refl. cbn [require]. unfold mbind at 1, changes at 1. unfold mbind at 1, reads at 1.
  pose proof (colloc_dom g dom n codom nglp tf V (fo_dom f) C) as C1. destruct (colloc_shape _ _ _ _ _ _ _ C1 Hn) as (N1 & D1 & K1). rewrite N1.
  assert (Vt : vec_is (gs_tau g) n tf) by apply C. cbn [set_domain gs_tau]. rewrite (osum_some n (vget (gs_tau g)) tf) by apply Vt. cbn [of_option].
  unfold mbind at 1, changes at 1. cbn [set_domain gs_tau].
  set (tau := vscale (gs_tau g) ((snd (fo_dom f) - fst (fo_dom f)) / nsum n tf)).
  assert (Vt' : vec_is tau n tf') by (apply vscale_is; exact Vt).
  pose proof (colloc_tau _ _ _ _ _ _ _ tau tf' C1 Vt') as C2. fold (set_domain (fo_dom f) g). set (s1 := set_tau tau (set_domain (fo_dom f) g)) in *.
  assert (B1 : gs_basis s1 = gs_basis g) by reflexivity. clearbody s1.
  unfold mbind at 1, reads at 1. destruct (colloc_shape _ _ _ _ _ _ _ C2 Hn) as (N2 & D2 & K2). rewrite N2, D2, K2.
  set (I := fun (j : nat) (st : mat T * T) (s : gspline T) => colloc s (fo_dom f) n codom nglp tf' (fun iv cc i => if Nat.ltb iv j then F iv cc i else V iv cc i) /\
     gs_basis s = gs_basis g /\ mrows (fst st) = nglp /\ mcols (fst st) = codom /\ snd st = lacc (fst (fo_dom f)) tf' j).
  match goal with |- context [mfor_n 0 n ?bb ?aa] => set (b := bb); set (a := aa) end.
  assert (I0 : I 0%nat a s1).
  { split; [exact C2|]. split; [exact B1|]. split; [reflexivity|]. split; reflexivity. }
  assert (Step : forall j a s, (j < k)%nat -> I j a s -> exists a' s', b j a s = (s', Ok a') /\ I (S j) a' s').
  { intros j [lv lb] s Hj (Cs & Bs & Rl & Cl & El). cbn [fst snd] in *. destruct (colloc_shape _ _ _ _ _ _ _ Cs Hn) as (Ns & Ds & Ks).
    unfold b. unfold mbind at 1, reads at 1. rewrite (vread_ok (gs_tau s) n tf' j) by (try apply Cs; lia).
    unfold mbind at 1, reads at 1. cbn [fst snd].
    destruct (Good j (gl_affine (b_params (gs_basis s)) (tf' j) lb) lv Hj) as (m & Em & Mm); auto.
    { rewrite Bs, El. unfold gl_affine. exact (vmap1_is _ _ nglp _ Vx). }
    rewrite Em. unfold mbind at 1, reads at 1. rewrite Ds, Ks. replace (j * nglp * codom)%nat with (j * (nglp * codom))%nat by nia.
    destruct (colloc_block s _ n codom nglp tf' _ m j _ Cs Hn ltac:(lia) Mm) as (c & Ec & Cc). rewrite Ec. unfold mbind, changes, reads.
    do 2 eexists. split; [reflexivity|]. split.
    - eapply colloc_ext; [exact Cc|]. intros iv cc i A B X. cbn beta. destruct (Nat.eqb_spec iv j) as [->|Ne].
      + destruct (Nat.ltb_spec j (S j)); [reflexivity|lia].
      + destruct (Nat.ltb_spec iv j), (Nat.ltb_spec iv (S j)); auto; lia.
    - split; [exact Bs|]. cbn [fst snd]. split; [apply Mm|]. split; [apply Mm|]. cbn [lacc]. congruence. }
  destruct (Nat.ltb_spec k n) as [Hlt|Hge].
  - destruct (mfor_stops I b n k a s1 e Hlt I0 Step) as (a' & s' & E & I1).
    { intros [lv lb] s (Cs & Bs & Rl & Cl & El). cbn [fst snd] in *. unfold b. unfold mbind at 1, reads at 1. rewrite (vread_ok (gs_tau s) n tf' k) by (try apply Cs; lia).
      unfold mbind at 1, reads at 1. cbn [fst snd]. rewrite (Bad (gl_affine (b_params (gs_basis s)) (tf' k) lb) lv Hlt); auto.
      rewrite Bs, El. unfold gl_affine. exact (vmap1_is _ _ nglp _ Vx). }
    unfold mbind at 1. rewrite E. exists s'. split; [reflexivity|]. apply I1.
  - destruct (mfor_steps I b n 0 a s1 I0) as (a' & s' & E & I1); [intros; apply Step; auto; lia|].
    unfold mbind at 1. rewrite E. exists s'. split; [reflexivity|]. replace k with (0 + n)%nat by lia. apply I1.
Qed.

Lemma array_steps g dom n codom nglp tf V dom' (vals : list (outcome (vec T))) k e (F : nat -> nat -> T) : colloc g dom n codom nglp tf V -> (2 <= nglp)%nat ->
  length vals = (nglp * n)%nat -> (k <= nglp * n)%nat ->
  (forall j, (j < k)%nat -> exists v, nth_error vals j = Some (Ok v) /\ vec_is v codom (F j)) ->
  ((k < nglp * n)%nat -> nth_error vals k = Some (Throw e)) ->
  exists s, m_set_from_array dom' vals g = (s, if Nat.ltb k (nglp * n) then Throw e else Ok tt) /\
    colloc s dom' n codom nglp (fun i => tf i * ((snd dom' - fst dom') / nsum n tf)) (fun iv cc i => if Nat.ltb (iv * nglp + i) k then F (iv * nglp + i)%nat cc else V iv cc i).
Proof.
  intros C Hn Hl Hk Good Bad.
  unfold m_set_from_array. unfold mbind at 1, changes at 1. unfold mbind at 1, reads at 1.
  pose proof (colloc_dom g dom n codom nglp tf V dom' C) as C1. destruct (colloc_shape _ _ _ _ _ _ _ C1 Hn) as (N1 & D1 & K1).
  rewrite N1, D1, Hl, Nat.eqb_refl. unfold mbind at 1, reads at 1. rewrite N1.
  assert (Vt : vec_is (gs_tau g) n tf) by apply C. cbn [set_domain gs_tau]. rewrite (osum_some n (vget (gs_tau g)) tf) by apply Vt. cbn [of_option].
  unfold mbind at 1, changes at 1. cbn [set_domain gs_tau gs_dom].
  set (tf' := fun i => tf i * ((snd dom' - fst dom') / nsum n tf)).
  set (tau := vscale (gs_tau g) ((snd dom' - fst dom') / nsum n tf)).
  assert (Vt' : vec_is tau n tf') by (apply vscale_is; exact Vt).
  pose proof (colloc_tau _ _ _ _ _ _ _ tau tf' C1 Vt') as C2. fold (set_domain dom' g). set (s1 := set_tau tau (set_domain dom' g)) in *. clearbody s1.
  set (I := fun (j : nat) (_ : unit) (s : gspline T) => colloc s dom' n codom nglp tf' (fun iv cc i => if Nat.ltb (iv * nglp + i) j then F (iv * nglp + i)%nat cc else V iv cc i)).
  match goal with |- context [mfor_n 0 _ ?bb tt s1] => set (b := bb) end.
  assert (I0 : I 0%nat tt s1) by exact C2.
  assert (Step : forall j a s, (j < k)%nat -> I j a s -> exists a' s', b j a s = (s', Ok a') /\ I (S j) a' s').
  { intros j [] s Hj Cs. unfold I in Cs. destruct (Good j Hj) as (v & Ev & Vv). unfold b. unfold mbind at 1, reads at 1. rewrite Ev. cbn [of_option bind].
    destruct (colloc_gwf _ _ _ _ _ _ _ Cs Hn) as (Dr & Wr). assert (Hq : (j / nglp < n)%nat) by (apply Nat.div_lt_upper_bound; lia).
    assert (Hm : (j mod nglp < nglp)%nat) by (apply Nat.mod_upper_bound; lia). assert (Dk := Nat.div_mod j nglp ltac:(lia)).
    unfold mbind at 1, reads at 1. destruct (block_ok s n codom tf' _ (j / nglp) Wr Hq) as (m & Em & Rm & Km & Gm). rewrite Dr in *. rewrite Em. cbn [bind]. rewrite Km.
    replace (vlen v) with codom by (symmetry; apply Vv). rewrite Nat.eqb_refl. unfold set_block. rewrite Dr. replace (gs_codom s) with codom by (symmetry; apply Wr).
    set (Q := fun i cc => if Nat.eqb i (j mod nglp) then F j cc else if Nat.ltb (j / nglp * nglp + i) j then F (j / nglp * nglp + i)%nat cc else V (j / nglp)%nat cc i).
    assert (M : mat_is (mmap (fun i j' x => if Nat.eqb i (j mod nglp) then vget v j' else x) m) nglp codom Q).
    { split; [exact Rm|]. split; [exact Km|]. intros i cc Hi Hc. cbn [mmap mget]. unfold Q. destruct (Nat.eqb_spec i (j mod nglp)); [apply Vv; auto|].
      rewrite Gm by auto. rewrite nidx_at by auto. reflexivity. }
    destruct (colloc_block s _ n codom nglp tf' _ _ (j / nglp)%nat Q Cs Hn Hq M) as (c & Ec & Cc). rewrite Ec. cbn [bind]. unfold changes.
    do 2 eexists. split; [reflexivity|]. unfold I. eapply colloc_ext; [exact Cc|]. intros iv cc i A B X. cbn beta. destruct (Nat.eqb_spec iv (j / nglp)) as [->|Ne].
    - unfold Q. destruct (Nat.eqb_spec i (j mod nglp)) as [->|Ni].
      + replace (j / nglp * nglp + j mod nglp)%nat with j by lia. destruct (Nat.ltb_spec j (S j)); [reflexivity|lia].
      + destruct (Nat.ltb_spec (j / nglp * nglp + i) j), (Nat.ltb_spec (j / nglp * nglp + i) (S j)); auto; lia.
    - destruct (Nat.ltb_spec (iv * nglp + i) j), (Nat.ltb_spec (iv * nglp + i) (S j)); auto; exfalso; [lia|].
      apply Ne. assert (iv * nglp + i = j)%nat by lia. subst j. rewrite Nat.add_comm, Nat.div_add by lia. rewrite Nat.div_small by auto. lia. }
  destruct (Nat.ltb_spec k (nglp * n)) as [Hlt|Hge].
  - destruct (mfor_stops I b (nglp * n) k tt s1 e Hlt I0 Step) as (a' & s' & E & I1).
    { intros [] s Cs. unfold b. unfold mbind at 1, reads at 1. rewrite (Bad Hlt). reflexivity. }
    exists s'. split; [exact E|]. exact I1.
  - destruct (mfor_steps I b (nglp * n) 0 tt s1 I0) as ([] & s' & E & I1); [intros; apply Step; auto; lia|].
    exists s'. split; [exact E|]. replace k with (0 + nglp * n)%nat by lia. exact I1.
Qed.
Lemma array_count g dom n codom nglp tf V dom' (vals : list (outcome (vec T))) : colloc g dom n codom nglp tf V -> (2 <= nglp)%nat -> length vals <> (nglp * n)%nat ->
  exists s, m_set_from_array dom' vals g = (s, Throw RuntimeError) /\ colloc s dom' n codom nglp tf V.
Proof.
  intros C Hn Hl. unfold m_set_from_array. unfold mbind at 1, changes at 1. unfold mbind at 1, reads at 1.
  pose proof (colloc_dom g dom n codom nglp tf V dom' C) as C1. destruct (colloc_shape _ _ _ _ _ _ _ C1 Hn) as (N1 & D1 & K1).
  rewrite N1, D1. destruct (Nat.eqb_spec (length vals) (nglp * n)); [contradiction|]. eauto.
Qed.
End P.
