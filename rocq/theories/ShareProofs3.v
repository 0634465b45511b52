(** After a derivative the array is long enough; what two first derivatives at the same time do to it. *)
From Coq Require Import List Arith Bool Lia.
From Verif Require Import Num Outcome LinAlg LegendreModel BasisModel GSplineModel HeapModel HeapProofs2 ShareModel ShareSpec ShareProofs ShareProofs2.
Import ListNotations.

Section P.
Context {T : Type} `{Num T}.

Lemma frozen {A} rd (p : prog T A) : forall m, inside rd (fun _ => False) p m -> forall l, at_loc m (snd (alone p m)) l.
Proof.
  induction p as [r|x v k IH|x k IH|x k IH|x a k IH]; intros m; cbn [inside alone]; intros I0 l.
  - destruct l; reflexivity.
  - tauto.
  - apply IH. apply I0.
  - apply IH. apply I0.
  - tauto.
Qed.

(** ** one derivative *)
Lemma get_block_len (b : basis T) k s a s' : get_block b k s = Ok (a, s') -> k < length (bs_blocks s').
Proof.
  unfold get_block. destruct (push_blocks _ _ _) as [l|e|]; cbn [bind]; try discriminate. destruct (nth_error l k) eqn:E; cbn [of_option bind]; try discriminate.
  intros X. injection X as <- <-. cbn [bs_blocks]. apply nth_error_Some. congruence.
Qed.
Lemma deriv_seg_len (g : gspline T) k iv cc st c s : deriv_seg g k iv cc st = Ok (c, s) -> k < length (bs_blocks s).
Proof.
  destruct st as [c0 s0]. unfold deriv_seg. destruct (if is_0101 _ then _ else _) as [sc|e|]; cbn [bind]; try discriminate.
  destruct (get_block _ k s0) as [[a s1]|e|] eqn:E; cbn [bind]; try discriminate. apply get_block_len in E. destruct (vsegment _ _ _) as [sg|e|]; cbn [bind]; try discriminate.
  destruct (mvmul a sg) as [p|e|]; cbn [bind]; try discriminate. destruct (Nat.eqb _ _); try discriminate. destruct (vset_segment _ _ _) as [c'|e|]; cbn [bind]; try discriminate. intros X. injection X as _ <-. exact E.
Qed.
Lemma for_every {S} (Q : S -> Prop) (B : nat -> S -> outcome S) : (forall i st st', B i st = Ok st' -> Q st') -> forall n lo st st', for_n lo (Datatypes.S n) B st = Ok st' -> Q st'.
Proof.
  intros K. induction n as [|n IH]; intros lo st st' E.
  - cbn in E. destruct (B lo st) eqn:X; cbn in E; try discriminate. injection E as <-. eauto.
  - change (bind (B lo st) (for_n (Datatypes.S lo) (Datatypes.S n) B) = Ok st') in E. destruct (B lo st); cbn [bind] in E; try discriminate. eauto.
Qed.
Lemma after_derivate x (g : gspline T) k d m : m_arr m x = bs_blocks (gs_bst g) -> 1 <= gs_n g -> 1 <= gs_codom g -> gs_derivate g k = Ok d ->
  fst (alone (derivate x g k) m) = Ok d /\ (k = 0 \/ k < length (m_arr (snd (alone (derivate x g k) m)) x)).
Proof.
  intros Ha Hn Hc E. split; [rewrite (derivate_sim x g k m Ha); exact E|]. destruct (Nat.eq_dec k 0) as [->|Nk]; [auto|right].
  unfold derivate. rewrite alone_bind. unfold gs_derivate, gs_deriv_impl in E. destruct (Nat.ltb_spec 0 k) as [_|]; [|lia].
  assert (X : sim (arr x) (pfor 0 (gs_n g) (fun iv coef => pfor 0 (gs_codom g) (fun cc coef => dseg x g k iv cc coef) coef) (gs_coef g)) m
    (for_ 0 (gs_n g) (fun iv st => for_ 0 (gs_codom g) (fun cc st => deriv_seg g k iv cc st) st) (gs_coef g, gs_bst g))).
  { unfold for_. rewrite !Nat.sub_0_r. apply sim_for; [|exact Ha]. intros iv c s m1 R1. apply sim_for; auto. intros cc c' s' m2 R2. apply dseg_sim. exact R2. }
  destruct (for_ 0 (gs_n g) _ _) as [[c s]|e|] eqn:F; cbn [bind] in E; try discriminate. destruct X as (E1 & E2). destruct (alone (pfor _ _ _ _) m) as [r m1]. cbn [fst snd] in *. subst r. cbn [alone snd]. rewrite E2.
  unfold for_ in F. rewrite !Nat.sub_0_r in F. destruct (gs_n g) as [|n]; [lia|]. destruct (gs_codom g) as [|cd]; [lia|].
  apply (for_every (fun st : vec T * bstate T => k < length (bs_blocks (snd st))) _) in F; [exact F|]. intros iv st st' F'.
  apply (for_every (fun st : vec T * bstate T => k < length (bs_blocks (snd st))) _) in F'; [exact F'|]. intros cc st1 [c1 s1] F1. apply deriv_seg_len in F1. exact F1.
Qed.

(** ** the result does not depend on what the array holds beyond the matrix of the order *)
Section First.
Variables (g : gspline T) (I0 D : mat T).
Hypothesis BD : b_impl (gs_basis g) 1 = Ok D.
Definition good (s : bstate T) : Prop := bs_blocks s = [I0] \/ nth_error (bs_blocks s) 1 = Some D.
Lemma good_block s : good s -> exists s', get_block (gs_basis g) 1 s = Ok (D, s') /\ good s'.
Proof.
  intros [E|E]; unfold get_block.
  - rewrite E. cbn [length Nat.sub push_blocks]. rewrite BD. cbn. eexists. split; [reflexivity|]. right. reflexivity.
  - assert (L : 1 < length (bs_blocks s)) by (apply nth_error_Some; congruence). replace (2 - length (bs_blocks s)) with 0 by lia. cbn [push_blocks bind]. rewrite E. cbn. eexists. split; [reflexivity|]. right. exact E.
Qed.
Definition pure_seg (iv cc : nat) (coef : vec T) : outcome (vec T) :=
  let i0 := (iv * gs_dim g * gs_codom g + gs_dim g * cc)%nat in
  scale <- (if is_0101 (gs_basis g) then Ok n1 else ti <- vread (gs_tau g) iv ;; Ok (npown (ndiv c2 ti) 1)) ;;
  seg <- vsegment coef i0 (gs_dim g) ;; p <- mvmul D seg ;;
  if Nat.eqb (vlen p) (gs_dim g) then vset_segment coef i0 (vscale p scale) else UB.
Definition tied (o : outcome (vec T * bstate T)) (o' : outcome (vec T)) : Prop :=
  match o, o' with Ok (c, s), Ok c' => c = c' /\ good s | Throw e, Throw e' => e = e' | UB, UB => True | _, _ => False end.
Lemma seg_tied iv cc c s : good s -> tied (deriv_seg g 1 iv cc (c, s)) (pure_seg iv cc c).
Proof.
  intros G. unfold deriv_seg, pure_seg. destruct (if is_0101 _ then _ else _) as [sc|e|]; cbn [bind tied]; auto. destruct (good_block s G) as (s' & -> & G'). cbn [bind].
  destruct (vsegment _ _ _) as [sg|e|]; cbn [bind tied]; auto. destruct (mvmul D sg) as [p|e|]; cbn [bind tied]; auto. destruct (Nat.eqb _ _); cbn [bind tied]; auto. destruct (vset_segment _ _ _); cbn [bind tied]; auto.
Qed.
Lemma for_tied B (B' : nat -> vec T -> outcome (vec T)) : (forall i c s, good s -> tied (B i (c, s)) (B' i c)) -> forall n lo c s, good s -> tied (for_n lo n B (c, s)) (for_n lo n B' c).
Proof.
  intros K. induction n as [|n IH]; intros lo c s G; cbn [for_n]; [cbn; auto|]. specialize (K lo c s G). destruct (B lo (c, s)) as [[c1 s1]|e|], (B' lo c) as [c1'|e'|]; cbn [tied bind] in *; try tauto. destruct K as (<- & G1). auto.
Qed.
Definition with_bst (s : bstate T) : gspline T := mkgs (gs_dom g) (gs_codom g) (gs_coef g) (gs_tau g) (gs_basis g) s (gs_buf g).
Lemma first_any s s' d : good s -> good s' -> gs_derivate (with_bst s) 1 = Ok d -> exists d', gs_derivate (with_bst s') 1 = Ok d' /\
  gs_dom d' = gs_dom d /\ gs_codom d' = gs_codom d /\ gs_coef d' = gs_coef d /\ gs_tau d' = gs_tau d /\ gs_basis d' = gs_basis d.
Proof.
  intros G G' E. set (P := for_n 0 (gs_n g) (fun iv c => for_n 0 (gs_codom g) (fun cc c => pure_seg iv cc c) c) (gs_coef g)).
  assert (X : forall s, good s -> tied (for_ 0 (gs_n g) (fun iv st => for_ 0 (gs_codom g) (fun cc st => deriv_seg (with_bst s) 1 iv cc st) st) (gs_coef g, s)) P).
  { intros s0 G0. unfold for_. rewrite !Nat.sub_0_r. apply for_tied; auto. intros iv c s1 G1. apply for_tied; auto. intros cc c2 s2 G2. apply (seg_tied iv cc c2 s2 G2). }
  unfold gs_derivate, gs_deriv_impl in *. cbn [Nat.ltb Nat.leb] in *. change (gs_n (with_bst s)) with (gs_n g) in *. change (gs_n (with_bst s')) with (gs_n g) in *. cbn [with_bst gs_dom gs_codom gs_coef gs_tau gs_basis gs_bst] in *.
  pose proof (X s G) as X1. pose proof (X s' G') as X2. destruct (for_ 0 (gs_n g) (fun iv st => for_ 0 (gs_codom g) (fun cc st => deriv_seg (with_bst s) 1 iv cc st) st) _) as [[c s1]|e|]; cbn [bind] in E; try discriminate.
  destruct P as [c'| |]; cbn [tied] in X1; try tauto. destruct X1 as (<- & _). destruct (for_ 0 (gs_n g) (fun iv st => for_ 0 (gs_codom g) (fun cc st => deriv_seg (with_bst s') 1 iv cc st) st) _) as [[c2 s2]|e|]; cbn [tied] in X2; try tauto. destruct X2 as (-> & _). cbn [bind].
  unfold gs_ctor, gs_copy in *. destruct (Nat.eqb (vlen c) _) eqn:Y; cbn [bind fst] in *; try discriminate. unfold gs_n, gs_dim in *. cbn [gs_coef gs_tau gs_basis gs_codom gs_dom gs_bst] in *. destruct (Nat.eqb _ _) in *; try discriminate. eexists. split; [reflexivity|]. injection E as <-. cbn. auto.
Qed.
End First.
End P.
