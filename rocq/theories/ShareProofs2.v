(** Values, derivatives and copies as programs: what they compute alone, what they touch. *)
From Coq Require Import List Arith Bool Lia.
From Verif Require Import Num Outcome LinAlg LegendreModel BasisModel GSplineModel HeapModel HeapProofs2 ShareModel ShareSpec ShareProofs.
Import ListNotations.

Section P.
Context {T : Type} `{Num T}.

(** ** alone, a program computes a function of one location *)
Section Sim.
Context {S : Type}.
Variable rel : mem T -> S -> Prop.
Definition sim {A} (p : prog T A) (m : mem T) (o : outcome (A * S)) : Prop :=
  match o with
  | Ok (a, s) => fst (alone p m) = Ok a /\ rel (snd (alone p m)) s
  | Throw e => fst (alone p m) = Throw e
  | UB => fst (alone p m) = UB
  end.
Lemma sim_ret {A} (r : outcome A) m s : rel m s -> sim (Ret r) m (a <- r ;; Ok (a, s)).
Proof. destruct r; cbn; auto. Qed.
Lemma sim_bind {A B} (p : prog T A) (f : A -> prog T B) m o F : sim p m o ->
  (forall a s m', o = Ok (a, s) -> rel m' s -> sim (f a) m' (F (a, s))) -> sim (pbind p f) m (bind o F).
Proof.
  intros X K. destruct o as [[a s]|e|]; cbn [bind].
  - destruct X as (Ea & Rs). unfold sim. rewrite alone_bind. destruct (alone p m) as [r m']. cbn [fst snd] in *. subst r. apply (K a s m'); auto.
  - unfold sim in *. rewrite alone_bind. destruct (alone p m) as [r m']. cbn [fst] in X. subst r. reflexivity.
  - unfold sim in *. rewrite alone_bind. destruct (alone p m) as [r m']. cbn [fst] in X. subst r. reflexivity.
Qed.
Lemma sim_pure {A B} (r : outcome A) (f : A -> prog T B) m s F : rel m s -> (forall a, r = Ok a -> sim (f a) m (F a)) -> sim (pbind (Ret r) f) m (bind r F).
Proof. intros R0 K. destruct r; cbn; auto. Qed.
Lemma sim_for {A} (body : nat -> A -> prog T A) (B : nat -> A * S -> outcome (A * S)) : (forall i a s m, rel m s -> sim (body i a) m (B i (a, s))) ->
  forall n lo a s m, rel m s -> sim (pfor lo n body a) m (for_n lo n B (a, s)).
Proof.
  intros K. induction n as [|n IH]; intros lo a s m R0; cbn [pfor for_n]; [cbn; auto|].
  apply sim_bind; [apply K; auto|]. intros a' s' m' _ R1. apply IH. exact R1.
Qed.
Lemma sim_ext {A} (p : prog T A) m o o' : sim p m o -> o = o' -> sim p m o'. Proof. intros X <-. exact X. Qed.
End Sim.

(** ** values *)
Lemma value_sim x g pts m : m_buf m x = gs_buf g ->
  fst (alone (value x g pts) m) = gs_value g pts.
Proof.
  intros E. set (rel := fun (m : mem T) (b : vec T) => m_buf m x = b). unfold gs_value, gs_value_impl, for_. rewrite !Nat.sub_0_r.
  assert (X : sim rel (value x g pts) m (for_n 0 (vlen pts) (fun i (st : mat T * vec T) =>
    let '(res, buf) := st in
    t <- vread pts i ;;
    '(iv, buf) <- gs_fill g t buf ;;
    res <- for_n 0 (gs_codom g - 0) (fun j res => x <- gs_component g iv buf j ;; mwrite res i j x) res ;;
    Ok (res, buf)) (mnew (vlen pts) (gs_codom g), gs_buf g))).
  { unfold value. apply sim_for; [|exact E]. intros i res buf m1 R1. apply (sim_pure rel _ _ _ buf); [exact R1|]. intros t _.
    unfold sim. cbn [alone]. rewrite R1. change (sim rel (pbind (Ret (gs_fill g t buf)) (fun r => Put x (snd r) (pfor 0 (gs_codom g) (fun j res => Get x (fun buf => pbind (Ret (gs_component g (fst r) buf j)) (fun c => Ret (mwrite res i j c)))) res))) m1
      ('(iv, buf) <- gs_fill g t buf ;; res <- for_n 0 (gs_codom g - 0) (fun j res => x <- gs_component g iv buf j ;; mwrite res i j x) res ;; Ok (res, buf))).
    apply (sim_pure rel _ _ _ buf); [exact R1|]. intros [iv b'] _. cbn [fst snd]. unfold sim. cbn [alone]. rewrite Nat.sub_0_r.
    assert (R2 : rel (put m1 x b') b') by (unfold rel; cbn; now rewrite Nat.eqb_refl). revert R2. generalize (put m1 x b') as m2. clear. intros m2 R2.
    change (sim rel (pfor 0 (gs_codom g) (fun j res => Get x (fun buf => pbind (Ret (gs_component g iv buf j)) (fun c => Ret (mwrite res i j c)))) res) m2
      (res <- for_n 0 (gs_codom g) (fun j res => x <- gs_component g iv b' j ;; mwrite res i j x) res ;; Ok (res, b'))).
    revert res. generalize (gs_codom g) as n. generalize 0 as lo. intros lo n. revert lo. induction n as [|n IH]; intros lo res; cbn [pfor for_n]; [cbn; auto|].
    unfold sim. cbn [pbind alone]. rewrite R2. destruct (gs_component g iv b' lo) as [c|e|]; cbn [bind pbind]; try reflexivity.
    destruct (mwrite res i lo c) as [res'|e|]; cbn [bind pbind]; try reflexivity. apply IH. }
  rewrite Nat.sub_0_r in X. unfold sim in X. destruct (for_n 0 (vlen pts) _ _) as [[a s]|e|]; cbn [bind fst]; auto. apply X.
Qed.
Definition only (l : loc) (k : loc) : Prop := k = l.
Lemma value_inside x g pts m : inside (only (Scratch x)) (only (Scratch x)) (value x g pts) m.
Proof.
  unfold value. apply (inside_for _ _ (fun _ => True)); auto. intros i res m1 _. split; auto.
  apply inside_bind; [exact Logic.I|]. intros t _. cbn [inside]. split; [reflexivity|]. apply inside_bind; [exact Logic.I|]. intros r _. cbn [inside snd]. split; [split; reflexivity|].
  apply (inside_for _ _ (fun _ => True)); auto. intros j res' m2 _. split; auto. cbn [inside]. split; [reflexivity|]. apply inside_bind; [exact Logic.I|]. intros c _. exact Logic.I.
Qed.

(** ** blocks and derivatives *)
Section Der.
Variable x : nat.
Definition arr (m : mem T) (s : bstate T) : Prop := m_arr m x = bs_blocks s.
Lemma push_arr (m : mem T) a : m_arr (push m x a) x = m_arr m x ++ [a]. Proof. cbn. now rewrite Nat.eqb_refl. Qed.
Lemma push_from_sim b : forall n (m : mem T), match push_blocks b n (m_arr m x) with
  | Ok l => fst (alone (push_from x b n (length (m_arr m x))) m) = Ok tt /\ m_arr (snd (alone (push_from x b n (length (m_arr m x))) m)) x = l
  | Throw e => fst (alone (push_from x b n (length (m_arr m x))) m) = Throw e
  | UB => fst (alone (push_from x b n (length (m_arr m x))) m) = UB
  end.
Proof.
  induction n as [|n IH]; intros m; cbn [push_blocks push_from]; [cbn; auto|]. destruct (b_impl b (length (m_arr m x))) as [a|e|]; cbn [bind pbind alone]; try reflexivity.
  specialize (IH (push m x a)). rewrite push_arr in IH. rewrite app_length in IH. cbn [length] in IH. rewrite Nat.add_1_r in IH. exact IH.
Qed.
Lemma block_sim b deg m s : arr m s -> sim arr (block x b deg) m (get_block b deg s).
Proof.
  intros R0. unfold get_block, block, sim. cbn [alone]. rewrite <- R0, alone_bind. pose proof (push_from_sim b (S deg - length (m_arr m x)) m) as X.
  destruct (push_blocks b _ (m_arr m x)) as [l|e|]; cbn [bind].
  - destruct X as (E1 & E2). destruct (alone (push_from _ _ _ _) m) as [r m1]. cbn [fst snd] in *. subst r. cbn [alone]. rewrite E2. destruct (nth_error l deg); cbn; auto.
  - destruct (alone (push_from _ _ _ _) m) as [r m1]. cbn [fst] in X. subst r. reflexivity.
  - destruct (alone (push_from _ _ _ _) m) as [r m1]. cbn [fst] in X. subst r. reflexivity.
Qed.
Lemma dseg_sim g deg iv cc coef m s : arr m s -> sim arr (dseg x g deg iv cc coef) m (deriv_seg g deg iv cc (coef, s)).
Proof.
  intros R0. unfold dseg, deriv_seg. apply (sim_pure arr _ _ _ s); auto. intros sc _. apply sim_bind; [apply block_sim; auto|]. intros a s' m' _ R1.
  eapply sim_ext; [apply (sim_ret arr _ _ s'); exact R1|]. destruct (vsegment _ _ _) as [sg|e|]; cbn [bind]; auto. destruct (mvmul a sg) as [p|e|]; cbn [bind]; auto.
  destruct (Nat.eqb _ _); auto.
Qed.
Lemma derivate_sim g deg m : arr m (gs_bst g) -> fst (alone (derivate x g deg) m) = gs_derivate g deg.
Proof.
  intros R0. unfold gs_derivate, gs_deriv_impl, derivate.
  assert (X : sim arr (if Nat.ltb 0 deg
           then pfor 0 (gs_n g) (fun iv coef => pfor 0 (gs_codom g) (fun cc coef => dseg x g deg iv cc coef) coef) (gs_coef g)
           else Ret (Ok (gs_coef g))) m (if Nat.ltb 0 deg
    then for_ 0 (gs_n g) (fun iv st => for_ 0 (gs_codom g) (fun cc st => deriv_seg g deg iv cc st) st) (gs_coef g, gs_bst g)
    else Ok (gs_coef g, gs_bst g))).
  { destruct (Nat.ltb 0 deg); [|cbn; auto]. unfold for_. rewrite !Nat.sub_0_r. apply sim_for; auto. intros iv c s m1 R1. apply sim_for; auto. intros cc c' s' m2 R2. apply dseg_sim. exact R2. }
  rewrite alone_bind. unfold sim in X. destruct (if Nat.ltb 0 deg then for_ _ _ _ _ else _) as [[c s]|e|].
  - destruct X as (E1 & E2). destruct (alone _ m) as [r m1]. cbn [fst snd] in *. subst r. cbn [alone fst bind]. rewrite E2. unfold gs_ctor. destruct (Nat.eqb _ _); reflexivity.
  - destruct (alone _ m) as [r m1]. cbn [fst] in *. subst r. reflexivity.
  - destruct (alone _ m) as [r m1]. cbn [fst] in *. subst r. reflexivity.
Qed.
Lemma copy_sim g m : arr m (gs_bst g) -> fst (alone (copy x g) m) = gs_copy g.
Proof. intros R0. unfold copy. cbn [alone fst]. rewrite R0. reflexivity. Qed.

(** locations; [W]: the array may be written *)
Variables (W : Prop) (k : nat).
Definition only_if (l : loc) : Prop := l = Array x /\ W.
Definition ready (m : mem T) : Prop := W \/ k < length (m_arr m x).
Lemma block_inside b m : ready m -> inside (only (Array x)) only_if (block x b k) m /\ ready (snd (alone (block x b k) m)).
Proof.
  intros R0. split; [|destruct R0 as [w|L]; [left; exact w|right]].
  - unfold block. cbn [inside]. split; [reflexivity|]. apply inside_bind; [|intros a _; cbn; repeat split; reflexivity].
    destruct R0 as [w|L]; [|replace (S k - length (m_arr m x)) with 0 by lia; exact Logic.I].
    generalize (S k - length (m_arr m x)) as n. generalize (length (m_arr m x)) as c. intros c n. revert c m. induction n as [|n IH]; intros c m; cbn [push_from]; [exact Logic.I|].
    apply inside_bind; [exact Logic.I|]. intros a _. cbn [inside alone snd]. split; [repeat split; auto|]. apply IH.
  - unfold block. cbn [alone]. replace (S k - length (m_arr m x)) with 0 by lia. cbn [push_from pbind alone snd]. exact L.
Qed.
Lemma snd_bind_ret {A B} (p : prog T A) (f : A -> outcome B) (m : mem T) : snd (alone (pbind p (fun a => Ret (f a))) m) = snd (alone p m).
Proof. rewrite alone_bind. destruct (alone p m) as [[a|e|] m']; reflexivity. Qed.
Lemma derivate_inside g m : k = 0 \/ ready m -> inside (only (Array x)) only_if (derivate x g k) m.
Proof.
  intros R0. unfold derivate. apply inside_bind; [|intros a _; cbn; repeat split; reflexivity]. destruct (Nat.ltb_spec 0 k) as [Lk|Lk]; [|exact Logic.I]. destruct R0 as [->|R0]; [lia|].
  apply (inside_for _ _ ready); auto. intros iv c m1 R1. apply (inside_for _ _ ready); auto. clear - T. intros cc c m1 R1. unfold dseg. destruct (block_inside (gs_basis g) m1 R1) as (I1 & R2). split.
  - apply inside_bind; [exact Logic.I|]. intros sc _. cbn [alone snd]. apply inside_bind; auto. intros a _. exact Logic.I.
  - rewrite alone_bind. cbn [alone]. destruct (if is_0101 _ then _ else _) as [sc|e|]; cbn [snd]; auto. rewrite snd_bind_ret. exact R2.
Qed.
Lemma copy_inside (g : gspline T) (m : mem T) : inside (only (Array x)) (fun _ => False) (copy x g) m.
Proof. cbn. split; [reflexivity|exact Logic.I]. Qed.
End Der.
End P.
