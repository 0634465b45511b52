(** The ball of an expression contains what is computed: one proof for two arithmetics, the binary64 numbers within their balls
    and the real numbers at the centres. *)
From Coquelicot Require Import Coquelicot.
From Coq Require Import ZArith Reals List Bool Lra Lia Arith.
From Flocq Require Import Core BinarySingleNaN.
From Verif Require Import Num Outcome FunModel FunProofs IEEEModel IEEESpec IEEEProofs IEEEHorner IEEELagrange IEEEFunSpec.
Import ListNotations.
Local Open Scope R_scope.

Lemma obind_some {A B} (o : option A) (k : A -> option B) b : obind o k = Some b -> exists a, o = Some a /\ k a = Some b.
Proof. destruct o; cbn; [eauto|discriminate]. Qed.
Ltac oinv H := let x := fresh "r" in let E := fresh "E" in apply obind_some in H; destruct H as (x & E & H).

Lemma Forall2_impl {A B} (P Q : A -> B -> Prop) la lb : (forall a b, P a b -> Q a b) -> Forall2 P la lb -> Forall2 Q la lb.
Proof. intros K F. induction F; constructor; auto. Qed.

Lemma Forall2_len {A B} (P : A -> B -> Prop) la lb : Forall2 P la lb -> length la = length lb.
Proof. intros F. induction F; cbn; congruence. Qed.

Section Sim.
Context {T : Type} {HN : Num T}.
Variable dbg : bool.
Variable eps : R.
Variable cst : b64 -> T.
Variable hs : (nat -> b64 -> list b64) -> nat -> T -> list T.
Variable rel : T -> ball -> Prop.
Hypothesis h_cst : forall c q, b_cst c = Some q -> rel (cst c) q.
Hypothesis h_one : forall c q, b_cst c = Some q -> rel (nmul n1 (cst c)) q.
Hypothesis h_zero : rel n0 (0, 0).
Hypothesis h_add : forall a b p q r, rel a p -> rel b q -> b_add p q = Some r -> rel (nadd a b) r.
Hypothesis h_mul : forall a b p q r, rel a p -> rel b q -> b_mul p q = Some r -> rel (nmul a b) r.
Hypothesis h_neg : forall a p, rel a p -> rel (nmul a (nopp n1)) (b_neg p).
Hypothesis h_exp : forall a p r, rel a p -> b_exp eps p = Some r -> rel (nexp a) r.
Hypothesis h_cos : forall a p, rel a p -> rel (ncos a) (b_cos eps p).
Hypothesis h_sin : forall a p, rel a p -> rel (nsin a) (b_sin eps p).
Hypothesis h_ge : forall c a p, rel a p -> surely_ge c p = true -> nleb (cst c) a = true /\ nltb a (cst c) = false.
Hypothesis h_lt : forall c a p, rel a p -> surely_lt c p = true -> nltb a (cst c) = true /\ nleb (cst c) a = false.
Hypothesis h_le : forall c a p, rel a p -> surely_le c p = true -> nleb a (cst c) = true.
Hypothesis h_gt : forall c a p, rel a p -> surely_gt c p = true -> nleb a (cst c) = false.

Notation fm := (fn_map cst hs).
Lemma fcod_fm f : fcod (fm f) = fcod f.
Proof. destruct f; cbn; auto. apply map_length. Qed.
Lemma fdom_fm f : fdom (fm f) = (cst (fst (fdom f)), cst (snd (fdom f))).
Proof. destruct f; reflexivity. Qed.

(** rows of results, one per argument *)
Definition rrel (g : ball -> option (list ball)) (row : list T) (p : ball) : Prop := exists l, g p = Some l /\ Forall2 rel row l.
Definition sound (f : fn b64) : Prop := forall pts ps, ps <> [] -> Forall2 rel pts ps -> Forall (fun p => beval eps f p <> None) ps ->
  exists rows, eval dbg (fm f) pts (fcod f) = Ok rows /\ Forall2 (rrel (beval eps f)) rows ps.

Lemma map_rows (h : T -> list T) (g : ball -> option (list ball)) pts ps : Forall2 rel pts ps -> Forall (fun p => g p <> None) ps ->
  (forall t p l, rel t p -> g p = Some l -> Forall2 rel (h t) l) -> Forall2 (rrel g) (map h pts) ps.
Proof.
  intros F. induction F as [|t p pts ps Rt F IH]; intros N K; cbn; constructor.
  - inversion N; subst. destruct (g p) as [l|] eqn:E; [|contradiction]. exists l. split; [exact E|]. eapply K; eauto.
  - apply IH; auto. now inversion N.
Qed.
Lemma col_rows (h : T -> T) (g : ball -> option (list ball)) pts ps : Forall2 rel pts ps -> Forall (fun p => g p <> None) ps ->
  (forall t p l, rel t p -> g p = Some l -> exists q, l = [q] /\ rel (h t) q) -> exists rows, col_result 1 (map h pts) = Ok rows /\ Forall2 (rrel g) rows ps.
Proof.
  intros F N K. unfold col_result. cbn [Nat.eqb]. eexists. split; [reflexivity|]. rewrite map_map. apply map_rows; auto.
  intros t p l Rt E. destruct (K t p l Rt E) as (q & -> & Rq). repeat constructor. exact Rq.
Qed.
Lemma Forall2_map2 {A B C P} (f : A -> B -> C) (RA : A -> P -> Prop) (RB : B -> P -> Prop) (RC : C -> P -> Prop) la lb ps :
  Forall2 RA la ps -> Forall2 RB lb ps -> (forall a b p, RA a p -> RB b p -> RC (f a b) p) -> Forall2 RC (map2 f la lb) ps.
Proof.
  intros FA. revert lb. induction FA as [|a p la ps Ra FA IH]; intros lb FB K; inversion FB; subst; cbn; constructor; auto.
Qed.
Lemma map2_rel (f : T -> T -> T) (g : ball -> ball -> option ball) : (forall a b p q r, rel a p -> rel b q -> g p q = Some r -> rel (f a b) r) ->
  forall la lb pa pb r, Forall2 rel la pa -> Forall2 rel lb pb -> map2O g pa pb = Some r -> Forall2 rel (map2 f la lb) r.
Proof.
  intros K la lb pa pb r FA. revert lb pb r. induction FA as [|a p la pa Ra FA IH]; intros lb pb r FB E; cbn in *; [injection E as <-; constructor|].
  inversion FB as [|b q lb' pb' Rb FB']; subst; cbn in *; [injection E as <-; constructor|].
  oinv E. oinv E. injection E as <-. constructor; [eapply K; eauto|eapply IH; eauto].
Qed.
Lemma map_rel (f : T -> T) (g : ball -> option ball) : (forall a p r, rel a p -> g p = Some r -> rel (f a) r) ->
  forall la pa r, Forall2 rel la pa -> mapO g pa = Some r -> Forall2 rel (map f la) r.
Proof.
  intros K la pa r FA. revert r. induction FA as [|a p la pa Ra FA IH]; intros r E; cbn in *; [injection E as <-; constructor|].
  oinv E. oinv E. injection E as <-. constructor; [eapply K; eauto|eapply IH; eauto].
Qed.
Lemma fold_rel (f : T -> T -> T) (g : ball -> ball -> option ball) : (forall a b p q r, rel a p -> rel b q -> g p q = Some r -> rel (f a b) r) ->
  forall la pa a p r, Forall2 rel la pa -> rel a p -> foldO g pa p = Some r -> rel (fold_left f la a) r.
Proof.
  intros K la pa a p r FA. revert a p r. induction FA as [|b q la pa Rb FA IH]; intros a p r Ra E; cbn in *; [injection E as <-; exact Ra|].
  oinv E. eapply IH; [|exact E]. eapply K; eauto.
Qed.
Lemma const_rel v r : mapO b_cst v = Some r -> Forall2 rel (map (fun x => nmul n1 x) (map cst v)) r.
Proof.
  revert r. induction v as [|c v IH]; intros r E; cbn in *; [injection E as <-; constructor|]. oinv E. oinv E. injection E as <-. constructor; auto.
Qed.
Lemma horner_rel c t p : forall r q q', rel t p -> rel r q -> foldO (fun r c => obind (b_mul r p) (fun r => obind (b_cst c) (b_add r))) c q = Some q' ->
  rel (fold_left (fun r c => nadd (nmul r t) c) (map cst c) r) q'.
Proof.
  induction c as [|x c IH]; intros r q q' Rt Rr E; cbn in *; [injection E as <-; exact Rr|].
  oinv E. oinv E0. oinv E0. eapply IH; [exact Rt| |exact E]. eapply h_add; [eapply h_mul; eauto|eapply h_cst; eauto|exact E0].
Qed.

Lemma Forall2_nonempty {A B} (P : A -> B -> Prop) la p ps : Forall2 P la (p :: ps) -> exists a la', la = a :: la' /\ P a p.
Proof. intros F. inversion F; subst. eauto. Qed.

(** the loops *)
Definition gsum (c : nat) (p : ball) : list (fn b64) -> list ball -> option (list ball) :=
  fix go (l : list (fn b64)) (acc : list ball) : option (list ball) :=
  match l with
  | [] => Some acc
  | g :: l' => if Nat.eqb (fcod g) c then obind (beval eps g p) (fun r => obind (map2O b_add acc r) (go l')) else None
  end.
Definition gmul (p : ball) : list (fn b64) -> list ball -> option (list ball) :=
  fix go (l : list (fn b64)) (acc : list ball) : option (list ball) :=
  match l with
  | [] => Some acc
  | g :: l' => if Nat.eqb (fcod g) 1
               then obind (beval eps g p) (fun r => match r with [s] => obind (mapO (fun x => b_mul x s) acc) (go l') | _ => None end)
               else None
  end.
Definition gcomp (c : nat) : list (fn b64) -> ball -> option (list ball) :=
  fix go (l : list (fn b64)) (q : ball) : option (list ball) :=
  match l with
  | [] => None
  | g :: l' =>
      match l' with
      | [] => if Nat.eqb (fcod g) c then beval eps g q else None
      | _ => if Nat.eqb (fcod g) 1 then obind (beval eps g q) (fun r => match r with [s] => go l' s | _ => None end) else None
      end
  end.
Definition glast (c : nat) (x : b64) : list (fn b64) -> option (list ball) :=
  fix go (l : list (fn b64)) : option (list ball) :=
  match l with
  | [] => None
  | g :: l' => match l' with
               | [] => if Nat.eqb (fcod g) c then obind (b_cst x) (beval eps g) else None
               | _ => go l'
               end
  end.
Definition gfind (c : nat) (g0 : fn b64) (all : list (fn b64)) (p : ball) : list (fn b64) -> option (list ball) :=
  fix go (l : list (fn b64)) : option (list ball) :=
  match l with
  | [] =>
      if surely_le (fst (fdom g0)) p then obind (b_cst (fst (fdom g0))) (beval eps g0)
      else if surely_gt (fst (fdom g0)) p && surely_ge (snd (fdom (last all g0))) p
      then glast c (snd (fdom (last all g0))) all
      else None
  | g :: l' =>
      if surely_ge (fst (fdom g)) p && surely_lt (snd (fdom g)) p then (if Nat.eqb (fcod g) c then beval eps g p else None)
      else if surely_lt (fst (fdom g)) p || surely_ge (snd (fdom g)) p then go l'
      else None
  end.
Lemma beval_sum d c g args p : beval eps (FExpr SUM d c (g :: args)) p = gsum c p (g :: args) (repeat (0, 0) c).
Proof. reflexivity. Qed.
Lemma beval_mul d c g args p : beval eps (FExpr MULTIPLICATION d c (g :: args)) p = if Nat.eqb (fcod g) c then obind (beval eps g p) (gmul p args) else None.
Proof. reflexivity. Qed.
Lemma beval_comp d c args p : beval eps (FExpr COMPOSITION d c args) p = gcomp c args p.
Proof. reflexivity. Qed.
Lemma beval_concat d c g args p : beval eps (FExpr CONCATENATION d c (g :: args)) p = if Nat.eqb (fcod g) c then gfind c g (g :: args) p (g :: args) else None.
Proof. reflexivity. Qed.

(** the loops of eval, for any arithmetic *)
Definition esum (c0 cols : nat) (pts : list T) : list (fn T) -> list (list T) -> outcome (list (list T)) :=
  fix go (l : list (fn T)) (acc : list (list T)) : outcome (list (list T)) :=
  match l with
  | [] => Ok acc
  | g :: l' => temp <- eval dbg g pts c0 ;; if Nat.eqb cols c0 then go l' (rows_add acc temp) else UB
  end.
Definition emul (pts : list T) : list (fn T) -> list (list T) -> outcome (list (list T)) :=
  fix go (l : list (fn T)) (acc : list (list T)) : outcome (list (list T)) :=
  match l with
  | [] => Ok acc
  | g :: l' => temp <- eval dbg g pts 1 ;; go l' (rows_colwise_mul acc temp)
  end.
Definition ecomp (cols : nat) : list (fn T) -> list T -> outcome (list (list T)) :=
  fix go (l : list (fn T)) (p : list T) : outcome (list (list T)) :=
  match l with
  | [] => UB
  | g :: l' => match l' with [] => eval dbg g p cols | _ => temp <- eval dbg g p 1 ;; go l' (concat temp) end
  end.
Definition elast (c0 : nat) (x : T) : list (fn T) -> outcome (list (list T)) :=
  fix go (l : list (fn T)) : outcome (list (list T)) :=
  match l with [] => UB | g :: l' => match l' with [] => eval dbg g [x] c0 | _ => go l' end end.
Definition efind (g0 : fn T) (all : list (fn T)) (t : T) : list (fn T) -> outcome (list (list T)) :=
  fix go (l : list (fn T)) : outcome (list (list T)) :=
  match l with
  | [] => if nleb t (fst (fdom g0)) then eval dbg g0 [fst (fdom g0)] (fcod g0)
          else if nleb (snd (fdom (last all g0))) t then elast (fcod g0) (snd (fdom (last all g0))) all
          else Throw InvalidArgument
  | g :: l' => if is_point_in_domain g t then eval dbg g [t] (fcod g0) else go l'
  end.
Lemma eval_sum_loop d c g0 rest pts cols : eval dbg (FExpr SUM d c (g0 :: rest)) pts cols = esum (fcod g0) cols pts (g0 :: rest) (rows_zero (length pts) cols).
Proof. reflexivity. Qed.
Lemma eval_mul_loop d c g0 rest pts cols : eval dbg (FExpr MULTIPLICATION d c (g0 :: rest)) pts cols = (r0 <- eval dbg g0 pts cols ;; emul pts rest r0).
Proof. reflexivity. Qed.
Lemma eval_comp_loop d c args pts cols : eval dbg (FExpr COMPOSITION d c args) pts cols = ecomp cols args pts.
Proof. reflexivity. Qed.
Lemma eval_concat_loop d c g0 rest pts cols : eval dbg (FExpr CONCATENATION d c (g0 :: rest)) pts cols
  = mapM (fun t => r <- efind g0 (g0 :: rest) t (g0 :: rest) ;; if Nat.eqb cols (fcod g0) then Ok (hd [] r) else UB) pts.
Proof. reflexivity. Qed.

Lemma Forall_some {A B} (g : A -> option B) l : (forall x, In x l -> exists y, g x = Some y) -> Forall (fun x => g x <> None) l.
Proof. intros K. apply Forall_forall. intros x Hx. destruct (K x Hx) as (y & ->). discriminate. Qed.

(** results of one operand for all arguments, the balls known to exist *)
Lemma operand g pts ps : sound g -> ps <> [] -> Forall2 rel pts ps -> (forall p, In p ps -> exists l, beval eps g p = Some l) ->
  exists rows, eval dbg (fm g) pts (fcod g) = Ok rows /\ Forall2 (rrel (beval eps g)) rows ps.
Proof. intros Sg N F K. apply Sg; auto. apply Forall_some. exact K. Qed.

Lemma Forall2_in_r {A B} (P : A -> B -> Prop) la lb b : Forall2 P la lb -> In b lb -> exists a, P a b.
Proof. intros F. induction F; intros I; [destruct I|]. destruct I as [<-|I]; eauto. Qed.

Lemma sum_sound c pts ps (fin_ : ball -> list ball -> Prop) : ps <> [] -> Forall2 rel pts ps -> forall l accs, Forall sound l ->
  Forall2 (fun acc p => exists b r, Forall2 rel acc b /\ gsum c p l b = Some r /\ fin_ p r) accs ps ->
  exists rows, esum c c pts (map fm l) accs = Ok rows /\ Forall2 (fun row p => exists r, Forall2 rel row r /\ fin_ p r) rows ps.
Proof.
  intros N F l. induction l as [|g l IH]; intros accs HS HA; cbn [map esum gsum] in *.
  - exists accs. split; [reflexivity|]. eapply Forall2_impl; [|exact HA]. intros a p (b & r & Fb & E & X). injection E as <-. eauto.
  - apply Forall_cons_iff in HS as [Sg HS].
    assert (Ec : fcod g = c).
    { destruct ps as [|p ps]; [contradiction|]. apply Forall2_nonempty in HA. destruct HA as (a & la & _ & b & r & _ & E & _). destruct (Nat.eqb_spec (fcod g) c); [assumption|discriminate]. }
    destruct (operand g pts ps Sg N F) as (temp & Et & Ft).
    { intros p Hp. destruct (Forall2_in_r _ _ _ _ HA Hp) as (a & b & r & _ & E & _). rewrite Ec, Nat.eqb_refl in E. oinv E. eauto. }
    rewrite Ec in Et. rewrite Et. cbn [bind]. rewrite Nat.eqb_refl. apply IH; auto. unfold rows_add.
    eapply Forall2_map2; [exact HA|exact Ft|]. intros a t p (b & r & Fb & E & X) (q & Eq & Fq). rewrite Ec, Nat.eqb_refl, Eq in E. cbn [obind] in E. oinv E.
    exists r0, r. split; [|auto]. eapply map2_rel; eauto.
Qed.
Lemma mul_sound pts ps (fin_ : ball -> list ball -> Prop) : ps <> [] -> Forall2 rel pts ps -> forall l accs, Forall sound l ->
  Forall2 (fun acc p => exists b r, Forall2 rel acc b /\ gmul p l b = Some r /\ fin_ p r) accs ps ->
  exists rows, emul pts (map fm l) accs = Ok rows /\ Forall2 (fun row p => exists r, Forall2 rel row r /\ fin_ p r) rows ps.
Proof.
  intros N F l. induction l as [|g l IH]; intros accs HS HA; cbn [map emul gmul] in *.
  - exists accs. split; [reflexivity|]. eapply Forall2_impl; [|exact HA]. intros a p (b & r & Fb & E & X). injection E as <-. eauto.
  - apply Forall_cons_iff in HS as [Sg HS].
    assert (Ec : fcod g = 1%nat).
    { destruct ps as [|p ps]; [contradiction|]. apply Forall2_nonempty in HA. destruct HA as (a & la & _ & b & r & _ & E & _). destruct (Nat.eqb_spec (fcod g) 1); [assumption|discriminate]. }
    destruct (operand g pts ps Sg N F) as (temp & Et & Ft).
    { intros p Hp. destruct (Forall2_in_r _ _ _ _ HA Hp) as (a & b & r & _ & E & _). rewrite Ec, Nat.eqb_refl in E. oinv E. eauto. }
    rewrite Ec in Et. rewrite Et. cbn [bind]. apply IH; auto. unfold rows_colwise_mul.
    eapply Forall2_map2; [exact HA|exact Ft|]. intros a t p (b & r & Fb & E & X) (q & Eq & Fq). rewrite Ec, Nat.eqb_refl, Eq in E. cbn [obind] in E.
    destruct q as [|s [|s' q]]; try discriminate. oinv E. inversion Fq as [|y ? ? ? Ry Fn]; subst. inversion Fn; subst. cbn [hd].
    exists r0, r. split; [|auto]. eapply (map_rel (fun x => nmul x y) (fun x => b_mul x s)); eauto.
Qed.
Lemma comp_sound c ps0 (fin_ : ball -> list ball -> Prop) : ps0 <> [] -> forall l pts ps, Forall sound l -> Forall2 rel pts ps ->
  Forall2 (fun p p0 => exists r, gcomp c l p = Some r /\ fin_ p0 r) ps ps0 ->
  exists rows, ecomp c (map fm l) pts = Ok rows /\ Forall2 (fun row p0 => exists r, Forall2 rel row r /\ fin_ p0 r) rows ps0.
Proof.
  intros N l. induction l as [|g l IH]; intros pts ps HS F HA.
  - exfalso. destruct ps0 as [|p0 ps0]; [contradiction|]. apply Forall2_nonempty in HA. destruct HA as (a & la & _ & r & E & _). discriminate.
  - apply Forall_cons_iff in HS as [Sg HS].
    assert (N' : ps <> []) by (destruct ps; [inversion HA; subst; contradiction|discriminate]).
    assert (K : forall p, In p ps -> exists r p0, gcomp c (g :: l) p = Some r /\ fin_ p0 r).
    { intros p Hp. clear -HA Hp. induction HA as [|x y l1 l2 (r & E & X) HA IH]; [destruct Hp|]. destruct Hp as [<-|Hp]; eauto. }
    destruct l as [|g' l].
    + cbn [map ecomp gcomp] in *. assert (Ec : fcod g = c).
      { destruct ps as [|p ps]; [contradiction|]. destruct (K p ltac:(left; reflexivity)) as (r & p0 & E & _). destruct (Nat.eqb_spec (fcod g) c); [assumption|discriminate]. }
      destruct (operand g pts ps Sg N' F) as (rows & Et & Ft).
      { intros p Hp. destruct (K p Hp) as (r & p0 & E & _). rewrite Ec, Nat.eqb_refl in E. eauto. }
      rewrite Ec in Et. exists rows. split; [exact Et|]. clear -Ft HA Ec. revert rows Ft. induction HA as [|p p0 l1 l2 (r & E & X) HA IH]; intros rows Ft; inversion Ft; subst; constructor; auto.
      match goal with H : rrel _ _ _ |- _ => destruct H as (q & Eq & Fq) end. rewrite Nat.eqb_refl, Eq in E. injection E as <-. eauto.
    + assert (Ec : fcod g = 1%nat).
      { destruct ps as [|p ps]; [contradiction|]. destruct (K p ltac:(left; reflexivity)) as (r & p0 & E & _). cbn [gcomp] in E. destruct (Nat.eqb_spec (fcod g) 1); [assumption|discriminate]. }
      destruct (operand g pts ps Sg N' F) as (temp & Et & Ft).
      { intros p Hp. destruct (K p Hp) as (r & p0 & E & _). cbn [gcomp] in E. rewrite Ec, Nat.eqb_refl in E. oinv E. eauto. }
      rewrite Ec in Et. change (map fm (g :: g' :: l)) with (fm g :: fm g' :: map fm l).
      change (ecomp c (fm g :: fm g' :: map fm l) pts) with (temp <- eval dbg (fm g) pts 1 ;; ecomp c (map fm (g' :: l)) (concat temp)). rewrite Et. cbn [bind].
      assert (Q : exists qs, Forall2 rel (concat temp) qs /\ Forall2 (fun p p0 => exists r, gcomp c (g' :: l) p = Some r /\ fin_ p0 r) qs ps0).
      { clear -Ft HA Ec h_cst. revert temp Ft. induction HA as [|p p0 l1 l2 (r & E & X) HA IH]; intros temp Ft; inversion Ft as [|row ? rows ? Hr Fr]; subst.
        - exists []. split; constructor.
        - destruct (IH _ Fr) as (qs & F1 & F2). destruct Hr as (q & Eq & Fq).
          change (gcomp c (g :: g' :: l) p) with (if Nat.eqb (fcod g) 1 then obind (beval eps g p) (fun r => match r with [s] => gcomp c (g' :: l) s | _ => None end) else None) in E.
          rewrite Ec, Nat.eqb_refl, Eq in E. cbn [obind] in E. destruct q as [|s [|s' q]]; try discriminate.
          inversion Fq as [|y ? ? ? Ry Fn]; subst. inversion Fn; subst. exists (s :: qs). split; cbn [concat app]; constructor; eauto. }
      destruct Q as (qs & F1 & F2). eapply IH; eauto.
Qed.

Lemma single g p : sound g -> forall t l, rel t p -> beval eps g p = Some l -> exists row, eval dbg (fm g) [t] (fcod g) = Ok [row] /\ Forall2 rel row l.
Proof.
  intros Sg t l Rt E. destruct (Sg [t] [p]) as (rows & Er & F); [discriminate|repeat constructor; auto|repeat constructor; rewrite E; discriminate|].
  inversion F as [|row ? rs ? (l' & E' & Fl) Fn]; subst. inversion Fn; subst. rewrite E in E'. injection E' as <-. eauto.
Qed.
Lemma last_sound c x l r : Forall sound l -> glast c x l = Some r -> exists row, elast c (cst x) (map fm l) = Ok [row] /\ Forall2 rel row r.
Proof.
  induction l as [|g l IH]; intros HS E; [discriminate|]. apply Forall_cons_iff in HS as [Sg HS]. destruct l as [|g' l].
  - cbn [glast map elast] in *. destruct (Nat.eqb_spec (fcod g) c) as [<-|]; [|discriminate]. oinv E. eapply (single g); eauto.
  - change (elast c (cst x) (map fm (g :: g' :: l))) with (elast c (cst x) (map fm (g' :: l))). apply IH; auto.
Qed.
Lemma last_map (l : list (fn b64)) g0 : last (map fm l) (fm g0) = fm (last l g0).
Proof. induction l as [|g l IH]; [reflexivity|]. destruct l; [reflexivity|]. exact IH. Qed.
Lemma find_sound c g0 all t p r : rel t p -> sound g0 -> fcod g0 = c -> Forall sound all -> forall l, Forall sound l -> gfind c g0 all p l = Some r ->
  exists row, efind (fm g0) (map fm all) t (map fm l) = Ok [row] /\ Forall2 rel row r.
Proof.
  intros Rt S0 Ec HA l. induction l as [|g l IH]; intros HS E.
  - cbn [gfind map efind] in *. rewrite last_map, !fdom_fm, fcod_fm. cbn [fst snd]. destruct (surely_le (fst (fdom g0)) p) eqn:El.
    + rewrite (h_le _ _ _ Rt El). oinv E. eapply (single g0); eauto.
    + destruct (surely_gt (fst (fdom g0)) p) eqn:Eg; [|discriminate]. rewrite (h_gt _ _ _ Rt Eg). cbn [andb] in E.
      destruct (surely_ge (snd (fdom (last all g0))) p) eqn:Eh; [|discriminate]. rewrite (proj1 (h_ge _ _ _ Rt Eh)). rewrite Ec. apply last_sound; auto.
  - apply Forall_cons_iff in HS as [Sg HS]. cbn [gfind map efind] in *. unfold is_point_in_domain. rewrite fdom_fm, fcod_fm. cbn [fst snd].
    destruct (surely_ge (fst (fdom g)) p) eqn:E1; cbn [andb] in E.
    + rewrite (proj1 (h_ge _ _ _ Rt E1)). cbn [andb]. destruct (surely_lt (snd (fdom g)) p) eqn:E2.
      * rewrite (proj1 (h_lt _ _ _ Rt E2)). destruct (Nat.eqb_spec (fcod g) c) as [Eg|]; [|discriminate]. rewrite Ec, <- Eg. eapply (single g); eauto.
      * destruct (surely_lt (fst (fdom g)) p) eqn:E3.
        { pose proof (proj1 (h_ge _ _ _ Rt E1)). pose proof (proj2 (h_lt _ _ _ Rt E3)). congruence. }
        cbn [orb] in E. destruct (surely_ge (snd (fdom g)) p) eqn:E4; [|discriminate]. rewrite (proj2 (h_ge _ _ _ Rt E4)). apply IH; auto.
    + destruct (surely_lt (fst (fdom g)) p) eqn:E3.
      * rewrite (proj2 (h_lt _ _ _ Rt E3)). cbn [andb orb] in *. apply IH; auto.
      * cbn [orb] in E. destruct (surely_ge (snd (fdom g)) p) eqn:E4; [|discriminate]. rewrite (proj2 (h_ge _ _ _ Rt E4)). rewrite andb_false_r. apply IH; auto.
Qed.

Lemma rows_zero_rel n c ps (fin_ : ball -> list ball -> Prop) (go : ball -> list ball -> option (list ball)) : length ps = n ->
  Forall (fun p => exists r, go p (repeat (0, 0) c) = Some r /\ fin_ p r) ps ->
  Forall2 (fun acc p => exists b r, Forall2 rel acc b /\ go p b = Some r /\ fin_ p r) (rows_zero n c) ps.
Proof.
  intros <-. unfold rows_zero. induction ps as [|p ps IH]; intros F; cbn; constructor; inversion F; subst; auto.
  match goal with H : exists _, _ |- _ => destruct H as (r & E & X) end. exists (repeat (0, 0) c), r. split; [|auto]. clear -h_zero. induction c; cbn; constructor; auto.
Qed.
Lemma finish (g : ball -> option (list ball)) rows ps : Forall2 (fun row p => exists r, Forall2 rel row r /\ g p = Some r) rows ps -> Forall2 (rrel g) rows ps.
Proof. intros F. eapply Forall2_impl; [|exact F]. intros a p (r & A & B). exists r. auto. Qed.
Lemma some_of {A B} (g : A -> option B) ps : Forall (fun p => g p <> None) ps -> forall p, In p ps -> exists l, g p = Some l.
Proof. intros F p Hp. rewrite Forall_forall in F. specialize (F p Hp). destruct (g p); [eauto|contradiction]. Qed.

Theorem eval_sound f : sound f.
Proof.
  induction f as [d v|d a|d|d|d|d c|d f1 f2 IH1 IH2|d c s k|d c s k|ty d c args IH] using fn_ind'; intros pts ps N F Z.
  - cbn [fn_map eval fcod]. unfold eval_const. rewrite map_length, Nat.eqb_refl. eexists. split; [reflexivity|]. apply map_rows; auto.
    intros t p l Rt E. apply const_rel. exact E.
  - cbn [fn_map eval fcod]. apply col_rows; auto. intros t p l Rt E. cbn [beval] in E. oinv E. oinv E. injection E as <-. eexists. split; [reflexivity|]. eapply h_mul; eauto.
  - cbn [fn_map eval fcod]. apply col_rows; auto. intros t p l Rt E. cbn [beval] in E. oinv E. injection E as <-. eauto.
  - cbn [fn_map eval fcod]. apply col_rows; auto. intros t p l Rt E. cbn [beval] in E. injection E as <-. eauto.
  - cbn [fn_map eval fcod]. apply col_rows; auto. intros t p l Rt E. cbn [beval] in E. injection E as <-. eauto.
  - cbn [fn_map eval fcod]. unfold eval_poly. rewrite <- map_rev. cbn [beval] in Z. destruct (rev c) as [|cl rest] eqn:Er; cbn [map].
    + exfalso. destruct ps; [contradiction|]. inversion Z; subst. contradiction.
    + destruct rest as [|c1 rest].
      * cbn [map]. eexists. split; [reflexivity|]. apply map_rows; auto.
        -- cbn [beval]. rewrite Er. exact Z.
        -- intros t p l Rt E. cbn [beval] in E. rewrite Er in E. oinv E. cbn [foldO obind] in E. injection E as <-. cbn [repeat]. repeat constructor. eauto.
      * set (rest' := c1 :: rest) in *. assert (Em : exists y ys, map cst rest' = y :: ys) by (eexists; eexists; reflexivity). destruct Em as (y & ys & Em). rewrite Em. cbn [Nat.eqb]. rewrite <- Em.
        eexists. split; [reflexivity|]. apply map_rows; auto.
        -- cbn [beval]. rewrite Er. exact Z.
        -- intros t p l Rt E. cbn [beval] in E. rewrite Er in E. oinv E. oinv E. injection E as <-. repeat constructor. eapply horner_rel; eauto.
  - cbn [fn_map eval]. rewrite !fcod_fm. pose proof (some_of _ _ Z) as K. cbn [beval] in K.
    assert (Ec : fcod f1 = fcod f2).
    { destruct ps as [|p ps]; [contradiction|]. destruct (K p ltac:(left; reflexivity)) as (l & E). destruct (Nat.eqb_spec (fcod f1) (fcod f2)); [assumption|discriminate]. }
    rewrite Ec, Nat.eqb_refl in K.
    destruct (operand f1 pts ps IH1 N F) as (r1 & E1 & F1); [intros p Hp; destruct (K p Hp) as (l & E); oinv E; eauto|].
    destruct (operand f2 pts ps IH2 N F) as (r2 & E2 & F2); [intros p Hp; destruct (K p Hp) as (l & E); oinv E; oinv E; eauto|].
    rewrite Ec in E1. rewrite Ec. rewrite E1, E2. cbn [bind]. rewrite Nat.eqb_refl. cbn [fcod]. unfold col_result. cbn [Nat.eqb]. eexists. split; [reflexivity|].
    assert (X : Forall2 (fun x p => exists q, beval eps (FDot d f1 f2) p = Some [q] /\ rel x q) (map2 row_dot r1 r2) ps).
    { assert (F2' : Forall2 (fun row p => rrel (beval eps f2) row p /\ In p ps) r2 ps).
      { clear -F2. assert (G : forall qs, incl ps qs -> Forall2 (fun row p => rrel (beval eps f2) row p /\ In p qs) r2 ps); [|apply G, incl_refl].
        induction F2; intros qs I; constructor; [split; [assumption|apply I; left; reflexivity]|]. apply IHF2. intros z Hz. apply I. right. exact Hz. }
      eapply Forall2_map2; [exact F1|exact F2'|]. intros a b p (l1 & G1 & H1) ((l2 & G2 & H2) & Hp). cbn [beval]. rewrite Ec, Nat.eqb_refl, G1, G2. cbn [obind].
      destruct (K p Hp) as (l & E). rewrite G1, G2 in E. cbn [obind] in E. oinv E. oinv E. rewrite E0. cbn [obind]. rewrite E3. cbn [obind]. eexists. split; [reflexivity|].
      unfold row_dot. eapply fold_rel; [|eapply map2_rel; [|exact H1|exact H2|exact E0]| |exact E3]; eauto. }
    clear -X. induction X as [|x p xs ps (q & E & Rq) X IH]; cbn; constructor; auto. exists [q]. split; [exact E|]. repeat constructor. exact Rq.
  - exfalso. destruct ps; [contradiction|]. inversion Z; subst. contradiction.
  - exfalso. destruct ps; [contradiction|]. inversion Z; subst. contradiction.
  - pose proof (some_of _ _ Z) as K. assert (Ln : length pts = length ps) by (eapply Forall2_len; eauto). destruct ty; cbn [fn_map fcod].
    + destruct args as [|g0 args].
      { exfalso. destruct ps; [contradiction|]. inversion Z; subst. contradiction. }
      assert (Ec : fcod g0 = c).
      { destruct ps as [|p ps]; [contradiction|]. destruct (K p ltac:(left; reflexivity)) as (l & E). rewrite beval_sum in E. cbn [gsum] in E. destruct (Nat.eqb_spec (fcod g0) c); [assumption|discriminate]. }
      change (map fm (g0 :: args)) with (fm g0 :: map fm args). rewrite eval_sum_loop, fcod_fm, Ec. change (fm g0 :: map fm args) with (map fm (g0 :: args)).
      destruct (sum_sound c pts ps (fun p r => beval eps (FExpr SUM d c (g0 :: args)) p = Some r) N F (g0 :: args) (rows_zero (length pts) c) IH) as (rows & E & Fr).
      { apply rows_zero_rel; [auto|]. apply Forall_forall. intros p Hp. destruct (K p Hp) as (l & E). exists l. split; [|exact E]. rewrite beval_sum in E. exact E. }
      exists rows. split; [exact E|]. apply finish. exact Fr.
    + destruct args as [|g0 args].
      { exfalso. destruct ps; [contradiction|]. inversion Z; subst. contradiction. }
      apply Forall_cons_iff in IH as [S0 IH].
      assert (Ec : fcod g0 = c).
      { destruct ps as [|p ps]; [contradiction|]. destruct (K p ltac:(left; reflexivity)) as (l & E). rewrite beval_mul in E. destruct (Nat.eqb_spec (fcod g0) c); [assumption|discriminate]. }
      change (map fm (g0 :: args)) with (fm g0 :: map fm args). rewrite eval_mul_loop.
      destruct (operand g0 pts ps S0 N F) as (r0 & E0 & F0).
      { intros p Hp. destruct (K p Hp) as (l & E). rewrite beval_mul, Ec, Nat.eqb_refl in E. oinv E. eauto. }
      rewrite Ec in E0. rewrite E0. cbn [bind].
      destruct (mul_sound pts ps (fun p r => beval eps (FExpr MULTIPLICATION d c (g0 :: args)) p = Some r) N F args r0 IH) as (rows & E & Fr).
      { assert (K' : Forall (fun p => exists l, beval eps (FExpr MULTIPLICATION d c (g0 :: args)) p = Some l) ps) by (apply Forall_forall; exact K).
        clear -F0 K' Ec. revert K'. induction F0 as [|row p rows ps (q & Eq & Fq) F0 IH]; intros K'; constructor; inversion K'; subst; auto.
        match goal with H : exists _, _ |- _ => destruct H as (l & E) end. exists q, l. split; [exact Fq|]. split; [|exact E].
        rewrite beval_mul, Nat.eqb_refl, Eq in E. exact E. }
      exists rows. split; [exact E|]. apply finish. exact Fr.
    + rewrite eval_comp_loop.
      destruct (comp_sound c ps (fun p r => beval eps (FExpr COMPOSITION d c args) p = Some r) N args pts ps IH F) as (rows & E & Fr).
      { clear -K. assert (K' : Forall (fun p => exists l, beval eps (FExpr COMPOSITION d c args) p = Some l) ps) by (apply Forall_forall; exact K).
        clear K. induction K' as [|p ps (l & E) K' IH]; constructor; auto. exists l. split; [|exact E]. rewrite beval_comp in E. exact E. }
      exists rows. split; [exact E|]. apply finish. exact Fr.
    + destruct args as [|g0 args].
      { exfalso. destruct ps; [contradiction|]. inversion Z; subst. contradiction. }
      assert (Ec : fcod g0 = c).
      { destruct ps as [|p ps]; [contradiction|]. destruct (K p ltac:(left; reflexivity)) as (l & E). rewrite beval_concat in E. destruct (Nat.eqb_spec (fcod g0) c); [assumption|discriminate]. }
      change (map fm (g0 :: args)) with (fm g0 :: map fm args). rewrite eval_concat_loop, fcod_fm, Ec, Nat.eqb_refl.
      assert (S0 : sound g0) by (now inversion IH). clear N Z Ln.
      induction F as [|t p pts ps Rt F IHF]; [exists []; split; [reflexivity|constructor]|].
      destruct (K p ltac:(left; reflexivity)) as (l & E). pose proof E as E'. rewrite beval_concat, Ec, Nat.eqb_refl in E'.
      destruct (find_sound c g0 (g0 :: args) t p l Rt S0 Ec IH (g0 :: args) IH E') as (row & Er & Fr).
      destruct (IHF ltac:(intros q Hq; apply K; right; exact Hq)) as (rows & Ers & Frs).
      cbn [mapM]. change (fm g0 :: map fm args) with (map fm (g0 :: args)) in *. rewrite Er. cbn [bind hd]. rewrite Ers. cbn [bind]. eexists. split; [reflexivity|].
      constructor; auto. exists l. auto.
    + destruct args as [|g [|g' args]].
      { exfalso. destruct ps; [contradiction|]. inversion Z; subst. contradiction. }
      2:{ exfalso. destruct ps; [contradiction|]. inversion Z; subst. contradiction. }
      assert (Sg : sound g) by (now inversion IH). cbn [map eval length Nat.eqb negb]. rewrite andb_false_r. cbn [beval] in K, Z.
      assert (Ec : fcod g = c).
      { destruct ps as [|p ps]; [contradiction|]. destruct (K p ltac:(left; reflexivity)) as (l & E). destruct (Nat.eqb_spec (fcod g) c); [assumption|discriminate]. }
      rewrite Ec, Nat.eqb_refl in K. destruct (operand g pts ps Sg N F K) as (rows & E & Fr). rewrite Ec in E. exists rows. split; [exact E|].
      eapply Forall2_impl; [|exact Fr]. intros a p (l & El & Fl). exists l. split; [|exact Fl]. cbn [beval]. rewrite Ec, Nat.eqb_refl. exact El.
    + destruct args as [|g [|g' args]].
      { exfalso. destruct ps; [contradiction|]. inversion Z; subst. contradiction. }
      2:{ exfalso. destruct ps; [contradiction|]. inversion Z; subst. contradiction. }
      assert (Sg : sound g) by (now inversion IH). cbn [map eval length Nat.eqb negb]. rewrite andb_false_r. cbn [beval] in K, Z.
      assert (Ec : fcod g = c).
      { destruct ps as [|p ps]; [contradiction|]. destruct (K p ltac:(left; reflexivity)) as (l & E). destruct (Nat.eqb_spec (fcod g) c); [assumption|discriminate]. }
      rewrite Ec, Nat.eqb_refl in K. destruct (operand g pts ps Sg N F) as (rows & E & Fr); [intros p Hp; destruct (K p Hp) as (l & E); oinv E; eauto|].
      rewrite Ec in E. rewrite E. cbn [bind]. eexists. split; [reflexivity|]. unfold rows_neg.
      clear -Fr Ec h_neg. induction Fr as [|row p rows ps (l & El & Fl) Fr IH]; cbn; constructor; auto.
      exists (map b_neg l). cbn [beval]. rewrite Ec, Nat.eqb_refl, El. split; [reflexivity|]. clear -Fl h_neg. induction Fl; cbn; constructor; auto.
Qed.
End Sim.
