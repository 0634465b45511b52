(** Function expressions evaluate point by point in every arithmetic. *)
From Coquelicot Require Import Coquelicot.
From Coq Require Import List Arith Lia Bool ZArith Reals Lra.
From Verif Require Import Num Outcome FunModel FunSpec FunProofs IEEEModel IEEESpec IEEEFunSpec IEEEFunProofs.
Import ListNotations.

(** operands have the shapes their operation wants; foreign classes and concatenations are left out *)
Fixpoint shaped {T} (f : fn T) : Prop :=
  match f with
  | FConst _ _ | FDil _ _ | FExp _ | FCos _ | FSin _ => True
  | FPoly _ c => c <> []
  | FDot _ f1 f2 => fcod f1 = fcod f2 /\ shaped f1 /\ shaped f2
  | FExt _ _ _ _ | FPy _ _ _ _ => False
  | FExpr SUM _ c args => args <> [] /\ fold_right (fun g P => fcod g = c /\ shaped g /\ P) True args
  | FExpr MULTIPLICATION _ c args =>
      match args with
      | [] => False
      | g0 :: rest => fcod g0 = c /\ shaped g0 /\ fold_right (fun g P => fcod g = 1%nat /\ shaped g /\ P) True rest
      end
  | FExpr COMPOSITION _ c args =>
      args <> [] /\
      (fix go (l : list (fn T)) : Prop :=
         match l with
         | [] => True
         | g :: l' => shaped g /\ fcod g = match l' with [] => c | _ => 1%nat end /\ go l'
         end) args
  | FExpr CONCATENATION _ _ _ => False
  | FExpr _ _ c args => match args with [g] => fcod g = c /\ shaped g | _ => False end
  end.

Section Any.
Context {T : Type} {HN : Num T}.
Variable dbg : bool.
Definition by_points (f : fn T) : Prop := exists h, forall pts, eval dbg f pts (fcod f) = Ok (map h pts) /\ forall t, length (h t) = fcod f.

Lemma map2_map {A B C P} (f : A -> B -> C) (g : P -> A) (h : P -> B) l : map2 f (map g l) (map h l) = map (fun x => f (g x) (h x)) l.
Proof. induction l as [|x l IH]; cbn; [reflexivity|]. f_equal. exact IH. Qed.
Lemma map2_len {A B C} (f : A -> B -> C) : forall l1 l2, length l1 = length l2 -> length (map2 f l1 l2) = length l1.
Proof. induction l1 as [|a l1 IH]; intros [|b l2] L; cbn in *; try discriminate; [reflexivity|]. f_equal. apply IH. lia. Qed.
Lemma rows_zero_map n c (pts : list T) : n = length pts -> rows_zero n c = map (fun _ => repeat n0 c) pts.
Proof. intros ->. unfold rows_zero. induction pts as [|t pts IH]; cbn; [reflexivity|]. f_equal. exact IH. Qed.
Lemma sum_points c l : Forall by_points l -> Forall (fun g => fcod g = c) l -> forall h0 : T -> list T, (forall t, length (h0 t) = c) ->
  exists h, forall pts, esum dbg c c pts l (map h0 pts) = Ok (map h pts) /\ forall t, length (h t) = c.
Proof.
  induction l as [|g l IH]; intros B C h0 L0; [exists h0; intros pts; split; [reflexivity|exact L0]|].
  apply Forall_cons_iff in B as [(hg & Hg) B]. apply Forall_cons_iff in C as [Cg C].
  destruct (IH B C (fun t => map2 nadd (h0 t) (hg t))) as (h & Hh). { intros t. destruct (Hg []) as (_ & Lg). rewrite map2_len; [apply L0|]. rewrite L0, Lg, Cg. reflexivity. }
  exists h. intros pts. cbn [esum]. destruct (Hg pts) as (Eg & _). rewrite Cg in Eg. rewrite Eg. cbn [bind]. rewrite Nat.eqb_refl. unfold rows_add. rewrite map2_map. apply Hh.
Qed.
Lemma mul_points c l : Forall by_points l -> Forall (fun g => fcod g = 1%nat) l -> forall h0 : T -> list T, (forall t, length (h0 t) = c) ->
  exists h, forall pts, emul dbg pts l (map h0 pts) = Ok (map h pts) /\ forall t, length (h t) = c.
Proof.
  induction l as [|g l IH]; intros B C h0 L0; [exists h0; intros pts; split; [reflexivity|exact L0]|].
  apply Forall_cons_iff in B as [(hg & Hg) B]. apply Forall_cons_iff in C as [Cg C].
  destruct (IH B C (fun t => map (fun x => nmul x (hd n0 (hg t))) (h0 t))) as (h & Hh). { intros t. rewrite map_length. apply L0. }
  exists h. intros pts. cbn [emul]. destruct (Hg pts) as (Eg & _). rewrite Cg in Eg. rewrite Eg. cbn [bind]. unfold rows_colwise_mul. rewrite map2_map. apply Hh.
Qed.
Lemma concat_ones (h : T -> list T) pts : (forall t, length (h t) = 1%nat) -> concat (map h pts) = map (fun t => hd n0 (h t)) pts.
Proof. intros L. induction pts as [|t pts IH]; cbn; [reflexivity|]. rewrite IH. specialize (L t). destruct (h t) as [|x [|]]; try discriminate. reflexivity. Qed.
Fixpoint cshape (c : nat) (l : list (fn T)) : Prop :=
  match l with [] => True | g :: l' => shaped g /\ fcod g = match l' with [] => c | _ => 1%nat end /\ cshape c l' end.
Lemma comp_points c l : l <> [] -> Forall (fun g => shaped g -> by_points g) l -> cshape c l -> exists h, forall pts, ecomp dbg c l pts = Ok (map h pts) /\ forall t, length (h t) = c.
Proof.
  induction l as [|g l IH]; intros N B C; [contradiction|]. apply Forall_cons_iff in B as [Bg B]. cbn [cshape] in C. destruct C as (Sg & Cg & C). destruct (Bg Sg) as (hg & Hg). destruct l as [|g' l].
  - exists hg. intros pts. cbn [ecomp]. destruct (Hg pts) as (Eg & Lg). rewrite Cg in *. auto.
  - destruct (IH ltac:(discriminate) B C) as (h & Hh). exists (fun t => h (hd n0 (hg t))). intros pts.
    change (ecomp dbg c (g :: g' :: l) pts) with (bind (eval dbg g pts 1) (fun temp => ecomp dbg c (g' :: l) (concat temp))).
    destruct (Hg pts) as (Eg & Lg). rewrite Cg in *. rewrite Eg. cbn [bind]. rewrite concat_ones by exact Lg. destruct (Hh (map (fun t => hd n0 (hg t)) pts)) as (Eh & Lh). rewrite map_map in Eh. split; [exact Eh|]. intros t. apply Lh.
Qed.
Lemma fold_parts (c : nat) (l : list (fn T)) : fold_right (fun g P => fcod g = c /\ shaped g /\ P) True l -> Forall (fun g => fcod g = c) l /\ Forall shaped l.
Proof. induction l as [|g l IH]; cbn [fold_right]; [auto|]. intros (C & Sg & R0). destruct (IH R0). auto. Qed.
Lemma Forall_mp {A} (P Q : A -> Prop) l : Forall (fun x => P x -> Q x) l -> Forall P l -> Forall Q l.
Proof. intros F. induction F; intros G; [constructor|]. apply Forall_cons_iff in G as []. auto. Qed.

Theorem shaped_points f : shaped f -> by_points f.
Proof.
  induction f as [d v|d c|d|d|d|d c|d f1 f2 IH1 IH2|d c s k|d c s k|ty d c args IH] using fn_ind'; intros S0.
  - exists (fun _ => map (fun x => nmul n1 x) v). intros pts. cbn [eval fcod]. unfold eval_const. rewrite Nat.eqb_refl. split; [reflexivity|]. intros t. apply map_length.
  - exists (fun t => [nmul c t]). intros pts. cbn. rewrite map_map. auto.
  - exists (fun t => [nexp t]). intros pts. cbn. rewrite map_map. auto.
  - exists (fun t => [ncos t]). intros pts. cbn. rewrite map_map. auto.
  - exists (fun t => [nsin t]). intros pts. cbn. rewrite map_map. auto.
  - cbn [shaped] in S0. unfold by_points. cbn [eval fcod]. unfold eval_poly. destruct (rev c) as [|cl [|x rest]] eqn:E.
    + exfalso. apply S0. rewrite <- (rev_involutive c), E. reflexivity.
    + exists (fun _ => [cl]). intros pts. cbn. auto.
    + eexists. intros pts. cbn [Nat.eqb]. split; [reflexivity|]. intros t. reflexivity.
  - cbn [shaped] in S0. destruct S0 as (C & S1 & S2). destruct (IH1 S1) as (h1 & H1). destruct (IH2 S2) as (h2 & H2). exists (fun t => [row_dot (h1 t) (h2 t)]). intros pts. cbn [eval fcod].
    destruct (H1 pts) as (-> & _). destruct (H2 pts) as (-> & _). cbn [bind]. rewrite C, Nat.eqb_refl. unfold col_result. cbn [Nat.eqb]. rewrite map2_map, map_map. auto.
  - destruct S0.
  - destruct S0.
  - destruct ty; cbn [shaped] in S0.
    + destruct S0 as (N & S0). apply fold_parts in S0 as (C & S0). pose proof (Forall_mp _ _ _ IH S0) as B. destruct args as [|g0 rest]; [contradiction|].
      destruct (sum_points c (g0 :: rest) B C (fun _ => repeat n0 c)) as (h & Hh). { intros t. apply repeat_length. }
      exists h. intros pts. cbn [fcod]. rewrite eval_sum_loop. apply Forall_cons_iff in C as [C _]. rewrite C. rewrite (rows_zero_map _ c pts eq_refl). apply Hh.
    + destruct args as [|g0 rest]; [tauto|]. destruct S0 as (C0 & S0 & S1). apply fold_parts in S1 as (C1 & S1). apply Forall_cons_iff in IH as [IH0 IH]. pose proof (Forall_mp _ _ _ IH S1) as B. destruct (IH0 S0) as (h0 & H0).
      destruct (mul_points c rest B C1 h0) as (h & Hh). { intros t. destruct (H0 []) as (_ & L). rewrite L. exact C0. }
      exists h. intros pts. cbn [fcod]. rewrite eval_mul_loop. destruct (H0 pts) as (E0 & _). rewrite C0 in E0. rewrite E0. cbn [bind]. apply Hh.
    + destruct S0 as (N & S0). destruct (comp_points c args N IH) as (h & Hh). { clear -S0. induction args as [|g l IHl]; cbn [cshape]; [exact Logic.I|]. destruct S0 as (A & B & C). auto. }
      exists h. intros pts. cbn [fcod]. rewrite eval_comp_loop. apply Hh.
    + destruct S0.
    + destruct args as [|g [|]]; try tauto. destruct S0 as (C & Sg). apply Forall_cons_iff in IH as [IH _]. destruct (IH Sg) as (h & Hh). exists h. intros pts. cbn [eval fcod length Nat.eqb negb]. rewrite andb_false_r. rewrite <- C. apply Hh.
    + destruct args as [|g [|]]; try tauto. destruct S0 as (C & Sg). apply Forall_cons_iff in IH as [IH _]. destruct (IH Sg) as (h & Hh). exists (fun t => map (fun x => nmul x (nopp n1)) (h t)). intros pts. cbn [eval fcod length Nat.eqb negb]. rewrite andb_false_r. rewrite <- C.
      destruct (Hh pts) as (E & L). rewrite E. cbn [bind]. unfold rows_neg. rewrite map_map. split; [reflexivity|]. intros t. rewrite map_length. apply L.
Qed.
End Any.

(** the expression over another type of numbers *)
Lemma shaped_map {A B} (h : A -> B) hs f : shaped f -> shaped (fn_map h hs f).
Proof.
  assert (FC : forall f, fcod (fn_map h hs f) = fcod f) by (intros g; destruct g; cbn; auto; apply map_length).
  induction f as [d v|d c|d|d|d|d c|d f1 f2 IH1 IH2|d c s k|d c s k|ty d c args IH] using fn_ind'; intros S0; try exact S0; try exact Logic.I.
  - cbn in *. intros E. apply S0. destruct c; [reflexivity|discriminate].
  - cbn [fn_map shaped] in *. rewrite !FC. tauto.
  - assert (FR : forall k l, Forall (fun g => shaped g -> shaped (fn_map h hs g)) l -> fold_right (fun g P => fcod g = k /\ shaped g /\ P) True l -> fold_right (fun g P => fcod g = k /\ shaped g /\ P) True (map (fn_map h hs) l)).
    { intros k l F. induction F as [|g l Hg F IHl]; cbn [fold_right map]; [auto|]. rewrite FC. tauto. }
    destruct ty; cbn [fn_map shaped] in *.
    + destruct S0 as (N & S0). split; [destruct args; [contradiction|discriminate]|auto].
    + destruct args as [|g0 rest]; [tauto|]. cbn [map]. apply Forall_cons_iff in IH as [I0 IH]. rewrite FC. destruct S0 as (C & S0 & S1). auto.
    + destruct S0 as (N & S0). split; [destruct args; [contradiction|discriminate]|]. clear N. induction args as [|g l IHl]; [exact Logic.I|]. cbn [map]. apply Forall_cons_iff in IH as [I0 IH]. destruct S0 as (A0 & B0 & C0). split; [auto|]. rewrite FC. split; [destruct l; exact B0|apply IHl; auto].
    + exact S0.
    + destruct args as [|g [|]]; try tauto. cbn [map]. apply Forall_cons_iff in IH as [I0 _]. rewrite FC. tauto.
    + destruct args as [|g [|]]; try tauto. cbn [map]. apply Forall_cons_iff in IH as [I0 _]. rewrite FC. tauto.
Qed.
Lemma fits_shaped f : forall a, fits f a -> shaped f.
Proof.
  induction f as [d v|d c|d|d|d|d c|d f1 f2 IH1 IH2|d c s k|d c s k|ty d c args IH] using fn_ind'; intros a F; try exact Logic.I; try (exact F).
  - cbn in *. tauto.
  - cbn [fits shaped] in *. destruct F as (A & B & C & _). eauto.
  - destruct ty; cbn [fits shaped] in *.
    + destruct F as (N & F & _). split; [exact N|]. clear N. induction args as [|g l IHl]; cbn [fold_right] in *; [exact Logic.I|]. apply Forall_cons_iff in IH as [I0 IH]. destruct F as (A & B & C). eauto.
    + destruct args as [|g0 rest]; [tauto|]. apply Forall_cons_iff in IH as [I0 IH]. destruct F as (C & F & F2). split; [exact C|]. split; [eauto|]. revert F2. generalize (sizes g0 a). induction rest as [|g l IHl]; intros acc F2; cbn [fold_right]; [exact Logic.I|].
      apply Forall_cons_iff in IH as [I1 IH]. destruct F2 as (A & B & _ & D). eauto.
    + destruct F as (N & F). split; [exact N|]. clear N. revert a F. induction args as [|g l IHl]; intros a F; [exact Logic.I|]. apply Forall_cons_iff in IH as [I1 IH]. destruct F as (A & B & D). split; [eauto|]. split; [exact B|]. exact (IHl IH _ D).
    + exact F.
    + destruct args as [|g [|]]; try tauto. apply Forall_cons_iff in IH as [I0 _]. destruct F. eauto.
    + destruct args as [|g [|]]; try tauto. apply Forall_cons_iff in IH as [I0 _]. destruct F. eauto.
Qed.
