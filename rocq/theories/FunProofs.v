(** Proofs about evaluation of function expressions (over the reals). *)
From Coquelicot Require Import Coquelicot.
From Coq Require Import List Reals Lra Lia Bool Arith.
From Verif Require Import Num Outcome FunModel FunSpec.
Import ListNotations.
Local Open Scope R_scope.

(** Induction over function objects, through operand lists. *)
Section FnInd.
  Variable T : Type.
  Variable P : fn T -> Prop.
  Hypothesis HConst : forall d v, P (FConst d v).
  Hypothesis HDil : forall d a, P (FDil d a).
  Hypothesis HExp : forall d, P (FExp d).
  Hypothesis HCos : forall d, P (FCos d).
  Hypothesis HSin : forall d, P (FSin d).
  Hypothesis HPoly : forall d c, P (FPoly d c).
  Hypothesis HDot : forall d f1 f2, P f1 -> P f2 -> P (FDot d f1 f2).
  Hypothesis HExt : forall d c s k, P (FExt d c s k).
  Hypothesis HPy : forall d c s k, P (FPy d c s k).
  Hypothesis HExpr : forall ty d c args, Forall P args -> P (FExpr ty d c args).
  Fixpoint fn_ind' (f : fn T) : P f :=
    match f with
    | FConst d v => HConst d v
    | FDil d a => HDil d a
    | FExp d => HExp d
    | FCos d => HCos d
    | FSin d => HSin d
    | FPoly d c => HPoly d c
    | FDot d f1 f2 => HDot d f1 f2 (fn_ind' f1) (fn_ind' f2)
    | FExt d c s k => HExt d c s k
    | FPy d c s k => HPy d c s k
    | FExpr ty d c args =>
        HExpr ty d c args
          ((fix go (l : list (fn T)) : Forall P l :=
              match l with
              | [] => Forall_nil P
              | x :: l' => Forall_cons x (fn_ind' x) (go l')
              end) args)
    end.
End FnInd.

(** ** Proof-level denotation *)
Definition vadd (a b : list R) : list R := map2 Rplus a b.
Definition scale (p : R) (v : list R) : list R := map (fun x => x * p) v.
Definition vhd (v : list R) : R := hd 0 v.

Fixpoint den (f : fn R) (t : R) {struct f} : list R :=
  match f with
  | FConst _ v => v
  | FDil _ a => [a * t]
  | FExp _ => [exp t]
  | FCos _ => [cos t]
  | FSin _ => [sin t]
  | FPoly _ c => [power_sum c t]
  | FDot _ f1 f2 => [row_dot (den f1 t) (den f2 t)]
  | FExt _ _ s k | FPy _ _ s k => s k t
  | FExpr SUM _ c args => fold_left vadd (map (fun g => den g t) args) (repeat 0 c)
  | FExpr MULTIPLICATION _ _ args =>
      match map (fun g => den g t) args with
      | [] => []
      | r :: rs => fold_left (fun acc s => scale (vhd s) acc) rs r
      end
  | FExpr COMPOSITION _ _ args =>
      (fix go (l : list (fn R)) (x : R) : list R :=
         match l with
         | [] => []
         | g :: l' => match l' with [] => den g x | _ => go l' (vhd (den g x)) end
         end) args t
  | FExpr CONCATENATION _ _ args =>
      match args with
      | [] => []
      | g0 :: _ =>
        let gl := last args g0 in
        (fix find (l : list (fn R)) : list R :=
           match l with
           | [] => if Rleb t (fst (fdom g0)) then den g0 (fst (fdom g0))
                   else (fix evlast (l : list (fn R)) : list R :=
                           match l with
                           | [] => []
                           | g :: l' => match l' with
                                        | [] => den g (snd (fdom gl))
                                        | _ => evlast l'
                                        end
                           end) args
           | g :: l' => if is_point_in_domain g t then den g t else find l'
           end) args
      end
  | FExpr UNIQUE _ _ args => match args with [] => [] | g :: _ => den g t end
  | FExpr NEGATIVE _ _ args => match args with [] => [] | g :: _ => map (fun x => x * (-1)) (den g t) end
  end.

(** consecutive pieces touch exactly *)
Fixpoint abut (l : list (fn R)) : Prop :=
  match l with
  | [] => True
  | g :: l' => match l' with
               | [] => True
               | h :: _ => snd (fdom g) = fst (fdom h) /\ abut l'
               end
  end.

Fixpoint wf (f : fn R) : Prop :=
  match f with
  | FPoly _ c => c <> []
  | FDot _ f1 f2 => wf f1 /\ wf f2 /\ fcod f1 = fcod f2
  | FExt _ c s _ | FPy _ c s _ => forall k t, length (s k t) = c
  | FExpr ty _ c args =>
      fold_right (fun g P => wf g /\ P) True args /\
      match ty with
      | SUM => args <> [] /\ Forall (fun g => fcod g = c) args
      | MULTIPLICATION =>
          match args with
          | [] => False
          | g :: rest => fcod g = c /\ Forall (fun g => fcod g = 1%nat) rest
          end
      | COMPOSITION => exists init g, args = init ++ [g] /\ fcod g = c /\
                        Forall (fun g => fcod g = 1%nat) init
      | CONCATENATION => args <> [] /\ Forall (fun g => fcod g = c) args /\ abut args
      | UNIQUE | NEGATIVE => exists g, args = [g] /\ fcod g = c
      end
  | _ => True
  end.

Lemma wf_args (args : list (fn R)) :
  fold_right (fun g P => wf g /\ P) True args <-> Forall wf args.
Proof.
  induction args; simpl; split; intros; auto; try (inversion H; subst); intuition.
Qed.

(** ** list lemmas *)
Lemma map2_length {A B C} (f : A -> B -> C) l1 : forall l2,
  length (map2 f l1 l2) = Nat.min (length l1) (length l2).
Proof. induction l1; destruct l2; simpl; auto. Qed.

Lemma map2_map {A B C D} (f : B -> C -> D) (g : A -> B) (h : A -> C) l :
  map2 f (map g l) (map h l) = map (fun x => f (g x) (h x)) l.
Proof. induction l; simpl; congruence. Qed.

Lemma vadd_length a b : length a = length b -> length (vadd a b) = length a.
Proof. intros. unfold vadd. rewrite map2_length. lia. Qed.

Lemma nth_vadd a : forall b j, length a = length b ->
  nth j (vadd a b) 0 = nth j a 0 + nth j b 0.
Proof.
  induction a; destruct b; simpl; intros j Hl; try discriminate.
  - destruct j; lra.
  - destruct j; [reflexivity|apply IHa; lia].
Qed.

Lemma nth_scale p v : forall j, nth j (scale p v) 0 = nth j v 0 * p.
Proof.
  induction v; intros [|j]; simpl; auto; lra.
Qed.

Lemma scale_length p v : length (scale p v) = length v.
Proof. apply map_length. Qed.

Lemma fold_vadd_length c l : forall a, length a = c ->
  Forall (fun r => length r = c) l -> length (fold_left vadd l a) = c.
Proof.
  induction l; simpl; intros b Hb HF; auto.
  inversion HF; subst. apply IHl; auto. rewrite vadd_length; lia.
Qed.

Lemma fold_scale_length l : forall a,
  length (fold_left (fun acc s => scale (vhd s) acc) l a) = length a.
Proof. induction l; simpl; intros; auto. rewrite IHl. apply scale_length. Qed.

(** ** composition and concatenation helpers as separate functions *)
Fixpoint den_comp (l : list (fn R)) (x : R) : list R :=
  match l with
  | [] => []
  | g :: l' => match l' with [] => den g x | _ => den_comp l' (vhd (den g x)) end
  end.

Lemma den_comp_eq d c args t : den (FExpr COMPOSITION d c args) t = den_comp args t.
Proof. reflexivity. Qed.

Definition inner_val (l : list (fn R)) (x : R) : R := fold_left (fun x g => vhd (den g x)) l x.

Lemma den_comp_snoc l g x : den_comp (l ++ [g]) x = den g (inner_val l x).
Proof.
  revert x; induction l as [|h l IH]; intros x; simpl; auto.
  destruct (l ++ [g]) eqn:E.
  - destruct l; discriminate.
  - rewrite IH. reflexivity.
Qed.

Section DenLast.
Variable x : R.
Fixpoint den_last (l : list (fn R)) : list R :=
  match l with
  | [] => []
  | g :: l' => match l' with [] => den g x | _ => den_last l' end
  end.
End DenLast.
Section DenFind.
Variable g0 : fn R.
Variable all : list (fn R).
Variable t : R.
Fixpoint den_find (l : list (fn R)) : list R :=
  match l with
  | [] => if Rleb t (fst (fdom g0)) then den g0 (fst (fdom g0))
          else den_last (snd (fdom (last all g0))) all
  | g :: l' => if is_point_in_domain g t then den g t else den_find l'
  end.
End DenFind.
Lemma den_concat_eq d c g0 rest t :
  den (FExpr CONCATENATION d c (g0 :: rest)) t = den_find g0 (g0 :: rest) t (g0 :: rest).
Proof. reflexivity. Qed.

Lemma den_last_snoc l g x : den_last x (l ++ [g]) = den g x.
Proof.
  induction l as [|h l IH]; simpl; auto.
  destruct (l ++ [g]) eqn:E; auto. destruct l; discriminate.
Qed.
Lemma den_last_eq all g0 x : all <> [] -> den_last x all = den (last all g0) x.
Proof.
  intros H. destruct (exists_last H) as (l & g & ->).
  rewrite den_last_snoc, last_last. reflexivity.
Qed.

Lemma Forall_In {A} (P : A -> Prop) l x : Forall P l -> In x l -> P x.
Proof. intros H Hx. rewrite Forall_forall in H. auto. Qed.

(** length of the denotation *)
Lemma den_length f : wf f -> forall t, length (den f t) = fcod f.
Proof.
  induction f using fn_ind'; intros Hwf t; try reflexivity.
  - simpl in *. apply Hwf.
  - simpl in *. apply Hwf.
  - destruct Hwf as [Hargs Hty]. apply wf_args in Hargs.
    assert (HA : forall g, In g args -> forall t, length (den g t) = fcod g).
    { intros g Hg. apply (Forall_In _ _ g H Hg). apply (Forall_In _ _ g Hargs Hg). }
    destruct ty.
    + destruct Hty as [Hne Hc]. simpl.
      apply fold_vadd_length. { apply repeat_length. }
      apply Forall_forall. intros r Hr. apply in_map_iff in Hr. destruct Hr as (g & <- & Hg).
      rewrite HA; auto. apply (Forall_In _ _ g Hc Hg).
    + destruct args as [|g rest]; [contradiction|]. destruct Hty as [Hc _].
      simpl. rewrite fold_scale_length. rewrite HA; simpl; auto.
    + destruct Hty as (init & g & -> & Hc & _). rewrite den_comp_eq, den_comp_snoc.
      rewrite HA; auto. apply in_or_app; right; simpl; auto.
    + destruct Hty as (Hne & Hc & _). destruct args as [|g0 rest]; [congruence|].
      rewrite den_concat_eq.
      assert (HB : forall g, In g (g0 :: rest) -> forall t, length (den g t) = c).
      { intros g Hg u. rewrite HA; auto. apply (Forall_In _ _ g Hc Hg). }
      assert (HC : forall l, (forall g, In g l -> In g (g0 :: rest)) ->
                length (den_find g0 (g0 :: rest) t l) = c).
      { induction l as [|h l IH]; intros Hl; cbn [den_find].
        - destruct (Rleb t (fst (fdom g0))).
          + apply HB. simpl; auto.
          + rewrite (den_last_eq _ g0) by discriminate. apply HB.
            destruct (@exists_last _ (g0 :: rest)) as (l' & x & E); [discriminate|].
            rewrite E, last_last. apply in_or_app; right; simpl; auto.
        - destruct (is_point_in_domain h t). { apply HB, Hl; simpl; auto. }
          apply IH. intros; apply Hl; simpl; auto. }
      apply HC; auto.
    + destruct Hty as (g & -> & Hc). simpl. rewrite HA; simpl; auto.
    + destruct Hty as (g & -> & Hc). simpl. rewrite map_length. rewrite HA; simpl; auto.
Qed.

(** ** Horner equals the power sum *)
Lemma fold_left_horner t rest : forall r,
  fold_left (fun r c => r * t + c) rest r
  = r * t ^ (length rest) + fold_left (fun r c => r * t + c) rest 0.
Proof.
  induction rest as [|c rest IH]; intros r; simpl; [lra|].
  rewrite IH. rewrite (IH (0 * t + c)). ring.
Qed.
Lemma power_sum_app a b t : power_sum (a ++ b) t = power_sum a t + t ^ length a * power_sum b t.
Proof. induction a; simpl; [ring|]. rewrite IHa. ring. Qed.
Lemma horner_power_sum c t :
  fold_left (fun r a => r * t + a) (rev c) 0 = power_sum c t.
Proof.
  induction c as [|a c IH]; simpl; auto.
  rewrite fold_left_app. simpl. rewrite IH. ring.
Qed.

Lemma eval_poly_ok c pts : c <> [] ->
  eval_poly c pts 1 = Ok (map (fun t => [power_sum c t]) pts).
Proof.
  intros Hc. unfold eval_poly.
  destruct (rev c) as [|cl rest] eqn:E.
  { apply (f_equal (@rev R)) in E. rewrite rev_involutive in E. simpl in E. congruence. }
  assert (K : forall t, fold_left (fun r a => r * t + a) rest cl = power_sum c t).
  { intros t. rewrite <- horner_power_sum, E. simpl. f_equal. ring. }
  destruct rest as [|x rest].
  - simpl. f_equal. apply map_ext. intros t. f_equal. rewrite <- (K t). reflexivity.
  - simpl Nat.eqb. cbv iota. f_equal. apply map_ext. intros t. f_equal. exact (K t).
Qed.

(** ** Batch evaluation equals the denotation row by row *)
Lemma rows_zero_map c (pts : list R) : rows_zero (length pts) c = map (fun _ => repeat 0 c) pts.
Proof. unfold rows_zero. induction pts; simpl; auto. f_equal. auto. Qed.

Lemma col_result_map (f : R -> R) pts :
  col_result 1 (map f pts) = Ok (map (fun t => [f t]) pts).
Proof. unfold col_result. simpl. now rewrite map_map. Qed.

Lemma mapM_ext_in {A B} (f g : A -> outcome B) l :
  (forall a, In a l -> f a = g a) -> mapM f l = mapM g l.
Proof.
  induction l; simpl; intros; auto. rewrite H by auto. rewrite IHl by auto. reflexivity.
Qed.

Lemma last_default {A} (l : list A) a b : l <> [] -> last l a = last l b.
Proof.
  intros H. destruct (exists_last H) as (l' & x & ->). now rewrite !last_last.
Qed.

Lemma abut_no_gap g0 rest t :
  abut (g0 :: rest) ->
  Forall (fun g => is_point_in_domain g t = false) (g0 :: rest) ->
  fst (fdom g0) <= t -> snd (fdom (last (g0 :: rest) g0)) <= t.
Proof.
  revert g0. induction rest as [|h rest IH]; intros g0 Hab HF Ht.
  - inversion HF as [|? ? Hp _]; subst. simpl last. unfold is_point_in_domain in Hp; simpl in Hp.
    apply andb_false_iff in Hp. destruct Hp as [Hp|Hp].
    + apply Rleb_false in Hp. lra.
    + apply Rltb_false in Hp. lra.
  - destruct Hab as [E Hab]. inversion HF as [|? ? Hp HF']; subst.
    unfold is_point_in_domain in Hp; simpl in Hp.
    apply andb_false_iff in Hp. destruct Hp as [Hp|Hp]; [apply Rleb_false in Hp; lra|].
    apply Rltb_false in Hp.
    change (last (g0 :: h :: rest) g0) with (last (h :: rest) g0).
    rewrite (last_default _ g0 h) by discriminate.
    apply IH; auto. lra.
Qed.

Section Eval.
Variable dbg : bool.

(** the inner loops of [eval], named *)
Section Loops.
Variables (c0 cols : nat) (pts : list R).
Fixpoint sum_loop (l : list (fn R)) (acc : rows) : outcome rows :=
  match l with
  | [] => Ok acc
  | g :: l' =>
      temp <- eval dbg g pts c0 ;;
      if Nat.eqb cols c0 then sum_loop l' (rows_add acc temp) else UB
  end.
Fixpoint mul_loop (l : list (fn R)) (acc : rows) : outcome rows :=
  match l with
  | [] => Ok acc
  | g :: l' => temp <- eval dbg g pts 1 ;; mul_loop l' (rows_colwise_mul acc temp)
  end.
Fixpoint comp_loop (l : list (fn R)) (p : list R) : outcome rows :=
  match l with
  | [] => UB
  | g :: l' => match l' with
               | [] => eval dbg g p cols
               | _ => temp <- eval dbg g p 1 ;; comp_loop l' (concat temp)
               end
  end.
Variable x : R.
Fixpoint ev_last (l : list (fn R)) : outcome rows :=
  match l with
  | [] => UB
  | g :: l' => match l' with [] => eval dbg g [x] c0 | _ => ev_last l' end
  end.
End Loops.
Section FindLoop.
Variable g0 : fn R.
Variable all : list (fn R).
Variable t : R.
Fixpoint find_loop (l : list (fn R)) : outcome rows :=
  match l with
  | [] => if Rleb t (fst (fdom g0)) then eval dbg g0 [fst (fdom g0)] (fcod g0)
          else if Rleb (snd (fdom (last all g0))) t
          then ev_last (fcod g0) (snd (fdom (last all g0))) all
          else Throw InvalidArgument
  | g :: l' => if is_point_in_domain g t then eval dbg g [t] (fcod g0) else find_loop l'
  end.
End FindLoop.

Lemma eval_sum_eq d c g0 rest pts cols :
  eval dbg (FExpr SUM d c (g0 :: rest)) pts cols
  = sum_loop (fcod g0) cols pts (g0 :: rest) (rows_zero (length pts) cols).
Proof. reflexivity. Qed.
Lemma eval_mul_eq d c g0 rest pts cols :
  eval dbg (FExpr MULTIPLICATION d c (g0 :: rest)) pts cols
  = (r0 <- eval dbg g0 pts cols ;; mul_loop pts rest r0).
Proof. reflexivity. Qed.
Lemma eval_comp_eq d c args pts cols :
  eval dbg (FExpr COMPOSITION d c args) pts cols = comp_loop cols args pts.
Proof. reflexivity. Qed.
Lemma eval_concat_eq d c g0 rest pts cols :
  eval dbg (FExpr CONCATENATION d c (g0 :: rest)) pts cols
  = mapM (fun t => r <- find_loop g0 (g0 :: rest) t (g0 :: rest) ;;
                   if Nat.eqb cols (fcod g0) then Ok (hd [] r) else UB) pts.
Proof. reflexivity. Qed.

Definition good (g : fn R) : Prop := forall pts, eval dbg g pts (fcod g) = Ok (map (den g) pts).

Lemma sum_loop_ok c pts l : forall (acc : R -> list R),
  Forall good l -> Forall (fun g => fcod g = c) l ->
  sum_loop c c pts l (map acc pts)
  = Ok (map (fun t => fold_left vadd (map (fun g => den g t) l) (acc t)) pts).
Proof.
  induction l as [|g l IH]; intros acc HG HC; simpl; auto.
  apply Forall_cons_iff in HG as [Gg HG]. apply Forall_cons_iff in HC as [Cg HC]. subst c.
  rewrite Gg. simpl. rewrite Nat.eqb_refl.
  replace (rows_add (map acc pts) (map (den g) pts))
    with (map (fun t => vadd (acc t) (den g t)) pts)
    by (unfold rows_add; rewrite map2_map; reflexivity).
  rewrite IH; auto.
Qed.

Lemma mul_loop_ok pts l : forall (acc : R -> list R),
  Forall good l -> Forall (fun g => fcod g = 1%nat) l ->
  mul_loop pts l (map acc pts)
  = Ok (map (fun t => fold_left (fun a s => scale (vhd s) a) (map (fun g => den g t) l) (acc t)) pts).
Proof.
  induction l as [|g l IH]; intros acc HG HC; simpl; auto.
  apply Forall_cons_iff in HG as [Gg HG]. apply Forall_cons_iff in HC as [Cg HC].
  specialize (Gg pts). rewrite Cg in Gg. rewrite Gg. simpl.
  replace (rows_colwise_mul (map acc pts) (map (den g) pts))
    with (map (fun t => scale (vhd (den g t)) (acc t)) pts)
    by (unfold rows_colwise_mul; rewrite map2_map; reflexivity).
  rewrite IH; auto.
Qed.

Lemma concat_singletons (f : R -> list R) pts :
  (forall t, length (f t) = 1%nat) -> concat (map f pts) = map (fun t => vhd (f t)) pts.
Proof.
  intros Hf. induction pts as [|t pts IH]; simpl; auto. rewrite IH.
  specialize (Hf t). destruct (f t) as [|x [|y l]]; simpl in *; try discriminate. reflexivity.
Qed.

Lemma comp_loop_cons cols h l p : l <> [] ->
  comp_loop cols (h :: l) p = (temp <- eval dbg h p 1 ;; comp_loop cols l (concat temp)).
Proof. destruct l; [congruence|reflexivity]. Qed.

Lemma comp_loop_ok g init : forall pts,
  Forall good init -> Forall wf init -> Forall (fun g => fcod g = 1%nat) init -> good g ->
  comp_loop (fcod g) (init ++ [g]) pts = Ok (map (fun t => den g (inner_val init t)) pts).
Proof.
  induction init as [|h init IH]; intros pts HG HW HC Hg.
  - simpl. apply Hg.
  - apply Forall_cons_iff in HG as [Gh HG]. apply Forall_cons_iff in HC as [Ch HC].
    apply Forall_cons_iff in HW as [Wh HW].
    change ((h :: init) ++ [g]) with (h :: (init ++ [g])).
    rewrite comp_loop_cons by (destruct init; discriminate).
    specialize (Gh pts). rewrite Ch in Gh. rewrite Gh. simpl bind.
    rewrite concat_singletons.
    + rewrite IH; auto. now rewrite map_map.
    + intros t. rewrite den_length; auto.
Qed.

Lemma ev_last_ok all g0 x c0 : all <> [] ->
  Forall good all -> Forall (fun g => fcod g = c0) all ->
  ev_last c0 x all = Ok [den (last all g0) x].
Proof.
  intros Hne. destruct (exists_last Hne) as (l & g & ->). intros HG HC.
  rewrite last_last. clear Hne.
  induction l as [|h l IH].
  - simpl. apply Forall_cons_iff in HG as [Gg _]. apply Forall_cons_iff in HC as [Cg _]. subst c0.
    apply (Gg [x]).
  - assert (E : ev_last c0 x ((h :: l) ++ [g]) = ev_last c0 x (l ++ [g])).
    { simpl. destruct l; reflexivity. }
    rewrite E. apply Forall_cons_iff in HG as [_ HG]. apply Forall_cons_iff in HC as [_ HC].
    apply IH; auto.
Qed.

Lemma find_loop_ok g0 rest t : forall l,
  (forall g, In g l -> In g (g0 :: rest)) ->
  Forall good (g0 :: rest) -> Forall (fun g => fcod g = fcod g0) (g0 :: rest) ->
  (Forall (fun g => is_point_in_domain g t = false) l ->
   fst (fdom g0) < t -> snd (fdom (last (g0 :: rest) g0)) <= t) ->
  find_loop g0 (g0 :: rest) t l = Ok [den_find g0 (g0 :: rest) t l].
Proof.
  intros l Hl HG HC. revert Hl. induction l as [|h l IH]; intros Hl Hgap; cbn [find_loop den_find].
  - destruct (Rleb t (fst (fdom g0))) eqn:E.
    + apply Forall_cons_iff in HG as [G0 _]. apply (G0 [fst (fdom g0)]).
    + apply Rleb_false in E.
      assert (K : Rleb (snd (fdom (last (g0 :: rest) g0))) t = true).
      { apply Rleb_true. apply Hgap; auto. }
      rewrite K. rewrite (ev_last_ok _ g0); auto; try discriminate.
      rewrite (den_last_eq _ g0) by discriminate. reflexivity.
  - assert (Hh : In h (g0 :: rest)) by (apply Hl; simpl; auto).
    destruct (is_point_in_domain h t) eqn:E.
    + assert (G : good h) by (apply (Forall_In _ _ h HG Hh)).
      assert (C : fcod h = fcod g0) by (apply (Forall_In _ _ h HC Hh)).
      rewrite <- C. apply (G [t]).
    + apply IH.
      * intros; apply Hl; simpl; auto.
      * intros HF. apply Hgap. constructor; auto.
Qed.

Theorem eval_den f : wf f -> good f.
Proof.
  induction f using fn_ind'; intros Hwf pts.
  - simpl. unfold eval_const. rewrite Nat.eqb_refl. f_equal. apply map_ext. intros _.
    rewrite <- (map_id v) at 2. apply map_ext. intros; simpl; ring.
  - simpl. apply col_result_map.
  - simpl. apply col_result_map.
  - simpl. apply col_result_map.
  - simpl. apply col_result_map.
  - simpl in *. apply eval_poly_ok; auto.
  - destruct Hwf as (W1 & W2 & E). simpl. rewrite (IHf1 W1), (IHf2 W2). simpl.
    rewrite E, Nat.eqb_refl. rewrite map2_map. apply col_result_map.
  - simpl. rewrite Nat.eqb_refl. reflexivity.
  - simpl. rewrite Nat.eqb_refl. reflexivity.
  - destruct Hwf as [Hargs Hty]. apply wf_args in Hargs.
    assert (HG : Forall good args).
    { rewrite Forall_forall in *. intros g Hg. apply H; auto. }
    simpl fcod. destruct ty.
    + destruct Hty as [Hne Hc]. destruct args as [|g0 rest]; [congruence|].
      rewrite eval_sum_eq. assert (E : fcod g0 = c) by (inversion Hc; auto).
      rewrite E. rewrite rows_zero_map. rewrite sum_loop_ok; auto.
    + destruct args as [|g0 rest]; [contradiction|]. destruct Hty as [Hc Hr].
      rewrite eval_mul_eq. inversion HG; subst. rewrite H2. simpl bind. rewrite mul_loop_ok; auto.
    + destruct Hty as (init & g & -> & Hc & Hi). rewrite eval_comp_eq. subst c.
      apply Forall_app in HG. destruct HG as [HG1 HG2]. inversion HG2; subst.
      apply Forall_app in Hargs. destruct Hargs as [HW _].
      rewrite comp_loop_ok; auto. f_equal. apply map_ext. intros t.
      rewrite den_comp_eq, den_comp_snoc. reflexivity.
    + destruct Hty as (Hne & Hc & Hab). destruct args as [|g0 rest]; [congruence|].
      rewrite eval_concat_eq. assert (E : fcod g0 = c) by (inversion Hc; auto).
      apply mapM_map. intros t _. rewrite find_loop_ok; auto.
      * simpl bind. rewrite E, Nat.eqb_refl. simpl hd. rewrite den_concat_eq. reflexivity.
      * subst c. auto.
      * intros HF Ht. apply abut_no_gap; auto. lra.
    + destruct Hty as (g & -> & Hc). simpl. rewrite andb_false_r. inversion HG; subst. apply H2.
    + destruct Hty as (g & -> & Hc). simpl. rewrite andb_false_r. inversion HG; subst.
      rewrite H2. simpl. unfold rows_neg. rewrite map_map. reflexivity.
Qed.

End Eval.
