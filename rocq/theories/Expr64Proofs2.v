(** Values and slopes of function expressions over the reals, bounded by the text of the expression. *)
From Coquelicot Require Import Coquelicot.
From Coq Require Import List Arith Lia Bool ZArith Reals Lra.
From Verif Require Import Num Outcome FunModel FunSpec FunProofs IEEEModel IEEESpec IEEEProofs IEEEHorner IEEEFunSpec IEEEFunProofs IEEEFunProofs2 IEEEFunProofs3 Expr64Spec Expr64Proofs.
Import ListNotations.
Local Open Scope R_scope.

(** two values bounded by z, whose difference is at most k d *)
Definition pair_ok (d z k x y : R) : Prop := 0 <= k /\ Rabs x <= z /\ Rabs y <= z /\ Rabs (x - y) <= k * d.
Inductive pairs (d : R) : list R -> list R -> list R -> list R -> Prop :=
| pairs_nil : pairs d [] [] [] []
| pairs_cons z k x y Z K X Y : pair_ok d z k x y -> pairs d Z K X Y -> pairs d (z :: Z) (k :: K) (x :: X) (y :: Y).
Lemma pairs_len d Z K X Y : pairs d Z K X Y -> length Z = length X /\ length K = length X /\ length Y = length X.
Proof. induction 1 as [|z k x y Z K X Y P Ps (A & B & C)]; cbn; [auto|]. lia. Qed.
Lemma pairs_one d Z K X Y : pairs d Z K X Y -> length X = 1%nat -> exists z k x y, Z = [z] /\ K = [k] /\ X = [x] /\ Y = [y] /\ pair_ok d z k x y.
Proof. intros P L. destruct P as [|z k x y Z K X Y P Ps]; [discriminate|]. destruct Ps; [|discriminate]. exists z, k, x, y. auto. Qed.

Lemma ok_add d z k x y z' k' x' y' : pair_ok d z k x y -> pair_ok d z' k' x' y' -> pair_ok d (z + z') (k + k') (x + x') (y + y').
Proof.
  intros (A & B & C & D) (A' & B' & C' & D'). split; [lra|]. split; [eapply Rle_trans; [apply Rabs_triang|lra]|]. split; [eapply Rle_trans; [apply Rabs_triang|lra]|].
  replace (x + x' - (y + y')) with ((x - y) + (x' - y')) by ring. eapply Rle_trans; [apply Rabs_triang|]. lra.
Qed.
Lemma ok_mul d z k x y z' k' x' y' : pair_ok d z k x y -> pair_ok d z' k' x' y' -> pair_ok d (z * z' + tiny) (k * z' + z * k') (x * x') (y * y').
Proof.
  intros (A & B & C & D) (A' & B' & C' & D'). pose proof tiny_pos. pose proof (Rabs_pos x). pose proof (Rabs_pos x'). pose proof (Rabs_pos y). pose proof (Rabs_pos y').
  assert (0 <= z) by lra. assert (0 <= z') by lra. assert (0 <= k * z') by (apply Rmult_le_pos; lra). assert (0 <= z * k') by (apply Rmult_le_pos; lra).
  split; [lra|]. split; [rewrite Rabs_mult; assert (Rabs x * Rabs x' <= z * z') by (apply Rmult_le_compat; lra); lra|]. split; [rewrite Rabs_mult; assert (Rabs y * Rabs y' <= z * z') by (apply Rmult_le_compat; lra); lra|].
  replace (x * x' - y * y') with ((x - y) * x' + y * (x' - y')) by ring. eapply Rle_trans; [apply Rabs_triang|]. rewrite !Rabs_mult.
  assert (E1 : Rabs (x - y) * Rabs x' <= k * d * z') by (apply Rmult_le_compat; try apply Rabs_pos; lra). assert (E2 : Rabs y * Rabs (x' - y') <= z * (k' * d)) by (apply Rmult_le_compat; try apply Rabs_pos; lra).
  replace ((k * z' + z * k') * d) with (k * d * z' + z * (k' * d)) by ring. lra.
Qed.
Lemma exp_lip a s t : Rabs s <= a -> Rabs t <= a -> Rabs (exp s - exp t) <= exp a * Rabs (s - t).
Proof.
  intros Hs Ht. apply Rabs_le_between in Hs. apply Rabs_le_between in Ht. destruct (MVT_gen exp t s exp) as (c & Hc & E).
  - intros x _. auto_derive; auto. ring.
  - intros x _. apply derivable_continuous_pt. apply derivable_pt_exp.
  - rewrite E, Rabs_mult. apply Rmult_le_compat_r; [apply Rabs_pos|]. rewrite Rabs_pos_eq by (left; apply exp_pos). apply exp_le. destruct Hc as [_ Hc]. eapply Rle_trans; [exact Hc|]. apply Rmax_lub; lra.
Qed.
Lemma psum_abs c t a : Rabs t <= a -> Rabs (power_sum c t) <= power_sum (map Rabs c) a.
Proof.
  intros Ht. induction c as [|x c IH]; cbn [power_sum map]; [rewrite Rabs_R0; lra|]. eapply Rle_trans; [apply Rabs_triang|]. rewrite Rabs_mult. apply Rplus_le_compat_l. apply Rmult_le_compat; try apply Rabs_pos; auto.
Qed.
Lemma psum_tiny c a : 0 <= a -> power_sum (map Rabs c) a <= power_sum (map (fun x => Rabs x + tiny) c) a /\ 0 <= power_sum (map Rabs c) a.
Proof.
  intros Ha. pose proof tiny_pos. induction c as [|x c (IH & I0)]; cbn [power_sum map]; [lra|]. assert (a * power_sum (map Rabs c) a <= a * power_sum (map (fun x => Rabs x + tiny) c) a) by (apply Rmult_le_compat_l; auto). pose proof (Rabs_pos x). assert (0 <= a * power_sum (map Rabs c) a) by (apply Rmult_le_pos; auto). lra.
Qed.
Lemma rate_pos c a : 0 <= a -> 0 <= poly_rate c a.
Proof. intros Ha. induction c as [|x c IH]; cbn [poly_rate]; [lra|]. destruct (psum_tiny c a Ha). assert (0 <= a * poly_rate c a) by (apply Rmult_le_pos; auto). lra. Qed.
Lemma psum_lip c a s t : Rabs s <= a -> Rabs t <= a -> Rabs (power_sum c s - power_sum c t) <= poly_rate c a * Rabs (s - t).
Proof.
  intros Hs Ht. pose proof (Rabs_pos s). induction c as [|x c IH]; cbn [power_sum poly_rate]; [rewrite Rminus_0_r, Rabs_R0; lra|].
  replace (x + s * power_sum c s - (x + t * power_sum c t)) with ((s - t) * power_sum c s + t * (power_sum c s - power_sum c t)) by ring. eapply Rle_trans; [apply Rabs_triang|]. rewrite !Rabs_mult.
  pose proof (psum_abs c s a Hs). assert (E1 : Rabs (s - t) * Rabs (power_sum c s) <= Rabs (s - t) * power_sum (map Rabs c) a) by (apply Rmult_le_compat_l; [apply Rabs_pos|auto]).
  assert (E2 : Rabs t * Rabs (power_sum c s - power_sum c t) <= a * (poly_rate c a * Rabs (s - t))) by (apply Rmult_le_compat; try apply Rabs_pos; auto). lra.
Qed.

Section Rates.
Variable dbg : bool.
Definition moves (f : fn b64) : Prop := forall a s t, fits f a -> Rabs s <= a -> Rabs t <= a ->
  exists x y, eval dbg (exact_fn f) [s; t] (fcod f) = Ok [x; y] /\ pairs (Rabs (s - t)) (sizes f a) (rates f a) x y /\ length x = fcod f.

Lemma fcod_exact f : fcod (exact_fn f) = fcod f.
Proof. apply fcod_fm. Qed.
Lemma pairs_add d : forall Z K X Y Z' K' X' Y', pairs d Z K X Y -> pairs d Z' K' X' Y' -> length X = length X' -> pairs d (map2 Rplus Z Z') (map2 Rplus K K') (map2 Rplus X X') (map2 Rplus Y Y').
Proof. intros Z K X Y Z' K' X' Y' P. revert Z' K' X' Y'. induction P as [|z k x y Z K X Y O P IH]; intros Z' K' X' Y' Q L; destruct Q as [|z' k' x' y' Z' K' X' Y' O' Q]; try discriminate; cbn [map2]; constructor; [apply ok_add; auto|]. apply IH; auto. Qed.
Lemma pairs_scale d z' k' x' y' : pair_ok d z' k' x' y' -> forall Z K X Y, pairs d Z K X Y ->
  pairs d (map (fun x => x * z' + tiny) Z) (map2 (fun x k => k * z' + x * k') Z K) (map (fun x => x * x') X) (map (fun x => x * y') Y).
Proof. intros O Z K X Y P. induction P as [|z k x y Z K X Y O' P IH]; cbn; constructor; [apply ok_mul; auto|exact IH]. Qed.
Lemma pairs_zero d c : 0 <= d -> pairs d (repeat 0 c) (repeat 0 c) (repeat 0 c) (repeat 0 c).
Proof. intros Hd. induction c as [|c IH]; cbn; constructor; [|exact IH]. repeat split; rewrite ?Rminus_0_r, ?Rabs_R0; lra. Qed.
Lemma pairs_dot d : 0 <= d -> forall Z K X Y Z' K' X' Y', pairs d Z K X Y -> pairs d Z' K' X' Y' -> length X = length X' -> forall z k x y, pair_ok d z k x y ->
  pair_ok d (fold_left Rplus (map2 (fun x y => x * y + tiny) Z Z') z) (fold_left Rplus (map2 (fun p q => snd p * fst q + fst p * snd q) (combine Z K) (combine Z' K')) k)
    (fold_left Rplus (map2 Rmult X X') x) (fold_left Rplus (map2 Rmult Y Y') y).
Proof.
  intros Hd Z K X Y Z' K' X' Y' P. revert Z' K' X' Y'. induction P as [|z k x y Z K X Y O P IH]; intros Z' K' X' Y' Q L z0 k0 x0 y0 O0; destruct Q as [|z' k' x' y' Z' K' X' Y' O' Q]; try discriminate; cbn [map2 combine fold_left fst snd]; [exact O0|].
  apply IH; [exact Q|cbn in L; lia|]. apply ok_add; [exact O0|]. apply ok_mul; auto.
Qed.
Lemma sum_moves c a s t : Rabs s <= a -> Rabs t <= a -> forall l, Forall moves l -> fold_right (fun g P => fcod g = c /\ fits g a /\ P) True l -> forall Z K X Y, pairs (Rabs (s - t)) Z K X Y -> length X = c ->
  exists x y, esum dbg c c [s; t] (map exact_fn l) [X; Y] = Ok [x; y] /\
    pairs (Rabs (s - t)) (fold_left (fun acc g => map2 Rplus acc (sizes g a)) l Z) (fold_left (fun acc g => map2 Rplus acc (rates g a)) l K) x y /\ length x = c.
Proof.
  intros Hs Ht. induction l as [|g l IH]; intros M F Z K X Y P L; [exists X, Y; split; [reflexivity|split; auto]|]. cbn [fold_right] in F. destruct F as (Cg & Fg & F). apply Forall_cons_iff in M as [Mg M].
  destruct (Mg a s t Fg Hs Ht) as (x & y & E & Pg & Lg). cbn [map esum]. rewrite Cg in E. rewrite E. cbn [bind]. rewrite Nat.eqb_refl. cbn [fold_left rows_add map2].
  apply IH; auto; [|rewrite map2_len; [exact L|congruence]]. apply pairs_add; auto. congruence.
Qed.
Lemma mul_moves c a s t : Rabs s <= a -> Rabs t <= a -> forall l, Forall moves l -> fold_right (fun g P => fcod g = 1%nat /\ fits g a /\ P) True l -> forall Z K X Y, pairs (Rabs (s - t)) Z K X Y -> length X = c ->
  exists x y, emul dbg [s; t] (map exact_fn l) [X; Y] = Ok [x; y] /\
    pairs (Rabs (s - t)) (fold_left (fun acc g => map (fun x => x * hd 0 (sizes g a) + tiny) acc) l Z)
      (snd (fold_left (fun (acc : list R * list R) g => (map (fun x => x * hd 0 (sizes g a) + tiny) (fst acc), map2 (fun x k => k * hd 0 (sizes g a) + x * hd 0 (rates g a)) (fst acc) (snd acc))) l (Z, K))) x y /\ length x = c.
Proof.
  intros Hs Ht. induction l as [|g l IH]; intros M F Z K X Y P L; [exists X, Y; split; [reflexivity|split; auto]|]. cbn [fold_right] in F. destruct F as (Cg & Fg & F). apply Forall_cons_iff in M as [Mg M].
  destruct (Mg a s t Fg Hs Ht) as (x & y & E & Pg & Lg). rewrite Cg in Lg. destruct (pairs_one _ _ _ _ _ Pg Lg) as (z & k & x0 & y0 & E1 & E2 & -> & -> & O). cbn [map emul]. rewrite Cg in E. rewrite E. cbn [bind fold_left fst snd]. rewrite E1, E2. cbn [hd].
  unfold rows_colwise_mul. cbn [map2 hd]. apply IH; auto; [|rewrite map_length; exact L]. apply pairs_scale; auto.
Qed.
Fixpoint cfit (c : nat) (l : list (fn b64)) (s : R) : Prop :=
  match l with [] => True | g :: l' => fits g s /\ fcod g = match l' with [] => c | _ => 1%nat end /\ cfit c l' (hd 0 (sizes g s)) end.
Lemma pairs_mono d d' k0 Z K X Y : 0 <= k0 -> 0 <= d -> d' <= k0 * d -> pairs d' Z K X Y -> pairs d Z (map (fun k => k * k0) K) X Y.
Proof.
  intros Hk Hd Hd' P. induction P as [|z k x y Z K X Y (A & B & C & D) P IH]; cbn [map]; constructor; [|exact IH]. repeat split; auto; [apply Rmult_le_pos; auto|]. eapply Rle_trans; [exact D|]. rewrite Rmult_assoc. apply Rmult_le_compat_l; auto.
Qed.
Lemma comp_moves c d : 0 <= d -> forall l, l <> [] -> Forall moves l -> forall z k s t, pair_ok d z k s t -> cfit c l z ->
  exists x y, ecomp dbg c (map exact_fn l) [s; t] = Ok [x; y] /\
    (let r := fold_left (fun (q : list R * list R) g => (sizes g (hd 0 (fst q)), map (fun j => j * hd 0 (snd q)) (rates g (hd 0 (fst q))))) l ([z], [k]) in
     pairs d (fst r) (snd r) x y) /\ length x = c.
Proof.
  intros Hd. induction l as [|g l IH]; intros N M z k s t (A & B & C & D) F; [contradiction|]. cbn [cfit] in F. destruct F as (Fg & Cg & F). apply Forall_cons_iff in M as [Mg M].
  destruct (Mg z s t Fg B C) as (x & y & E & Pg & Lg). pose proof (pairs_mono d _ k _ _ _ _ A Hd D Pg) as Pg'. destruct l as [|g' l].
  - exists x, y. cbn [map ecomp fold_left fst snd hd]. rewrite Cg in *. auto.
  - rewrite Cg in *. destruct (pairs_one _ _ _ _ _ Pg' Lg) as (z1 & k1 & x0 & y0 & E1 & E2 & -> & -> & O). rewrite E1 in F. cbn [hd] in F. destruct (IH ltac:(discriminate) M z1 k1 x0 y0 O F) as (x & y & E' & P' & L').
    exists x, y. change (map exact_fn (g :: g' :: l)) with (exact_fn g :: exact_fn g' :: map exact_fn l). change (ecomp dbg c (exact_fn g :: exact_fn g' :: map exact_fn l) [s; t]) with (bind (eval dbg (exact_fn g) [s; t] 1) (fun temp => ecomp dbg c (map exact_fn (g' :: l)) (concat temp))).
    rewrite E. cbn [bind concat app]. split; [exact E'|]. split; [|exact L']. cbv zeta in *. change (fold_left ?h (g :: ?r) ?i) with (fold_left h r (h i g)). cbv beta. cbn [fst snd hd]. rewrite E1, E2. exact P'.
Qed.
Lemma cfits_of c l : forall a, (fix go (l : list (fn b64)) (s : R) : Prop :=
         match l with
         | [] => True
         | g :: l' => fits g s /\ fcod g = match l' with [] => c | _ => 1%nat end /\ go l' (hd 0 (sizes g s))
         end) l a -> cfit c l a.
Proof. induction l as [|g l IH]; intros a F; [exact Logic.I|]. destruct F as (A & B & C). cbn [cfit]. auto. Qed.

Theorem rates_sound f : moves f.
Proof.
  induction f as [d v|d c|d|d|d|d c|d f1 f2 IH1 IH2|d c s0 k0|d c s0 k0|ty d c args IH] using fn_ind'; intros a s t F Hs Ht; pose proof (Rabs_pos (s - t)) as Hd; pose proof tiny_pos as Ty; pose proof (Rabs_pos s) as Ps.
  - cbn [fits] in F. exists (map (fun x => 1 * x) (map val v)), (map (fun x => 1 * x) (map val v)). split; [cbn; unfold eval_const; rewrite map_length, Nat.eqb_refl; reflexivity|]. split; [|rewrite !map_length; reflexivity].
    cbn [sizes rates]. clear F. induction v as [|x v IHv]; cbn; constructor; [|exact IHv]. rewrite Rmult_1_l. repeat split; try lra. rewrite Rminus_eq_0, Rabs_R0. lra.
  - exists [val c * s], [val c * t]. split; [reflexivity|]. split; [|reflexivity]. cbn [sizes rates]. constructor; [|constructor]. pose proof (Rabs_pos (val c)) as Pc. split; [exact Pc|].
    assert (E : forall u, Rabs u <= a -> Rabs (val c * u) <= Rabs (val c) * a + tiny) by (intros u Hu; rewrite Rabs_mult; pose proof (Rmult_le_compat_l _ _ _ Pc Hu); lra).
    split; [auto|]. split; [auto|]. rewrite <- Rmult_minus_distr_l, Rabs_mult. lra.
  - exists [exp s], [exp t]. split; [reflexivity|]. split; [|reflexivity]. cbn [sizes rates]. constructor; [|constructor]. split; [left; apply exp_pos|].
    assert (E : forall u, Rabs u <= a -> Rabs (exp u) <= exp (2 * a) * (1 + a) + tiny).
    { intros u Hu. rewrite Rabs_pos_eq by (left; apply exp_pos). pose proof (Rabs_pos u). apply Rabs_le_between in Hu. pose proof (exp_le u (2 * a) ltac:(lra)). pose proof (exp_pos (2 * a)). pose proof (Rmult_le_pos (exp (2 * a)) a ltac:(lra) ltac:(lra)). lra. }
    split; [auto|]. split; [auto|]. apply exp_lip; auto.
  - exists [cos s], [cos t]. split; [reflexivity|]. split; [|reflexivity]. cbn [sizes rates]. constructor; [|constructor]. split; [lra|]. assert (E : forall u, Rabs (cos u) <= a + 1) by (intros u; apply Rabs_le; pose proof (COS_bound u); lra). split; [auto|]. split; [auto|]. rewrite Rmult_1_l. apply cos_lip.
  - exists [sin s], [sin t]. split; [reflexivity|]. split; [|reflexivity]. cbn [sizes rates]. constructor; [|constructor]. split; [lra|]. assert (E : forall u, Rabs (sin u) <= a + 1) by (intros u; apply Rabs_le; pose proof (SIN_bound u); lra). split; [auto|]. split; [auto|]. rewrite Rmult_1_l. apply sin_lip.
  - cbn [fits] in F. destruct F as (Nc & Fc & _). exists [power_sum (map val c) s], [power_sum (map val c) t]. split; [|split; [|reflexivity]].
    + cbn [exact_fn fn_map eval fcod]. change (fn_map val (fun _ _ _ => [])) with exact_fn. unfold eval_poly. destruct (rev (map val c)) as [|cl rest] eqn:Er.
      { exfalso. apply Nc. destruct c; [reflexivity|]. apply (f_equal (@length R)) in Er. rewrite rev_length in Er. discriminate. }
      rewrite <- (hfold_power_sum (map val c) cl rest s Er), <- (hfold_power_sum (map val c) cl rest t Er). destruct rest; reflexivity.
    + cbn [sizes rates]. constructor; [|constructor]. assert (a0 : 0 <= a) by lra. split; [apply rate_pos; exact a0|]. assert (E : forall u, Rabs u <= a -> Rabs (power_sum (map val c) u) <= power_sum (map (fun x => Rabs (val x) + tiny) c) a).
      { intros u Hu. eapply Rle_trans; [apply (psum_abs _ u a Hu)|]. destruct (psum_tiny (map val c) a a0) as (Q & _). rewrite (map_map val (fun x => Rabs x + tiny)) in Q. exact Q. }
      split; [auto|]. split; [auto|]. apply psum_lip; auto.
  - cbn [fits] in F. destruct F as (Ec & F1 & F2 & _). destruct (IH1 a s t F1 Hs Ht) as (x1 & y1 & E1 & P1 & L1). destruct (IH2 a s t F2 Hs Ht) as (x2 & y2 & E2 & P2 & L2).
    exists [fold_left Rplus (map2 Rmult x1 x2) 0], [fold_left Rplus (map2 Rmult y1 y2) 0]. split; [|split; [|reflexivity]].
    + cbn [exact_fn fn_map eval fcod]. change (fn_map val (fun _ _ _ => [])) with exact_fn. rewrite !fcod_exact, E1, E2. cbn [bind]. rewrite Ec, Nat.eqb_refl. reflexivity.
    + cbn [sizes rates]. constructor; [|constructor]. apply pairs_dot; auto; [congruence|]. repeat split; rewrite ?Rminus_0_r, ?Rabs_R0; lra.
  - destruct F.
  - destruct F.
  - unfold exact_fn. cbn [fn_map fcod]. fold exact_fn. change (fn_map val (fun _ _ _ => [])) with exact_fn. destruct ty; cbn [fits] in F.
    + destruct F as (N & F & _). destruct args as [|g0 rest]; [contradiction|]. assert (C0 : fcod g0 = c) by (cbn in F; tauto).
      change (map exact_fn (g0 :: rest)) with (exact_fn g0 :: map exact_fn rest). rewrite eval_sum_loop. rewrite fcod_exact, C0. change (rows_zero (length [s; t]) c) with [repeat 0 c; repeat 0 c].
      apply (sum_moves c a s t Hs Ht (g0 :: rest) IH F); [apply pairs_zero; exact Hd|apply repeat_length].
    + destruct args as [|g0 rest]; [tauto|]. destruct F as (C0 & F0 & F). apply Forall_cons_iff in IH as [I0 IH]. change (map exact_fn (g0 :: rest)) with (exact_fn g0 :: map exact_fn rest). rewrite eval_mul_loop.
      destruct (I0 a s t F0 Hs Ht) as (x & y & E & P & L). rewrite C0 in *. rewrite E. cbn [bind sizes rates]. apply (mul_moves c a s t Hs Ht rest IH); auto.
      revert F. generalize (sizes g0 a). clear. induction rest as [|g l IHl]; intros acc F; cbn [fold_right]; [exact Logic.I|]. destruct F as (A & B & _ & D). split; [exact A|]. split; [exact B|]. exact (IHl _ D).
    + destruct F as (N & F). rewrite eval_comp_loop. destruct (comp_moves c (Rabs (s - t)) Hd args N IH a 1 s t) as (x & y & E & P & L). { repeat split; auto; lra. } { apply cfits_of. exact F. }
      exists x, y. split; [exact E|]. split; [|exact L]. cbv zeta in P. cbn [sizes rates]. assert (Fs : forall l q, fst (fold_left (fun (q : list R * list R) g => (sizes g (hd 0 (fst q)), map (fun j => j * hd 0 (snd q)) (rates g (hd 0 (fst q))))) l q) = fold_left (fun s g => sizes g (hd 0 s)) l (fst q)).
      { induction l as [|g l IHl]; intros q; [reflexivity|]. cbn [fold_left]. rewrite IHl. reflexivity. }
      rewrite Fs in P. exact P.
    + destruct F.
    + destruct args as [|g [|]]; try tauto. destruct F as (C & F). apply Forall_cons_iff in IH as [I0 _]. destruct (I0 a s t F Hs Ht) as (x & y & E & P & L). exists x, y. cbn [map eval length Nat.eqb negb]. rewrite andb_false_r. rewrite <- C. auto.
    + destruct args as [|g [|]]; try tauto. destruct F as (C & F). apply Forall_cons_iff in IH as [I0 _]. destruct (I0 a s t F Hs Ht) as (x & y & E & P & L). exists (map (fun x => x * - (1)) x), (map (fun x => x * - (1)) y). cbn [map eval length Nat.eqb negb]. rewrite andb_false_r. rewrite <- C, E. cbn [bind].
      split; [reflexivity|]. split; [|rewrite map_length; exact L]. cbn [sizes rates]. clear -P. induction P as [|z k x y Z K X Y (A & B & D & G) P IHP]; cbn [map]; constructor; [|exact IHP].
      repeat split; auto; [replace (x * - (1)) with (- x) by ring; rewrite Rabs_Ropp; auto|replace (y * - (1)) with (- y) by ring; rewrite Rabs_Ropp; auto|]. replace (x * - (1) - y * - (1)) with (- (x - y)) by ring. rewrite Rabs_Ropp. exact G.
Qed.
End Rates.
