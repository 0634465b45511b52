(** Dense vector/matrix operations of Eigen used by the models, over any [Num].

    Sizes are checked like Eigen's assertions: a mismatch is [UB] (with
    NDEBUG Eigen computes with garbage).  A cell never written makes every
    expression that reads it uninitialised ([None]). *)
From Coq Require Import List Arith Lia Bool.
From Verif Require Import Num Outcome.
Import ListNotations.
Local Open Scope num_scope.

Section LinAlg.
Context {T : Type} `{Num T}.

(** sum_{i<n} h i, left to right from 0 *)
Fixpoint nsum (n : nat) (h : nat -> T) : T :=
  match n with
  | O => n0
  | S m => nsum m h + h m
  end.

Definition olift2 (f : T -> T -> T) (a b : option T) : option T :=
  match a, b with Some x, Some y => Some (f x y) | _, _ => None end.
Fixpoint osum (n : nat) (h : nat -> option T) : option T :=
  match n with
  | O => Some n0
  | S m => olift2 nadd (osum m h) (h m)
  end.

(** [v.setZero()] *)
Definition vsetzero (v : vec T) : vec T := vconst (vlen v) n0.
(** [v *= x] *)
Definition vscale (v : vec T) (x : T) : vec T :=
  mkvec (vlen v) (fun i => option_map (fun y => y * x) (vget v i)).
(** [dst = src] for an Eigen::Ref (no resizing) *)
Definition vassign (dst src : vec T) : outcome (vec T) :=
  if Nat.eqb (vlen dst) (vlen src) then Ok src else UB.

(** [MatrixXd::Identity(n, n)], [MatrixXd::Zero(r, c)] *)
Definition mident (n : nat) : mat T :=
  mkmat n n (fun i j => Some (if Nat.eqb i j then n1 else n0)).
Definition mzero (r c : nat) : mat T := mconst r c n0.
(** [m.transposeInPlace()], [m.transpose()] *)
Definition mtrans (m : mat T) : mat T := mkmat (mcols m) (mrows m) (fun i j => mget m j i).
(** [a * b] *)
Definition mmul (a b : mat T) : outcome (mat T) :=
  if Nat.eqb (mcols a) (mrows b)
  then Ok (mkmat (mrows a) (mcols b)
         (fun i j => osum (mcols a) (fun k => olift2 nmul (mget a i k) (mget b k j))))
  else UB.
(** [m += b * x] *)
Definition madd_scaled (m b : mat T) (x : T) : outcome (mat T) :=
  if Nat.eqb (mrows m) (mrows b) && Nat.eqb (mcols m) (mcols b)
  then Ok (mkmat (mrows m) (mcols m)
         (fun i j => olift2 (fun p q => p + q * x) (mget m i j) (mget b i j)))
  else UB.
(** [m *= x] *)
Definition mscale (m : mat T) (x : T) : mat T :=
  mkmat (mrows m) (mcols m) (fun i j => option_map (fun y => y * x) (mget m i j)).
(** [a * v] *)
Definition mvmul (a : mat T) (v : vec T) : outcome (vec T) :=
  if Nat.eqb (mcols a) (vlen v)
  then Ok (mkvec (mrows a)
         (fun i => osum (mcols a) (fun k => olift2 nmul (mget a i k) (vget v k))))
  else UB.
(** [a.dot(b)] *)
Definition vdot (a b : vec T) : outcome T :=
  if Nat.eqb (vlen a) (vlen b)
  then of_option (osum (vlen a) (fun k => olift2 nmul (vget a k) (vget b k)))
  else UB.
(** [v.segment(i0, n)] as a view that is read *)
Definition vsegment (v : vec T) (i0 n : nat) : outcome (vec T) :=
  if Nat.leb (i0 + n)%nat (vlen v) then Ok (mkvec n (fun i => vget v (i0 + i)%nat)) else UB.

Lemma nsum_ext n (f g : nat -> T) : (forall i, i < n -> f i = g i) -> nsum n f = nsum n g.
Proof. induction n; simpl; intros E; auto. rewrite IHn, E; auto. Qed.
Lemma osum_some n h (f : nat -> T) : (forall i, i < n -> h i = Some (f i)) -> osum n h = Some (nsum n f).
Proof. induction n; simpl; intros E; auto. rewrite IHn, E; auto. Qed.

Lemma vec_is_ext (v : vec T) n f g : vec_is v n f -> (forall i, i < n -> f i = g i) -> vec_is v n g.
Proof. intros [L G] E. split; auto. intros i Hi. rewrite <- E by auto. auto. Qed.
Lemma mat_is_ext (m : mat T) r c f g : mat_is m r c f ->
  (forall i j, i < r -> j < c -> f i j = g i j) -> mat_is m r c g.
Proof. intros (R & C & G) E. split; auto. split; auto. intros i j Hi Hj. rewrite <- E by auto. auto. Qed.

Lemma vscale_is (v : vec T) n f x : vec_is v n f -> vec_is (vscale v x) n (fun i => f i * x).
Proof. intros [L G]. split; auto. intros i Hi. simpl. rewrite G; auto. Qed.
Lemma vconst_is n (x : T) : vec_is (vconst n x) n (fun _ => x).
Proof. split; auto. Qed.
Lemma mident_is n : mat_is (mident n) n n (fun i j => if Nat.eqb i j then n1 else n0).
Proof. repeat split; auto. Qed.
Lemma mzero_is r c : mat_is (mzero r c) r c (fun _ _ => n0).
Proof. repeat split; auto. Qed.
Lemma mtrans_is (m : mat T) r c f : mat_is m r c f -> mat_is (mtrans m) c r (fun i j => f j i).
Proof. intros (R & C & G). repeat split; auto. intros i j Hi Hj. simpl. apply G; auto. Qed.
Lemma mmul_is (a b : mat T) r k c f g : mat_is a r k f -> mat_is b k c g ->
  exists m, mmul a b = Ok m /\ mat_is m r c (fun i j => nsum k (fun l => f i l * g l j)).
Proof.
  intros (Ra & Ca & Ga) (Rb & Cb & Gb). unfold mmul. rewrite Ca, Rb, Nat.eqb_refl.
  eexists. split; [reflexivity|]. split; [exact Ra|]. split; [exact Cb|].
  intros i j Hi Hj. simpl. apply osum_some. intros l Hl. rewrite Ga, Gb; auto.
Qed.
Lemma madd_scaled_is (m b : mat T) r c f g x : mat_is m r c f -> mat_is b r c g ->
  exists m', madd_scaled m b x = Ok m' /\ mat_is m' r c (fun i j => f i j + g i j * x).
Proof.
  intros (Ra & Ca & Ga) (Rb & Cb & Gb). unfold madd_scaled. rewrite Ra, Ca, Rb, Cb, !Nat.eqb_refl.
  eexists. split; [reflexivity|]. split; [auto|]. split; [auto|].
  intros i j Hi Hj. simpl. rewrite Ga, Gb; auto.
Qed.
Lemma mscale_is (m : mat T) r c f x : mat_is m r c f -> mat_is (mscale m x) r c (fun i j => f i j * x).
Proof. intros (R & C & G). repeat split; auto. intros i j Hi Hj. simpl. rewrite G; auto. Qed.
Lemma mvmul_is (a : mat T) v r c f g : mat_is a r c f -> vec_is v c g ->
  exists w, mvmul a v = Ok w /\ vec_is w r (fun i => nsum c (fun k => f i k * g k)).
Proof.
  intros (Ra & Ca & Ga) [Lv Gv]. unfold mvmul. rewrite Ca, Lv, Nat.eqb_refl.
  eexists. split; [reflexivity|]. split; [exact Ra|]. intros i Hi. simpl.
  apply osum_some. intros l Hl. rewrite Ga, Gv; auto.
Qed.
Lemma vdot_is (a b : vec T) n f g : vec_is a n f -> vec_is b n g ->
  vdot a b = Ok (nsum n (fun k => f k * g k)).
Proof.
  intros [La Ga] [Lb Gb]. unfold vdot. rewrite La, Lb, Nat.eqb_refl.
  erewrite osum_some; [reflexivity|]. intros i Hi. simpl. rewrite Ga, Gb; auto.
Qed.
Lemma vsegment_is (v : vec T) n f i0 m : vec_is v n f -> (i0 + m <= n)%nat ->
  exists w, vsegment v i0 m = Ok w /\ vec_is w m (fun i => f (i0 + i)%nat).
Proof.
  intros [L G] Hb. unfold vsegment. rewrite L. destruct (Nat.leb_spec (i0 + m)%nat n); [|lia].
  eexists. split; [reflexivity|]. split; auto. intros i Hi. simpl. apply G. lia.
Qed.

End LinAlg.
