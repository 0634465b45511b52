(** Outcomes of C++ calls, bounds-checked memory, counted loops. *)
From Coq Require Import List Arith Lia Bool.
Import ListNotations.

(** C++ exception classes that the modelled code can raise. *)
Inductive exn :=
  InvalidArgument | LogicError | RuntimeError | LengthError | BadOptionalAccess | OutOfRange | TypeError
| AssertFail (* a failed assert() aborts the program *).

(** Result of a call: a value, a C++ exception, or undefined behaviour
    (out-of-bounds access, read of an uninitialised double, a size mismatch that Eigen only
    checks with an assertion, ...). *)
Inductive outcome (A : Type) :=
| Ok (a : A)
| Throw (e : exn)
| UB.
Arguments Ok {A} _.
Arguments Throw {A} _.
Arguments UB {A}.

Definition bind {A B} (m : outcome A) (k : A -> outcome B) : outcome B :=
  match m with Ok a => k a | Throw e => Throw e | UB => UB end.
Notation "x <- m ;; k" := (bind m (fun x => k))
  (at level 61, m at next level, right associativity).
Notation "' p <- m ;; k" := (bind m (fun p => k))
  (at level 61, p pattern, m at next level, right associativity).

Definition of_option {A} (o : option A) : outcome A :=
  match o with Some a => Ok a | None => UB end.

Lemma bind_ok {A B} (m : outcome A) (k : A -> outcome B) b :
  bind m k = Ok b -> exists a, m = Ok a /\ k a = Ok b.
Proof. destruct m; simpl; intros; try discriminate; eauto. Qed.

(** ** Vectors: [Eigen::VectorXd] and views of it.
    [vget v i = None] for [i < vlen v] means allocated but never written. *)
Record vec (T : Type) := mkvec { vlen : nat; vget : nat -> option T }.
Arguments mkvec {T} _ _.
Arguments vlen {T} _.
Arguments vget {T} _ _.

(** [Eigen::VectorXd v(n)] : uninitialised storage. *)
Definition vnew {T} (n : nat) : vec T := mkvec n (fun _ => None).
Definition vconst {T} (n : nat) (x : T) : vec T := mkvec n (fun _ => Some x).
Definition vec_of_list {T} (l : list T) : vec T :=
  mkvec (length l) (fun i => nth_error l i).

(** [v(i)] as an rvalue. *)
Definition vread {T} (v : vec T) (i : nat) : outcome T :=
  if i <? vlen v then of_option (vget v i) else UB.
(** [v(i) = x]. *)
Definition vwrite {T} (v : vec T) (i : nat) (x : T) : outcome (vec T) :=
  if i <? vlen v
  then Ok (mkvec (vlen v) (fun j => if j =? i then Some x else vget v j))
  else UB.

(** All cells of [v] are initialised and given by [f]. *)
Definition vec_is {T} (v : vec T) (n : nat) (f : nat -> T) : Prop :=
  vlen v = n /\ forall i, i < n -> vget v i = Some (f i).

Lemma vread_ok {T} (v : vec T) n f i :
  vec_is v n f -> i < n -> vread v i = Ok (f i).
Proof.
  intros [Hl Hv] Hi. unfold vread. rewrite Hl.
  destruct (Nat.ltb_spec i n); [|lia]. now rewrite Hv.
Qed.

Lemma vread_get {T} (v : vec T) i x :
  i < vlen v -> vget v i = Some x -> vread v i = Ok x.
Proof.
  intros Hi Hv. unfold vread. destruct (Nat.ltb_spec i (vlen v)); [|lia]. now rewrite Hv.
Qed.

Lemma vwrite_lt {T} (v : vec T) i x :
  i < vlen v ->
  vwrite v i x = Ok (mkvec (vlen v) (fun j => if j =? i then Some x else vget v j)).
Proof. intros. unfold vwrite. destruct (Nat.ltb_spec i (vlen v)); [auto|lia]. Qed.

Lemma vread_oob {T} (v : vec T) i : vlen v <= i -> vread v i = UB.
Proof. intros. unfold vread. destruct (Nat.ltb_spec i (vlen v)); [lia|auto]. Qed.
Lemma vwrite_oob {T} (v : vec T) i x : vlen v <= i -> vwrite v i x = UB.
Proof. intros. unfold vwrite. destruct (Nat.ltb_spec i (vlen v)); [lia|auto]. Qed.

(** ** Dense matrices. *)
Record mat (T : Type) := mkmat { mrows : nat; mcols : nat; mget : nat -> nat -> option T }.
Arguments mkmat {T} _ _ _.
Arguments mrows {T} _.
Arguments mcols {T} _.
Arguments mget {T} _ _ _.

Definition mnew {T} (r c : nat) : mat T := mkmat r c (fun _ _ => None).
Definition mconst {T} (r c : nat) (x : T) : mat T := mkmat r c (fun _ _ => Some x).
Definition mread {T} (m : mat T) (i j : nat) : outcome T :=
  if (i <? mrows m) && (j <? mcols m) then of_option (mget m i j) else UB.
Definition mwrite {T} (m : mat T) (i j : nat) (x : T) : outcome (mat T) :=
  if (i <? mrows m) && (j <? mcols m)
  then Ok (mkmat (mrows m) (mcols m)
             (fun a b => if (a =? i) && (b =? j) then Some x else mget m a b))
  else UB.
Definition mat_is {T} (m : mat T) (r c : nat) (f : nat -> nat -> T) : Prop :=
  mrows m = r /\ mcols m = c /\
  forall i j, i < r -> j < c -> mget m i j = Some (f i j).

Lemma mread_ok {T} (m : mat T) r c f i j :
  mat_is m r c f -> i < r -> j < c -> mread m i j = Ok (f i j).
Proof.
  intros (Hr & Hc & Hm) Hi Hj. unfold mread. rewrite Hr, Hc.
  destruct (Nat.ltb_spec i r); [|lia]. destruct (Nat.ltb_spec j c); [|lia].
  simpl. now rewrite Hm.
Qed.
Lemma mread_get {T} (m : mat T) i j x :
  i < mrows m -> j < mcols m -> mget m i j = Some x -> mread m i j = Ok x.
Proof.
  intros Hi Hj Hm. unfold mread.
  destruct (Nat.ltb_spec i (mrows m)); [|lia]. destruct (Nat.ltb_spec j (mcols m)); [|lia].
  simpl. now rewrite Hm.
Qed.
Lemma mwrite_lt {T} (m : mat T) i j x :
  i < mrows m -> j < mcols m ->
  mwrite m i j x = Ok (mkmat (mrows m) (mcols m)
     (fun a b => if (a =? i) && (b =? j) then Some x else mget m a b)).
Proof.
  intros Hi Hj. unfold mwrite.
  destruct (Nat.ltb_spec i (mrows m)); [|lia]. destruct (Nat.ltb_spec j (mcols m)); [|lia].
  reflexivity.
Qed.

(** ** Counted loops: [for (i = lo; i < hi; i++) s = body i s;]
    [for_n lo n body s] runs [n] iterations starting at index [lo]. *)
Fixpoint for_n {S} (lo n : nat) (body : nat -> S -> outcome S) (s : S) : outcome S :=
  match n with
  | O => Ok s
  | S n' => s' <- body lo s ;; for_n (Datatypes.S lo) n' body s'
  end.
Definition for_ {S} (lo hi : nat) (body : nat -> S -> outcome S) (s : S) : outcome S :=
  for_n lo (hi - lo) body s.

Lemma for_n_ok {S} (I : nat -> S -> Prop) body n : forall lo s,
  I lo s ->
  (forall i s, lo <= i < lo + n -> I i s -> exists s', body i s = Ok s' /\ I (Datatypes.S i) s') ->
  exists s', for_n lo n body s = Ok s' /\ I (lo + n) s'.
Proof.
  induction n as [|n IH]; intros lo s H0 Hstep; simpl.
  - exists s. rewrite Nat.add_0_r. auto.
  - destruct (Hstep lo s) as (s1 & E1 & I1); [lia|auto|].
    rewrite E1; simpl.
    destruct (IH (Datatypes.S lo) s1) as (s2 & E2 & I2); auto.
    + intros i s' Hi. apply Hstep; lia.
    + exists s2. split; auto. replace (lo + Datatypes.S n) with (Datatypes.S lo + n) by lia. auto.
Qed.

Lemma for_ok {S} (I : nat -> S -> Prop) body lo hi s :
  lo <= hi ->
  I lo s ->
  (forall i s, lo <= i < hi -> I i s -> exists s', body i s = Ok s' /\ I (Datatypes.S i) s') ->
  exists s', for_ lo hi body s = Ok s' /\ I hi s'.
Proof.
  intros Hle H0 Hstep. unfold for_.
  destruct (for_n_ok I body (hi - lo) lo s H0) as (s' & E & I').
  - intros i s0 Hi. apply Hstep. lia.
  - exists s'. split; auto. replace hi with (lo + (hi - lo)) by lia. auto.
Qed.

Lemma for_empty {S} lo hi body (s : S) : hi <= lo -> for_ lo hi body s = Ok s.
Proof. intros. unfold for_. replace (hi - lo) with 0 by lia. reflexivity. Qed.

Lemma for_n_app {S} body n m : forall lo (s : S),
  for_n lo (n + m) body s = s' <- for_n lo n body s ;; for_n (lo + n) m body s'.
Proof.
  induction n as [|n IH]; intros lo s; simpl.
  - now rewrite Nat.add_0_r.
  - destruct (body lo s); simpl; auto. rewrite IH.
    replace (lo + Datatypes.S n) with (Datatypes.S lo + n) by lia. reflexivity.
Qed.

Lemma for_last {S} body lo hi (s : S) : lo <= hi ->
  for_ lo (Datatypes.S hi) body s = s' <- for_ lo hi body s ;; body hi s'.
Proof.
  intros. unfold for_. replace (Datatypes.S hi - lo) with ((hi - lo) + 1) by lia.
  rewrite for_n_app. destruct (for_n lo (hi - lo) body s); simpl; auto.
  replace (lo + (hi - lo)) with hi by lia. destruct (body hi a); reflexivity.
Qed.

(** Sequential map with early exit. *)
Section MapM.
  Context {A B : Type}.
  Variable f : A -> outcome B.
  Fixpoint mapM (l : list A) : outcome (list B) :=
    match l with
    | [] => Ok []
    | a :: l' => b <- f a ;; r <- mapM l' ;; Ok (b :: r)
    end.
End MapM.

Lemma mapM_map {A B} (f : A -> outcome B) (g : A -> B) l :
  (forall a, In a l -> f a = Ok (g a)) -> mapM f l = Ok (map g l).
Proof.
  induction l as [|a l IH]; simpl; intros H; auto.
  rewrite H by auto. simpl. rewrite IH by auto. reflexivity.
Qed.

Lemma mapM_length {A B} (f : A -> outcome B) l r : mapM f l = Ok r -> length r = length l.
Proof.
  revert r; induction l as [|a l IH]; simpl; intros r H.
  - inversion H; reflexivity.
  - destruct (f a); simpl in H; try discriminate. destruct (mapM f l); simpl in H; try discriminate.
    inversion H; subst; simpl. f_equal. auto.
Qed.

(** C++ unsigned subtraction [a - 1] on a [std::size_t]: wraps to a huge value
    when [a = 0], which the model represents as [None]. *)
Definition usub1 (a : nat) : option nat :=
  match a with O => None | S b => Some b end.
