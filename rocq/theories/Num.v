(** Arithmetic signature used by every model function.

    [Num T] is a record of operations and nothing else: it carries no law, so a
    theorem proved for every [Num T] holds for any arithmetic whatsoever, IEEE
    doubles (with NaN, infinities and rounding) included.  The instance [Rnum]
    interprets C++'s [double] as a mathematical real number; theorems about
    analysis (derivatives, integrals, exact values) use that instance. *)
From Coq Require Import ZArith Reals Lra.

Class Num (T : Type) := {
  n0 : T;
  n1 : T;
  nadd : T -> T -> T;
  nsub : T -> T -> T;
  nmul : T -> T -> T;
  ndiv : T -> T -> T;
  nopp : T -> T;
  nabs : T -> T;
  nltb : T -> T -> bool;   (* C++  a < b   *)
  nleb : T -> T -> bool;   (* C++  a <= b  *)
  neqb : T -> T -> bool;   (* C++  a == b  *)
  nofZ : Z -> T;           (* (double) of an integer *)
  nexp : T -> T;
  ncos : T -> T;
  nsin : T -> T;
  nsqrt : T -> T;
  npow : T -> T -> T;      (* std::pow(double,double) *)
  npi : T
}.

Declare Scope num_scope.
Delimit Scope num_scope with num.
Infix "+" := nadd : num_scope.
Infix "-" := nsub : num_scope.
Infix "*" := nmul : num_scope.
Infix "/" := ndiv : num_scope.
Notation "- x" := (nopp x) : num_scope.
Infix "<?" := nltb : num_scope.
Infix "<=?" := nleb : num_scope.
Infix "=?" := neqb : num_scope.
Notation "a >=? b" := (nleb b a) (at level 70, only parsing) : num_scope.
Notation "a >? b" := (nltb b a) (at level 70, only parsing) : num_scope.

(** [(double) n] for a [std::size_t] value. *)
Definition nofnat {T} `{Num T} (n : nat) : T := nofZ (Z.of_nat n).
Global Arguments nofnat : simpl never.

(** [std::pow(x, n)] for a non-negative integer exponent.  The C++ calls the
    library function; over the reals the two agree.  In binary64 (C73) it
    is this product, whose error bound is the weaker one. *)
Fixpoint npown {T} `{Num T} (x : T) (n : nat) : T :=
  match n with
  | O => n1
  | S m => nmul x (npown x m)
  end.

Definition Rltb (x y : R) : bool := if Rlt_dec x y then true else false.
Definition Rleb (x y : R) : bool := if Rle_dec x y then true else false.
Definition Reqb (x y : R) : bool := if Req_EM_T x y then true else false.

Global Instance Rnum : Num R := {
  n0 := 0%R; n1 := 1%R;
  nadd := Rplus; nsub := Rminus; nmul := Rmult; ndiv := Rdiv; nopp := Ropp;
  nabs := Rabs; nltb := Rltb; nleb := Rleb; neqb := Reqb;
  nofZ := IZR; nexp := exp; ncos := cos; nsin := sin; nsqrt := sqrt;
  npow := Rpower; npi := PI
}.

Lemma Rltb_true x y : Rltb x y = true <-> (x < y)%R.
Proof. unfold Rltb; destruct (Rlt_dec x y); split; intros; try easy. Qed.
Lemma Rltb_false x y : Rltb x y = false <-> (y <= x)%R.
Proof. unfold Rltb; destruct (Rlt_dec x y); split; intros; try easy; lra. Qed.
Lemma Rleb_true x y : Rleb x y = true <-> (x <= y)%R.
Proof. unfold Rleb; destruct (Rle_dec x y); split; intros; try easy. Qed.
Lemma Rleb_false x y : Rleb x y = false <-> (y < x)%R.
Proof. unfold Rleb; destruct (Rle_dec x y); split; intros; try easy; lra. Qed.
Lemma Reqb_true x y : Reqb x y = true <-> x = y.
Proof. unfold Reqb; destruct (Req_EM_T x y); split; intros; try easy. Qed.
Lemma Reqb_false x y : Reqb x y = false <-> x <> y.
Proof. unfold Reqb; destruct (Req_EM_T x y); split; intros; try easy. Qed.
Lemma Rltb_spec x y : Bool.reflect (x < y)%R (Rltb x y).
Proof. unfold Rltb; destruct (Rlt_dec x y); constructor; auto. Qed.
Lemma Rleb_spec x y : Bool.reflect (x <= y)%R (Rleb x y).
Proof. unfold Rleb; destruct (Rle_dec x y); constructor; auto. Qed.
Lemma Reqb_spec x y : Bool.reflect (x = y)%R (Reqb x y).
Proof. unfold Reqb; destruct (Req_EM_T x y); constructor; auto. Qed.

Lemma npown_pow (x : R) n : npown x n = (x ^ n)%R.
Proof. induction n; simpl; [reflexivity|]. now rewrite IHn. Qed.

Lemma nofnat_INR n : nofnat n = INR n.
Proof. unfold nofnat; simpl. now rewrite INR_IZR_INZ. Qed.

(** expose the real operations behind the class *)
Ltac rnum :=
  cbv beta in *;
  change (@n0 R Rnum) with 0%R in *;
  change (@n1 R Rnum) with 1%R in *;
  change (@nadd R Rnum) with Rplus in *;
  change (@nsub R Rnum) with Rminus in *;
  change (@nmul R Rnum) with Rmult in *;
  change (@ndiv R Rnum) with Rdiv in *;
  change (@nopp R Rnum) with Ropp in *;
  change (@nabs R Rnum) with Rabs in *;
  change (@nltb R Rnum) with Rltb in *;
  change (@nleb R Rnum) with Rleb in *;
  change (@neqb R Rnum) with Reqb in *;
  change (@nofZ R Rnum) with IZR in *;
  change (@nexp R Rnum) with exp in *;
  change (@ncos R Rnum) with cos in *;
  change (@nsin R Rnum) with sin in *;
  change (@nsqrt R Rnum) with sqrt in *;
  change (@npow R Rnum) with Rpower in *;
  change (@npi R Rnum) with PI in *.
