(** Specification of function expressions over the real numbers.

    [prog] is the abstract syntax of what a user writes: elemental functions
    combined with the public operators, each with the value categories of its
    operands.  [psem] is its mathematical meaning, [pcod] its number of
    components; neither mentions operand lists, flattening or type tags. *)
From Coquelicot Require Import Coquelicot.
From Coq Require Import List Reals.
From Verif Require Import Num Outcome FunModel.
Import ListNotations.
Local Open Scope R_scope.

(** Elemental functions. [LExt c s]: any C++ user class with [c] components
    whose k-th derivative is [s k]. [LPy c s]: a class written in Python, whose
    objects have values [s 0], those returned by its [deriv_impl] [s 1], and so
    on. *)
Inductive leaf :=
| LConst (v : list R)
| LDil (a : R)
| LIdentity
| LExp
| LCos
| LSin
| LPoly (c : list R)
| LExt (c : nat) (s : nat -> R -> list R)
| LPy (c : nat) (s : nat -> R -> list R).

Definition leaf_fn (d : R * R) (l : leaf) : fn R :=
  match l with
  | LConst v => FConst d v
  | LDil a => FDil d a
  | LIdentity => identity_function d
  | LExp => FExp d
  | LCos => FCos d
  | LSin => FSin d
  | LPoly c => FPoly d c
  | LExt c s => FExt d c s 0
  | LPy c s => FPy d c s 0
  end.

(** c0 + c1 t + c2 t^2 + ... *)
Fixpoint power_sum (c : list R) (t : R) : R :=
  match c with
  | [] => 0
  | a :: c' => a + t * power_sum c' t
  end.

Definition lsem (l : leaf) (t : R) : list R :=
  match l with
  | LConst v => v
  | LDil a => [a * t]
  | LIdentity => [t]
  | LExp => [exp t]
  | LCos => [cos t]
  | LSin => [sin t]
  | LPoly c => [power_sum c t]
  | LExt _ s | LPy _ s => s 0%nat t
  end.

Definition lcod (l : leaf) : nat :=
  match l with
  | LConst v => length v
  | LExt c _ | LPy c _ => c
  | _ => 1
  end.

(** Well-formed leaves: at least one component / coefficient, and a user
    class returns as many components as it announces. *)
Definition leaf_ok (l : leaf) : Prop :=
  match l with
  | LConst v => v <> []
  | LPoly c => c <> []
  | LExt c s | LPy c s => (1 <= c)%nat /\ forall k t, length (s k t) = c
  | _ => True
  end.

Inductive prog :=
| PLeaf (d : R * R) (l : leaf)
| PAdd (o : vcat) (p q : prog)
| PMul (o : vcat) (p q : prog)
| PScal (rv : bool) (a : R) (p : prog)
| PComp (o : vcat) (p q : prog)          (* p.compose(q) *)
| PDot (o : vcat) (p q : prog)           (* p.dot(q) *)
| PNeg (d : R * R) (l : leaf)            (* - f, f a plain function *)
| PSub (o : vcat) (p : prog) (d : R * R) (l : leaf) (* p - f, f a plain function *)
| PIAdd (p q : prog)                     (* p += q *)
| PIMul (p q : prog)                     (* p *= q *)
| PIAddSelf (p : prog)                   (* p += p, the same object *)
| PIMulSelf (p : prog)                   (* p *= p, the same object *).

Fixpoint zip_with (f : R -> R -> R) (a b : list R) : list R :=
  match a, b with
  | x :: a', y :: b' => f x y :: zip_with f a' b'
  | _, _ => []
  end.

(** product of a number and a vector, in either order *)
Definition vprod (a b : list R) : list R :=
  match a, b with
  | _, [s] => map (Rmult s) a
  | [s], _ => map (Rmult s) b
  | _, _ => []
  end.

Definition inner (a b : list R) : R := fold_right Rplus 0 (zip_with Rmult a b).

Definition first_comp (v : list R) : R := nth 0 v 0.

Fixpoint psem (p : prog) (t : R) : list R :=
  match p with
  | PLeaf _ l => lsem l t
  | PAdd _ p q => zip_with Rplus (psem p t) (psem q t)
  | PMul _ p q => vprod (psem p t) (psem q t)
  | PScal _ a p => map (Rmult a) (psem p t)
  | PComp _ p q => psem p (first_comp (psem q t))
  | PDot _ p q => [inner (psem p t) (psem q t)]
  | PNeg _ l => map Ropp (lsem l t)
  | PSub _ p _ l => zip_with Rminus (psem p t) (lsem l t)
  | PIAdd p q => zip_with Rplus (psem p t) (psem q t)
  | PIMul p q => vprod (psem p t) (psem q t)
  | PIAddSelf p => map (Rmult 2) (psem p t)
  | PIMulSelf p => [first_comp (psem p t) ^ 2]
  end.

Fixpoint pcod (p : prog) : nat :=
  match p with
  | PLeaf _ l => lcod l
  | PAdd _ p _ => pcod p
  | PMul _ p q => Nat.max (pcod p) (pcod q)
  | PScal _ _ p => pcod p
  | PComp _ p _ => pcod p
  | PDot _ _ _ => 1
  | PNeg _ l => lcod l
  | PSub _ p _ _ => pcod p
  | PIAdd p _ | PIMul p _ | PIAddSelf p => pcod p
  | PIMulSelf _ => 1
  end.

(** What the user's program builds, through the model of the operators. *)
Fixpoint build (p : prog) : outcome (expr R) :=
  match p with
  | PLeaf d l => Ok (to_expression (leaf_fn d l))
  | PAdd o p q => e1 <- build p ;; e2 <- build q ;; add o e1 e2
  | PMul o p q => e1 <- build p ;; e2 <- build q ;; mul o e1 e2
  | PScal rv a p => e <- build p ;; scal rv a e
  | PComp o p q => e1 <- build p ;; e2 <- build q ;; compose o e1 e2
  | PDot o p q => e1 <- build p ;; e2 <- build q ;; Ok (to_expression (dot o (fe e1) (fe e2)))
  | PNeg d l => Ok (neg (to_expression (leaf_fn d l)))
  | PSub o p d l => e1 <- build p ;; sub o e1 (to_expression (leaf_fn d l))
  | PIAdd p q => e1 <- build p ;; e2 <- build q ;; Ok (iadd e1 e2)
  | PIMul p q => e1 <- build p ;; e2 <- build q ;; Ok (imul e1 e2)
  | PIAddSelf p => e <- build p ;; Ok (iadd_self e)
  | PIMulSelf p => e <- build p ;; Ok (imul_self e)
  end.

(** Leaves are well formed; the two operands of a dot product have the same
    number of components (the library only asserts it), and so do those of +=;
    the right operand of *= has one (nothing checks these, see
    C06_inplace_unchecked_refuted). *)
Fixpoint prog_ok (p : prog) : Prop :=
  match p with
  | PLeaf _ l | PNeg _ l => leaf_ok l
  | PAdd _ p q | PMul _ p q | PComp _ p q => prog_ok p /\ prog_ok q
  | PScal _ _ p => prog_ok p
  | PDot _ p q => prog_ok p /\ prog_ok q /\ pcod p = pcod q
  | PSub _ p _ l => prog_ok p /\ leaf_ok l
  | PIAdd p q => prog_ok p /\ prog_ok q /\ pcod p = pcod q
  | PIMul p q => prog_ok p /\ prog_ok q /\ pcod q = 1%nat
  | PIAddSelf p => prog_ok p
  | PIMulSelf p => prog_ok p /\ pcod p = 1%nat
  end.

(** [G] is the [k]-th derivative of [F] everywhere (all lower-order
    derivatives exist everywhere too). *)
Fixpoint nth_derivative (k : nat) (F G : R -> R) : Prop :=
  match k with
  | O => forall t, F t = G t
  | S k' => exists F', nth_derivative k' F F' /\ forall t, is_derive F' t (G t)
  end.

(** User classes are smooth: [s (k+1)] is the derivative of [s k]. *)
Definition leaf_smooth (l : leaf) : Prop :=
  match l with
  | LExt c s | LPy c s => forall k j t, (j < c)%nat ->
      is_derive (fun u => nth j (s k u) 0) t (nth j (s (S k) t) 0)
  | _ => True
  end.
Fixpoint prog_smooth (p : prog) : Prop :=
  match p with
  | PLeaf _ l | PNeg _ l => leaf_smooth l
  | PAdd _ p q | PMul _ p q | PComp _ p q | PDot _ p q | PIAdd p q | PIMul p q => prog_smooth p /\ prog_smooth q
  | PScal _ _ p | PIAddSelf p | PIMulSelf p => prog_smooth p
  | PSub _ p _ l => prog_smooth p /\ leaf_smooth l
  end.

(** Classes written in Python occur only below products, compositions and dot
    products. *)
Definition is_py (l : leaf) : Prop := match l with LPy _ _ => True | _ => False end.
Fixpoint py_inside (p : prog) : Prop :=
  match p with
  | PLeaf _ l | PNeg _ l => ~ is_py l
  | PAdd _ p q | PIAdd p q => py_inside p /\ py_inside q
  | PSub _ p _ l => py_inside p /\ ~ is_py l
  | PIAddSelf p => py_inside p
  | PMul _ _ _ | PScal _ _ _ | PComp _ _ _ | PDot _ _ _ | PIMul _ _ | PIMulSelf _ => True
  end.

(** calling the first-derivative method again and again *)
Fixpoint deriv_times (dbg : bool) (k : nat) (f : fn R) : outcome (fn R) :=
  match k with
  | O => Ok f
  | S k' => g <- deriv_times dbg k' f ;; deriv dbg g 1
  end.

(** domain reported by a program; for a product either operand's may be
    reported, so it is a relation *)
Definition close (d1 d2 : R * R) : Prop :=
  Rabs (fst d1 - fst d2) < 1 / 1000000000 /\ Rabs (snd d1 - snd d2) < 1 / 1000000000.

(** ** Meaning of expressions, concatenation included.

    [means e F]: the expression object [e], produced by the public operators,
    is meant to compute [F].  The clauses name only operators, reported domains
    ([edom], get_domain) and values. *)
Definition piecewise (d1 d2 : R * R) (F G : R -> list R) (t : R) : list R :=
  if Rlt_dec t (fst d1) then F (fst d1)
  else if Rlt_dec t (snd d1) then F t
  else if Rlt_dec t (snd d2) then G t
  else G (snd d2).

Inductive means : expr R -> (R -> list R) -> Prop :=
| MLeaf d l : leaf_ok l -> means (to_expression (leaf_fn d l)) (lsem l)
| MAdd o e1 e2 r F G : means e1 F -> means e2 G -> add o e1 e2 = Ok r ->
    means r (fun t => zip_with Rplus (F t) (G t))
| MMul o e1 e2 r F G : means e1 F -> means e2 G -> mul o e1 e2 = Ok r ->
    means r (fun t => vprod (F t) (G t))
| MScal rv a e r F : means e F -> scal rv a e = Ok r -> means r (fun t => map (Rmult a) (F t))
| MComp o e1 e2 r F G : means e1 F -> means e2 G -> compose o e1 e2 = Ok r ->
    means r (fun t => F (first_comp (G t)))
| MDot o e1 e2 F G : means e1 F -> means e2 G -> ecod e1 = ecod e2 ->
    means (to_expression (dot o (fe e1) (fe e2))) (fun t => [inner (F t) (G t)])
| MNeg d l : leaf_ok l -> means (neg (to_expression (leaf_fn d l))) (fun t => map Ropp (lsem l t))
| MIAdd e1 e2 F G : means e1 F -> means e2 G -> ecod e1 = ecod e2 ->
    means (iadd e1 e2) (fun t => zip_with Rplus (F t) (G t))
| MIMul e1 e2 F G : means e1 F -> means e2 G -> ecod e2 = 1%nat ->
    means (imul e1 e2) (fun t => vprod (F t) (G t))
| MConcat o e1 e2 r F G : means e1 F -> means e2 G -> concat_ o e1 e2 = Ok r ->
    snd (edom e1) = fst (edom e2) ->           (* the pieces abut exactly *)
    fst (edom e1) < snd (edom e1) -> fst (edom e2) < snd (edom e2) ->
    edom r = (fst (edom e1), snd (edom e2)) -> (* not an rvalue concatenation, see C05 *)
    means r (piecewise (edom e1) (edom e2) F G).
