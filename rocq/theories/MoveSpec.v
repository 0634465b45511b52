(** What programs with spline variables mean: every variable is a piecewise function, or has been moved away. *)
From Coquelicot Require Import Coquelicot.
From Coq Require Import List Arith Reals.
From Verif Require Import Num LinAlg SplineSpec BasisModel BasisFn GSplineModel Outcome MoveModel.
Import ListNotations.
Local Open Scope R_scope.

(** kind of basis, number of intervals and components, domain, interval lengths, and the function of every interval and component *)
Record val := mkval {
  v_d : bdesc; v_n : nat; v_codom : nat; v_t0 : R; v_t1 : R; v_tau : nat -> R;
  v_piece : nat -> nat -> R -> R
}.
Definition alike (a b : val) : Prop :=
  v_d a = v_d b /\ v_n a = v_n b /\ v_codom a = v_codom b /\ v_t0 a = v_t0 b /\ v_t1 a = v_t1 b /\
  forall i, (i < v_n a)%nat -> v_tau a i = v_tau b i.
Definition vmap (f : nat -> nat -> R -> R) (a : val) : val :=
  mkval (v_d a) (v_n a) (v_codom a) (v_t0 a) (v_t1 a) (v_tau a) f.
Definition vadd (a b : val) : val := vmap (fun iv cc t => v_piece a iv cc t + v_piece b iv cc t) a.
Definition vsub (a b : val) : val := vmap (fun iv cc t => v_piece a iv cc t - v_piece b iv cc t) a.
Definition vmul (x : R) (a : val) : val := vmap (fun iv cc t => x * v_piece a iv cc t) a.
Definition vder (k : nat) (a : val) : val := vmap (fun iv cc t => Derive_n (v_piece a iv cc) k t) a.
(** the same path in time l *)
Definition vtime (l : R) (a : val) : val :=
  let f := l / (v_t1 a - v_t0 a) in
  mkval (d_scaled (v_d a) f) (v_n a) (v_codom a) (v_t0 a) (v_t0 a + l) (fun i => v_tau a i * f)
    (fun iv cc t => v_piece a iv cc (v_t0 a + (t - v_t0 a) / f)).
(** value of component cc at time t *)
Definition v_at (a : val) (cc : nat) (t : R) : R := v_piece a (locate (v_t0 a) (v_tau a) (v_n a) t) cc t.

(** [None]: moved away *)
Definition env := list (option val).
Fixpoint vput (l : env) (i : nat) (x : option val) : env :=
  match l, i with
  | [], _ => []
  | _ :: l', O => x :: l'
  | y :: l', S i' => y :: vput l' i' x
  end.
Definition holds (e : env) (i : nat) (v : val) : Prop := nth_error e i = Some (Some v).
(** of two operands at most one is used up: the left one if it is moved, otherwise the right one if that is moved *)
Definition used (ri : bool) (i : nat) (rj : bool) (j : nat) (e : env) : env :=
  if ri then vput e i None else if rj then vput e j None else e.

Inductive vexec (e : env) : stmt R -> env -> Prop :=
| VNew d hist t0 t1 codom n b bst coef tau tf cf :
    is_basis b d -> serve_all b hist (bs_init b) = Ok bst ->      (** a basis object with any past *)
    vec_is tau n tf -> vec_is coef (n * d_dim d * codom) cf -> (1 <= n)%nat -> (forall i, (i < n)%nat -> 0 < tf i) -> t0 < t1 ->
    vexec e (SNew (t0, t1) codom n b bst coef tau) (e ++ [Some (mkval d n codom t0 t1 tf (piece d codom t0 tf cf))])
| VCopy i v : holds e i v -> vexec e (SCopy i) (e ++ [Some v])
| VMove i v : holds e i v -> vexec e (SMove i) (vput e i None ++ [Some v])
| VPlus ri i rj j a b : holds e i a -> holds e j b -> alike a b ->
    vexec e (SPlus ri i rj j) (used ri i rj j e ++ [Some (vadd a b)])
| VMinus ri i rj j a b : holds e i a -> holds e j b -> alike a b ->
    vexec e (SMinus ri i rj j) (used ri i rj j e ++ [Some (vsub a b)])
| VPlusEq i j a b : holds e i a -> holds e j b -> alike a b -> vexec e (SPlusEq i j) (vput e i (Some (vadd a b)))
| VMinusEq i j a b : holds e i a -> holds e j b -> alike a b -> vexec e (SMinusEq i j) (vput e i (Some (vsub a b)))
| VScale x r i a : holds e i a -> vexec e (SScale x r i) (used r i false i e ++ [Some (vmul x a)])
| VNeg r i a : holds e i a -> vexec e (SNeg r i) (used r i false i e ++ [Some (vmul (-1) a)])
| VDeriv k i a : holds e i a -> blk_ok (v_d a) k -> vexec e (SDeriv k i) (e ++ [Some (vder k a)])
| VTime l i a : holds e i a -> / 10 ^ 8 <= l -> vexec e (STime l i) (e ++ [Some (vtime l a)]).
Inductive vrun : env -> list (stmt R) -> env -> Prop :=
| vrun_nil e : vrun e [] e
| vrun_cons e s e' p e'' : vexec e s e' -> vrun e' p e'' -> vrun e (s :: p) e''.

(** an object from which everything has been moved: no coefficients, no intervals, no parameters *)
Definition emptied (o : sobj R) : Prop :=
  gs_n (so_g o) = 0%nat /\ vlen (gs_coef (so_g o)) = 0%nat /\ vlen (so_par o) = 0%nat.
