(** Model of gsplines::collocation::GaussLobattoLagrangeSpline
    (include/gsplines/Collocation/GaussLobattoLagrange.hpp,
    src/Collocation/GaussLobattoLagrange.cpp). *)
From Coq Require Import List Arith Bool ZArith.
From Verif Require Import Num Outcome LinAlg LegendreModel LagrangeModel Basis0101Model BasisModel ToolsModel FunModel GSplineModel GLModel.
Import ListNotations.
Local Open Scope num_scope.

Section GLL.
Context {T : Type} `{Num T}.
(** what the allocation of the uninitialised Gram matrix returns (see [lag_l2]) *)
Variable fresh : nat -> nat -> option T.

(** ** Arguments of type FunctionBase
    What the code below asks of one: domain, codomain dimension and
    [value(points, result)] (FunctionBase.hpp 67-77), which fills the matrix it is given. *)
Record fobj := mkfo {
  fo_dom : T * T;
  fo_codom : nat;
  fo_val : vec T -> mat T -> outcome (mat T)
}.
(** a spline as a FunctionBase, GSpline.cpp 91-113 *)
Definition fo_of_gs (g : gspline T) : fobj :=
  mkfo (gs_dom g) (gs_codom g) (fun pts res => r <- gs_value_impl g pts res (gs_buf g) ;; Ok (fst r)).
(** a vector as a list; every cell is read *)
(* source: Eigen vector to list, for the expression evaluators of FunModel.v *)
Definition vec_list (v : vec T) : outcome (list T) :=
  for_ 0 (vlen v) (fun i l => x <- vread v i ;; Ok (l ++ [x])) [].
(** a function expression as a FunctionBase (FunModel.v) *)
(* source: include/gsplines/Functions/FunctionBase.hpp 70-84 *)
Definition fo_of_fn (dbg : bool) (f : fn T) : fobj :=
  mkfo (fdom f) (fcod f) (fun pts res =>
    l <- vec_list pts ;;
    r <- eval dbg f l (mcols res) ;;
    if Nat.eqb (length r) (mrows res)
    then Ok (mkmat (mrows res) (mcols res) (fun i j => match nth_error r i with Some row => nth_error row j | None => None end))
    else UB).

(** ** Construction *)
(** BasisLagrangeGaussLobatto(n), BasisLagrange.cpp 297-299 and 33-59 *)
Definition gll_basis (nglp : nat) : outcome (basis T) :=
  pts <- gl_points nglp ;;
  bw <- bary_weights pts ;;
  glp <- gl_points (vlen pts) ;;
  glw <- gl_weights (vlen pts) ;;
  gram <- lag_ctor_buffer pts glp glw fresh ;;
  Ok (BLagrange pts bw gram).
(** GaussLobattoLagrange.cpp 14-30 *)
Definition gll_make (dom : T * T) (codom n nglp : nat) (coef tau : vec T) : outcome (gspline T) :=
  b <- gll_basis nglp ;;
  gs_ctor dom codom n b (bs_init b) coef tau.
(** [Ones(n) * x] *)
(* source: src/Collocation/GaussLobattoLagrange.cpp 38-39, 184 *)
Definition ones_times (n : nat) (x : T) : vec T := vscale (vconst n n1) x.
(** 32-39: [Ones(n) * (b - a) / n] associates to the left *)
(* source: src/Collocation/GaussLobattoLagrange.cpp 32-39 *)
Definition gll_zero (dom : T * T) (codom n nglp : nat) : outcome (gspline T) :=
  gll_make dom codom n nglp (vconst (n * nglp * codom) n0)
    (vmap1 (fun x => x / nofnat n) (ones_times n (snd dom - fst dom))).

(** [Map<VectorXd>(m.data(), m.size())]: column-major *)
(* source: src/Collocation/GaussLobattoLagrange.cpp 180-186 *)
Definition mflat (m : mat T) : vec T :=
  mkvec (mrows m * mcols m) (fun k => mget m (k mod mrows m) (k / mrows m)).
(** [v.segment(i0, len) = w] *)
(* source: src/Collocation/GaussLobattoLagrange.cpp 175-187 *)
Definition vset_sized (v : vec T) (i0 len : nat) (w : vec T) : outcome (vec T) :=
  if Nat.eqb (vlen w) len then vset_segment v i0 w else UB.

(** approximate, 150-189 *)
(* source: src/Collocation/GaussLobattoLagrange.cpp 150-189 *)
Definition gll_approximate (f : fobj) (nglp n : nat) : outcome (gspline T) :=
  glp <- gl_points nglp ;;
  let '(lb, rb) := fo_dom f in
  let codom := fo_codom f in
  let len := (rb - lb) / nofnat n in
  '(coef, _) <- for_ 0 n (fun iv (st : vec T * mat T) =>
      let '(coef, lv) := st in
      lv <- fo_val f (gl_affine glp len (lb + nofnat iv * len)) lv ;;
      coef <- vset_sized coef (iv * nglp * codom) (nglp * codom) (mflat lv) ;;
      Ok (coef, lv)) (vnew (codom * nglp * n), mnew nglp codom) ;;
  gll_make (fo_dom f) codom n nglp coef (ones_times n len).
(** constructor from a function, 55-58: its parameters are (f, n_intervals,
    n_glp) and it calls approximate(f, n_intervals, n_glp), whose second parameter is the number of points *)
(* source: src/Collocation/GaussLobattoLagrange.cpp 55-58 *)
Definition gll_of_fun (f : fobj) (n_intervals n_glp : nat) : outcome (gspline T) :=
  r <- gll_approximate f n_intervals n_glp ;; Ok (gs_move r).
(** identity, 191-197 *)
(* source: src/Collocation/GaussLobattoLagrange.cpp 191-197 *)
Definition gll_identity (dbg : bool) (dom : T * T) (nglp n : nat) : outcome (gspline T) :=
  gll_approximate (fo_of_fn dbg (identity_function dom)) nglp n.
(** get_domain_discretization, .hpp 114-117 *)
Definition gll_discretization (g : gspline T) : outcome (vec T) :=
  gl_grid_points (fst (gs_dom g)) (snd (gs_dom g)) (gs_dim g) (gs_n g).

(** ** Assignment *)
(** same_discretization, 204-208 *)
(* source: src/Collocation/GaussLobattoLagrange.cpp 204-208 *)
Definition same_discretization (g h : gspline T) : bool :=
  Nat.eqb (gs_dim g) (gs_dim h) && Nat.eqb (gs_n g) (gs_n h).
(* source: the checks [if (not ...) throw], src/Collocation/GaussLobattoLagrange.cpp 63-66, 78-81, 93-94 *)
Definition require (b : bool) : outcome unit := if b then Ok tt else Throw InvalidArgument.
(** operator=(const&), operator=(&&), 60-86: what [*this] becomes.
    [self]: [this == &_that] (only the move assignment looks at it, and throws) *)
(* source: src/Collocation/GaussLobattoLagrange.cpp 60-86 *)
Definition gll_assign (move self : bool) (this that : gspline T) : outcome (gspline T) :=
  _ <- require (negb (move && self)) ;;
  _ <- require (same_discretization this that) ;;
  _ <- require (Nat.eqb (gs_codom this) (gs_codom that)) ;;
  Ok (mkgs (gs_dom that) (gs_codom this) (gs_coef that) (gs_tau this) (gs_basis this) (gs_bst this) (gs_buf this)).
(** operator=(FunctionBase), 88-122 *)
(* source: src/Collocation/GaussLobattoLagrange.cpp 88-122 *)
Definition gll_assign_fun (self : bool) (this : gspline T) (f : fobj) : outcome (gspline T) :=
  _ <- require (negb self) ;;
  _ <- require (Nat.eqb (gs_codom this) (fo_codom f)) ;;
  total <- of_option (osum (gs_n this) (vget (gs_tau this))) ;;
  let tau := vscale (gs_tau this) ((snd (fo_dom f) - fst (fo_dom f)) / total) in
  let dim := gs_dim this in
  let codom := gs_codom this in
  '(coef, _, _) <- for_ 0 (vlen tau) (fun iv (st : vec T * mat T * T) =>
      let '(coef, lv, lb) := st in
      ti <- vread tau iv ;;
      lv <- fo_val f (gl_affine (b_params (gs_basis this)) ti lb) lv ;;
      coef <- vset_sized coef (iv * dim * codom) (dim * codom) (mflat lv) ;;
      Ok (coef, lv, lb + ti)) (gs_coef this, mnew dim codom, fst (fo_dom f)) ;;
  Ok (mkgs (fo_dom f) codom coef tau (gs_basis this) (gs_bst this) (gs_buf this)).

(** ** Values at the nodes *)
(** get_value_block, 124-148: a view of the coefficients of one interval *)
(* source: src/Collocation/GaussLobattoLagrange.cpp 124-148 *)
Definition value_block (g : gspline T) (iv : nat) : outcome (mat T) :=
  if Nat.leb (gs_n g) iv then Throw InvalidArgument
  else
    let chunk := (gs_dim g * gs_codom g)%nat in
    seg <- vsegment (gs_coef g) (iv * chunk) chunk ;;
    Ok (mkmat (gs_dim g) (gs_codom g) (fun i j => vget seg (j * gs_dim g + i)%nat)).
(** writing through that view *)
(* source: src/Collocation/GaussLobattoLagrange.cpp 124-135 *)
Definition set_block (g : gspline T) (iv : nat) (m : mat T) : outcome (gspline T) :=
  c <- vset_sized (gs_coef g) (iv * (gs_dim g * gs_codom g)) (gs_dim g * gs_codom g) (mflat m) ;;
  Ok (with_coef g c).
(** value_at, 210-218 *)
(* source: src/Collocation/GaussLobattoLagrange.cpp 210-218 *)
Definition value_at (g : gspline T) (i : nat) : outcome (vec T) :=
  if Nat.leb (gs_dim g * gs_n g) i then Throw InvalidArgument
  else
    m <- value_block g (i / gs_dim g) ;;
    mrow m (i mod gs_dim g).
(** a loop over the intervals that rewrites each block of [g] *)
(* source: the loops [for interval], src/Collocation/GaussLobattoLagrange.cpp 223-563 *)
Definition map_blocks (h : nat -> mat T -> outcome (mat T)) (n : nat) (g : gspline T) : outcome (gspline T) :=
  for_ 0 n (fun iv g => m <- value_block g iv ;; m <- h iv m ;; set_block g iv m) g.
(* source: Eigen array expressions, src/Collocation/GaussLobattoLagrange.cpp 223-563 *)
Definition mmap (f : nat -> nat -> option T -> option T) (m : mat T) : mat T :=
  mkmat (mrows m) (mcols m) (fun i j => f i j (mget m i j)).

(** ** Pointwise operations *)
(** The member function FunctionBase::same_domain.  It compares relative to the size of the ends, unlike the static function of the
    same name (FunctionBase.cpp 27-35) that expressions use. *)
(* source: src/Functions/FunctionBase.cpp 92-97, 11 *)
Definition same_ends (d1 d2 : T * T) : bool := approx_eq (snd d1) (snd d2) dom_tol && approx_eq (fst d1) (fst d2) dom_tol.
(** operator*, 223-358, over the value categories of the operands.  Where a
    block of the modified operand is read again it is the one of the same interval, already in its
    final place, and only its column 0 with codomain 1: the element-wise product in place. *)
(* source: src/Collocation/GaussLobattoLagrange.cpp 223-358 *)
Definition gll_mul (o : GSplineModel.overload) (this that : gspline T) : outcome (gspline T) :=
  _ <- require (same_discretization this that) ;;
  _ <- require (same_ends (gs_dom this) (gs_dom that)) ;;
  _ <- require (Nat.eqb (gs_codom this) 1 || Nat.eqb (gs_codom that) 1) ;;
  let scalar := if Nat.eqb (gs_codom that) 1 then that else this in
  let on_this := Nat.eqb (gs_codom that) 1 in
  let vector := if on_this then this else that in
  let in_place := match o with
    | GSplineModel.LL => false
    | GSplineModel.RL => on_this          (* 270-279 *)
    | GSplineModel.LR => negb on_this     (* 308-317 *)
    | GSplineModel.RR => true
    end in
  start <- (if in_place then Ok vector else gs_copy vector) ;;
  r <- map_blocks (fun iv m =>
      s <- value_block scalar iv ;;
      if Nat.eqb (mcols s) 0 then UB
      else Ok (mmap (fun i _ x => olift2 nmul x (mget s i 0)) m)) (gs_n this) start ;;
  Ok (if in_place then gs_move r else r).

(** scalar multiples and unary minus, 359-388 *)
(* source: src/Collocation/GaussLobattoLagrange.cpp 359-388 *)
Definition gll_scale (rv : bool) (a : T) (g : gspline T) : outcome (gspline T) :=
  if rv then Ok (gs_move (with_coef g (vscale (gs_coef g) a)))
  else r <- gs_copy g ;; Ok (with_coef r (vscale (gs_coef r) a)).
(* source: src/Collocation/GaussLobattoLagrange.cpp 378-388 *)
Definition gll_neg (rv : bool) (g : gspline T) : outcome (gspline T) := gll_scale rv (- n1) g.

(** norm, 390-406 *)
(* source: src/Collocation/GaussLobattoLagrange.cpp 390-406 *)
Definition row_norm (m : mat T) (i : nat) : option T :=
  option_map nsqrt (osum (mcols m) (fun j => option_map (fun x => x * x) (mget m i j))).
(* source: src/Collocation/GaussLobattoLagrange.cpp 390-406 *)
Definition gll_norm (g : gspline T) : outcome (gspline T) :=
  coef <- for_ 0 (gs_n g) (fun iv coef =>
      m <- value_block g iv ;;
      vset_segment coef (iv * gs_dim g) (mkvec (gs_dim g) (row_norm m))) (vnew (gs_dim g * gs_n g)) ;;
  gll_make (gs_dom g) 1 (gs_n g) (gs_dim g) coef (gs_tau g).

(** pow, 408-428 *)
(* source: src/Collocation/GaussLobattoLagrange.cpp 408-428 *)
Definition gll_pow (rv : bool) (g : gspline T) (e : T) : outcome (gspline T) :=
  _ <- require (Nat.eqb (gs_codom g) 1) ;;
  if rv then Ok (gs_move (with_coef g (vmap1 (fun x => npow x e) (gs_coef g))))
  else r <- gs_copy g ;; Ok (with_coef r (vmap1 (fun x => npow x e) (gs_coef g))).

(** vector + spline, vector - spline, spline - vector, 448-538; [f v x] is
    the new value for component value [x] and vector entry [v] *)
(* source: src/Collocation/GaussLobattoLagrange.cpp 448-538 *)
Definition gll_rowwise (f : T -> T -> T) (rv : bool) (v : vec T) (g : gspline T) : outcome (gspline T) :=
  _ <- require (Nat.eqb (vlen v) (gs_codom g)) ;;
  start <- (if rv then Ok g else gs_copy g) ;;
  r <- map_blocks (fun _ m => Ok (mmap (fun _ j x => olift2 f (vget v j) x) m)) (gs_n g) start ;;
  Ok (if rv then gs_move r else r).
(* source: src/Collocation/GaussLobattoLagrange.cpp 448-482 *)
Definition gll_vec_plus : bool -> vec T -> gspline T -> outcome (gspline T) := gll_rowwise (fun v x => x + v).
(* source: src/Collocation/GaussLobattoLagrange.cpp 484-512 *)
Definition gll_vec_minus : bool -> vec T -> gspline T -> outcome (gspline T) := gll_rowwise (fun v x => - x + v).
(* source: src/Collocation/GaussLobattoLagrange.cpp 513-538 *)
Definition gll_minus_vec : bool -> vec T -> gspline T -> outcome (gspline T) := gll_rowwise (fun v x => x - v).

(** number / spline, 540-563 *)
(* source: src/Collocation/GaussLobattoLagrange.cpp 540-563 *)
Definition gll_div (rv : bool) (a : T) (g : gspline T) : outcome (gspline T) :=
  _ <- require (Nat.eqb (gs_codom g) 1) ;;
  start <- (if rv then Ok g else gs_copy g) ;;
  r <- map_blocks (fun _ m => Ok (mmap (fun _ _ x => option_map (fun y => a / y) x) m)) (gs_n g) start ;;
  Ok (if rv then gs_move r else r).

(** set_from_array, .hpp 134-161, for a list of column vectors ([_fun] applied
    to the elements).  The exceptions built on 154 and 157 are not thrown; [row(k) = vec] with a column
    vector of the wrong size fails Eigen's size check. *)
Definition gll_set_from_array (this : gspline T) (dom : T * T) (vals : list (vec T)) : outcome (gspline T) :=
  if negb (Nat.eqb (length vals) (gs_dim this * gs_n this)) then Throw RuntimeError
  else
    total <- of_option (osum (gs_n this) (vget (gs_tau this))) ;;
    let tau := vscale (gs_tau this) ((snd dom - fst dom) / total) in
    let g := mkgs dom (gs_codom this) (gs_coef this) tau (gs_basis this) (gs_bst this) (gs_buf this) in
    for_ 0 (length vals) (fun idx g =>
      v <- of_option (nth_error vals idx) ;;
      m <- value_block g (idx / gs_dim this) ;;
      if Nat.eqb (vlen v) (mcols m)
      then set_block g (idx / gs_dim this) (mmap (fun i j x => if Nat.eqb i (idx mod gs_dim this) then vget v j else x) m)
      else UB) g.
End GLL.
Arguments fobj T : clear implicits.
