(** Model of the collocation functionals
    (include/gsplines/Collocation/GaussLobattoLagrangeFunctionals.hpp, ...Functionals.cpp).

    A sparse matrix is represented by its values, absent coefficients being 0;
    which zeros are stored is left out. *)
From Coq Require Import List Arith Bool ZArith.
From Verif Require Import Num Outcome LinAlg LegendreModel LagrangeModel Basis0101Model BasisModel ToolsModel FunModel GSplineModel GLModel GLLModel.
Import ListNotations.
Local Open Scope num_scope.

Section GLF.
Context {T : Type} `{Num T}.
Variable fresh : nat -> nat -> option T.

(* source: a sparse matrix by its values, mat_ of LinearFunctionalSparse; to_dense_matrix 157-167 *)
Definition sdense (m : smat T) : mat T :=
  mkmat (srows m) (scols m) (fun i j => match sget m i j with Some x => Some x | None => Some n0 end).

(** ** LinearFunctional, .hpp 46-200.  The object is its matrix; the result of
    a binary operator has the type of its left operand (injected class name), so nothing refers to a temporary. *)
(** coefficient-wise [+], [-] of matrices *)
Definition mzip (f : T -> T -> T) (a b : mat T) : outcome (mat T) :=
  if Nat.eqb (mrows a) (mrows b) && Nat.eqb (mcols a) (mcols b)
  then Ok (mkmat (mrows a) (mcols a) (fun i j => olift2 f (mget a i j) (mget b i j)))
  else UB.
(** operator*(functional), operator+, operator-, unary operator-, number times functional: 118-136, 189-200 *)
(* source: include/gsplines/Collocation/GaussLobattoLagrangeFunctionals.hpp 118-136, 189-200 *)
Definition lf_mul (a b : mat T) : outcome (mat T) := mmul a b.
(* source: include/gsplines/Collocation/GaussLobattoLagrangeFunctionals.hpp 123-126 *)
Definition lf_add (a b : mat T) : outcome (mat T) := mzip nadd a b.
(* source: include/gsplines/Collocation/GaussLobattoLagrangeFunctionals.hpp 127-130 *)
Definition lf_sub (a b : mat T) : outcome (mat T) := mzip nsub a b.
(* source: include/gsplines/Collocation/GaussLobattoLagrangeFunctionals.hpp 132-136 *)
Definition lf_neg (a : mat T) : mat T := mscale a (- n1).
(* source: include/gsplines/Collocation/GaussLobattoLagrangeFunctionals.hpp 189-200 *)
Definition lf_scale (x : T) (a : mat T) : mat T := mscale a x.
(** operator()(spline), 138-141 *)
(* source: include/gsplines/Collocation/GaussLobattoLagrangeFunctionals.hpp 138-141 *)
Definition lf_call (m : mat T) (g : gspline T) : outcome (vec T) := mvmul m (gs_coef g).
(** operator*(spline), 143-155: an unsigned division by zero is undefined *)
(* source: include/gsplines/Collocation/GaussLobattoLagrangeFunctionals.hpp 143-155 *)
Definition lf_spline (m : mat T) (g : gspline T) : outcome (gspline T) :=
  coef <- mvmul m (gs_coef g) ;;
  if Nat.eqb (gs_n g) 0 || Nat.eqb (gs_dim g) 0 then UB
  else gll_make fresh (gs_dom g) (mrows m / gs_n g / gs_dim g) (gs_n g) (gs_dim g) coef (gs_tau g).

(** ** Derivative, .hpp 206-227, .cpp 13-53: the owned basis with its caches, sizes, matrix *)
Record deriv_op := mkdop { do_basis : basis T; do_bst : bstate T; do_n : nat; do_codom : nat; do_deg : nat; do_mat : mat T }.
(* source: src/Collocation/GaussLobattoLagrangeFunctionals.cpp 29-33 *)
Definition dop_set (b : basis T) (s : bstate T) (n n' codom deg : nat) (taus : vec T) : outcome deriv_op :=
  '(m, s) <- gspline_derivative_matrix b n' codom deg taus s ;;
  Ok (mkdop b s n codom deg (sdense m)).
(** constructor from lengths, .cpp 21-33 *)
Definition dop_ctor (codom nglp : nat) (taus : vec T) (deg : nat) : outcome deriv_op :=
  b <- gll_basis fresh nglp ;;
  dop_set b (bs_init b) (vlen taus) (vlen taus) codom deg taus.
(** constructor from a domain, .cpp 13-19 *)
Definition dop_ctor_uniform (dom : T * T) (codom nglp n deg : nat) : outcome deriv_op :=
  dop_ctor codom nglp (vmap1 (fun x => x / nofnat n) (ones_times n (snd dom - fst dom))) deg.
(** constructor from a spline, .cpp 35-37 (degree 1) *)
Definition dop_of (g : gspline T) : outcome deriv_op := dop_ctor (gs_codom g) (gs_dim g) (gs_tau g) 1.
(** update, .cpp 39-53 *)
Definition dop_update (d : deriv_op) (taus : vec T) : outcome deriv_op :=
  dop_set (do_basis d) (do_bst d) (do_n d) (vlen taus) (do_codom d) (do_deg d) taus.
(* source: src/Collocation/GaussLobattoLagrangeFunctionals.cpp 47-53 *)
Definition dop_update_const (d : deriv_op) (tau : T) : outcome deriv_op :=
  dop_set (do_basis d) (do_bst d) (do_n d) (do_n d) (do_codom d) (do_deg d) (vconst (do_n d) tau).

(** ** TransposeLeftMultiplication, .hpp 229-321 *)
(** the loops 257-268 (281-293, 305-317) *)
Definition tlm_fill (n codom nglp : nat) (v : vec T) (m : mat T) : outcome (mat T) :=
  for_ 0 n (fun iv m =>
    for_ 0 codom (fun cc m =>
      for_ 0 nglp (fun i m =>
        x <- vread v (iv * nglp * codom + cc * nglp + i) ;;
        mwrite m (iv * nglp + i) (cc * nglp + iv * nglp * codom + i) x) m) m) m.
(** nglp_, n_inter_, codom_dim_, mat_ *)
(* source: include/gsplines/Collocation/GaussLobattoLagrangeFunctionals.hpp 229-233 *)
Record tlm := mktlm { tl_nglp : nat; tl_n : nat; tl_codom : nat; tl_mat : mat T }.
(* source: include/gsplines/Collocation/GaussLobattoLagrangeFunctionals.hpp 236-240 *)
Definition tlm_new (codom nglp n : nat) : tlm := mktlm nglp n codom (mzero (nglp * n) (nglp * n * codom)).
(* source: include/gsplines/Collocation/GaussLobattoLagrangeFunctionals.hpp 242-270 *)
Definition tlm_of (g : gspline T) : outcome tlm :=
  let z := tlm_new (gs_codom g) (gs_dim g) (gs_n g) in
  m <- tlm_fill (tl_n z) (tl_codom z) (tl_nglp z) (gs_coef g) (tl_mat z) ;;
  Ok (mktlm (tl_nglp z) (tl_n z) (tl_codom z) m).
(** operator=(spline), 298-320: only the codomain is compared *)
(* source: include/gsplines/Collocation/GaussLobattoLagrangeFunctionals.hpp 298-320 *)
Definition tlm_assign (a : tlm) (g : gspline T) : outcome tlm :=
  _ <- require (Nat.eqb (gs_codom g) (tl_codom a)) ;;
  m <- tlm_fill (tl_n a) (tl_codom a) (tl_nglp a) (gs_coef g) (tl_mat a) ;;
  Ok (mktlm (tl_nglp a) (tl_n a) (tl_codom a) m).
(** operator=(FunctionBase), 272-296 *)
(* source: include/gsplines/Collocation/GaussLobattoLagrangeFunctionals.hpp 272-296 *)
Definition tlm_assign_fun (a : tlm) (f : fobj T) : outcome tlm :=
  _ <- require (Nat.eqb (fo_codom f) (tl_codom a)) ;;
  g <- gll_approximate fresh f (tl_nglp a) (tl_n a) ;;
  m <- tlm_fill (tl_n a) (tl_codom a) (tl_nglp a) (gs_coef g) (tl_mat a) ;;
  Ok (mktlm (tl_nglp a) (tl_n a) (tl_codom a) m).

(** ** MatrixLeftMultiplication, .hpp 322-416 *)
Record mlm := mkmlm { ml_nglp : nat; ml_n : nat; ml_cols : nat; ml_rows : nat; ml_mat : mat T }.
(** 330-355: a pattern of stored zeros *)
(* source: include/gsplines/Collocation/GaussLobattoLagrangeFunctionals.hpp 330-355 *)
Definition mlm_new (cols nglp n rows : nat) : mlm :=
  mkmlm nglp n cols rows (mzero (nglp * n * rows) (nglp * n * cols)).
(* source: include/gsplines/Collocation/GaussLobattoLagrangeFunctionals.hpp 322-408, change of mat_ *)
Definition mlm_with (a : mlm) (m : mat T) : mlm := mkmlm (ml_nglp a) (ml_n a) (ml_cols a) (ml_rows a) m.
(** positions 378-381, 400-403 *)
(* source: include/gsplines/Collocation/GaussLobattoLagrangeFunctionals.hpp 378-381, 400-403 *)
Definition mlm_i0 (a : mlm) (idx row : nat) : nat :=
  (row * ml_nglp a + idx / ml_nglp a * ml_nglp a * ml_rows a + idx mod ml_nglp a)%nat.
(* source: include/gsplines/Collocation/GaussLobattoLagrangeFunctionals.hpp 378-381, 400-403 *)
Definition mlm_j0 (a : mlm) (idx col : nat) : nat :=
  (col * ml_nglp a + idx / ml_nglp a * ml_nglp a * ml_cols a + idx mod ml_nglp a)%nat.
(** update(begin, end, fun), 357-386, on the list of matrices [fun] yields *)
(* source: include/gsplines/Collocation/GaussLobattoLagrangeFunctionals.hpp 357-386 *)
Definition mlm_update (a : mlm) (ms : list (mat T)) : outcome mlm :=
  if negb (Nat.eqb (length ms) (ml_nglp a * ml_n a)) then Throw RuntimeError
  else
    m <- for_ 0 (length ms) (fun idx m =>
        p <- of_option (nth_error ms idx) ;;
        if negb (Nat.eqb (mcols p) (ml_cols a)) || negb (Nat.eqb (mrows p) (ml_rows a)) then Throw RuntimeError
        else
          for_ 0 (ml_cols a) (fun col m =>
            for_ 0 (ml_rows a) (fun row m =>
              x <- mread p row col ;;
              mwrite m (mlm_i0 a idx row) (mlm_j0 a idx col) x) m) m) (ml_mat a) ;;
    Ok (mlm_with a m).
(** update(matrix), 387-408: the row loop runs to matrix_cols_ (398) and the
    value stored is [_mat(col, row)] (404) *)
(* source: include/gsplines/Collocation/GaussLobattoLagrangeFunctionals.hpp 387-408, 398, 404 *)
Definition mlm_update_const (a : mlm) (p : mat T) : outcome mlm :=
  if negb (Nat.eqb (mrows p) (ml_rows a)) || negb (Nat.eqb (mcols p) (ml_cols a)) then Throw RuntimeError
  else
    m <- for_ 0 (ml_n a * ml_nglp a) (fun idx m =>
        for_ 0 (ml_cols a) (fun col m =>
          for_ 0 (ml_cols a) (fun row m =>
            x <- mread p col row ;;
            mwrite m (mlm_i0 a idx row) (mlm_j0 a idx col) x) m) m) (ml_mat a) ;;
    Ok (mlm_with a m).

(** ** ContinuityError, .hpp 418-445: the matrix of the constructor from lengths *)
Definition cont_error (nglp : nat) (taus : vec T) (codom deg : nat) : outcome (mat T) :=
  b <- gll_basis fresh nglp ;;
  '(m, _) <- continuity_matrix b (vlen taus) codom deg taus (bs_init b) ;;
  Ok (sdense m).

(** ** Integral, .hpp 447-459, .cpp 58-81: a row of weights *)
Definition row_of (v : vec T) : mat T := mkmat 1 (vlen v) (fun _ j => vget v j).
(* source: src/Collocation/GaussLobattoLagrangeFunctionals.cpp 58-63 *)
Definition int_ctor (dom : T * T) (nglp n : nat) : outcome (mat T) :=
  w <- gl_grid_weights (fst dom) (snd dom) nglp n ;; Ok (row_of w).
(* source: src/Collocation/GaussLobattoLagrangeFunctionals.cpp 65-67 *)
Definition int_of (g : gspline T) : outcome (mat T) := int_ctor (gs_dom g) (gs_dim g) (gs_n g).
(** update(intervals), 75-81: compares with the number of rows *)
(* source: src/Collocation/GaussLobattoLagrangeFunctionals.cpp 75-81 *)
Definition int_update (nglp : nat) (m : mat T) (taus : vec T) : outcome (mat T) :=
  if negb (Nat.eqb (vlen taus * nglp) (mrows m)) then Throw InvalidArgument
  else w <- gl_lens_weights nglp taus ;; Ok (row_of w).

(** ** SobolevDistance, .hpp 461-478, .cpp 86-113.  The arguments of the
    constructor are the function and its derivative; [_deg] is unused. *)
Record sdist := mksd { sd_approx : gspline T; sd_approx_d : gspline T; sd_int : mat T; sd_der : mat T }.
(* source: src/Collocation/GaussLobattoLagrangeFunctionals.cpp 86-95 *)
Definition sd_ctor (f fd : fobj T) (nglp n : nat) : outcome sdist :=
  a <- gll_approximate fresh f nglp n ;;
  ad <- gll_approximate fresh fd nglp n ;;
  i <- int_of a ;;
  d <- dop_of a ;;
  Ok (mksd a ad i (do_mat d)).
(** the two operators built by both methods, 99-100 and 107-108, with their splines *)
(* source: src/Collocation/GaussLobattoLagrangeFunctionals.cpp 99-100, 107-108 *)
Definition sd_parts (s : sdist) (g : gspline T) : outcome (gspline T * tlm * gspline T * tlm) :=
  e <- gs_minus GSplineModel.LL (sd_approx s) g ;;
  t1 <- tlm_of e ;;
  dg <- lf_spline (sd_der s) g ;;
  ed <- gs_minus GSplineModel.LR (sd_approx_d s) dg ;;
  t2 <- tlm_of ed ;;
  Ok (e, t1, ed, t2).
(** operator(), 97-103; the splines of 99-100 are computed again on 102 *)
(* source: src/Collocation/GaussLobattoLagrangeFunctionals.cpp 97-103 *)
Definition sd_value (s : sdist) (g : gspline T) : outcome (vec T) :=
  '(e, t1, ed, t2) <- sd_parts s g ;;
  p <- lf_spline (tl_mat t1) e ;;
  q <- lf_spline (tl_mat t2) ed ;;
  r <- gs_plus GSplineModel.RR p q ;;
  lf_call (sd_int s) r.
(** the matrix differential() stores, 105-112 *)
(* source: src/Collocation/GaussLobattoLagrangeFunctionals.cpp 105-112 *)
Definition sd_diff_matrix (s : sdist) (g : gspline T) : outcome (mat T) :=
  '(_, t1, _, t2) <- sd_parts s g ;;
  p <- lf_mul (tl_mat t2) (sd_der s) ;;
  q <- lf_add (tl_mat t1) p ;;
  lf_mul (lf_scale (- (nofZ 2)) (sd_int s)) q.
(** differential(): the object keeps one matrix, which every call overwrites and
    whose address it returns; [n] calls return the same address *)
(* source: diff_, include/gsplines/Collocation/GaussLobattoLagrangeFunctionals.hpp 461-478, src/Collocation/GaussLobattoLagrangeFunctionals.cpp 94-95, 110 *)
Record dheap := mkdh { dh_diff : mat T }.
(* source: src/Collocation/GaussLobattoLagrangeFunctionals.cpp 105-113 *)
Definition sd_differential (s : sdist) (h : dheap) (g : gspline T) : outcome dheap :=
  m <- sd_diff_matrix s g ;; Ok (mkdh m).
End GLF.
Arguments deriv_op T : clear implicits.
Arguments tlm T : clear implicits.
Arguments mlm T : clear implicits.
Arguments sdist T : clear implicits.
