(** Model of gsplines::Interpolator (include/gsplines/Interpolator.hpp,
    src/Interpolator.cpp) and of random_gspline (src/GSpline.cpp 224-247).

    The sparse LU factorisation of Eigen is an argument [lu] of the functions that use
    it: [lu A = None] when info() is not Success after compute(A), and [lu A = Some f] when it is,
    [f b] being what solve(b) returns.  The row and column counters of the source are unsigned int; systems
    with 2^32 rows or more are not modelled.  The printing member functions are left out. *)
From Coq Require Import List Arith Bool ZArith.
From Verif Require Import Num Outcome LinAlg LegendreModel LagrangeModel Basis0101Model BasisModel ToolsModel GSplineModel.
Import ListNotations.
Local Open Scope num_scope.

Section Interp.
Context {T : Type} `{Num T}.

(** [m.coeffRef(i, j) = x]: creates the coefficient when it does not exist *)
(* source: [coeffRef], src/Interpolator.cpp 182-234 *)
Definition sset (m : smat T) (i j : nat) (x : T) : outcome (smat T) :=
  if Nat.ltb i (srows m) && Nat.ltb j (scols m)
  then Ok (mksmat (srows m) (scols m) (fun a b => if (a =? i)%nat && (b =? j)%nat then Some x else sget m a b))
  else UB.
(** [m * v]: only the stored coefficients take part; columns in increasing order *)
(* source: Eigen sparse product, src/Interpolator.cpp 339 *)
Fixpoint srow_dot (m : smat T) (v : vec T) (i n : nat) : option T :=
  match n with
  | O => Some n0
  | S k => match sget m i k with
           | None => srow_dot m v i k
           | Some x => olift2 nadd (srow_dot m v i k) (option_map (fun y => x * y) (vget v k))
           end
  end.
(* source: src/Interpolator.cpp 339 *)
Definition smvmul (m : smat T) (v : vec T) : outcome (vec T) :=
  if Nat.eqb (scols m) (vlen v) then Ok (mkvec (srows m) (fun i => srow_dot m v i (scols m))) else UB.
(** [m.col(j)] as an argument and as a result *)
(* source: src/Interpolator.cpp 235-253 *)
Definition mcol (m : mat T) (j : nat) : outcome (vec T) :=
  if Nat.ltb j (mcols m) then Ok (mkvec (mrows m) (fun i => mget m i j)) else UB.
(* source: src/Interpolator.cpp 235-253 *)
Definition mset_col (m : mat T) (j : nat) (v : vec T) : outcome (mat T) :=
  if Nat.ltb j (mcols m) && Nat.eqb (mrows m) (vlen v)
  then Ok (mkmat (mrows m) (mcols m) (fun a b => if Nat.eqb b j then vget v a else mget m a b))
  else UB.

(** The object, Interpolator.hpp 13-32: basis_ with its caches, codom_dim_, num_intervals_, interpolating_matrix_,
    interpolating_vector_, coefficients_vector_, position_buffer_, derivative_buffer_tranposed_,
    interpolation_matrix_ders_, sol_buffer_.  The members that are never read are left out. *)
Record interp := mkip {
  ip_basis : basis T;
  ip_bst : bstate T;
  ip_codom : nat;
  ip_n : nat;
  ip_mat : smat T;
  ip_rhs : vec T;
  ip_coef : vec T;
  ip_pos : vec T;
  ip_der : mat T;
  ip_ders : list (smat T);
  ip_sol : vec T
}.
(* source: basis_->get_dim(), src/Interpolator.cpp 9-45 *)
Definition ip_dim (ip : interp) : nat := b_dim (ip_basis ip).

(** constructor, Interpolator.cpp 9-45.  A basis without functions would make
    [get_dim() - 2] wrap in line 25. *)
Definition ip_ctor (codom n : nat) (b : basis T) (bst : bstate T) : outcome interp :=
  let dim := b_dim b in
  let size := (dim * codom * n)%nat in
  if negb (Nat.eqb (dim mod 2) 0) then Throw InvalidArgument
  else if Nat.ltb dim 2 then UB
  else Ok (mkip b (bs_copy bst) codom n (snew size size) (vconst size n0) (vnew size)
                (vnew dim) (mnew dim (dim - 2)) (repeat (snew size size) n) (vnew 0)).

(** fill_position_block, 182-193 *)
(* source: src/Interpolator.cpp 182-193 *)
Definition fill_position (codom dim i0 j0 : nat) (pos : vec T) (m : smat T) : outcome (smat T) :=
  for_ 0 codom (fun cc m =>
    for_ 0 dim (fun bb m =>
      x <- vread pos bb ;; sset m (i0 + cc)%nat (j0 + dim * cc + bb)%nat x) m) m.
(** fill_continuity_derivative_block, 194-215 *)
(* source: src/Interpolator.cpp 194-215 *)
Definition fill_continuity (codom dim i0 j0 : nat) (minus : bool) (der : mat T) (m : smat T) : outcome (smat T) :=
  let k : T := if minus then - n1 else n1 in
  for_ 0 codom (fun cc m =>
    for_ 0 dim (fun bb m =>
      for_ 0 (dim - 2) (fun d m =>
        x <- mread der bb d ;; sset m (i0 + cc * (dim - 2) + d)%nat (j0 + dim * cc + bb)%nat (k * x)) m) m) m.
(** fill_boundary_derivative_block, 217-234 *)
(* source: src/Interpolator.cpp 217-234 *)
Definition fill_boundary (codom dim i0 j0 : nat) (der : mat T) (m : smat T) : outcome (smat T) :=
  for_ 0 codom (fun cc m =>
    for_ 0 (dim / 2 - 1)%nat (fun d m =>
      for_ 0 dim (fun bb m =>
        x <- mread der bb d ;; sset m (i0 + cc * (dim / 2 - 1) + d)%nat (j0 + dim * cc + bb)%nat x) m) m) m.

(** fill_buffers 235-243 and fill_buffers_deriv_wrt_tau 245-253: [ev] is the virtual function that is called *)
(* source: src/Interpolator.cpp 235-243, 245-253 *)
Definition fill_bufs (ev : T -> T -> nat -> vec T -> outcome (vec T)) (dim : nat) (s tau : T) (bufs : vec T * mat T)
  : outcome (vec T * mat T) :=
  let '(pos, der) := bufs in
  pos <- ev s tau 0%nat pos ;;
  der <- for_ 0 (dim - 2) (fun d der =>
           c <- mcol der d ;; v <- ev s tau (S d) c ;; mset_col der d v) der ;;
  Ok (pos, der).

(** one pass of the loop body 82-96: interval [iv]; the state is (i0, j0, buffers, matrix) *)
(* source: src/Interpolator.cpp 82-96 *)
Definition fill_interior (b : basis T) (codom : nat) (tau : vec T) (iv : nat)
  (st : nat * nat * (vec T * mat T) * smat T) : outcome (nat * nat * (vec T * mat T) * smat T) :=
  let dim := b_dim b in
  let '(i0, j0, bufs, m) := st in
  ti <- vread tau iv ;;
  bufs <- fill_bufs (b_eval_deriv b) dim (- n1) ti bufs ;;
  m <- fill_continuity codom dim i0 j0 true (snd bufs) m ;;
  let i0 := (i0 + codom * (dim - 2))%nat in
  m <- fill_position codom dim i0 j0 (fst bufs) m ;;
  let i0 := (i0 + codom)%nat in
  bufs <- fill_bufs (b_eval_deriv b) dim n1 ti bufs ;;
  m <- fill_position codom dim i0 j0 (fst bufs) m ;;
  let i0 := (i0 + codom)%nat in
  m <- fill_continuity codom dim i0 j0 false (snd bufs) m ;;
  Ok (i0, (j0 + codom * dim)%nat, bufs, m).
(** lines 98-110 *)
(* source: src/Interpolator.cpp 98-110 *)
Definition fill_last (b : basis T) (codom n : nat) (tau : vec T) (st : nat * nat * (vec T * mat T) * smat T)
  : outcome ((vec T * mat T) * smat T) :=
  let dim := b_dim b in
  let '(i0, j0, bufs, m) := st in
  ti <- vread tau (n - 1) ;;
  bufs <- fill_bufs (b_eval_deriv b) dim (- n1) ti bufs ;;
  m <- fill_continuity codom dim i0 j0 true (snd bufs) m ;;
  let i0 := (i0 + codom * (dim - 2))%nat in
  m <- fill_position codom dim i0 j0 (fst bufs) m ;;
  let i0 := (i0 + codom)%nat in
  bufs <- fill_bufs (b_eval_deriv b) dim n1 ti bufs ;;
  m <- fill_boundary codom dim i0 j0 (snd bufs) m ;;
  let i0 := (i0 + codom * (dim / 2 - 1))%nat in
  m <- fill_position codom dim i0 j0 (fst bufs) m ;;
  Ok (bufs, m).
(** fill_interpolating_matrix 48-111, on the members it changes *)
(* source: src/Interpolator.cpp 48-111 *)
Definition fill_matrix (b : basis T) (codom n : nat) (tau : vec T) (bufs : vec T * mat T) (m : smat T)
  : outcome ((vec T * mat T) * smat T) :=
  let dim := b_dim b in
  if negb (Nat.eqb (vlen tau) n) then Throw LogicError
  else
    ti <- vread tau 0 ;;
    bufs <- fill_bufs (b_eval_deriv b) dim (- n1) ti bufs ;;
    m <- fill_position codom dim 0 0 (fst bufs) m ;;
    let i0 := codom in
    m <- fill_boundary codom dim i0 0 (snd bufs) m ;;
    let i0 := (i0 + codom * (dim / 2 - 1))%nat in
    bufs <- fill_bufs (b_eval_deriv b) dim n1 ti bufs ;;
    m <- fill_position codom dim i0 0 (fst bufs) m ;;
    let i0 := (i0 + codom)%nat in
    if Nat.eqb n 1 then
      m <- fill_boundary codom dim i0 0 (snd bufs) m ;; Ok (bufs, m)
    else
      m <- fill_continuity codom dim i0 0 false (snd bufs) m ;;
      st <- for_ 1 (n - 1) (fill_interior b codom tau) (i0, (codom * dim)%nat, bufs, m) ;;
      fill_last b codom n tau st.

(** one of the loops over the components in fill_interpolating_vector: row [w] of the waypoints to the
    positions from [pos] on *)
(* source: src/Interpolator.cpp 118-121, 123-126, 132-141, 144-148, 150-153 *)
Definition put_waypoint (codom : nat) (wp : mat T) (w : nat) (st : nat * vec T) : outcome (nat * vec T) :=
  for_ 0 codom (fun cc (st : nat * vec T) =>
    let '(pos, v) := st in
    x <- mread wp w cc ;; v <- vwrite v pos x ;; Ok (S pos, v)) st.
(* source: the counter advances over the zero rows, src/Interpolator.cpp 122, 130, 142, 149 *)
Definition skip_rows (k : nat) (st : nat * vec T) : nat * vec T := ((fst st + k)%nat, snd st).
(** fill_interpolating_vector, 112-154: the shape of the waypoint matrix is not checked *)
(* source: src/Interpolator.cpp 112-154 *)
Definition fill_vector (codom dim n : nat) (wp : mat T) (v : vec T) : outcome (vec T) :=
  st <- put_waypoint codom wp 0 (0%nat, v) ;;
  st <- put_waypoint codom wp 1 (skip_rows (codom * (dim / 2 - 1)) st) ;;
  if Nat.eqb n 1 then Ok (snd st)
  else
    st <- for_ 1 (n - 1) (fun iv st =>
            st <- put_waypoint codom wp iv st ;;
            st <- put_waypoint codom wp (iv + 1) st ;;
            Ok (skip_rows (codom * (dim - 2)) st)) (skip_rows (codom * (dim - 2)) st) ;;
    st <- put_waypoint codom wp (n - 1) st ;;
    st <- put_waypoint codom wp n (skip_rows (codom * (dim / 2 - 1)) st) ;;
    Ok (snd st).

(** [(v.array() < x).any()] *)
(* source: src/Interpolator.cpp 350 *)
Definition any_below (v : vec T) (x : T) : outcome bool :=
  for_ 0 (vlen v) (fun i acc => y <- vread v i ;; Ok (orb acc (y <? x))) false.

(** solve_interpolation, 346-370: the returned vector and the object afterwards.  An exception leaves the
    object as it was (both checks come before any change). *)
(* source: src/Interpolator.cpp 346-370 *)
Definition ip_solve (lu : smat T -> option (vec T -> vec T)) (ip : interp) (tau : vec T) (wp : mat T)
  : outcome (vec T * interp) :=
  bad <- any_below tau (ten_m 6) ;;
  if bad then Throw InvalidArgument
  else
    '(pos, der, m) <- fill_matrix (ip_basis ip) (ip_codom ip) (ip_n ip) tau (ip_pos ip, ip_der ip) (ip_mat ip) ;;
    v <- fill_vector (ip_codom ip) (ip_dim ip) (ip_n ip) wp (ip_rhs ip) ;;
    let sol := match lu m with None => ip_sol ip | Some f => f v end in
    Ok (sol, mkip (ip_basis ip) (ip_bst ip) (ip_codom ip) (ip_n ip) m v (ip_coef ip) pos der (ip_ders ip) sol).

(** interpolate, 156-165 ([sum] added left to right) *)
(* source: src/Interpolator.cpp 156-165 *)
Definition ip_interpolate (lu : smat T -> option (vec T -> vec T)) (ip : interp) (tau : vec T) (wp : mat T)
  : outcome (gspline T * interp) :=
  '(sol, ip) <- ip_solve lu ip tau wp ;;
  s <- of_option (osum (vlen tau) (vget tau)) ;;
  g <- gs_ctor (n0, s) (ip_codom ip) (ip_n ip) (ip_basis ip) (ip_bst ip) sol tau ;;
  Ok (g, ip).

(** lines 270-337: the blocks of the derivative of the matrix with respect to length [idx] *)
(* source: src/Interpolator.cpp 270-337 *)
Definition fill_matrix_tau (b : basis T) (codom n : nat) (tau : vec T) (idx : nat) (bufs : vec T * mat T) (m : smat T)
  : outcome ((vec T * mat T) * smat T) :=
  let dim := b_dim b in
  if Nat.eqb idx 0 then
    ti <- vread tau 0 ;;
    bufs <- fill_bufs (b_eval_deriv_tau b) dim (- n1) ti bufs ;;
    m <- fill_position codom dim 0 0 (fst bufs) m ;;
    let i0 := codom in
    m <- fill_boundary codom dim i0 0 (snd bufs) m ;;
    let i0 := (i0 + codom * (dim / 2 - 1))%nat in
    bufs <- fill_bufs (b_eval_deriv_tau b) dim n1 ti bufs ;;
    m <- fill_position codom dim i0 0 (fst bufs) m ;;
    let i0 := (i0 + codom)%nat in
    m <- (if Nat.eqb n 1 then fill_boundary codom dim i0 0 (snd bufs) m
          else fill_continuity codom dim i0 0 false (snd bufs) m) ;;
    Ok (bufs, m)
  else if Nat.ltb idx (n - 1) then
    let i0 := (2 * codom + codom * (dim / 2 - 1) + (codom * (dim - 2) + 2 * codom) * (idx - 1))%nat in
    let j0 := (idx * dim * codom)%nat in
    ti <- vread tau idx ;;
    bufs <- fill_bufs (b_eval_deriv_tau b) dim (- n1) ti bufs ;;
    m <- fill_continuity codom dim i0 j0 true (snd bufs) m ;;
    let i0 := (i0 + codom * (dim - 2))%nat in
    m <- fill_position codom dim i0 j0 (fst bufs) m ;;
    let i0 := (i0 + codom)%nat in
    bufs <- fill_bufs (b_eval_deriv_tau b) dim n1 ti bufs ;;
    m <- fill_position codom dim i0 j0 (fst bufs) m ;;
    let i0 := (i0 + codom)%nat in
    m <- fill_continuity codom dim i0 j0 false (snd bufs) m ;;
    Ok (bufs, m)
  else if Nat.eqb idx (n - 1) then
    let i0 := ((dim / 2 + 1) * codom + dim * codom * (idx - 1))%nat in
    let j0 := (idx * dim * codom)%nat in
    ti <- vread tau (n - 1) ;;
    bufs <- fill_bufs (b_eval_deriv_tau b) dim (- n1) ti bufs ;;
    m <- fill_continuity codom dim i0 j0 true (snd bufs) m ;;
    let i0 := (i0 + codom * (dim - 2))%nat in
    m <- fill_position codom dim i0 j0 (fst bufs) m ;;
    let i0 := (i0 + codom)%nat in
    bufs <- fill_bufs (b_eval_deriv_tau b) dim n1 ti bufs ;;
    m <- fill_boundary codom dim i0 j0 (snd bufs) m ;;
    let i0 := (i0 + codom * (dim / 2 - 1))%nat in
    m <- fill_position codom dim i0 j0 (fst bufs) m ;;
    Ok (bufs, m)
  else Ok (bufs, m).

(* source: interpolation_matrix_ders_[k] = ..., src/Interpolator.cpp 255-345 *)
Fixpoint list_set {A} (l : list A) (i : nat) (x : A) : list A :=
  match l, i with
  | [], _ => []
  | _ :: r, O => x :: r
  | y :: r, S k => y :: list_set r k x
  end.
(** get_coeff_derivative_wrt_tau, 255-345.  The argument [coef] is taken by value here: in the source it may be a reference to
    coefficients_vector_ itself (RefModel.v).  [_tau_idx < 0] is never true of a size_t.  info() is not looked at after compute; solve()
    on a failed factorisation is an Eigen assertion. *)
(* source: src/Interpolator.cpp 255-345 *)
Definition ip_coeff_tau (lu : smat T -> option (vec T -> vec T)) (ip : interp) (coef tau : vec T) (idx : nat)
  : outcome (vec T * interp) :=
  bad <- any_below tau (ten_m 6) ;;
  if bad then Throw InvalidArgument
  else if negb (Nat.eqb (vlen tau) (ip_n ip)) || Nat.leb (ip_n ip) idx then Ok (ip_coef ip, ip)
  else
    m <- of_option (nth_error (ip_ders ip) idx) ;;
    '(bufs, m) <- fill_matrix_tau (ip_basis ip) (ip_codom ip) (ip_n ip) tau idx (ip_pos ip, ip_der ip) m ;;
    p <- smvmul m coef ;;
    '(pos, der, a) <- fill_matrix (ip_basis ip) (ip_codom ip) (ip_n ip) tau bufs (ip_mat ip) ;;
    match lu a with
    | None => UB
    | Some f =>
      let r := vscale (f p) (- n1) in
      Ok (r, mkip (ip_basis ip) (ip_bst ip) (ip_codom ip) (ip_n ip) a (ip_rhs ip) r pos der (list_set (ip_ders ip) idx m) (ip_sol ip))
    end.

(** ** Call histories (used by C34-C37): an exception is caught by the caller and leaves the object as it was.  The
    solver may behave differently from one call to the next. *)
(* source: no code of its own: a call of solve_interpolation, interpolate or get_coeff_derivative_wrt_tau *)
Inductive ip_call :=
| CallSolve (tau : vec T) (wp : mat T)
| CallTau (coef tau : vec T) (idx : nat).
(* source: no code of its own: the object after a call *)
Definition ip_after (lu : smat T -> option (vec T -> vec T)) (q : ip_call) (ip : interp) : outcome interp :=
  match (match q with CallSolve tau wp => ip_solve lu ip tau wp | CallTau coef tau idx => ip_coeff_tau lu ip coef tau idx end) with
  | Ok (_, ip') => Ok ip'
  | Throw _ => Ok ip
  | UB => UB
  end.
(* source: no code of its own: a sequence of calls *)
Fixpoint ip_run (l : list ((smat T -> option (vec T -> vec T)) * ip_call)) (ip : interp) : outcome interp :=
  match l with
  | [] => Ok ip
  | (lu, q) :: r => ip' <- ip_after lu q ip ;; ip_run r ip'
  end.

(** free interpolate, 372-377 ([rows() - 1] with no row wraps) *)
(* source: src/Interpolator.cpp 372-377 *)
Definition interpolate (lu : smat T -> option (vec T -> vec T)) (tau : vec T) (wp : mat T) (b : basis T) (bst : bstate T)
  : outcome (gspline T) :=
  n <- of_option (usub1 (mrows wp)) ;;
  ip <- ip_ctor (mcols wp) n b bst ;;
  r <- ip_interpolate lu ip tau wp ;;
  Ok (fst r).

(** random_gspline, GSpline.cpp 224-247.  [n], [rt], [rw] are the random draws: a number in 2..10 and the entries, in [-1, 1],
    of the two Random() arrays. *)
Definition random_gspline (lu : smat T -> option (vec T -> vec T)) (dom : T * T) (codom : nat) (b : basis T) (bst : bstate T)
  (n : nat) (rt : vec T) (rw : mat T) : outcome (gspline T) :=
  let tau := mkvec n (fun i => option_map (fun x => c2 + x / c2) (vget rt i)) in
  let wp := mkmat (S n) codom (fun i j => option_map (fun x => nofZ 3%Z * x) (mget rw i j)) in
  g <- interpolate lu tau wp b bst ;;
  gs_linear_scaling g (snd dom).

End Interp.
Arguments interp : clear implicits.
Arguments ip_call : clear implicits.
