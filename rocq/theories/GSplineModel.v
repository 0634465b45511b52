(** Model of gsplines::GSplineBase and gsplines::GSpline
    (include/gsplines/GSpline.hpp, src/GSpline.cpp). *)
From Coq Require Import List Arith Bool ZArith.
From Verif Require Import Num Outcome LinAlg LegendreModel LagrangeModel Basis0101Model BasisModel ToolsModel.
Import ListNotations.
Local Open Scope num_scope.

Section GSpline.
Context {T : Type} `{Num T}.

(** The data of an object: domain_ and codom_dim_ (FunctionBase.hpp 17-19),
    coefficients_, domain_interval_lengths_, the owned basis object with its
    mutable caches, and the mutable basis_buffer_ (GSpline.hpp 29-33).  The name string is left out. *)
Record gspline := mkgs {
  gs_dom : T * T;
  gs_codom : nat;
  gs_coef : vec T;
  gs_tau : vec T;
  gs_basis : basis T;
  gs_bst : bstate T;
  gs_buf : vec T
}.
(** get_number_of_intervals, get_basis_dim: GSpline.hpp 76-80 *)
Definition gs_n (g : gspline) : nat := vlen (gs_tau g).
(* source: get_basis().get_dim(), include/gsplines/Basis/Basis.hpp 97 *)
Definition gs_dim (g : gspline) : nat := b_dim (gs_basis g).

(** constructors, GSpline.cpp 42-89: the number of coefficients is checked
    against the announced number of intervals; the number of interval lengths is
    not.  The basis is cloned.  (The product is computed in size_t; sizes that overflow are not modelled.) *)
Definition gs_ctor (dom : T * T) (codom n : nat) (b : basis T) (bst : bstate T) (coef tau : vec T) : outcome gspline :=
  if Nat.eqb (vlen coef) (n * b_dim b * codom)
  then Ok (mkgs dom codom coef tau b (bs_copy bst) (vnew (b_dim b)))
  else Throw InvalidArgument.
(** copy constructor, GSpline.cpp 15-33 *)
Definition gs_copy (g : gspline) : outcome gspline :=
  if Nat.eqb (vlen (gs_coef g)) (gs_n g * gs_dim g * gs_codom g)
  then Ok (mkgs (gs_dom g) (gs_codom g) (gs_coef g) (gs_tau g) (gs_basis g) (bs_copy (gs_bst g)) (vnew (gs_dim g)))
  else Throw InvalidArgument.
(** move constructor, GSpline.cpp 35-40: what the new object holds *)
Definition gs_move (g : gspline) : gspline :=
  mkgs (gs_dom g) (gs_codom g) (gs_coef g) (gs_tau g) (gs_basis g) (bs_copy (gs_bst g)) (vnew (gs_dim g)).

(** ** Evaluation *)
(** loop of get_interval, GSpline.cpp 122-129: [n] intervals left, the next is [i] *)
Fixpoint scan_interval (tau : vec T) (t left : T) (i n : nat) : outcome (option nat) :=
  match n with
  | O => Ok None
  | S n' =>
    ti <- vread tau i ;;
    let right := left + ti in
    if (left <? t) && (t <=? right) then Ok (Some i)
    else scan_interval tau t right (S i) n'
  end.
(** get_interval, GSpline.cpp 115-131.  [get_number_of_intervals() - 1] wraps when
    there is no interval; the only use of the result is as an index, which is then out of
    bounds. *)
Definition get_interval (g : gspline) (t : T) : outcome nat :=
  if t <=? fst (gs_dom g) then Ok 0%nat
  else
    r <- scan_interval (gs_tau g) t (fst (gs_dom g)) 0 (gs_n g) ;;
    match r with
    | Some i => Ok i
    | None => of_option (usub1 (gs_n g))
    end.
(** interval_to_window, GSpline.cpp 149-159 ([sum] added left to right) *)
Definition interval_to_window (g : gspline) (t : T) (iv : nat) : outcome T :=
  seg <- vsegment (gs_tau g) 0 iv ;;
  s <- of_option (osum iv (vget seg)) ;;
  ti <- vread (gs_tau g) iv ;;
  Ok (c2 * (t - (fst (gs_dom g) + s)) / ti - n1).
(** coefficient_segment, GSpline.cpp 133-147 *)
Definition coef_segment (g : gspline) (iv cc : nat) : outcome (vec T) :=
  vsegment (gs_coef g) (iv * gs_dim g * gs_codom g + gs_dim g * cc) (gs_dim g).

(** lines 103-107 of value_impl: pick the interval, fill basis_buffer_ *)
(* source: src/GSpline.cpp 103-107 *)
Definition gs_fill (g : gspline) (t : T) (buf : vec T) : outcome (nat * vec T) :=
  iv <- get_interval g t ;;
  s <- interval_to_window g t iv ;;
  tau <- vread (gs_tau g) iv ;;
  buf <- b_eval (gs_basis g) s tau buf ;;
  Ok (iv, buf).
(** line 110: one component, from the buffer *)
(* source: src/GSpline.cpp 110 *)
Definition gs_component (g : gspline) (iv : nat) (buf : vec T) (cc : nat) : outcome T :=
  c <- coef_segment g iv cc ;; vdot c buf.
(** value_impl, GSpline.cpp 91-113.  [buf] is basis_buffer_ before and after. *)
Definition gs_value_impl (g : gspline) (pts : vec T) (res : mat T) (buf : vec T) : outcome (mat T * vec T) :=
  for_ 0 (vlen pts) (fun i (st : mat T * vec T) =>
    let '(res, buf) := st in
    t <- vread pts i ;;
    '(iv, buf) <- gs_fill g t buf ;;
    res <- for_ 0 (gs_codom g) (fun j res => x <- gs_component g iv buf j ;; mwrite res i j x) res ;;
    Ok (res, buf)) (res, buf).
(** operator(), FunctionBase.hpp 79-84 *)
Definition gs_value (g : gspline) (pts : vec T) : outcome (mat T) :=
  r <- gs_value_impl g pts (mnew (vlen pts) (gs_codom g)) (gs_buf g) ;; Ok (fst r).

(** get_domain_breakpoints, GSpline.cpp 179-188 *)
Definition gs_breakpoints (g : gspline) : outcome (vec T) :=
  r <- vwrite (vnew (S (gs_n g))) 0 (fst (gs_dom g)) ;;
  st <- for_ 1 (S (gs_n g)) (fun i (st : T * vec T) =>
          let '(time, r) := st in
          ti <- vread (gs_tau g) (i - 1) ;;
          let time := time + ti in
          r <- vwrite r i time ;;
          Ok (time, r)) (fst (gs_dom g), r) ;;
  Ok (snd st).
(** get_waypoints, GSpline.cpp 190-194 *)
Definition gs_waypoints (g : gspline) : outcome (mat T) :=
  p <- gs_breakpoints g ;;
  r <- gs_value_impl g p (mnew (S (gs_n g)) (gs_codom g)) (gs_buf g) ;; Ok (fst r).

(** ** Derivation *)
(* source: the dynamic_cast of include/gsplines/GSpline.hpp 246-247 *)
Definition is_0101 (b : basis T) : bool := match b with B0101 _ => true | _ => false end.
(** [v.segment(i0, n) = w] *)
(* source: Eigen segment assignment *)
Definition vset_segment (v : vec T) (i0 : nat) (w : vec T) : outcome (vec T) :=
  if Nat.leb (i0 + vlen w) (vlen v)
  then Ok (mkvec (vlen v) (fun i => if Nat.leb i0 i && Nat.ltb i (i0 + vlen w) then vget w (i - i0)%nat else vget v i))
  else UB.
(** loop body of deriv_impl, GSpline.hpp 118-134 (Eigen evaluates the product into a temporary) *)
Definition deriv_seg (g : gspline) (deg iv cc : nat) (st : vec T * bstate T) : outcome (vec T * bstate T) :=
  let '(coef, bst) := st in
  let i0 := (iv * gs_dim g * gs_codom g + gs_dim g * cc)%nat in
  scale <- (if is_0101 (gs_basis g) then Ok n1
            else ti <- vread (gs_tau g) iv ;; Ok (npown (c2 / ti) deg)) ;;
  '(m, bst) <- get_block (gs_basis g) deg bst ;;
  seg <- vsegment coef i0 (gs_dim g) ;;
  p <- mvmul m seg ;;
  if Nat.eqb (vlen p) (gs_dim g)
  then coef <- vset_segment coef i0 (vscale p scale) ;; Ok (coef, bst)
  else UB.
(** deriv_impl, GSpline.hpp 108-143: the new object and the basis caches left in [*this] *)
Definition gs_deriv_impl (g : gspline) (deg : nat) : outcome (gspline * bstate T) :=
  '(coef, bst) <- (if Nat.ltb 0 deg
    then for_ 0 (gs_n g) (fun iv st => for_ 0 (gs_codom g) (fun cc st => deriv_seg g deg iv cc st) st) (gs_coef g, gs_bst g)
    else Ok (gs_coef g, gs_bst g)) ;;
  d <- gs_ctor (gs_dom g) (gs_codom g) (gs_n g) (gs_basis g) bst coef (gs_tau g) ;;
  Ok (d, bst).
(** derivate, FunctionInheritanceHelper.hpp 36-38: copies the object *)
Definition gs_derivate (g : gspline) (deg : nat) : outcome gspline :=
  r <- gs_deriv_impl g deg ;; gs_copy (fst r).

(** ** Comparison and vector-space operations *)
(** Basis::operator==, Basis.cpp 220-231 (no basis has integer parameters) *)
Definition basis_eqb (a b : basis T) : outcome bool :=
  if negb (bname_eqb (b_name a) (b_name b)) then Ok false
  else if negb (Nat.eqb (b_dim a) (b_dim b)) then Ok false
  else if negb (Nat.eqb (vlen (b_params a)) (vlen (b_params b))) then Ok false
  else approx_eq_vec (b_params a) (b_params b) (ten_m 6).
(** [and] evaluates its right side only when needed *)
(* source: [and] in src/GSpline.cpp 196-201, src/Tools.cpp 46-54 *)
Definition oand (a b : outcome bool) : outcome bool := x <- a ;; if x then b else Ok false.
(** same_vector_space, GSpline.cpp 196-201 *)
Definition same_vector_space (g h : gspline) : outcome bool :=
  oand (basis_eqb (gs_basis g) (gs_basis h))
    (oand (Ok (Nat.eqb (gs_codom g) (gs_codom h))) (approx_eq_vec (gs_tau g) (gs_tau h) (ten_m 8))).
(** approx_equal(GSplineBase) and operator==, Tools.cpp 46-54, GSpline.cpp 161-163 *)
Definition gs_approx_eq (g h : gspline) (tol : T) : outcome bool :=
  oand (approx_eq_vec (gs_coef g) (gs_coef h) tol)
    (oand (approx_eq_vec (gs_tau g) (gs_tau h) tol) (basis_eqb (gs_basis g) (gs_basis h))).
(* source: src/GSpline.cpp 161-163 *)
Definition gs_eqb (g h : gspline) : outcome bool := gs_approx_eq g h (ten_m 7).

(* source: assignment to coefficients_, include/gsplines/GSpline.hpp 150-231 *)
Definition with_coef (g : gspline) (c : vec T) : gspline :=
  mkgs (gs_dom g) (gs_codom g) c (gs_tau g) (gs_basis g) (gs_bst g) (gs_buf g).
(** [a + b], [a - b] of vectors *)
(* source: include/gsplines/GSpline.hpp 150-231 *)
Definition vmap2 (f : T -> T -> T) (a b : vec T) : outcome (vec T) :=
  if Nat.eqb (vlen a) (vlen b) then Ok (mkvec (vlen a) (fun i => olift2 f (vget a i) (vget b i))) else UB.

(** value categories of the two operands *)
(* source: include/gsplines/GSpline.hpp 150-214 *)
Inductive overload := LL | LR | RL | RR.
(* source: include/gsplines/GSpline.hpp 151-153 *)
Definition check_space (g h : gspline) : outcome unit :=
  s <- same_vector_space g h ;; if s then Ok tt else Throw InvalidArgument.
(** operator+, GSpline.hpp 150-180 *)
Definition gs_plus (o : overload) (g h : gspline) : outcome gspline :=
  _ <- check_space g h ;;
  match o with
  | LL => r <- gs_copy g ;; c <- vmap2 nadd (gs_coef r) (gs_coef h) ;; Ok (with_coef r c)
  | LR => c <- vmap2 nadd (gs_coef h) (gs_coef g) ;; Ok (gs_move (with_coef h c))
  | RL | RR => c <- vmap2 nadd (gs_coef g) (gs_coef h) ;; Ok (gs_move (with_coef g c))
  end.
(** binary operator-, GSpline.hpp 182-212; the first one works on a GSplineBase
    copy that is then converted (FunctionInheritanceHelper.hpp 14) *)
Definition gs_minus (o : overload) (g h : gspline) : outcome gspline :=
  _ <- check_space g h ;;
  match o with
  | LL => r <- gs_copy g ;; c <- vmap2 nsub (gs_coef r) (gs_coef h) ;; Ok (gs_move (with_coef r c))
  | LR => c <- vmap2 nsub (gs_coef g) (gs_coef h) ;; Ok (gs_move (with_coef h c))
  | RL | RR => c <- vmap2 nsub (gs_coef g) (gs_coef h) ;; Ok (gs_move (with_coef g c))
  end.
(** operator+=, operator-=, GSpline.hpp 214-231: what [*this] becomes *)
Definition gs_pluseq (g h : gspline) : outcome gspline :=
  _ <- check_space g h ;; c <- vmap2 nadd (gs_coef g) (gs_coef h) ;; Ok (with_coef g c).
(* source: include/gsplines/GSpline.hpp 224-231 *)
Definition gs_minuseq (g h : gspline) : outcome gspline :=
  _ <- check_space g h ;; c <- vmap2 nsub (gs_coef g) (gs_coef h) ;; Ok (with_coef g c).
(** scalar multiples and negation, GSpline.cpp 203-222; [rv]: the operand is an rvalue *)
Definition gs_scale (rv : bool) (a : T) (g : gspline) : outcome gspline :=
  if rv then Ok (gs_move (with_coef g (vscale (gs_coef g) a)))
  else r <- gs_copy g ;; Ok (with_coef r (vscale (gs_coef r) a)).
(* source: src/GSpline.cpp 214-222 *)
Definition gs_neg (rv : bool) (g : gspline) : outcome gspline := gs_scale rv (- n1) g.

(** ** Time scaling *)
(** parameter of the rescaled basis0101, GSpline.hpp 249-254 and 345-350 *)
Definition rescale_alpha (alpha0 f : T) : T :=
  let k_0 := nsqrt c2 / nofZ 4%Z * npow alpha0 nquarter / npow (n1 - alpha0) nquarter in
  let k := k_0 / f in
  let k4 := npown k 4 * nofZ 64%Z in
  k4 / (n1 + k4).
(** the object returned at GSpline.hpp 247-263 and 343-359 *)
Definition gs_rescale (g : gspline) (dom : T * T) (f : T) : outcome gspline :=
  let tau := vscale (gs_tau g) f in
  match gs_basis g with
  | B0101 a =>
    let b := B0101 (rescale_alpha a f) in
    gs_ctor dom (gs_codom g) (gs_n g) b (bs_init b) (gs_coef g) tau
  | b => gs_ctor dom (gs_codom g) (gs_n g) b (gs_bst g) (gs_coef g) tau
  end.
(** linear_scaling_new_execution_time, GSpline.hpp 233-264 *)
Definition gs_linear_scaling (g : gspline) (T' : T) : outcome gspline :=
  if T' <? ten_m 8 then Throw InvalidArgument
  else
    let f := T' / (snd (gs_dom g) - fst (gs_dom g)) in
    gs_rescale g (fst (gs_dom g), fst (gs_dom g) + T') f.

(** [VectorXd::LinSpaced(m, low, high)]: low + i*(high-low)/(m-1), the last entry is [high] *)
(* source: include/gsplines/GSpline.hpp 304 *)
Definition lin_spaced (m : nat) (low high : T) : vec T :=
  mkvec m (fun i => Some (if Nat.eqb (S i) m then high
                          else low + nofnat i * ((high - low) / nofnat (m - 1)))).
(** [(m.abs().colwise().maxCoeff()(j))] *)
(* source: include/gsplines/GSpline.hpp 323-331 *)
Definition colmax (m : mat T) (j : nat) : outcome T :=
  maxcoeff (mrows m) 1 (fun i _ => x <- mread m i j ;; Ok (nabs x)).
(** linear_scaling_new_execution_time_max_velocity_max_acceleration, GSpline.hpp 285-360.
    [nseg] is the value of the conversion of length/dt to size_t in line 301. *)
Definition gs_limit_scaling (g : gspline) (vb ab : option (vec T)) (dt : T) (nseg : nat) : outcome gspline :=
  match vb, ab with
  | None, None => Throw InvalidArgument
  | _, _ =>
    if dt <? ten_m 8 then Throw InvalidArgument
    else
      match vb with
      | None => Throw BadOptionalAccess
      | Some v =>
        bad <- (if negb (Nat.eqb (vlen v) (gs_codom g)) then Ok true
                else match ab with
                     | None => Throw BadOptionalAccess
                     | Some a => Ok (negb (Nat.eqb (vlen a) (gs_codom g)))
                     end) ;;
        if bad then Throw InvalidArgument
        else
          let time := lin_spaced (S nseg) (fst (gs_dom g)) (snd (gs_dom g)) in
          d1 <- gs_derivate g 1 ;;
          d2 <- gs_derivate d1 1 ;;
          m1 <- gs_value d1 time ;;
          m2 <- gs_value d2 time ;;
          a <- of_option ab ;;
          rv <- maxcoeff 1 (gs_codom g) (fun _ j => x <- colmax m1 j ;; b <- vread v j ;; Ok (x / b)) ;;
          ra <- maxcoeff 1 (gs_codom g) (fun _ j => x <- colmax m2 j ;; b <- vread a j ;; Ok (nsqrt (x / b))) ;;
          let f := nmax rv ra in
          s <- of_option (osum (gs_n g) (vget (vscale (gs_tau g) f))) ;;
          gs_rescale g (fst (gs_dom g), fst (gs_dom g) + s) f
      end
  end.
(** the overload with scalar bounds, GSpline.hpp 266-283 *)
Definition gs_limit_scaling_scalar (g : gspline) (vb ab : option T) (dt : T) (nseg : nat) : outcome gspline :=
  gs_limit_scaling g (option_map (fun x => vconst (gs_codom g) x) vb)
                     (option_map (fun x => vconst (gs_codom g) x) ab) dt nseg.

(** ** Two threads that evaluate one object *)
(** A call to value_impl (GSpline.cpp 91-113) on a list of points, cut into the steps between which another
    thread may run: filling basis_buffer_ for the current point (103-107), computing one component from the
    buffer (110), going on to the next point.  A finer cut (single stores) allows more interleavings. *)
Record thread := mkth {
  th_todo : list T;                     (** points left, the current one first *)
  th_cur : option (nat * list T);       (** interval of the current point and the components computed so far *)
  th_out : list (list T)                (** finished rows *)
}.
(* source: src/GSpline.cpp 91-102: entry of value_impl *)
Definition th_start (pts : list T) : thread := mkth pts None [].
(** [buf] is the basis_buffer_ the thread works with *)
(* source: src/GSpline.cpp 103-112 cut into steps *)
Definition th_step (g : gspline) (st : vec T * thread) : outcome (vec T * thread) :=
  let '(buf, th) := st in
  match th_todo th with
  | [] => Ok (buf, th)
  | t :: ts =>
    match th_cur th with
    | None => '(iv, buf) <- gs_fill g t buf ;; Ok (buf, mkth (t :: ts) (Some (iv, [])) (th_out th))
    | Some (iv, row) =>
      if Nat.ltb (length row) (gs_codom g)
      then x <- gs_component g iv buf (length row) ;; Ok (buf, mkth (t :: ts) (Some (iv, row ++ [x])) (th_out th))
      else Ok (buf, mkth ts None (th_out th ++ [row]))
    end
  end.
(** both threads use the object's own buffer; [true]: the first one moves *)
(* source: no code of its own: interleaving of two calls of value_impl, src/GSpline.cpp 91-113 *)
Definition shared_step (g : gspline) (st : vec T * thread * thread) (who : bool) : outcome (vec T * thread * thread) :=
  let '(buf, a, b) := st in
  if who then '(buf, a) <- th_step g (buf, a) ;; Ok (buf, a, b)
  else '(buf, b) <- th_step g (buf, b) ;; Ok (buf, a, b).
(* source: no code of its own: a schedule *)
Fixpoint shared_run (g : gspline) (sched : list bool) (st : vec T * thread * thread) : outcome (vec T * thread * thread) :=
  match sched with [] => Ok st | w :: r => st <- shared_step g st w ;; shared_run g r st end.
(** each thread has a copy of the object *)
(* source: no code of its own: the same with one object per thread *)
Definition private_step (g h : gspline) (st : (vec T * thread) * (vec T * thread)) (who : bool) : outcome ((vec T * thread) * (vec T * thread)) :=
  let '(a, b) := st in
  if who then a <- th_step g a ;; Ok (a, b) else b <- th_step h b ;; Ok (a, b).
(* source: no code of its own: a schedule *)
Fixpoint private_run (g h : gspline) (sched : list bool) (st : (vec T * thread) * (vec T * thread)) : outcome ((vec T * thread) * (vec T * thread)) :=
  match sched with [] => Ok st | w :: r => st <- private_step g h st w ;; private_run g h r st end.

End GSpline.
Arguments gspline : clear implicits.
Arguments thread : clear implicits.
