(** Model of gsplines::basis::Basis (include/gsplines/Basis/Basis.hpp,
    src/Basis/Basis.cpp) with its three implementations behind the virtual
    interface. *)
From Coq Require Import List Arith Bool ZArith.
From Verif Require Import Num Outcome LinAlg LegendreModel LagrangeModel Basis0101Model.
Import ListNotations.
Local Open Scope num_scope.

(** ** Sparse matrices (Eigen::SparseMatrix<double, RowMajor>)
    [sget m i j = None] : no coefficient stored at (i, j). *)
(* source: the member types of include/gsplines/Basis/Basis.hpp 29-55 *)
Record smat (T : Type) := mksmat { srows : nat; scols : nat; sget : nat -> nat -> option T }.
Arguments mksmat {T} _ _ _.
Arguments srows {T} _.
Arguments scols {T} _.
Arguments sget {T} _ _ _.

Section Sparse.
Context {T : Type} `{Num T}.
(* source: [SparseMatrix(rows, cols)], src/Basis/Basis.cpp 56-58, 169-170 *)
Definition snew (r c : nat) : smat T := mksmat r c (fun _ _ => None).
(** [m.insert(i, j) = x]: the coefficient must not exist yet (Eigen asserts it) *)
(* source: src/Basis/Basis.cpp 87-88, 98-100, 178 *)
Definition sinsert (m : smat T) (i j : nat) (x : T) : outcome (smat T) :=
  if Nat.ltb i (srows m) && Nat.ltb j (scols m) then
    match sget m i j with
    | Some _ => UB
    | None => Ok (mksmat (srows m) (scols m)
                    (fun a b => if (a =? i)%nat && (b =? j)%nat then Some x else sget m a b))
    end
  else UB.
End Sparse.

(** ** The virtual interface *)
Section Basis.
Context {T : Type} `{Num T}.

(** an object: the data its constructor leaves behind.  [gram] is
    derivative_matrices_buffer_; Legendre.cpp 15-36, Lagrange.cpp 33-59, Basis0101.cpp 22-27 *)
Inductive basis :=
| BLegendre (dim : nat) (gram : list (mat T))
| BLagrange (pts bw : vec T) (gram : list (mat T))
| B0101 (alpha : T).

(* source: name_, include/gsplines/Basis/Basis.hpp 23; its values: the constructors, src/Basis/BasisLegendre.cpp 15-18, BasisLagrange.cpp 33-40, Basis0101.cpp 7-20 *)
Inductive bname := NLegendre | NLagrange | N0101.
(* source: comparison of names, src/Basis/Basis.cpp 221 *)
Definition bname_eqb (a b : bname) : bool :=
  match a, b with NLegendre, NLegendre | NLagrange, NLagrange | N0101, N0101 => true | _, _ => false end.

(** get_name, get_dim, get_parameters: Basis.hpp 95, 165-167 *)
Definition b_name (b : basis) : bname :=
  match b with BLegendre _ _ => NLegendre | BLagrange _ _ _ => NLagrange | B0101 _ => N0101 end.
(* source: get_dim, include/gsplines/Basis/Basis.hpp 97 *)
Definition b_dim (b : basis) : nat :=
  match b with BLegendre d _ => d | BLagrange p _ _ => vlen p | B0101 _ => 6%nat end.
(* source: get_parameters, include/gsplines/Basis/Basis.hpp 165 *)
Definition b_params (b : basis) : vec T :=
  match b with BLegendre _ _ => vnew 0 | BLagrange p _ _ => p | B0101 a => vec_of_list [a] end.

(** eval_on_window (Basis.hpp 106-108) *)
Definition b_eval (b : basis) (s tau : T) (buff : vec T) : outcome (vec T) :=
  match b with
  | BLegendre d _ => leg_eval d s buff
  | BLagrange p w _ => lag_eval p w s buff
  | B0101 a => b01_eval a s tau buff
  end.
(** eval_derivative_on_window (Basis.hpp 120-122) *)
Definition b_eval_deriv (b : basis) (s tau : T) (deg : nat) (buff : vec T) : outcome (vec T) :=
  match b with
  | BLegendre d _ => leg_eval_deriv d s tau deg buff
  | BLagrange p w _ => lag_eval_deriv p w s tau deg buff
  | B0101 a => b01_eval_deriv a s tau deg buff
  end.
(** eval_derivative_wrt_tau_on_window (Basis.hpp 134-136) *)
Definition b_eval_deriv_tau (b : basis) (s tau : T) (deg : nat) (buff : vec T) : outcome (vec T) :=
  match b with
  | BLegendre d _ => leg_eval_deriv_tau d s tau deg buff
  | BLagrange p w _ => lag_eval_deriv_tau p w s tau deg buff
  | B0101 a => b01_eval_deriv_tau a s tau deg buff
  end.
(** derivative_matrix_impl (Basis.hpp 169) *)
Definition b_impl (b : basis) (deg : nat) : outcome (mat T) :=
  match b with
  | BLegendre d _ => leg_derivative_matrix_impl d deg
  | BLagrange p _ _ => lag_derivative_matrix_impl p deg
  | B0101 a => b01_derivative_matrix_impl a deg
  end.
(** add_derivative_matrix, add_derivative_matrix_deriv_wrt_tau (Basis.hpp 154-158) *)
Definition b_add_gram (b : basis) (tau : T) (deg : nat) (m : mat T) : outcome (mat T) :=
  match b with
  | BLegendre d g => leg_add_gram d g tau deg m
  | BLagrange p _ g => lag_add_gram (vlen p) g tau deg m
  | B0101 a => b01_add_gram a tau deg m
  end.
(* source: virtual call, include/gsplines/Basis/Basis.hpp 155-157 *)
Definition b_add_gram_tau (b : basis) (tau : T) (deg : nat) (m : mat T) : outcome (mat T) :=
  match b with
  | BLegendre d g => leg_add_gram_tau d g tau deg m
  | BLagrange p _ g => lag_add_gram_tau (vlen p) g tau deg m
  | B0101 a => b01_add_gram_tau a tau deg m
  end.

(** ** Mutable members *)
(* source: the keys of the maps, src/Basis/Basis.cpp 49-52, 165-168 *)
Definition key := (nat * nat * nat)%type.
(* source: comparison of those keys *)
Definition key_eqb (a b : key) : bool :=
  let '(a1, a2, a3) := a in let '(b1, b2, b3) := b in
  Nat.eqb a1 b1 && Nat.eqb a2 b2 && Nat.eqb a3 b3.

(** derivative_matrix_array_; (continuity_matrix_buff_, continuity_matrix_dynamic_buff_);
    (derivative_matrix_buff_, derivative_matrix_dynamic_buff_).  The two maps of
    a pair are always filled at the same keys (lines 111-116, 183-188). *)
(* source: include/gsplines/Basis/Basis.hpp 27-55 *)
Record bstate := mkbs {
  bs_blocks : list (mat T);
  bs_cont : key -> option (smat T * smat T);
  bs_der : key -> option (smat T * smat T)
}.
(* source: insertion into a map, src/Basis/Basis.cpp 106-111, 183-187 *)
Definition upd {A} (m : key -> option A) (k : key) (x : A) : key -> option A :=
  fun k' => if key_eqb k k' then Some x else m k'.

(** constructor, Basis.hpp 67-75 *)
Definition bs_init (b : basis) : bstate :=
  mkbs [mident (b_dim b)] (fun _ => None) (fun _ => None).
(** copy and move constructors, Basis.hpp 77-89: the sparse maps start empty *)
Definition bs_copy (s : bstate) : bstate := mkbs (bs_blocks s) (fun _ => None) (fun _ => None).

(** while loop of get_derivative_matrix_block, Basis.hpp 144-148: [n] blocks left to push *)
Fixpoint push_blocks (b : basis) (n : nat) (l : list (mat T)) : outcome (list (mat T)) :=
  match n with
  | O => Ok l
  | S n' => m <- b_impl b (length l) ;; push_blocks b n' (l ++ [m])
  end.
(** get_derivative_matrix_block, Basis.hpp 138-150 *)
Definition get_block (b : basis) (deg : nat) (s : bstate) : outcome (mat T * bstate) :=
  l <- push_blocks b (S deg - length (bs_blocks s)) (bs_blocks s) ;;
  m <- of_option (nth_error l deg) ;;
  Ok (m, mkbs l (bs_cont s) (bs_der s)).

(** [m.row(i) = v]: Eigen checks the size *)
(* source: src/Basis/Basis.cpp 62-71 *)
Definition mset_row (m : mat T) (i : nat) (v : vec T) : outcome (mat T) :=
  if Nat.ltb i (mrows m) && Nat.eqb (mcols m) (vlen v)
  then Ok (mkmat (mrows m) (mcols m) (fun a b => if Nat.eqb a i then vget v b else mget m a b))
  else UB.
(** [m.row(i)] read *)
(* source: src/Basis/Basis.cpp 83-102 *)
Definition mrow (m : mat T) (i : nat) : outcome (vec T) :=
  if Nat.ltb i (mrows m) then Ok (mkvec (mcols m) (fun j => mget m i j)) else UB.

(** inner two loops 83-91 and 94-102 of continuity_matrix: insert [f der basis] of one side *)
(* source: src/Basis/Basis.cpp 83-91, 94-102 *)
Definition cont_side (dim codom i0 j0 der : nat) (buf : mat T) (sgn : T -> T) (m : smat T) : outcome (smat T) :=
  for_ 0 codom (fun cc m =>
    for_ 0 dim (fun bb m =>
      x <- mread buf der bb ;;
      sinsert m (i0 + cc)%nat (j0 + bb + dim * cc)%nat (sgn x)) m) m.

(** left_buffer and right_buffer, lines 59-71 *)
(* source: src/Basis/Basis.cpp 59-71 *)
Definition cont_bufs (b : basis) (ord : nat) (s : bstate) : outcome (mat T * mat T * bstate) :=
  let dim := b_dim b in
  '(_, s) <- get_block b ord s ;;
  l0 <- b_eval_deriv b (- n1) c2 0 (vnew dim) ;;
  L <- mset_row (mnew (S ord) dim) 0 l0 ;;
  r0 <- b_eval_deriv b n1 c2 0 (vnew dim) ;;
  R <- mset_row (mnew (S ord) dim) 0 r0 ;;
  for_ 1 (S ord) (fun der (st : mat T * mat T * bstate) =>
      let '(L, R, s) := st in
      '(d, s) <- get_block b der s ;;
      l <- mrow d 0 ;;
      L <- mset_row L der l ;;
      r <- match usub1 (mrows d) with None => UB | Some k => mrow d k end ;;
      R <- mset_row R der r ;;
      Ok (L, R, s)) (L, R, s).

(** lines 55-57 and 73-106; [nm1] is _number_of_intervals - 1 *)
(* source: src/Basis/Basis.cpp 55-57, 73-106 *)
Definition cont_fill (dim codom nm1 ord : nat) (L R : mat T) : outcome (smat T) :=
  for_ 0 (S ord) (fun der m =>
    for_ 0 nm1 (fun iv m =>
      let i0 := (codom * nm1 * der + iv * codom)%nat in
      m <- cont_side dim codom i0 (iv * dim * codom)%nat der R (fun x => x) m ;;
      cont_side dim codom i0 ((iv + 1) * dim * codom)%nat der L nopp m) m)
    (snew (nm1 * codom * (ord + 1)) (S nm1 * codom * dim)).

(** lines 49-106: the matrix for unit scaling.  [_number_of_intervals - 1] wraps
    when there is no interval; the allocation of line 55 then fails or is
    absurd, which the model calls undefined. *)
(* source: src/Basis/Basis.cpp 49-106, 55 *)
Definition cont_build (b : basis) (n codom ord : nat) (s : bstate) : outcome (smat T * bstate) :=
  match usub1 n with
  | None => UB
  | Some nm1 =>
    '(L, R, s) <- cont_bufs b ord s ;;
    m <- cont_fill (b_dim b) codom nm1 ord L R ;;
    Ok (m, s)
  end.

(** one row of the loops 134-149 and 203-214: every stored coefficient of row
    [k] of [dest] becomes the one of [src] times factor([interval]) *)
(* source: src/Basis/Basis.cpp 134-149, 203-214 *)
Definition scale_row (width : nat) (fac : vec T) (src : smat T) (k : nat) (dest : smat T) : outcome (smat T) :=
  for_ 0 (scols dest) (fun col dest =>
    match sget dest k col with
    | None => Ok dest
    | Some _ =>
      match sget src k col with
      | None => UB
      | Some x =>
        f <- vread fac (col / width) ;;
        Ok (mksmat (srows dest) (scols dest)
              (fun a c => if (a =? k)%nat && (c =? col)%nat then Some (x * f) else sget dest a c))
      end
    end) dest.

(** [Eigen::pow(2.0 / taus.array(), deg)] *)
(* source: src/Basis/Basis.cpp 131-132, 199-200 *)
Definition deriv_factor (taus : vec T) (deg : nat) : vec T :=
  mkvec (vlen taus) (fun i => option_map (fun t => npown (c2 / t) deg) (vget taus i)).

(** continuity_matrix, Basis.cpp 45-156.  The result is the content of the
    dynamic buffer; the caller gets a reference to it. *)
Definition continuity_matrix (b : basis) (n codom ord : nat) (taus : vec T) (s : bstate)
  : outcome (smat T * bstate) :=
  let k := (n, codom, ord) in
  s <- match bs_cont s k with
       | Some _ => Ok s
       | None => '(m, s) <- cont_build b n codom ord s ;;
                 Ok (mkbs (bs_blocks s) (upd (bs_cont s) k (m, m)) (bs_der s))
       end ;;
  '(src, dest) <- of_option (bs_cont s k) ;;
  let per := (codom * (n - 1))%nat in
  dest <- for_ per (srows dest) (fun r dest =>
            scale_row (b_dim b * codom) (deriv_factor taus (r / per)) src r dest) dest ;;
  Ok (dest, mkbs (bs_blocks s) (upd (bs_cont s) k (src, dest)) (bs_der s)).

(** lines 169-181: block diagonal copy of the differentiation block *)
(* source: src/Basis/Basis.cpp 169-181 *)
Definition der_fill (dim blocks : nat) (d : mat T) : outcome (smat T) :=
  for_ 0 blocks (fun blk m =>
    for_ 0 dim (fun i m =>
      for_ 0 dim (fun j m =>
        x <- mread d i j ;;
        sinsert m (blk * dim + i)%nat (blk * dim + j)%nat x) m) m)
    (snew (blocks * dim) (blocks * dim)).
(* source: src/Basis/Basis.cpp 163-187 *)
Definition der_build (b : basis) (n codom ord : nat) (s : bstate) : outcome (smat T * bstate) :=
  '(d, s) <- get_block b ord s ;;
  m <- der_fill (b_dim b) (n * codom) d ;;
  Ok (m, s).

(** gspline_derivative_matrix, Basis.cpp 158-218 *)
Definition gspline_derivative_matrix (b : basis) (n codom ord : nat) (taus : vec T) (s : bstate)
  : outcome (smat T * bstate) :=
  let k := (n, codom, ord) in
  s <- match bs_der s k with
       | Some _ => Ok s
       | None => '(m, s) <- der_build b n codom ord s ;;
                 Ok (mkbs (bs_blocks s) (bs_cont s) (upd (bs_der s) k (m, m)))
       end ;;
  '(src, dest) <- of_option (bs_der s k) ;;
  dest <- for_ 0 (srows dest) (fun r dest =>
            scale_row (b_dim b * codom) (deriv_factor taus ord) src r dest) dest ;;
  Ok (dest, mkbs (bs_blocks s) (bs_cont s) (upd (bs_der s) k (src, dest))).

(** ** Request histories (used by C22, C23) *)
(* source: no code of its own: the public queries of include/gsplines/Basis/Basis.hpp 139-151, 176-186 *)
Inductive request :=
| RBlock (deg : nat)
| RCont (n codom ord : nat) (taus : vec T)
| RDer (n codom ord : nat) (taus : vec T)
| RCopy.
(* source: no code of its own: one query *)
Definition serve (b : basis) (q : request) (s : bstate) : outcome bstate :=
  match q with
  | RBlock k => r <- get_block b k s ;; Ok (snd r)
  | RCont n c o t => r <- continuity_matrix b n c o t s ;; Ok (snd r)
  | RDer n c o t => r <- gspline_derivative_matrix b n c o t s ;; Ok (snd r)
  | RCopy => Ok (bs_copy s)
  end.
(* source: no code of its own: a sequence of queries *)
Fixpoint serve_all (b : basis) (l : list request) (s : bstate) : outcome bstate :=
  match l with
  | [] => Ok s
  | q :: l' => s' <- serve b q s ;; serve_all b l' s'
  end.

End Basis.
Arguments basis : clear implicits.
Arguments bstate : clear implicits.
Arguments request : clear implicits.
