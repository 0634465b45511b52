(** Splines used by several threads: values, derivatives, copies.

    The three are const operations.  The value of a spline writes its scratch vector (mutable basis_buffer_), a derivative appends
    to the array of differentiation matrices of its basis (mutable derivative_matrix_array_), and every copy of the spline reads
    that array.  Each spline owns its basis, so these are the locations: two for every spline.

    Simplifications.
    - Only memory that some const operation writes is a location; the other members are constants of the program text.
    - A vector is written or read in one step; push_back is one step; the matrix that get_derivative_matrix_block returns a
      reference to is read when the function returns.  Where threads do not race this makes no difference.  Where they do, the
      indivisible push_back makes the model kinder than the code.
    - buff_next of BasisLegendre and qBuffer_ of Basis0101 are not touched by these operations; they do not occur. *)
From Coq Require Import List Arith Bool.
From Verif Require Import Num Outcome LinAlg LegendreModel BasisModel GSplineModel HeapModel.
Import ListNotations.
Local Open Scope num_scope.

Section Share.
Context {T : Type} `{Num T}.

(** the shared memory, for every spline: basis_buffer_ and derivative_matrix_array_ *)
(* source: include/gsplines/GSpline.hpp 33, include/gsplines/Basis/Basis.hpp 27 *)
Record mem := mkmem { m_buf : nat -> vec T; m_arr : nat -> list (mat T) }.
(* source: no code of its own: a store to basis_buffer_ *)
Definition put (m : mem) (x : nat) (v : vec T) : mem := mkmem (fun y => if Nat.eqb y x then v else m_buf m y) (m_arr m).
(* source: no code of its own: a call of push_back *)
Definition push (m : mem) (x : nat) (a : mat T) : mem := mkmem (m_buf m) (fun y => if Nat.eqb y x then m_arr m y ++ [a] else m_arr m y).

(** code that reads and writes the shared memory *)
(* source: no code of its own: sequences of loads and stores *)
Inductive prog (A : Type) :=
| Ret (r : outcome A)
| Put (x : nat) (v : vec T) (k : prog A)
| Get (x : nat) (k : vec T -> prog A)
| Load (x : nat) (k : list (mat T) -> prog A)
| Push (x : nat) (a : mat T) (k : prog A).
Arguments Ret {A}. Arguments Put {A}. Arguments Get {A}. Arguments Load {A}. Arguments Push {A}.
(* source: no code of its own: sequential composition; an exception ends the call *)
Fixpoint pbind {A B} (p : prog A) (f : A -> prog B) : prog B :=
  match p with
  | Ret (Ok a) => f a
  | Ret (Throw e) => Ret (Throw e)
  | Ret UB => Ret UB
  | Put x v k => Put x v (pbind k f)
  | Get x k => Get x (fun v => pbind (k v) f)
  | Load x k => Load x (fun l => pbind (k l) f)
  | Push x a k => Push x a (pbind k f)
  end.
Notation "x <~ p ; q" := (pbind p (fun x => q)) (at level 61, p at next level, right associativity).
(* source: no code of its own: a counted loop, n rounds from index lo *)
Fixpoint pfor {S} (lo n : nat) (body : nat -> S -> prog S) (s : S) : prog S :=
  match n with
  | O => Ret (Ok s)
  | Datatypes.S n' => s' <~ body lo s ; pfor (Datatypes.S lo) n' body s'
  end.

(** [n] rounds of the while loop: the counter is a local variable, the array is shared *)
(* source: include/gsplines/Basis/Basis.hpp 145-148 *)
Fixpoint push_from (x : nat) (b : basis T) (n cur : nat) : prog unit :=
  match n with
  | O => Ret (Ok tt)
  | S n' => a <~ Ret (b_impl b cur) ; Push x a (push_from x b n' (S cur))
  end.
(* source: include/gsplines/Basis/Basis.hpp 140-152 *)
Definition block (x : nat) (b : basis T) (deg : nat) : prog (mat T) :=
  Load x (fun l =>
    _ <~ push_from x b (S deg - length l) (length l) ;
    Load x (fun l => Ret (of_option (nth_error l deg)))).

(** value: operator() and value_impl; the result matrix is local *)
(* source: include/gsplines/Functions/FunctionBase.hpp 79-84, src/GSpline.cpp 91-113 *)
Definition value (x : nat) (g : gspline T) (pts : vec T) : prog (mat T) :=
  pfor 0 (vlen pts) (fun i res =>
    t <~ Ret (vread pts i) ;
    Get x (fun buf =>
      r <~ Ret (gs_fill g t buf) ;
      Put x (snd r)
        (pfor 0 (gs_codom g) (fun j res =>
           Get x (fun buf => c <~ Ret (gs_component g (fst r) buf j) ; Ret (mwrite res i j c))) res))) (mnew (vlen pts) (gs_codom g)).

(** loop body of deriv_impl; the coefficients of the result are local *)
(* source: include/gsplines/GSpline.hpp 118-134 *)
Definition dseg (x : nat) (g : gspline T) (deg iv cc : nat) (coef : vec T) : prog (vec T) :=
  let i0 := (iv * gs_dim g * gs_codom g + gs_dim g * cc)%nat in
  scale <~ Ret (if is_0101 (gs_basis g) then Ok n1 else ti <- vread (gs_tau g) iv ;; Ok (npown (c2 / ti) deg)) ;
  a <~ block x (gs_basis g) deg ;
  Ret (seg <- vsegment coef i0 (gs_dim g) ;;
       p <- mvmul a seg ;;
       if Nat.eqb (vlen p) (gs_dim g) then vset_segment coef i0 (vscale p scale) else UB).
(** derivate: deriv_impl builds an object (the constructor clones the basis), which is copied once more *)
(* source: include/gsplines/GSpline.hpp 108-143, include/gsplines/Functions/FunctionInheritanceHelper.hpp 36-38,
   include/gsplines/Basis/Basis.hpp 78-83 *)
Definition derivate (x : nat) (g : gspline T) (deg : nat) : prog (gspline T) :=
  coef <~ (if Nat.ltb 0 deg
           then pfor 0 (gs_n g) (fun iv coef => pfor 0 (gs_codom g) (fun cc coef => dseg x g deg iv cc coef) coef) (gs_coef g)
           else Ret (Ok (gs_coef g))) ;
  Load x (fun l =>
    Ret (d <- gs_ctor (gs_dom g) (gs_codom g) (gs_n g) (gs_basis g) (mkbs l (fun _ => None) (fun _ => None)) coef (gs_tau g) ;; gs_copy d)).
(** copy constructor: the basis is cloned before the sizes are checked *)
(* source: src/GSpline.cpp 15-33, include/gsplines/Basis/Basis.hpp 78-83 *)
Definition copy (x : nat) (g : gspline T) : prog (gspline T) :=
  Load x (fun l => Ret (gs_copy (mkgs (gs_dom g) (gs_codom g) (gs_coef g) (gs_tau g) (gs_basis g) (mkbs l (fun _ => None) (fun _ => None)) (gs_buf g)))).

(** what a thread does with a variable, and what it gets *)
(* source: no code of its own: calls of the operations above *)
Inductive op := OValue (x : nat) (pts : vec T) | ODeriv (x k : nat) | OCopy (x : nat).
(* source: no code of its own *)
Inductive result := Rows (m : mat T) | Spline (g : gspline T).
(* source: no code of its own: calls of the operations above *)
Definition thread (vars : list (gspline T)) (o : op) : outcome (prog result) :=
  match o with
  | OValue x pts => g <- of_option (nth_error vars x) ;; Ok (r <~ value x g pts ; Ret (Ok (Rows r)))
  | ODeriv x k => g <- of_option (nth_error vars x) ;; Ok (r <~ derivate x g k ; Ret (Ok (Spline r)))
  | OCopy x => g <- of_option (nth_error vars x) ;; Ok (r <~ copy x g ; Ret (Ok (Spline r)))
  end.
(** memory when the threads start: what the variables hold *)
(* source: no code of its own *)
Definition holds (vars : list (gspline T)) (m : mem) : Prop :=
  forall x g, nth_error vars x = Some g -> m_buf m x = gs_buf g /\ m_arr m x = bs_blocks (gs_bst g).

(** one access of one thread *)
(* source: no code of its own: sequentially consistent interleaving *)
Definition act {A} (p : prog A) (m : mem) : option (prog A * mem) :=
  match p with
  | Ret _ => None
  | Put x v k => Some (k, put m x v)
  | Get x k => Some (k (m_buf m x), m)
  | Load x k => Some (k (m_arr m x), m)
  | Push x a k => Some (k, push m x a)
  end.
(* source: no code of its own: sequentially consistent interleaving *)
Inductive step {A} : list (prog A) * mem -> list (prog A) * mem -> Prop :=
| step_one i ps m p p' m' : nth_error ps i = Some p -> act p m = Some (p', m') -> step (ps, m) (set_nth ps i p', m').
(* source: no code of its own *)
Inductive steps {A} : list (prog A) * mem -> list (prog A) * mem -> Prop :=
| steps_nil c : steps c c
| steps_cons c c' c'' : step c c' -> steps c' c'' -> steps c c''.
End Share.
Arguments prog : clear implicits.
Arguments mem : clear implicits.
Arguments op : clear implicits.
Arguments result : clear implicits.
Arguments Ret {T A}. Arguments Put {T A}. Arguments Get {T A}. Arguments Load {T A}. Arguments Push {T A}.
