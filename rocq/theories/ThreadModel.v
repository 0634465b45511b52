(** Threads that evaluate and copy expression variables at the same time.

    Evaluation and copying are const operations, but a spline writes its scratch vector (mutable basis_buffer_) for every point,
    and the constructors of FunctionExpression count their calls in static variables.  An operation is a program over this shared
    memory; threads take steps in any order.  There is no mutex and no atomic variable in the repository.

    Simplifications.
    - Only memory that some const operation writes is a location; the other members of the objects are constants of the program text.
    - A vector is written or read in one step.  Where no two threads meet at a vector, they do not meet at an entry of it.
    - Of the counters only num_call_copy_constructor_ occurs, the one that copying increments.
    - operator new is thread safe; the nodes a copy allocates are not visible to other threads.
    - Classes written in Python hold no C++ scratch memory. *)
From Coq Require Import List Arith Bool.
From Verif Require Import Num Outcome FunModel HeapModel.
Import ListNotations.
Local Open Scope num_scope.

Section Threads.
Context {T : Type} `{Num T}.
(** what value_impl of a spline writes to its buffer for a point, and what it makes of the buffer: the window values of the basis,
    and their products with the coefficients of the interval of the point *)
(* source: src/GSpline.cpp 91-113 *)
Variable fill : (nat -> T -> list T) -> nat -> T -> list T.
Variable use : (nat -> T -> list T) -> nat -> T -> list T -> list T.
Variable dbg : bool.

(** an object: a variable and the way down from it (the last step first); different ways lead to different heap nodes
    (ThreadProps.v, [C84_buffers]) *)
(* source: std::unique_ptr members, include/gsplines/Functions/FunctionExpression.hpp 38 *)
Definition place := (nat * list nat)%type.
(* source: an element of function_array_, or a member of DotProduct *)
Definition child (w : place) (i : nat) : place := (fst w, i :: snd w).

(** the shared memory: the buffer of every object, and num_call_copy_constructor_ *)
(* source: include/gsplines/GSpline.hpp 33, src/Functions/FunctionExpression.cpp 16 *)
Record mem := mkmem { m_buf : place -> list T; m_cnt : nat }.
(* source: no code of its own: equality of addresses *)
Definition place_eqb (a b : place) : bool := Nat.eqb (fst a) (fst b) && if list_eq_dec Nat.eq_dec (snd a) (snd b) then true else false.
(* source: no code of its own: a store *)
Definition put (m : mem) (w : place) (v : list T) : mem :=
  mkmem (fun a => if place_eqb a w then v else m_buf m a) (m_cnt m).

(** code that reads and writes the shared memory *)
(* source: no code of its own: sequences of loads and stores *)
Inductive prog (A : Type) :=
| Ret (r : outcome A)
| Put (w : place) (v : list T) (k : prog A)
| Get (w : place) (k : list T -> prog A)
| Load (k : nat -> prog A)
| Store (n : nat) (k : prog A).
Arguments Ret {A}. Arguments Put {A}. Arguments Get {A}. Arguments Load {A}. Arguments Store {A}.
(* source: no code of its own: sequential composition; an exception ends the call *)
Fixpoint pbind {A B} (p : prog A) (f : A -> prog B) : prog B :=
  match p with
  | Ret (Ok a) => f a
  | Ret (Throw e) => Ret (Throw e)
  | Ret UB => Ret UB
  | Put w v k => Put w v (pbind k f)
  | Get w k => Get w (fun v => pbind (k v) f)
  | Load k => Load (fun n => pbind (k n) f)
  | Store n k => Store n (pbind k f)
  end.
Notation "x <~ p ; q" := (pbind p (fun x => q)) (at level 61, p at next level, right associativity).
(* source: no code of its own: a loop over points *)
Fixpoint pmapM {A B} (f : A -> prog B) (l : list A) : prog (list B) :=
  match l with
  | [] => Ret (Ok [])
  | a :: l' => b <~ f a ; r <~ pmapM f l' ; Ret (Ok (b :: r))
  end.

(** value of a spline: for every point the buffer is filled and read *)
(* source: src/GSpline.cpp 91-113 *)
Definition spline_value (w : place) (s : nat -> T -> list T) (k : nat) (pts : list T) : prog (rows (T := T)) :=
  pmapM (fun t => Put w (fill s k t) (Get w (fun b => Ret (Ok (use s k t b))))) pts.

(** value_impl of every class, with the accesses to shared memory; apart from those it is [FunModel.eval] *)
(* source: src/Functions/FunctionSum.cpp 105-118, src/Functions/FunctionMul.cpp 199-215, src/Functions/FunctionsComp.cpp 162-186,
   src/Functions/FunctionsConcat.cpp 140-155, 183-222, src/Functions/FunctionExpression.cpp 204-238,
   src/Functions/ElementalFunctions.cpp 20-28, 45-49, 79-83, 94-97, 119-122, 156-165, 224-232 *)
Fixpoint evalp (f : fn T) (w : place) (pts : list T) (cols : nat) {struct f} : prog (rows (T := T)) :=
  match f with
  | FConst _ v => Ret (eval_const v pts cols)
  | FDil _ a => Ret (col_result cols (map (fun t => a * t) pts))
  | FExp _ => Ret (col_result cols (map nexp pts))
  | FCos _ => Ret (col_result cols (map ncos pts))
  | FSin _ => Ret (col_result cols (map nsin pts))
  | FPoly _ c => Ret (eval_poly c pts cols)
  | FDot _ f1 f2 =>
      r1 <~ evalp f1 (child w 0) pts (fcod f1) ;
      r2 <~ evalp f2 (child w 1) pts (fcod f2) ;
      Ret (if Nat.eqb (fcod f1) (fcod f2) then col_result cols (map2 row_dot r1 r2) else UB)
  | FExt _ c s k => if Nat.eqb cols c then spline_value w s k pts else Ret UB
  | FPy _ c s k => Ret (if Nat.eqb cols c then Ok (map (s k) pts) else UB)
  | FExpr SUM _ _ args =>
      match args with
      | [] => Ret UB
      | g0 :: _ =>
        (fix go (i : nat) (l : list (fn T)) (acc : rows (T := T)) : prog (rows (T := T)) :=
           match l with
           | [] => Ret (Ok acc)
           | g :: l' =>
               temp <~ evalp g (child w i) pts (fcod g0) ;
               if Nat.eqb cols (fcod g0) then go (S i) l' (rows_add acc temp) else Ret UB
           end) 0 args (rows_zero (length pts) cols)
      end
  | FExpr MULTIPLICATION _ _ args =>
      match args with
      | [] => Ret UB
      | g0 :: rest =>
        r0 <~ evalp g0 (child w 0) pts cols ;
        (fix go (i : nat) (l : list (fn T)) (acc : rows (T := T)) : prog (rows (T := T)) :=
           match l with
           | [] => Ret (Ok acc)
           | g :: l' => temp <~ evalp g (child w i) pts 1 ; go (S i) l' (rows_colwise_mul acc temp)
           end) 1 rest r0
      end
  | FExpr COMPOSITION _ _ args =>
      (fix go (i : nat) (l : list (fn T)) (p : list T) : prog (rows (T := T)) :=
         match l with
         | [] => Ret UB
         | g :: l' =>
             match l' with
             | [] => evalp g (child w i) p cols
             | _ => temp <~ evalp g (child w i) p 1 ; go (S i) l' (concat temp)
             end
         end) 0 args pts
  | FExpr CONCATENATION _ _ args =>
      match args with
      | [] => Ret UB
      | g0 :: _ =>
        let c0 := fcod g0 in
        let gl := last args g0 in
        pmapM (fun t =>
          r <~ (fix find (i : nat) (l : list (fn T)) : prog (rows (T := T)) :=
                  match l with
                  | [] =>
                      if t <=? fst (fdom g0) then evalp g0 (child w 0) [fst (fdom g0)] c0
                      else if snd (fdom gl) <=? t
                      then (fix evlast (i : nat) (l : list (fn T)) : prog (rows (T := T)) :=
                              match l with
                              | [] => Ret UB
                              | g :: l' => match l' with
                                           | [] => evalp g (child w i) [snd (fdom gl)] c0
                                           | _ => evlast (S i) l'
                                           end
                              end) 0 args
                      else Ret (Throw InvalidArgument)
                  | g :: l' =>
                      if is_point_in_domain g t then evalp g (child w i) [t] c0 else find (S i) l'
                  end) 0 args ;
          Ret (if Nat.eqb cols c0 then Ok (hd [] r) else UB)) pts
      end
  | FExpr UNIQUE _ _ args =>
      match args with
      | [] => Ret (if dbg then Throw AssertFail else UB)
      | g :: l => if dbg && negb (Nat.eqb (length l) 0) then Ret (Throw AssertFail)
                  else evalp g (child w 0) pts cols
      end
  | FExpr NEGATIVE _ _ args =>
      match args with
      | [] => Ret (if dbg then Throw AssertFail else UB)
      | g :: l => if dbg && negb (Nat.eqb (length l) 0) then Ret (Throw AssertFail)
                  else r <~ evalp g (child w 0) pts cols ; Ret (Ok (rows_neg r))
      end
  end.

(** calls of the copy constructor of FunctionExpression while a tree is copied (a DotProduct holds two expressions) *)
(* source: src/Functions/FunctionExpression.cpp 58-70, src/Functions/ElementalFunctions.cpp 217-218 *)
Fixpoint expressions (f : fn T) : nat :=
  match f with
  | FDot _ f1 f2 => expressions f1 + expressions f2
  | FExpr _ _ _ args => S (list_sum (map expressions args))
  | _ => 0
  end.
(** what a thread computes: values, or a copy *)
(* source: no code of its own *)
Inductive result := Rows (r : rows (T := T)) | Tree (f : fn T).
(** [num_call_copy_constructor_++], n times *)
(* source: src/Functions/FunctionExpression.cpp 69 *)
Fixpoint count_calls (n : nat) (f : fn T) : prog result :=
  match n with
  | O => Ret (Ok (Tree f))
  | S n' => Load (fun c => Store (S c) (count_calls n' f))
  end.

(** operations on the variables of a program: [x(points)] and [FunctionExpression y(x)] *)
(* source: include/gsplines/Functions/FunctionBase.hpp 79-84, src/Functions/FunctionExpression.cpp 58-70 *)
Inductive op := OEval (x : nat) (pts : list T) | OCopy (x : nat).
(* source: include/gsplines/Functions/FunctionBase.hpp 79-84, src/Functions/FunctionExpression.cpp 58-70 *)
Definition thread (s : state T) (o : op) : outcome (prog result) :=
  match o with
  | OEval x pts => f <- look_var s x ;; Ok (r <~ evalp f (x, []) pts (fcod f) ; Ret (Ok (Rows r)))
  | OCopy x => f <- look_var s x ;; Ok (count_calls (expressions f) f)
  end.

(** one access of one thread *)
(* source: no code of its own: sequentially consistent interleaving *)
Definition act {A} (p : prog A) (m : mem) : option (prog A * mem) :=
  match p with
  | Ret _ => None
  | Put w v k => Some (k, put m w v)
  | Get w k => Some (k (m_buf m w), m)
  | Load k => Some (k (m_cnt m), m)
  | Store n k => Some (k, mkmem (m_buf m) n)
  end.
(* source: no code of its own: sequentially consistent interleaving *)
Inductive step {A} : list (prog A) * mem -> list (prog A) * mem -> Prop :=
| step_one i ps m p p' m' : nth_error ps i = Some p -> act p m = Some (p', m') -> step (ps, m) (set_nth ps i p', m').
(* source: no code of its own *)
Inductive steps {A} : list (prog A) * mem -> list (prog A) * mem -> Prop :=
| steps_nil c : steps c c
| steps_cons c c' c'' : step c c' -> steps c' c'' -> steps c c''.
End Threads.
Arguments prog : clear implicits.
Arguments mem : clear implicits.
Arguments op : clear implicits.
Arguments result : clear implicits.
Arguments Ret {T A}. Arguments Put {T A}. Arguments Get {T A}. Arguments Load {T A}. Arguments Store {T A}.
