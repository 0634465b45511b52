(** Expression objects in memory: which [std::unique_ptr] owns which node, what [clone]
    allocates, what [std::move] takes away, and what a moved-from variable holds.

    [FunModel] treats a function object as a value.  Here a FunctionExpression variable owns
    a list of pointers into a heap of nodes, the operators are sequences of reads, clones and
    moves in the order of the source text, and the same variable may be named twice.

    Simplifications.
    - The heap only grows: no statement below destroys a node (temporaries are empty or hold
      null pointers when they end), so an address is the number of nodes allocated before it.
    - Allocation never fails.
    - A node that is not a FunctionExpression is one cell holding the value of the object; a
      DotProduct keeps its two expressions inside its own cell.
    - Scopes are not modelled: a declared variable stays until the end of the program. *)
From Coq Require Import List Arith Bool.
From Verif Require Import Num Outcome FunModel.
Import ListNotations.

Section Heap.
Context {T : Type} `{Num T}.

(* source: std::unique_ptr<FunctionBase>, include/gsplines/Functions/FunctionExpression.hpp 38;
   [None] is the null pointer *)
Definition ptr := option nat.

(** A heap cell: an object of a class other than FunctionExpression, or a FunctionExpression. *)
(* source: include/gsplines/Functions/FunctionExpression.hpp 22-44 *)
Inductive node :=
| NLeaf (f : fn T)
| NExpr (ty : ftype) (d : dom T) (c : nat) (ps : list ptr).

(* source: include/gsplines/Functions/FunctionExpression.hpp 35-44, FunctionBase.hpp 18-22 *)
Record obj := mkobj { o_ty : ftype; o_dom : dom T; o_cod : nat; o_args : list ptr }.

Definition heap := list node.
(* the variables of the program, in order of declaration, and the heap *)
Record state := mkstate { st_heap : heap; st_vars : list obj }.

(* operator new: the new node and its address *)
Definition alloc (h : heap) (n : node) : heap * ptr := (h ++ [n], Some (length h)).

(* source: the loops calling clone() on every element,
   src/Functions/FunctionExpression.cpp 27-29, 64-66 *)
Fixpoint clone_list (cl : heap -> ptr -> outcome (heap * ptr)) (h : heap) (ps : list ptr)
  : outcome (heap * list ptr) :=
  match ps with
  | [] => Ok (h, [])
  | p :: ps' =>
      '(h1, q) <- cl h p ;;
      '(h2, qs) <- clone_list cl h1 ps' ;;
      Ok (h2, q :: qs)
  end.

(** [p->clone()]: a copy of the node and of everything below it.  A null pointer is undefined
    behaviour.  [n] bounds the depth; a node only points to older nodes, so [length h] levels
    are enough and the bound is never met (HeapProofs.v, [clone_ok]). *)
(* source: include/gsplines/Functions/FunctionInheritanceHelper.hpp 9-50;
   copy constructor, src/Functions/FunctionExpression.cpp 58-69 *)
Fixpoint clone_n (n : nat) (h : heap) (p : ptr) : outcome (heap * ptr) :=
  match n, p with
  | S n', Some a =>
      nd <- of_option (nth_error h a) ;;
      match nd with
      | NLeaf f => Ok (alloc h (NLeaf f))
      | NExpr ty d c ps =>
          '(h1, qs) <- clone_list (clone_n n') h ps ;;
          Ok (alloc h1 (NExpr ty d c qs))
      end
  | _, _ => UB
  end.
Definition clone (h : heap) (p : ptr) : outcome (heap * ptr) := clone_n (length h) h p.
Definition clone_all (h : heap) (ps : list ptr) : outcome (heap * list ptr) := clone_list clone h ps.

(* a variable; a name that was never declared is not a C++ program *)
Definition getv (s : state) (x : nat) : outcome obj := of_option (nth_error (st_vars s) x).

Fixpoint set_nth {A} (l : list A) (i : nat) (a : A) : list A :=
  match l, i with
  | [], _ => []
  | _ :: l', 0 => a :: l'
  | b :: l', S i' => b :: set_nth l' i' a
  end.
Definition setv (s : state) (x : nat) (o : obj) : state :=
  mkstate (st_heap s) (set_nth (st_vars s) x o).
Definition with_args (o : obj) (ps : list ptr) : obj := mkobj (o_ty o) (o_dom o) (o_cod o) ps.
Definition declare (s : state) (o : obj) : state := mkstate (st_heap s) (st_vars s ++ [o]).

(** [x.clone()]: the copy constructor in a new heap node. *)
(* source: src/Functions/FunctionExpression.cpp 58-69 *)
Definition clone_var (s : state) (x : nat) : outcome (state * ptr) :=
  o <- getv s x ;;
  '(h, qs) <- clone_all (st_heap s) (o_args o) ;;
  let '(h', q) := alloc h (NExpr (o_ty o) (o_dom o) (o_cod o) qs) in
  Ok (mkstate h' (st_vars s), q).

(** [x.move_clone()]: the move constructor in a new heap node; the list of [x] is left empty. *)
(* source: src/Functions/FunctionExpression.cpp 72-79 *)
Definition move_clone_var (s : state) (x : nat) : outcome (state * ptr) :=
  o <- getv s x ;;
  let '(h', q) := alloc (st_heap s) (NExpr (o_ty o) (o_dom o) (o_cod o) (o_args o)) in
  Ok (mkstate h' (set_nth (st_vars s) x (with_args o [])), q).

(** An operand: a variable, named ([false]) or through std::move ([true]). *)
Definition operand := (bool * nat)%type.

(** One half of the operation handlers and of compose/concat: the elements that the operand
    contributes.  [fl] tells for which types the list is taken apart; otherwise the operand
    becomes one node.  The algorithm std::move leaves the elements of the source list null. *)
(* source: src/Functions/FunctionGenericOperations.cpp 12-23, 61-69, 80-88, 112-131;
   src/Functions/FunctionsComp.cpp 28-46, 70-75; src/Functions/FunctionsConcat.cpp 26-44, 67-73 *)
Definition take (fl : ftype -> bool) (s : state) (a : operand) : outcome (state * list ptr) :=
  let '(mv, x) := a in
  o <- getv s x ;;
  if fl (o_ty o) then
    if mv then Ok (setv s x (with_args o (map (fun _ => None) (o_args o))), o_args o)
    else '(h, qs) <- clone_all (st_heap s) (o_args o) ;; Ok (mkstate h (st_vars s), qs)
  else
    '(s', q) <- (if mv then move_clone_var s x else clone_var s x) ;;
    Ok (s', [q]).

Definition fl_handler (op ty : ftype) : bool := ftype_eqb ty op || ftype_eqb ty UNIQUE.
Definition fl_only (op ty : ftype) : bool := ftype_eqb ty op.

(* domain, codomain and type of an object, as the compatibility tests read them *)
Definition shape (o : obj) : expr T := mkexpr (o_ty o) (o_dom o) (o_cod o) [].

(** [auto z = a + b;] *)
(* source: src/Functions/FunctionSum.cpp 18-71 *)
Definition h_add (s : state) (a b : operand) : outcome state :=
  o1 <- getv s (snd a) ;; o2 <- getv s (snd b) ;;
  _ <- sum_throw (shape o1) (shape o2) ;;
  '(s1, p1) <- take (fl_handler SUM) s a ;;
  '(s2, p2) <- take (fl_handler SUM) s1 b ;;
  Ok (declare s2 (mkobj SUM (o_dom o1) (o_cod o1) (p1 ++ p2))).

(** [auto z = a * b;] the operand with more components is handled first. *)
(* source: src/Functions/FunctionMul.cpp 49-141 *)
Definition h_mul (s : state) (a b : operand) : outcome state :=
  o1 <- getv s (snd a) ;; o2 <- getv s (snd b) ;;
  _ <- compatibility_mul (shape o1) (shape o2) ;;
  let first := Nat.leb (o_cod o2) (o_cod o1) in
  let v := if first then a else b in
  let w := if first then b else a in
  let ov := if first then o1 else o2 in
  '(s1, p1) <- take (fl_handler MULTIPLICATION) s v ;;
  '(s2, p2) <- take (fl_handler MULTIPLICATION) s1 w ;;
  Ok (declare s2 (mkobj MULTIPLICATION
                    (if fst a || fst b then o_dom o1 else o_dom ov) (o_cod ov) (p1 ++ p2))).

(** [auto z = a.compose(b);].  An rvalue composition is extended in place and moved into the
    result. *)
(* source: src/Functions/FunctionsComp.cpp 21-157 *)
Definition h_compose (s : state) (a b : operand) : outcome state :=
  o1 <- getv s (snd a) ;; o2 <- getv s (snd b) ;;
  _ <- comp_throw (shape o1) (shape o2) ;;
  if fst a && ftype_eqb (o_ty o1) COMPOSITION then
    '(s1, p2) <- take (fl_only COMPOSITION) s b ;;
    o1' <- getv s1 (snd a) ;;
    let d := if fst b then o_dom o2 else o_dom o1 in
    Ok (declare (setv s1 (snd a) (mkobj (o_ty o1') d (o_cod o1') []))
          (mkobj COMPOSITION d (o_cod o1) (p2 ++ o_args o1')))
  else
    '(s1, p1) <- take (fl_only COMPOSITION) s a ;;
    '(s2, p2) <- take (fl_only COMPOSITION) s1 b ;;
    Ok (declare s2 (mkobj COMPOSITION (o_dom o2) (o_cod o1) (p2 ++ p1))).

(** [auto z = a.concat(b);].  With [a] an rvalue concatenation and [b] the same variable the
    elements of a list are appended to the list that is being read: the loop never reaches
    the end ([UB]; FunctionsConcat.cpp 89-95, 119-122).  With [a] any other rvalue, [b] is
    taken first (lines 97, 103). *)
(* source: src/Functions/FunctionsConcat.cpp 19-134 *)
Definition h_concat (s : state) (a b : operand) : outcome state :=
  o1 <- getv s (snd a) ;; o2 <- getv s (snd b) ;;
  _ <- concat_throw (shape o1) (shape o2) ;;
  let d := (fst (o_dom o1), snd (o_dom o2)) in
  if fst a then
    if ftype_eqb (o_ty o1) CONCATENATION then
      if Nat.eqb (snd a) (snd b) then UB else
      '(s1, p2) <- take (fl_only CONCATENATION) s b ;;
      o1' <- getv s1 (snd a) ;;
      Ok (declare (setv s1 (snd a) (with_args o1' []))
            (mkobj CONCATENATION (o_dom o1) (o_cod o1) (o_args o1' ++ p2)))
    else
      '(s1, p2) <- take (fl_only CONCATENATION) s b ;;
      '(s2, p1) <- take (fl_only CONCATENATION) s1 a ;;
      Ok (declare s2 (mkobj CONCATENATION d (o_cod o1) (p1 ++ p2)))
  else
    '(s1, p1) <- take (fl_only CONCATENATION) s a ;;
    '(s2, p2) <- take (fl_only CONCATENATION) s1 b ;;
    Ok (declare s2 (mkobj CONCATENATION d (o_cod o1) (p1 ++ p2))).

(** The elements copied (const list& constructors) or moved (list&& constructors). *)
(* source: src/Functions/FunctionExpression.cpp 19-33, 42-56, 58-79 *)
Definition all_args (s : state) (a : operand) : outcome (state * list ptr) :=
  o <- getv s (snd a) ;;
  if fst a then Ok (setv s (snd a) (with_args o []), o_args o)
  else '(h, qs) <- clone_all (st_heap s) (o_args o) ;; Ok (mkstate h (st_vars s), qs).

(** [auto z = -a;] *)
(* source: src/Functions/FunctionMul.cpp 142-154 *)
Definition h_neg (s : state) (a : operand) : outcome state :=
  o <- getv s (snd a) ;;
  '(s1, ps) <- all_args s a ;;
  Ok (declare s1 (mkobj NEGATIVE (o_dom o) (o_cod o) ps)).

(** [FunctionExpression z(a);] *)
(* source: src/Functions/FunctionExpression.cpp 58-79 *)
Definition h_copy (s : state) (a : operand) : outcome state :=
  o <- getv s (snd a) ;;
  '(s1, ps) <- all_args s a ;;
  Ok (declare s1 (mkobj (o_ty o) (o_dom o) (o_cod o) ps)).

(** [FunctionExpression z(f);] with [f] an object of another class. *)
(* source: src/Functions/FunctionExpression.cpp 81-93 *)
Definition h_new (s : state) (f : fn T) : outcome state :=
  let '(h, q) := alloc (st_heap s) (NLeaf f) in
  Ok (declare (mkstate h (st_vars s)) (mkobj UNIQUE (fdom f) (fcod f) [q])).

(** [x += b;] ([op = SUM]) and [x *= b;] ([op = MULTIPLICATION]). *)
(* source: src/Functions/FunctionSum.cpp 139-168, src/Functions/FunctionMul.cpp 165-194 *)
Definition h_iop (op : ftype) (s : state) (x : nat) (b : operand) : outcome state :=
  o <- getv s x ;;
  let s1 :=
    if ftype_eqb (o_ty o) UNIQUE then setv s x (mkobj op (o_dom o) (o_cod o) (o_args o))
    else if ftype_eqb (o_ty o) op then s
    else
      let '(h, q) := alloc (st_heap s) (NExpr (o_ty o) (o_dom o) (o_cod o) (o_args o)) in
      mkstate h (set_nth (st_vars s) x (mkobj op (o_dom o) (o_cod o) [q])) in
  '(s2, q) <- (if fst b then move_clone_var s1 (snd b) else clone_var s1 (snd b)) ;;
  o2 <- getv s2 x ;;
  Ok (setv s2 x (with_args o2 (o_args o2 ++ [q]))).

(** [auto z = a - b;]: the sum with the temporary [-b].  The temporary stays in the list of
    variables, moved-from. *)
(* source: src/Functions/FunctionSum.cpp 76-101 *)
Definition h_sub (s : state) (a b : operand) : outcome state :=
  o1 <- getv s (snd a) ;; o2 <- getv s (snd b) ;;
  _ <- sum_throw (shape o1) (shape o2) ;;
  let t := length (st_vars s) in
  s1 <- h_neg s b ;;
  h_add s1 a (true, t).

(** [auto z = v * b;] with a number [v]: the product with a temporary constant function. *)
(* source: src/Functions/FunctionMul.cpp 156-163, src/Functions/FunctionBase.cpp 165-171 *)
Definition h_scal (s : state) (v : T) (b : operand) : outcome state :=
  o <- getv s (snd b) ;;
  let t := length (st_vars s) in
  s1 <- h_new s (const_function (o_dom o) 1 v) ;;
  h_mul s1 (true, t) b.

Inductive binop := BAdd | BMul | BCompose | BConcat | BSub.
(* source: the operators above, include/gsplines/Functions/FunctionExpression.hpp 91-136 *)
Inductive stmt :=
| SNew (f : fn T)
| SCopy (a : operand)
| SNeg (a : operand)
| SBin (k : binop) (a b : operand)
| SScal (v : T) (b : operand)
| SIAdd (x : nat) (b : operand)
| SIMul (x : nat) (b : operand).

Definition exec (s : state) (c : stmt) : outcome state :=
  match c with
  | SNew f => h_new s f
  | SCopy a => h_copy s a
  | SNeg a => h_neg s a
  | SBin BAdd a b => h_add s a b
  | SBin BMul a b => h_mul s a b
  | SBin BCompose a b => h_compose s a b
  | SBin BConcat a b => h_concat s a b
  | SBin BSub a b => h_sub s a b
  | SScal v b => h_scal s v b
  | SIAdd x b => h_iop SUM s x b
  | SIMul x b => h_iop MULTIPLICATION s x b
  end.

Fixpoint run (s : state) (p : list stmt) : outcome state :=
  match p with
  | [] => Ok s
  | c :: p' => s1 <- exec s c ;; run s1 p'
  end.
Definition start : state := mkstate [] [].

(** The object seen through a pointer, as the virtual calls see it: following a null pointer is
    undefined behaviour. *)
(* source: the calls f->value, f->deriv, f->get_domain through the list,
   src/Functions/FunctionSum.cpp 109-114, src/Functions/FunctionMul.cpp 207-213 *)
Fixpoint look_list (lk : ptr -> outcome (fn T)) (ps : list ptr) : outcome (list (fn T)) :=
  match ps with
  | [] => Ok []
  | p :: ps' => f <- lk p ;; fs <- look_list lk ps' ;; Ok (f :: fs)
  end.
Fixpoint look_n (n : nat) (h : heap) (p : ptr) : outcome (fn T) :=
  match n, p with
  | S n', Some a =>
      nd <- of_option (nth_error h a) ;;
      match nd with
      | NLeaf f => Ok f
      | NExpr ty d c ps => fs <- look_list (look_n n' h) ps ;; Ok (FExpr ty d c fs)
      end
  | _, _ => UB
  end.
Definition look (h : heap) (p : ptr) : outcome (fn T) := look_n (length h) h p.
(** The function object held by a variable. *)
Definition look_var (s : state) (x : nat) : outcome (fn T) :=
  o <- getv s x ;;
  fs <- look_list (look (st_heap s)) (o_args o) ;;
  Ok (FExpr (o_ty o) (o_dom o) (o_cod o) fs).
(** [x(points)]. *)
(* source: src/Functions/FunctionBase.cpp 37-52 *)
Definition call_var (dbg : bool) (s : state) (x : nat) (pts : list T) :=
  f <- look_var s x ;; call dbg f pts.
End Heap.
Arguments node : clear implicits.
Arguments obj : clear implicits.
Arguments heap : clear implicits.
Arguments state : clear implicits.
Arguments stmt : clear implicits.
