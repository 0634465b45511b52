(** Balls that contain the results of rounded arithmetic, and the ball of a function expression. *)
From Coquelicot Require Import Coquelicot.
From Coq Require Import ZArith Reals List Bool.
From Flocq Require Import Core BinarySingleNaN.
From Verif Require Import Num Outcome FunModel FunSpec IEEEModel IEEESpec.
Import ListNotations.
Local Open Scope R_scope.

(** a real number and how far a finite binary64 number may be from it *)
Definition ball : Type := (R * R)%type.
Definition within (t : b64) (p : ball) : Prop := fin t /\ Rabs (val t - fst p) <= snd p.
(** the largest magnitude in a ball *)
Definition mag (p : ball) : R := Rabs (fst p) + snd p.

(** accuracy of the library functions: eps relative for exp, down to the least normal number 2^-1022; eps absolute for cos and sin *)
Definition tiny : R := / 2 ^ 1022.
Definition accurate (m : libm) (eps : R) : Prop :=
  (forall t, fin t -> exp (val t) <= big -> fin (m_exp m t) /\ Rabs (val (m_exp m t) - exp (val t)) <= eps * (exp (val t) + tiny)) /\
  (forall t, fin t -> fin (m_cos m t) /\ Rabs (val (m_cos m t) - cos (val t)) <= eps) /\
  (forall t, fin t -> fin (m_sin m t) /\ Rabs (val (m_sin m t) - sin (val t)) <= eps).

(** ** Operations; None where a result could overflow *)
Definition obind {A B} (o : option A) (k : A -> option B) : option B := match o with Some a => k a | None => None end.
Definition guard (m : R) (p : ball) : option ball := if Rle_dec m big then Some p else None.
Definition b_cst (c : b64) : option ball := if is_finite c then Some (val c, 0) else None.
Definition b_add (p q : ball) : option ball :=
  guard (mag p + mag q) (fst p + fst q, snd p + snd q + uu * (mag p + mag q)).
Definition b_mul (p q : ball) : option ball :=
  guard (mag p * mag q) (fst p * fst q, Rabs (fst p) * snd q + snd p * Rabs (fst q) + snd p * snd q + uu * (mag p * mag q) + hh).
Definition b_neg (p : ball) : ball := (- fst p, snd p).
Definition b_exp (eps : R) (p : ball) : option ball :=
  guard (exp (fst p + snd p)) (exp (fst p), exp (fst p + snd p) - exp (fst p) + eps * (exp (fst p + snd p) + tiny)).
Definition b_cos (eps : R) (p : ball) : ball := (cos (fst p), snd p + eps).
Definition b_sin (eps : R) (p : ball) : ball := (sin (fst p), snd p + eps).

(** a list of operations, all of which must succeed *)
Fixpoint mapO {A B} (f : A -> option B) (l : list A) : option (list B) :=
  match l with [] => Some [] | x :: l' => obind (f x) (fun y => obind (mapO f l') (fun ys => Some (y :: ys))) end.
Fixpoint map2O {A B C} (f : A -> B -> option C) (l1 : list A) (l2 : list B) : option (list C) :=
  match l1, l2 with
  | x :: l1', y :: l2' => obind (f x y) (fun z => obind (map2O f l1' l2') (fun zs => Some (z :: zs)))
  | _, _ => Some []
  end.
Fixpoint foldO {A B} (f : B -> A -> option B) (l : list A) (b : B) : option B :=
  match l with [] => Some b | x :: l' => obind (f b x) (foldO f l') end.

(** comparisons that hold for every number of the ball *)
Definition dec {P : Prop} (d : {P} + {~ P}) : bool := if d then true else false.
Definition surely_ge (c : b64) (p : ball) : bool := is_finite c && dec (Rle_dec (val c) (fst p - snd p)).
Definition surely_gt (c : b64) (p : ball) : bool := is_finite c && dec (Rlt_dec (val c) (fst p - snd p)).
Definition surely_lt (c : b64) (p : ball) : bool := is_finite c && dec (Rlt_dec (fst p + snd p) (val c)).
Definition surely_le (c : b64) (p : ball) : bool := is_finite c && dec (Rle_dec (fst p + snd p) (val c)).

(** ** The balls of the components of f at an argument in p.  The expression must not contain foreign classes; where a
    piece of a concatenation is chosen, all numbers of the ball must choose the same. *)
Section B.
Variable eps : R.
Fixpoint beval (f : fn b64) (p : ball) {struct f} : option (list ball) :=
  match f with
  | FConst _ v => mapO b_cst v
  | FDil _ a => obind (b_cst a) (fun a => obind (b_mul a p) (fun r => Some [r]))
  | FExp _ => obind (b_exp eps p) (fun r => Some [r])
  | FCos _ => Some [b_cos eps p]
  | FSin _ => Some [b_sin eps p]
  | FPoly _ c =>
      match rev c with
      | [] => None
      | cl :: rest => obind (b_cst cl) (fun r => obind (foldO (fun r c => obind (b_mul r p) (fun r => obind (b_cst c) (b_add r))) rest r) (fun r => Some [r]))
      end
  | FDot _ f1 f2 =>
      if Nat.eqb (fcod f1) (fcod f2)
      then obind (beval f1 p) (fun r1 => obind (beval f2 p) (fun r2 => obind (map2O b_mul r1 r2) (fun l => obind (foldO b_add l (0, 0)) (fun r => Some [r]))))
      else None
  | FExt _ _ _ _ | FPy _ _ _ _ => None
  | FExpr SUM _ c args =>
      match args with
      | [] => None
      | _ => (fix go (l : list (fn b64)) (acc : list ball) : option (list ball) :=
                match l with
                | [] => Some acc
                | g :: l' => if Nat.eqb (fcod g) c then obind (beval g p) (fun r => obind (map2O b_add acc r) (go l')) else None
                end) args (repeat (0, 0) c)
      end
  | FExpr MULTIPLICATION _ c args =>
      match args with
      | [] => None
      | g0 :: rest =>
          if Nat.eqb (fcod g0) c
          then obind (beval g0 p)
            ((fix go (l : list (fn b64)) (acc : list ball) : option (list ball) :=
                match l with
                | [] => Some acc
                | g :: l' => if Nat.eqb (fcod g) 1
                             then obind (beval g p) (fun r => match r with [s] => obind (mapO (fun x => b_mul x s) acc) (go l') | _ => None end)
                             else None
                end) rest)
          else None
      end
  | FExpr COMPOSITION _ c args =>
      (fix go (l : list (fn b64)) (q : ball) : option (list ball) :=
         match l with
         | [] => None
         | g :: l' =>
             match l' with
             | [] => if Nat.eqb (fcod g) c then beval g q else None
             | _ => if Nat.eqb (fcod g) 1 then obind (beval g q) (fun r => match r with [s] => go l' s | _ => None end) else None
             end
         end) args p
  | FExpr CONCATENATION _ c args =>
      match args with
      | [] => None
      | g0 :: _ =>
          if Nat.eqb (fcod g0) c then
            (fix find (l : list (fn b64)) : option (list ball) :=
               match l with
               | [] =>
                   if surely_le (fst (fdom g0)) p then obind (b_cst (fst (fdom g0))) (beval g0)
                   else if surely_gt (fst (fdom g0)) p && surely_ge (snd (fdom (last args g0))) p
                   then (fix evlast (l : list (fn b64)) : option (list ball) :=
                           match l with
                           | [] => None
                           | g :: l' => match l' with
                                        | [] => if Nat.eqb (fcod g) c then obind (b_cst (snd (fdom (last args g0)))) (beval g) else None
                                        | _ => evlast l'
                                        end
                           end) args
                   else None
               | g :: l' =>
                   if surely_ge (fst (fdom g)) p && surely_lt (snd (fdom g)) p then (if Nat.eqb (fcod g) c then beval g p else None)
                   else if surely_lt (fst (fdom g)) p || surely_ge (snd (fdom g)) p then find l'
                   else None
               end) args
          else None
      end
  | FExpr UNIQUE _ c args =>
      match args with [g] => if Nat.eqb (fcod g) c then beval g p else None | _ => None end
  | FExpr NEGATIVE _ c args =>
      match args with [g] => if Nat.eqb (fcod g) c then obind (beval g p) (fun r => Some (map b_neg r)) else None | _ => None end
  end.
End B.

(** the same expression over another type of numbers; foreign classes are replaced as hs says *)
Section Map.
Context {A B : Type} (h : A -> B) (hs : (nat -> A -> list A) -> nat -> B -> list B).
Fixpoint fn_map (f : fn A) : fn B :=
  let dm := fun d : A * A => (h (fst d), h (snd d)) in
  match f with
  | FConst d v => FConst (dm d) (map h v)
  | FDil d a => FDil (dm d) (h a)
  | FExp d => FExp (dm d)
  | FCos d => FCos (dm d)
  | FSin d => FSin (dm d)
  | FPoly d c => FPoly (dm d) (map h c)
  | FDot d f1 f2 => FDot (dm d) (fn_map f1) (fn_map f2)
  | FExt d c s k => FExt (dm d) c (hs s) k
  | FPy d c s k => FPy (dm d) c (hs s) k
  | FExpr ty d c args => FExpr ty (dm d) c (map fn_map args)
  end.
End Map.
(** the expression over the reals *)
Definition exact_fn : fn b64 -> fn R := fn_map val (fun _ _ _ => []).

(** ** Bounds before any evaluation *)
(** roundings on the way to a component, for an argument that has seen n of them *)
Fixpoint ops (f : fn b64) (n : nat) : nat :=
  match f with
  | FConst _ _ | FExt _ _ _ _ | FPy _ _ _ _ => n
  | FDil _ _ => n + 1
  | FExp _ | FCos _ | FSin _ => n + 2
  | FPoly _ c => n + (length c - 1) * (n + 2)
  | FDot _ f1 f2 => ops f1 n + ops f2 n + 1 + fcod f1
  | FExpr SUM _ _ args => fold_left (fun k g => S (Nat.max k (ops g n))) args n
  | FExpr MULTIPLICATION _ _ args =>
      match args with [] => n | g0 :: rest => fold_left (fun k g => (k + ops g n + 1)%nat) rest (ops g0 n) end
  | FExpr COMPOSITION _ _ args => fold_left (fun k g => ops g k) args n
  | FExpr CONCATENATION _ _ _ => n
  | FExpr _ _ _ args => match args with [g] => ops g n | _ => n end
  end.
(** the expression of absolute values, for an argument of magnitude at most a: signs are dropped, 2^-1022 is added to products *)
Fixpoint sizes (f : fn b64) (a : R) : list R :=
  match f with
  | FConst _ v => map (fun x => Rabs (val x)) v
  | FDil _ c => [Rabs (val c) * a + tiny]
  | FExp _ => [exp (2 * a) * (1 + a) + tiny]
  | FCos _ | FSin _ => [a + 1]
  | FPoly _ c => [power_sum (map (fun x => Rabs (val x) + tiny) c) a]
  | FDot _ f1 f2 => [fold_left Rplus (map2 (fun x y => x * y + tiny) (sizes f1 a) (sizes f2 a)) 0]
  | FExt _ _ _ _ | FPy _ _ _ _ => []
  | FExpr SUM _ c args => fold_left (fun acc g => map2 Rplus acc (sizes g a)) args (repeat 0 c)
  | FExpr MULTIPLICATION _ _ args =>
      match args with
      | [] => []
      | g0 :: rest => fold_left (fun acc g => map (fun x => x * hd 0 (sizes g a) + tiny) acc) rest (sizes g0 a)
      end
  | FExpr COMPOSITION _ _ args => fold_left (fun s g => sizes g (hd 0 s)) args [a]
  | FExpr CONCATENATION _ _ _ => []
  | FExpr _ _ _ args => match args with [g] => sizes g a | _ => [] end
  end.
(** operands have the shapes their operation wants and no result comes near overflow; foreign classes and concatenations are left out *)
Definition fit (x : R) : Prop := 2 * x <= big.
Fixpoint fits (f : fn b64) (a : R) : Prop :=
  match f with
  | FConst _ v => Forall fin v
  | FDil _ c => fin c /\ Forall fit (sizes f a)
  | FExp _ => exp (2 * a) <= big
  | FCos _ | FSin _ => True
  | FPoly _ c => c <> [] /\ Forall fin c /\ fit (power_sum (map (fun x => Rabs (val x) + tiny) c) (Rmax 1 a))
  | FDot _ f1 f2 => fcod f1 = fcod f2 /\ fits f1 a /\ fits f2 a /\ Forall fit (sizes f a)
  | FExt _ _ _ _ | FPy _ _ _ _ => False
  | FExpr SUM _ c args => args <> [] /\ fold_right (fun g P => fcod g = c /\ fits g a /\ P) True args /\ Forall fit (sizes f a)
  | FExpr MULTIPLICATION _ c args =>
      match args with
      | [] => False
      | g0 :: rest => fcod g0 = c /\ fits g0 a /\
          (fix go (l : list (fn b64)) (acc : list R) : Prop :=
             match l with
             | [] => True
             | g :: l' => fcod g = 1%nat /\ fits g a /\
                          let acc' := map (fun x => x * hd 0 (sizes g a) + tiny) acc in Forall fit acc' /\ go l' acc'
             end) rest (sizes g0 a)
      end
  | FExpr COMPOSITION _ c args =>
      args <> [] /\
      (fix go (l : list (fn b64)) (s : R) : Prop :=
         match l with
         | [] => True
         | g :: l' => fits g s /\ fcod g = match l' with [] => c | _ => 1%nat end /\ go l' (hd 0 (sizes g s))
         end) args a
  | FExpr CONCATENATION _ _ _ => False
  | FExpr _ _ c args => match args with [g] => fcod g = c /\ fits g a | _ => False end
  end.
(** a row of computed components against the exact ones *)
Definition close_rows (bound : list R) (row : list b64) (x : list R) : Prop :=
  length row = length x /\ length bound = length x /\
  forall j, (j < length x)%nat -> fin (nth j row (B754_zero false)) /\ Rabs (val (nth j row (B754_zero false)) - nth j x 0) <= nth j bound 0.
