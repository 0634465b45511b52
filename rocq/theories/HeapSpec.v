(** What the programs of [HeapModel] should do, without a heap: a list of values, where a moved
    variable is gone. *)
From Coq Require Import List Arith Bool.
From Verif Require Import Num Outcome FunModel HeapModel.
Import ListNotations.

Section Spec.
Context {T : Type} `{Num T}.

(** One value per variable; [None] for a variable that was moved from. *)
Definition values := list (option (expr T)).
Definition value_of (vs : values) (x : nat) : option (expr T) :=
  match nth_error vs x with Some (Some e) => Some e | _ => None end.
Fixpoint forget {A} (vs : list (option A)) (x : nat) : list (option A) :=
  match vs, x with
  | [], _ => []
  | _ :: vs', 0 => None :: vs'
  | v :: vs', S x' => v :: forget vs' x'
  end.
Fixpoint update {A} (vs : list (option A)) (x : nat) (a : A) : list (option A) :=
  match vs, x with
  | [], _ => []
  | _ :: vs', 0 => Some a :: vs'
  | v :: vs', S x' => v :: update vs' x' a
  end.
(* the variables after the operand has been used *)
Definition used {A} (a : bool * nat) (vs : list (option A)) : list (option A) :=
  if fst a then forget vs (snd a) else vs.
Definition category (a b : bool * nat) : vcat :=
  match fst a, fst b with
  | false, false => LL | false, true => LR | true, false => RL | true, true => RR
  end.
Definition bin_value (k : binop) : vcat -> expr T -> expr T -> outcome (expr T) :=
  match k with
  | BAdd => add | BMul => mul | BCompose => compose | BConcat => concat_ | BSub => sub
  end.
(* the unnamed temporaries that the operator creates before its result *)
Definition temporaries (k : binop) : values := match k with BSub => [None] | _ => [] end.
(* neither operand is moved while the other names the same variable *)
Definition apart (a b : bool * nat) : bool := negb ((fst a || fst b) && Nat.eqb (snd a) (snd b)).

Definition omap {A B} (f : A -> B) (r : outcome A) : outcome B :=
  match r with Ok a => Ok (f a) | Throw e => Throw e | UB => UB end.

(** [None]: the program uses a moved variable, or moves one that it also names. *)
Definition step (vs : values) (c : stmt T) : option (outcome values) :=
  match c with
  | SNew f => Some (Ok (vs ++ [Some (to_expression f)]))
  | SCopy a =>
      match value_of vs (snd a) with
      | Some e => Some (Ok (used a vs ++ [Some e]))
      | None => None
      end
  | SNeg a =>
      match value_of vs (snd a) with
      | Some e => Some (Ok (used a vs ++ [Some (neg e)]))
      | None => None
      end
  | SBin k a b =>
      match value_of vs (snd a), value_of vs (snd b) with
      | Some e1, Some e2 =>
          if apart a b then
            Some (omap (fun r => used b (used a vs) ++ temporaries k ++ [Some r])
                       (bin_value k (category a b) e1 e2))
          else None
      | _, _ => None
      end
  | SScal v b =>
      match value_of vs (snd b) with
      | Some e => Some (omap (fun r => used b vs ++ [None; Some r]) (scal (fst b) v e))
      | None => None
      end
  | SIAdd x b =>
      match value_of vs x, value_of vs (snd b) with
      | Some e1, Some e2 =>
          if Nat.eqb x (snd b) then
            if fst b then None else Some (Ok (update vs x (iadd_self e1)))
          else Some (Ok (update (used b vs) x (iadd e1 e2)))
      | _, _ => None
      end
  | SIMul x b =>
      match value_of vs x, value_of vs (snd b) with
      | Some e1, Some e2 =>
          if Nat.eqb x (snd b) then
            if fst b then None else Some (Ok (update vs x (imul_self e1)))
          else Some (Ok (update (used b vs) x (imul e1 e2)))
      | _, _ => None
      end
  end.

Fixpoint steps (vs : values) (p : list (stmt T)) : option (outcome values) :=
  match p with
  | [] => Some (Ok vs)
  | c :: p' =>
      match step vs c with
      | Some (Ok vs1) => steps vs1 p'
      | r => r
      end
  end.

(** ** Ownership *)
Definition addresses (ps : list ptr) : list nat :=
  flat_map (fun p => match p with Some a => [a] | None => [] end) ps.
(* every non-null pointer in a variable or inside a node *)
Definition owners (s : state T) : list nat :=
  flat_map (fun o => addresses (o_args o)) (st_vars s) ++
  flat_map (fun n => match n with NLeaf _ => [] | NExpr _ _ _ ps => addresses ps end) (st_heap s).
End Spec.

(** ** Straight-line programs as trees

    The user declares elemental functions and combines variables; [trees] says which
    expression of [FunSpec] each variable is meant to hold, by substitution. *)
From Coq Require Import Reals.
From Verif Require Import FunSpec.

Inductive ustmt :=
| UNew (d : R * R) (l : leaf)   (* FunctionExpression z(f); *)
| UDo (c : stmt R)              (* a statement on variables *).
Definition lower (u : ustmt) : stmt R :=
  match u with UNew d l => SNew (leaf_fn d l) | UDo c => c end.

Definition tree_of (ts : list (option prog)) (x : nat) : option prog :=
  match nth_error ts x with Some (Some p) => Some p | _ => None end.
Definition bin_tree (k : binop) (o : vcat) (p q : prog) : option prog :=
  match k, q with
  | BAdd, _ => Some (PAdd o p q)
  | BMul, _ => Some (PMul o p q)
  | BCompose, _ => Some (PComp o p q)
  | BSub, PLeaf d l => Some (PSub o p d l)
  | _, _ => None
  end.
Definition bin_temps (k : binop) : list (option prog) := match k with BSub => [None] | _ => [] end.
Definition tree_step (ts : list (option prog)) (u : ustmt) : option (list (option prog)) :=
  match u with
  | UNew d l => Some (ts ++ [Some (PLeaf d l)])
  | UDo (SNew _) => None
  | UDo (SCopy a) =>
      match tree_of ts (snd a) with Some p => Some (used a ts ++ [Some p]) | None => None end
  | UDo (SNeg a) =>
      match tree_of ts (snd a) with
      | Some (PLeaf d l) => Some (used a ts ++ [Some (PNeg d l)])
      | _ => None
      end
  | UDo (SBin k a b) =>
      match tree_of ts (snd a), tree_of ts (snd b) with
      | Some p, Some q =>
          if apart a b then
            match bin_tree k (category a b) p q with
            | Some r => Some (used b (used a ts) ++ bin_temps k ++ [Some r])
            | None => None
            end
          else None
      | _, _ => None
      end
  | UDo (SScal v b) =>
      match tree_of ts (snd b) with
      | Some p => Some (used b ts ++ [None; Some (PScal (fst b) v p)])
      | None => None
      end
  | UDo (SIAdd x b) =>
      match tree_of ts x, tree_of ts (snd b) with
      | Some p, Some q =>
          if Nat.eqb x (snd b) then if fst b then None else Some (update ts x (PIAddSelf p))
          else Some (update (used b ts) x (PIAdd p q))
      | _, _ => None
      end
  | UDo (SIMul x b) =>
      match tree_of ts x, tree_of ts (snd b) with
      | Some p, Some q =>
          if Nat.eqb x (snd b) then if fst b then None else Some (update ts x (PIMulSelf p))
          else Some (update (used b ts) x (PIMul p q))
      | _, _ => None
      end
  end.
Fixpoint trees (ts : list (option prog)) (us : list ustmt) : option (list (option prog)) :=
  match us with
  | [] => Some ts
  | u :: us' => match tree_step ts u with Some ts1 => trees ts1 us' | None => None end
  end.
