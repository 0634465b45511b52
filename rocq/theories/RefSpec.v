(** The same programs when every call returns a vector of its own, and the rule
    under which the difference cannot be seen. *)
From Coq Require Import List Arith Bool.
From Verif Require Import Num Outcome LinAlg LegendreModel LagrangeModel Basis0101Model BasisModel ToolsModel GSplineModel InterpModel RefModel.
Import ListNotations.

Section Refs.
Context {T : Type} `{Num T}.

Inductive value := VObj (ip : interp T) | VGone | VVec (v : vec T).
Definition vobject (st : list value) (i : nat) : outcome (interp T) :=
  match nth_error st i with Some (VObj ip) => Ok ip | _ => UB end.
Definition vread_var (st : list value) (x : nat) : outcome (vec T) :=
  match nth_error st x with Some (VVec v) => Ok v | _ => UB end.
Definition vstep (s : stmt T) (st : list value) : outcome (list value) :=
  match s with
  | New c n b bst => ip <- ip_ctor c n b bst ;; Ok (st ++ [VObj ip])
  | Solve lu i tau wp => ip <- vobject st i ;; '(r, ip') <- ip_solve lu ip tau wp ;; Ok (list_set st i (VObj ip') ++ [VVec r])
  | Interp lu i tau wp => ip <- vobject st i ;; '(g, ip') <- ip_interpolate lu ip tau wp ;; Ok (list_set st i (VObj ip') ++ [VVec (gs_coef g)])
  | Tau lu i coef tau idx =>
      ip <- vobject st i ;; v <- (match coef with Val v => Ok v | Var x => vread_var st x end) ;;
      '(r, ip') <- ip_coeff_tau lu ip v tau idx ;; Ok (list_set st i (VObj ip') ++ [VVec r])
  | Copy x => v <- vread_var st x ;; Ok (st ++ [VVec v])
  | Drop i => _ <- vobject st i ;; Ok (list_set st i VGone ++ [VGone])
  end.
Fixpoint vrun (p : list (stmt T)) (st : list value) : outcome (list value) :=
  match p with [] => Ok st | s :: p' => st' <- vstep s st ;; vrun p' st' end.

(** a solver that succeeds returns as many numbers as there are equations (the systems are square) *)
Definition sized (lu : smat T -> option (vec T -> vec T)) : Prop := forall A f v, lu A = Some f -> vlen (f v) = srows A.
(** the solver used by a statement *)
Definition solver_of (s : stmt T) : option (smat T -> option (vec T -> vec T)) :=
  match s with Solve lu _ _ _ | Interp lu _ _ _ | Tau lu _ _ _ _ => Some lu | _ => None end.

(** the two families of results *)
Inductive family := Solutions | Sensitivities.
(** the result of a statement belongs to family q of object i *)
Definition belongs (s : stmt T) (q : family) (i : nat) : Prop :=
  match s with
  | Solve _ j _ _ => q = Solutions /\ j = i
  | Tau _ j _ _ _ => q = Sensitivities /\ j = i
  | _ => False
  end.
(** a statement ends the life of the results of family q of object i *)
Definition ends (s : stmt T) (q : family) (i : nat) : Prop :=
  match s with
  | Solve _ j _ _ | Interp _ j _ _ => q = Solutions /\ j = i
  | Tau _ j _ _ _ => q = Sensitivities /\ j = i
  | Drop j => j = i
  | _ => False
  end.
(** variable x is still good just before statement k *)
Definition good (p : list (stmt T)) (x k : nat) : Prop :=
  forall s q i, nth_error p x = Some s -> belongs s q i ->
  forall j s', (x < j < k)%nat -> nth_error p j = Some s' -> ~ ends s' q i.
Definition uses (s : stmt T) (x : nat) : Prop :=
  match s with Copy y => y = x | Tau _ _ (Var y) _ _ => y = x | _ => False end.
(** the rule: what a statement uses is good, and is not ended by the statement itself *)
Definition disciplined (p : list (stmt T)) : Prop :=
  forall k s x, nth_error p k = Some s -> uses s x -> (x < k)%nat -> good p x (S k).
End Refs.
Arguments value : clear implicits.
