(** What the error report should say, and data races on it. *)
From Coq Require Import List Reals.
From Verif Require Import Num Outcome LinAlg GSplineModel ToolsModel ToolsSpec ReportModel.
Import ListNotations.
Local Open Scope R_scope.

(** the error of a comparison, absolute and relative to the smaller operand *)
Definition describes (r : report R) (err la lb : R) : Prop := last_error r = err /\ last_relative r = err / Rmin la lb.

Section Race.
Context {T : Type} `{Num T}.
(** the two globals *)
Inductive global := GErr | GRel.
Definition place_of (w : write T) : global := match w with WErr _ => GErr | WRel _ => GRel end.
(** two threads about to store to the same global: without synchronisation a data race *)
Definition store_race (c : list (list (write T)) * report T) : Prop :=
  exists i j a b s t, i <> j /\ nth_error (fst c) i = Some (a :: s) /\ nth_error (fst c) j = Some (b :: t) /\ place_of a = place_of b.
End Race.
