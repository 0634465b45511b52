(** Repeated updates of the lines of a figure: the classes CurveVsTime and VerticalLines of
    python/gsplines/plot/LinesContainer.py 8-73 as objects that keep their lines. *)
From Coq Require Import List Arith Bool Reals.
From Verif Require Import Num Outcome PlotModel.
Import ListNotations.
Local Open Scope R_scope.

(** One axis: a line of every CurveVsTime that was associated with it and the lines of one VerticalLines.  The order in which
    get_lines lists them does not matter to what follows. *)
(* source: python/gsplines/plot/LinesContainer.py 9-21, 43-56 *)
Record panel := mkpanel { p_curves : list line; p_marks : list line }.
(** after the constructors and associate_axis *)
(* source: python/gsplines/plot/LinesContainer.py 9-21, 43-56 *)
Definition fresh_panel (curves marks : nat) : panel := mkpanel (repeat (mkline [] []) curves) (repeat (mkline [] []) marks).
(** [line.set_data(times, values)]: the two lists are not compared *)
(* source: python/gsplines/plot/LinesContainer.py 58-68 *)
Definition set_curve (k : nat) (ts ys : list R) (p : panel) : panel := mkpanel (set_nth (p_curves p) k (mkline ts ys)) (p_marks p).
(** Every y value drawn in the axis.  The maximum of the maxima of the lines that have data is the maximum of all of them. *)
(* source: python/gsplines/plot/LinesContainer.py 25-30 *)
Definition drawn (p : panel) : list R := flat_map ly (p_curves p ++ p_marks p).
(** The lines are set one after the other; one breakpoint more than lines raises after all lines have been set. *)
(* source: python/gsplines/plot/LinesContainer.py 23-32 *)
Definition update_marks (bps : list R) (p : panel) : panel * outcome unit :=
  match fold_ne Rmax (drawn p), fold_ne Rmin (drawn p) with
  | Ok hi, Ok lo =>
    (mkpanel (p_curves p) (map (fun t => mkline [t; t] [lo; hi]) (firstn (length (p_marks p)) bps) ++ skipn (length bps) (p_marks p)),
     if Nat.ltb (length (p_marks p)) (length bps) then Throw OutOfRange else Ok tt)
  | _, _ => (p, Throw InvalidArgument)
  end.
(** the loop over the axes, up to the first that raises *)
(* source: python/gsplines/plot/LinesContainer.py 24 *)
Fixpoint each (f : panel -> panel * outcome unit) (l : list panel) : list panel * outcome unit :=
  match l with
  | [] => ([], Ok tt)
  | p :: r => match f p with
    | (p', Ok _) => (p' :: fst (each f r), snd (each f r))
    | (p', o) => (p' :: r, o)
    end
  end.

(** What a program does to one axis; exceptions are caught by the program. *)
(* source: no code of its own: calls of update and update_data *)
Inductive pop := PSet (k : nat) (ts ys : list R) | PMark (bps : list R).
(* source: no code of its own *)
Definition pstep (p : panel) (o : pop) : panel :=
  match o with PSet k ts ys => set_curve k ts ys p | PMark bps => fst (update_marks bps p) end.
(* source: no code of its own *)
Definition psteps (p : panel) (l : list pop) : panel := fold_left pstep l p.
