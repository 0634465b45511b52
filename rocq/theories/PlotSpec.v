(** What a plot should show. *)
From Coq Require Import List Reals Arith.
From Verif Require Import Num Outcome PlotModel.
Import ListNotations.
Local Open Scope R_scope.

(** The sampled times: every a + k dt below b, in order. *)
Definition samples (a b dt : R) (ts : list R) : Prop :=
  forall k, ((k < length ts)%nat <-> a + INR k * dt < b) /\ ((k < length ts)%nat -> nth k ts 0 = a + INR k * dt).
Definition is_max (m : R) (l : list R) : Prop := In m l /\ forall x, In x l -> x <= m.
Definition is_min (m : R) (l : list R) : Prop := In m l /\ forall x, In x l -> m <= x.
(** all abscissas, all ordinates of some lines *)
Definition xs_of (ls : list line) : list R := concat (map lx ls).
Definition ys_of (ls : list line) : list R := concat (map ly ls).
(** limits that leave one percent of the extent on each side *)
Definition framed1 (l : list R) (lim : R * R) : Prop := exists lo hi, is_min lo l /\ is_max hi l /\
  fst lim = lo - (hi - lo) / 100 /\ snd lim = hi + (hi - lo) / 100.
Definition framed (ls : list line) (lim : option ((R * R) * (R * R))) : Prop :=
  exists lx ly, lim = Some (lx, ly) /\ framed1 (xs_of ls) lx /\ framed1 (ys_of ls) ly.

Definition breaks_of (q : plotted) : list R := match q_spline q with Some (_, bps, _) => bps | None => [] end.
Definition waypoints_of (q : plotted) : option (list (list R)) :=
  match q_spline q with Some (_, _, wp) => Some wp | None => None end.

(** The plotted object: order by order a function F i on the interval D i, which
    evaluates without exceptions; for a spline n + 1 breakpoints, waypoints. *)
Record plottable (q : plotted) (up_to : nat) (F : nat -> R -> list R) (D : nat -> R * R) : Prop := {
  p_codom : (1 <= q_codom q)%nat;
  p_deriv : forall i, (i <= up_to)%nat -> exists c, q_deriv q i = Ok c /\ c_codom c = q_codom q /\ c_dom c = D i /\
      (forall ts, c_eval c ts = Ok (map (F i) ts)) /\
      c_breaks c = match q_spline q with Some (_, bps, _) => Some bps | None => None end;
  p_length : forall i t, (i <= up_to)%nat -> length (F i t) = q_codom q;
  p_domain : forall i, (i <= up_to)%nat -> fst (D i) < snd (D i);
  p_spline : forall n bps wp, q_spline q = Some (n, bps, wp) ->
      length bps = (n + 1)%nat /\ length wp = (n + 1)%nat /\ Forall (fun r => length r = q_codom q) wp }.

(** Component j of a function, as a line *)
Definition graph (f : R -> list R) (j : nat) (ts : list R) : line := mkline ts (map (fun t => nth j (f t) 0) ts).

(** Axes [old] after order i, component j of the object has been drawn: one
    graph, one vertical line per breakpoint over the height of all that was
    there, and in the row of the function itself its waypoints.  The limits
    frame all but the waypoints. *)
Definition drawn (q : plotted) (F : nat -> R -> list R) (D : nat -> R * R) (dt : R) (i j : nat) (old new : axis) : Prop :=
  exists ts lo hi, samples (fst (D i)) (snd (D i)) dt ts /\
    is_min lo (ys_of (a_lines old ++ [graph (F i) j ts])) /\
    is_max hi (ys_of (a_lines old ++ [graph (F i) j ts])) /\
    let shown := a_lines old ++ graph (F i) j ts :: map (fun t => mkline [t; t] [lo; hi]) (breaks_of q) in
    a_lines new = shown ++ match i, waypoints_of q with
                           | O, Some wp => [mkline (breaks_of q) (map (fun r => nth j r 0) wp)]
                           | _, _ => []
                           end /\
    framed shown (a_lim new).

(** rows [0, up_to] of the grid are drawn, the others untouched *)
Definition drawn_grid (q : plotted) F D (dt : R) (up_to : nat) (old new : list (list axis)) : Prop :=
  length new = length old /\
  (forall i, (i <= up_to)%nat -> length (nth i new []) = q_codom q) /\
  (forall i j, (i <= up_to)%nat -> (j < q_codom q)%nat ->
     drawn q F D dt i j (nth j (nth i old []) new_axis) (nth j (nth i new []) new_axis)) /\
  (forall i, (up_to < i)%nat -> nth i new [] = nth i old []).

(** no line without data *)
Definition filled (a : axis) : Prop := forall l, In l (a_lines a) -> lx l <> [] /\ ly l <> [].
(** axes for the orders up to [up_to] of curves of [codom] components *)
Definition ready (codom up_to : nat) (m : list (list axis)) : Prop :=
  (up_to < length m)%nat /\
  forall i, (i <= up_to)%nat -> length (nth i m []) = codom /\ forall a, In a (nth i m []) -> filled a.
