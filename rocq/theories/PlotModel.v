(** Model of python/gsplines/plot/plot.py and LinesContainer.py: what is drawn
    in which axes.

    Conventions.
    - Reals, not doubles: np.arange needs a ceiling.
    - An Axes object is its list of Line2D objects and, once set, its limits.
      Colours, styles, titles, labels and legends are not represented; the
      indexing that reaches an Axes to set them is.
    - A Python exception is [Throw]: IndexError is [OutOfRange], ValueError
      [InvalidArgument], AttributeError [RuntimeError]. *)
From Coq Require Import List Reals Arith ZArith Bool.
From Verif Require Import Num Outcome BasisModel GSplineModel.
Import ListNotations.
Local Open Scope R_scope.

(* source: matplotlib Line2D, python/gsplines/plot/LinesContainer.py 11, 45 *)
Record line := mkline { lx : list R; ly : list R }.
(* source: matplotlib Axes, python/gsplines/plot/plot.py 10-25 *)
Record axis := mkaxis { a_lines : list line; a_lim : option ((R * R) * (R * R)) }.
(* source: plt.subplots, python/gsplines/plot/plot.py 66 *)
Definition new_axis : axis := mkaxis [] None.
(* source: Axes.add_line and Line2D.set_data, python/gsplines/plot/LinesContainer.py 21, 56, 63 *)
Definition add_line (l : line) (a : axis) : axis := mkaxis (a_lines a ++ [l]) (a_lim a).

(** What plt.subplots returns: squeezed by default. *)
(* source: plt.subplots(nrows, ncols), python/gsplines/plot/plot.py 66, 89 *)
Inductive grid := G0 (a : axis) | G1 (l : list axis) | G2 (m : list (list axis)).
(* source: plt.subplots with squeeze=True, python/gsplines/plot/plot.py 66, 89 *)
Definition subplots (r c : nat) : grid :=
  match r, c with
  | 1%nat, 1%nat => G0 new_axis
  | 1%nat, _ => G1 (repeat new_axis c)
  | _, 1%nat => G1 (repeat new_axis r)
  | _, _ => G2 (repeat (repeat new_axis c) r)
  end.
(* source: np.atleast_2d, python/gsplines/plot/plot.py 32 *)
Definition atleast_2d (g : grid) : list (list axis) :=
  match g with G0 a => [[a]] | G1 l => [l] | G2 m => m end.

(** np.arange(a, b, dt): ceil((b - a) / dt) values; a zero step is refused. *)
(* source: python/gsplines/plot/LinesContainer.py 60, python/gsplines/plot/plot.py 130 *)
Definition ceil (x : R) : Z := (1 - up (- x))%Z.
(* source: np.arange, python/gsplines/plot/LinesContainer.py 60 *)
Definition arange (a b dt : R) : outcome (list R) :=
  if Req_EM_T dt 0 then Throw InvalidArgument
  else Ok (map (fun k => a + INR k * dt) (seq 0 (Z.to_nat (ceil ((b - a) / dt))))).

(** A curve as the plotting code uses it: get_codom_dim, get_domain, call,
    get_domain_breakpoints when the object has it. *)
(* source: python/gsplines/plot/plot.py 34-44 *)
Record curve := mkcurve {
  c_codom : nat; c_dom : R * R; c_eval : list R -> outcome (list (list R)); c_breaks : option (list R) }.
(** The plotted object: deriv(i), and for a spline its number of intervals,
    breakpoints and waypoints. *)
(* source: python/gsplines/plot/plot.py 33-54 *)
Record plotted := mkplotted {
  q_codom : nat; q_deriv : nat -> outcome curve; q_spline : option (nat * list R * list (list R)) }.

(* source: indexing of numpy arrays, python/gsplines/plot/plot.py 36, 41, 52, 96, 99 *)
Definition index {A} (l : list A) (i : nat) : outcome A :=
  match nth_error l i with Some x => Ok x | None => Throw OutOfRange end.
(* source: max/min and np.max/np.min (an empty argument raises ValueError), python/gsplines/plot/plot.py 13-17, python/gsplines/plot/LinesContainer.py 27-30 *)
Definition fold_ne (f : R -> R -> R) (l : list R) : outcome R :=
  match l with [] => Throw InvalidArgument | x :: r => Ok (fold_left f r x) end.
(** column j of the matrix of values *)
(* source: python/gsplines/plot/LinesContainer.py 63, 68 *)
Definition column (m : list (list R)) (j : nat) : outcome (list R) := mapM (fun r => index r j) m.

(** CurveVsTime: constructor, associate_axis, then set_data of every line *)
(* source: python/gsplines/plot/LinesContainer.py 43-69 *)
Definition curve_lines (codom : nat) (row : list axis) (ts : list R) (vals : list (list R)) : outcome (list axis) :=
  if negb (Nat.eqb codom (length row)) then Throw InvalidArgument
  else cols <- mapM (column vals) (seq 0 codom) ;;
       Ok (map (fun ac => add_line (mkline ts (snd ac)) (fst ac)) (combine row cols)).

(** VerticalLines in one axis: [num] empty lines are added; each breakpoint then
    sets one of them, from the lowest to the highest drawn value. *)
(* source: python/gsplines/plot/LinesContainer.py 8-32 *)
Definition vertical_lines (num : nat) (bps : list R) (a : axis) : outcome axis :=
  let drawn := filter (fun l => negb (Nat.eqb (length (ly l)) 0)) (a_lines a) in
  his <- mapM (fun l => fold_ne Rmax (ly l)) drawn ;;
  los <- mapM (fun l => fold_ne Rmin (ly l)) drawn ;;
  hi <- fold_ne Rmax his ;;
  lo <- fold_ne Rmin los ;;
  if Nat.ltb num (length bps) then Throw OutOfRange
  else Ok (mkaxis (a_lines a ++ map (fun t => mkline [t; t] [lo; hi]) bps ++
                   repeat (mkline [] []) (num - length bps)) (a_lim a)).

(** fix_to_lines *)
(* source: python/gsplines/plot/plot.py 10-25 *)
Definition fix_to_lines (a : axis) : outcome axis :=
  xM <- mapM (fun l => fold_ne Rmax (lx l)) (a_lines a) ;; xmax <- fold_ne Rmax xM ;;
  xm <- mapM (fun l => fold_ne Rmin (lx l)) (a_lines a) ;; xmin <- fold_ne Rmin xm ;;
  yM <- mapM (fun l => fold_ne Rmax (ly l)) (a_lines a) ;; ymax <- fold_ne Rmax yM ;;
  ym <- mapM (fun l => fold_ne Rmin (ly l)) (a_lines a) ;; ymin <- fold_ne Rmin ym ;;
  let xc := / 2 * (xmin + xmax) in let dx := xmax - xmin in
  let yc := / 2 * (ymin + ymax) in let dy := ymax - ymin in
  Ok (mkaxis (a_lines a)
        (Some ((xc - 102 / 100 * dx / 2, xc + 102 / 100 * dx / 2),
               (yc - 102 / 100 * dy / 2, yc + 102 / 100 * dy / 2)))).

(* source: the loops [for j in range(codom)] over _axis[i, j], python/gsplines/plot/plot.py 46-47 *)
Definition on_first {A} (f : A -> outcome A) (n : nat) (l : list A) : outcome (list A) :=
  if Nat.ltb (length l) n then Throw OutOfRange
  else h <- mapM f (firstn n l) ;; Ok (h ++ skipn n l).

(** one pass of the loop over the orders of derivation, on row i *)
(* source: python/gsplines/plot/plot.py 34-47 *)
Definition plot_row (q : plotted) (dt : R) (i : nat) (row : list axis) : outcome (list axis) :=
  c <- q_deriv q i ;;
  ts <- arange (fst (c_dom c)) (snd (c_dom c)) dt ;;
  vals <- c_eval c ts ;;
  row <- curve_lines (c_codom c) row ts vals ;;
  row <- match c_breaks c, q_spline q with
         | None, _ => Ok row
         | Some _, None => Throw RuntimeError
         | Some bps, Some (n, _, _) =>
             if negb (Nat.eqb (c_codom c) (length row)) then Throw InvalidArgument
             else mapM (vertical_lines (n + 1) bps) row
         end ;;
  on_first fix_to_lines (q_codom q) row.

(** replace row i *)
(* source: the axes are mutable objects, python/gsplines/plot/plot.py 36, 43, 53 *)
Fixpoint set_nth {A} (l : list A) (i : nat) (x : A) : list A :=
  match l, i with
  | [], _ => []
  | _ :: l', O => x :: l'
  | y :: l', S i' => y :: set_nth l' i' x
  end.

(** plot_derivatives_in_axes *)
(* source: python/gsplines/plot/plot.py 28-60 *)
Definition plot_derivatives_in_axes (q : plotted) (dt : R) (up_to : nat) (m : list (list axis))
  : outcome (list (list axis)) :=
  m <- for_ 0 (S up_to) (fun i m => row <- index m i ;; row <- plot_row q dt i row ;; Ok (set_nth m i row)) m ;;
  row0 <- index m 0 ;;
  m <- match q_spline q with
       | None => Ok m
       | Some (_, bps, wp) =>
           row0 <- curve_lines (length (hd [] wp)) row0 bps wp ;; Ok (set_nth m 0 row0)
       end ;;
  (* set_title on _axis[0, j], set_ylabel on _axis[i, 0] *)
  _ <- mapM (index row0) (seq 0 (q_codom q)) ;;
  _ <- mapM (fun i => row <- index m i ;; index row 0) (seq 1 up_to) ;;
  Ok m.

(** plot *)
(* source: python/gsplines/plot/plot.py 63-78 *)
Definition plot (q : plotted) (up_to : nat) (dt : R) : outcome (list (list axis)) :=
  plot_derivatives_in_axes q dt up_to (atleast_2d (subplots (up_to + 1) (q_codom q))).

(** all curves into the same axes, with the default step of
    plot_derivatives_in_axes *)
(* source: python/gsplines/plot/plot.py 91-93, 187-189, 29 *)
Fixpoint draw_all (up_to : nat) (qs : list plotted) (m : list (list axis)) : outcome (list (list axis)) :=
  match qs with
  | [] => Ok m
  | q :: l => m <- plot_derivatives_in_axes q (1 / 100) up_to m ;; draw_all up_to l m
  end.
(** plot_compare: [_dt] is not used; the raw array returned by subplots is
    indexed with two indices.  The list of colours is the default one, which is
    as long as the list of curves. *)
(* source: python/gsplines/plot/plot.py 81-115 *)
Definition plot_compare (qs : list plotted) (up_to : nat) (dt : R) : outcome (list (list axis)) :=
  q0 <- index qs 0 ;;
  let g := subplots (up_to + 1) (q_codom q0) in
  m <- draw_all up_to qs (atleast_2d g) ;;
  match g with
  | G2 _ => _ <- mapM (fun j => row <- index m 0 ;; index row j) (seq 0 (q_codom q0)) ;;
            _ <- mapM (fun i => row <- index m i ;; index row 0) (seq 1 up_to) ;;
            Ok m
  | _ => Throw OutOfRange
  end.
(** axis.legend(axis.get_lines(), legends): label k goes to the k-th line *)
(* source: python/gsplines/plot/plot.py 101-105, 183-185, 193-197 *)
Definition legend {A} (a : axis) (labels : list A) : list (line * A) := combine (a_lines a) labels.

(** the path of a plane curve and, for a spline, the coordinates of its waypoints (scatter) *)
(* source: python/gsplines/plot/plot.py 130-137, 173-181 *)
Definition draw_path (q : plotted) (dt : R) : outcome (line * option (list R * list R)) :=
  c <- q_deriv q 0 ;;
  ts <- arange (fst (c_dom c)) (snd (c_dom c)) dt ;;
  vals <- c_eval c ts ;;
  xs <- column vals 0 ;; ys <- column vals 1 ;;
  sc <- match q_spline q with
        | None => Ok None
        | Some (_, _, wp) => wx <- column wp 0 ;; wy <- column wp 1 ;; Ok (Some (wx, wy))
        end ;;
  Ok (mkline xs ys, sc).
(** plot2d: nothing for curves that are not plane; otherwise the path in one
    axes, and the components in a grid of 1 + up_to rows that is filled with the
    default arguments of plot_derivatives_in_axes. *)
(* source: python/gsplines/plot/plot.py 118-151, 29-30 *)
Definition plot2d (q : plotted) (up_to : nat) (dt : R) : outcome (option ((line * option (list R * list R)) * list (list axis))) :=
  if negb (Nat.eqb (q_codom q) 2) then Ok None
  else
    p <- draw_path q dt ;;
    m <- plot_derivatives_in_axes q (1 / 100) 3 (repeat (repeat new_axis 2) (1 + up_to)) ;;
    Ok (Some (p, m)).
(** plot2d_compare: nothing unless all curves are plane; otherwise all paths in
    one axes, in which only the paths are lines (a scatter is not), and the
    components as in plot_compare.  [_q[0]] is read after drawing. *)
(* source: python/gsplines/plot/plot.py 154-209 *)
Definition plot2d_compare (qs : list plotted) (up_to : nat) (dt : R) : outcome (option (list (line * option (list R * list R)) * list (list axis))) :=
  if negb (forallb (fun q => Nat.eqb (q_codom q) 2) qs) then Ok None
  else
    ps <- mapM (fun q => draw_path q dt) qs ;;
    m <- draw_all up_to qs (repeat (repeat new_axis 2) (1 + up_to)) ;;
    q0 <- index qs 0 ;;
    _ <- mapM (fun j => row <- index m 0 ;; index row j) (seq 0 (q_codom q0)) ;;
    _ <- mapM (fun i => row <- index m i ;; index row 0) (seq 1 up_to) ;;
    Ok (Some (ps, m)).
(** the axes with the paths *)
(* source: ax_big, python/gsplines/plot/plot.py 168-185 *)
Definition path_axis (ps : list (line * option (list R * list R))) : axis := mkaxis (map fst ps) None.

(** A spline as the plotting functions see it: deriv, call, get_domain,
    get_domain_breakpoints and get_waypoints of the bindings.  Breakpoints and
    waypoints are computed first; Python computes them when they are drawn. *)
(* source: Eigen matrices become numpy arrays, bindings/bindings.cpp 100-111 *)
Definition vec_list (v : vec R) : outcome (list R) := mapM (vread v) (seq 0 (vlen v)).
(* source: Eigen matrices become numpy arrays, bindings/bindings.cpp 100-111 *)
Definition mat_list (m : mat R) : outcome (list (list R)) :=
  mapM (fun i => mapM (mread m i) (seq 0 (mcols m))) (seq 0 (mrows m)).
(* source: bindings/bindings.cpp 100-111, 359-365 *)
Definition curve_of_gspline (g : gspline R) : outcome curve :=
  b <- gs_breakpoints g ;; bps <- vec_list b ;;
  Ok (mkcurve (gs_codom g) (gs_dom g) (fun ts => m <- gs_value g (vec_of_list ts) ;; mat_list m) (Some bps)).
(* source: bindings/bindings.cpp 100-111, 359-365 *)
Definition plotted_gspline (g : gspline R) : outcome plotted :=
  b <- gs_breakpoints g ;; bps <- vec_list b ;;
  w <- gs_waypoints g ;; wp <- mat_list w ;;
  Ok (mkplotted (gs_codom g) (fun i => d <- gs_derivate g i ;; curve_of_gspline d) (Some (gs_n g, bps, wp))).
