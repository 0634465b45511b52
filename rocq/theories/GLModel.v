(** Model of src/Collocation/GaussLobattoPointsWeights.cpp: Legendre-Gauss-Lobatto
    points and weights on [-1,1] and on subdivided domains. *)
From Coq Require Import List Arith Bool ZArith.
From Verif Require Import Num Outcome LinAlg LegendreModel ToolsModel GSplineModel.
Import ListNotations.
Local Open Scope num_scope.

Section GL.
Context {T : Type} `{Num T}.

(** Locals of q_and_evaluation, 18-27; [l_n] is declared without a value (22). *)
(* source: src/Collocation/GaussLobattoPointsWeights.cpp 18-27, 22 *)
Record qstate := mkq { q_m2 : T; q_m1 : T; q_pm2 : T; q_pm1 : T; q_ln : option T }.

(** (2.0 * (double)uick - 1.0) and the two quotients of 33-34 *)
(* source: src/Collocation/GaussLobattoPointsWeights.cpp 33-34 *)
Definition q_odd (k : nat) : T := c2 * nofnat k - n1.
(* source: src/Collocation/GaussLobattoPointsWeights.cpp 33-34 *)
Definition q_rec (t : T) (k : nat) (lm1 lm2 : T) : T :=
  q_odd k / nofnat k * t * lm1 - (nofnat k - n1) / nofnat k * lm2.

(** loop body, 33-42 *)
(* source: src/Collocation/GaussLobattoPointsWeights.cpp 33-42 *)
Definition q_step (t : T) (k : nat) (s : qstate) : outcome qstate :=
  let ln := q_rec t k (q_m1 s) (q_m2 s) in
  let lpn := q_pm2 s + q_odd k * q_m1 s in
  Ok (mkq (q_m1 s) ln (q_pm1 s) lpn (Some ln)).

(** q_and_evaluation, 10-55.  After the loop 31-43 the counter is
    [max 2 (n + 1)]; 45 reads [l_n], which no iteration assigned when n < 2. *)
(* source: src/Collocation/GaussLobattoPointsWeights.cpp 10-55, 31-43, 45 *)
Definition q_and_evaluation (t : T) (n : nat) : outcome (T * T * T) :=
  s <- for_ 2 (n + 1) (q_step t) (mkq n1 t n0 n1 None) ;;
  ln <- of_option (q_ln s) ;;
  let k := Nat.max 2 (n + 1) in
  let lp1 := q_rec t k ln (q_m2 s) in
  let lpp1 := q_pm2 s + q_odd k * ln in
  Ok (lp1 - q_m2 s, lpp1 - q_pm2 s, ln).

(** Newton loop, 93-100: [fuel] iterations left *)
(* source: src/Collocation/GaussLobattoPointsWeights.cpp 93-100 *)
Fixpoint gl_newton (fuel N : nat) (x : T) : outcome T :=
  match fuel with
  | O => Ok x
  | S f =>
      '(q, qp, _) <- q_and_evaluation x N ;;
      let delta := (- q) / qp in
      let x' := x + delta in
      if nabs delta <? ten_m 9 * nabs x' then Ok x' else gl_newton f N x'
  end.

(** number of iterations allowed, 93 *)
(* source: src/Collocation/GaussLobattoPointsWeights.cpp 93 *)
Definition gl_iters : nat := 100.

(** first guess, 87-91 *)
(* source: src/Collocation/GaussLobattoPointsWeights.cpp 87-91 *)
Definition gl_guess (N j : nat) : T :=
  let quarter := n1 / nofZ 4%Z in
  let arg := (nofnat j + quarter) * npi / nofnat N
             - (nofZ 3%Z / (nofZ 8%Z * nofnat N * npi)) * (n1 / (nofnat j + quarter)) in
  - ncos arg.

(** 2.0 / (N * (N + 1.0)) and 2.0 / (N * (N + 1.0) * pow(l, 2.0)), 82, 107, 115 *)
(* source: src/Collocation/GaussLobattoPointsWeights.cpp 82, 107, 115 *)
Definition gl_w0 (N : nat) : T := c2 / (nofnat N * (nofnat N + n1)).
(* source: src/Collocation/GaussLobattoPointsWeights.cpp 107, 115 *)
Definition gl_w (N : nat) (l : T) : T := c2 / (nofnat N * (nofnat N + n1) * npown l 2).

(** loop body, 87-109; state (points, weights) *)
(* source: src/Collocation/GaussLobattoPointsWeights.cpp 87-109 *)
Definition gl_body (N j : nat) (st : vec T * vec T) : outcome (vec T * vec T) :=
  let '(points, weights) := st in
  x <- gl_newton gl_iters N (gl_guess N j) ;;
  points <- vwrite points j x ;;
  x <- vread points j ;;
  points <- vwrite points (N - j) (- x) ;;
  x <- vread points j ;;
  '(_, _, l) <- q_and_evaluation x N ;;
  weights <- vwrite weights j (gl_w N l) ;;
  w <- vread weights j ;;
  weights <- vwrite weights (N - j) w ;;
  Ok (points, weights).

(** legendre_gauss_lobatto_points_and_weights, 57-121.  For n = 0 the store
    [points(0)] (80) is out of bounds.  [trunc((N + 1.0) / 2) - 1] (85) is the integer
    [(N + 1) / 2 - 1]: N is a vector size, exact as a double. *)
(* source: src/Collocation/GaussLobattoPointsWeights.cpp 57-121, 80, 85 *)
Definition gl_points_weights (n : nat) : outcome (vec T * vec T) :=
  match n with
  | O => UB
  | S N =>
    let points := vnew n in
    let weights := vnew n in
    if Nat.eqb n 2 then
      points <- vwrite points 0 (- n1) ;;
      points <- vwrite points N n1 ;;
      weights <- vwrite weights 0 n1 ;;
      weights <- vwrite weights N n1 ;;
      Ok (points, weights)
    else
      points <- vwrite points 0 (- n1) ;;
      points <- vwrite points N n1 ;;
      weights <- vwrite weights 0 (gl_w0 N) ;;
      w <- vread weights 0 ;;
      weights <- vwrite weights N w ;;
      '(points, weights) <- for_ 1 ((N + 1) / 2) (gl_body N) (points, weights) ;;
      if Nat.eqb (N mod 2) 0 then
        '(_, _, l) <- q_and_evaluation n0 N ;;
        points <- vwrite points (N / 2) n0 ;;
        weights <- vwrite weights (N / 2) (gl_w N l) ;;
        Ok (points, weights)
      else Ok (points, weights)
  end.

(** legendre_gauss_lobatto_points(n), 123-127; legendre_gauss_lobatto_weights(n), 129-134 *)
(* source: src/Collocation/GaussLobattoPointsWeights.cpp 123-127, 129-134 *)
Definition gl_points (n : nat) : outcome (vec T) :=
  '(p, _) <- gl_points_weights n ;; Ok p.
(* source: src/Collocation/GaussLobattoPointsWeights.cpp 129-134 *)
Definition gl_weights (n : nat) : outcome (vec T) :=
  '(_, w) <- gl_points_weights n ;; Ok w.

(** ** Composite grids.  [glp] / [glw] are the result of the routines above
    for [nglp] points. *)
(** element-wise expression on an array *)
(* source: Eigen array expressions, src/Collocation/GaussLobattoPointsWeights.cpp 155, 176, 196, 211 *)
Definition vmap1 (f : T -> T) (v : vec T) : vec T := mkvec (vlen v) (fun i => option_map f (vget v i)).

(** [(glp.array() + 1.0) * len / 2.0 + left], 155, 196 *)
(* source: src/Collocation/GaussLobattoPointsWeights.cpp 155, 196 *)
Definition gl_affine (glp : vec T) (len left : T) : vec T :=
  vmap1 (fun x => (x + n1) * len / c2 + left) glp.
(** [glw * len / 2.0], 176, 211 *)
(* source: src/Collocation/GaussLobattoPointsWeights.cpp 176, 211 *)
Definition gl_wscale (glw : vec T) (len : T) : vec T := vmap1 (fun x => x * len / c2) glw.

(** uniform points, 136-158 *)
(* source: src/Collocation/GaussLobattoPointsWeights.cpp 136-158 *)
Definition gl_grid_points (a b : T) (nglp ni : nat) : outcome (vec T) :=
  glp <- gl_points nglp ;;
  let len := (b - a) / nofnat ni in
  for_ 0 ni (fun iv r => vset_segment r (iv * nglp) (gl_affine glp len (a + nofnat iv * len))) (vnew (nglp * ni)).

(** uniform weights, 160-179 *)
(* source: src/Collocation/GaussLobattoPointsWeights.cpp 160-179 *)
Definition gl_grid_weights (a b : T) (nglp ni : nat) : outcome (vec T) :=
  glw <- gl_weights nglp ;;
  let len := (b - a) / nofnat ni in
  for_ 0 ni (fun iv r => vset_segment r (iv * nglp) (gl_wscale glw len)) (vnew (nglp * ni)).

(** points for given interval lengths, 181-199: the left bound of interval
    [iv] is computed as [left + iv * lengths[iv]] (193) *)
(* source: src/Collocation/GaussLobattoPointsWeights.cpp 181-199, 193 *)
Definition gl_lens_points (left : T) (nglp : nat) (taus : vec T) : outcome (vec T) :=
  glp <- gl_points nglp ;;
  for_ 0 (vlen taus) (fun iv r =>
    tau <- vread taus iv ;;
    vset_segment r (iv * nglp) (gl_affine glp tau (left + nofnat iv * tau))) (vnew (nglp * vlen taus)).

(** weights for given interval lengths, 201-214 *)
(* source: src/Collocation/GaussLobattoPointsWeights.cpp 201-214 *)
Definition gl_lens_weights (nglp : nat) (taus : vec T) : outcome (vec T) :=
  glw <- gl_weights nglp ;;
  for_ 0 (vlen taus) (fun iv r =>
    tau <- vread taus iv ;;
    vset_segment r (iv * nglp) (gl_wscale glw tau)) (vnew (nglp * vlen taus)).
End GL.
