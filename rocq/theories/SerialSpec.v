(** What survives a conversion. *)
From Coq Require Import List Arith Bool ZArith String.
From Verif Require Import Num Outcome LinAlg BasisModel GSplineModel SerialModel.
Section SerialSpec.
Context {T : Type} `{Num T}.
(** a basis object that some call of get_basis makes *)
Definition made (fresh : nat -> nat -> option T) (b : basis T) : Prop :=
  exists name dim params n x, vec_is params n x /\ get_basis fresh name dim params = Ok b.
Definition same_vec (a b : vec T) : Prop := vlen a = vlen b /\ forall i, i < vlen a -> vget a i = vget b i.
(** no observable tells the two splines apart *)
Definition same_spline (g g' : gspline T) : Prop :=
  gs_dom g = gs_dom g' /\ gs_codom g = gs_codom g' /\ gs_n g = gs_n g' /\ same_vec (gs_coef g) (gs_coef g') /\ same_vec (gs_tau g) (gs_tau g') /\
  b_name (gs_basis g) = b_name (gs_basis g') /\ b_dim (gs_basis g) = b_dim (gs_basis g') /\ same_vec (b_params (gs_basis g)) (b_params (gs_basis g')).
End SerialSpec.
