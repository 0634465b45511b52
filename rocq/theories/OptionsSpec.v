(** Histories of option settings, on their own: what each option must be. *)
From Coq Require Import List String ZArith.
From Verif Require Import OptionsModel.
Import ListNotations.
Local Open Scope string_scope.
Local Open Scope list_scope.

(** value given last to [name] in a history of pairs, the earliest first *)
Fixpoint last_value {V} (name : string) (h : list (string * V)) : option V :=
  match h with
  | [] => None
  | (n, v) :: r => match last_value name r with Some x => Some x | None => if String.eqb n name then Some v else None end
  end.
(** the settings of one type *)
Definition strings {T} (h : list (setting T)) : list (string * string) := flat_map (fun s => match s with SetStr n v => [(n, v)] | _ => [] end) h.
Definition ints {T} (h : list (setting T)) : list (string * Z) := flat_map (fun s => match s with SetInt n v => [(n, v)] | _ => [] end) h.
Definition doubles {T} (h : list (setting T)) : list (string * T) := flat_map (fun s => match s with SetDbl n v => [(n, v)] | _ => [] end) h.
(** first occurrences, in order *)
Fixpoint firsts (l seen : list string) : list string :=
  match l with [] => [] | n :: r => if in_dec string_dec n seen then firsts r seen else n :: firsts r (n :: seen) end.
