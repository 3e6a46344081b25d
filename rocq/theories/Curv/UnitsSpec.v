(** Vocabulary of property C120 for the curvature estimates. *)
From Coq Require Import List Reals.
From Verif.Base Require Import Py.
From Verif.Curv Require Import Model.
Import ListNotations.
Open Scope list_scope.
Open Scope R_scope.

(** The same losses with [k] times the coefficients. *)
Definition units_computer (k : R) (c : computer) : computer :=
  mkComp (map (fun lc => (fst lc, k * snd lc)) (c_losses c)) (c_wrt c) (c_jac c).

(** The same result, or the same exception. *)
Definition res_map {A B} (f : A -> B) (r : res A) : res B :=
  match r with Ok a => Ok (f a) | Raise e => Raise e end.
