(** Vocabulary for the life cycle of the Keras optimizer. *)
From Coq Require Import String Ascii.
From Coq Require Import List Bool.
From Verif.Base Require Import Py.
From Verif.Keras Require Import Config Life.
Import ListNotations.
Local Open Scope string_scope.

Fixpoint chars (s : string) : list ascii :=
  match s with EmptyString => [] | String c t => c :: chars t end.
(** A name without slashes and dots *)
Definition plain (s : string) : Prop := ~ In "/"%char (chars s) /\ ~ In "."%char (chars s).
(** The variable [v] is under the name [n]. *)
Definition under (n v : string) : Prop := exists t, v = n ++ "/" ++ t.
(** The names that an optimizer was given in a history *)
Fixpoint names_given (es : list event) : list string :=
  match es with
  | [] => []
  | Call (CName v) :: r => v :: names_given r
  | _ :: r => names_given r
  end.
(** The optimizer adapts the damping. *)
Definition adapts (o : kfac) : Prop :=
  truthy (get_default (o_config o) "adapt_damping" VNone) = Ok true.
