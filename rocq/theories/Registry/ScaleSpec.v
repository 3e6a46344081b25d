(** Specification for C128: which shapes may be registered as a scale and shift operation.
    Independent of the model: lists of dimensions only. *)
From Coq Require Import List.
Import ListNotations.

(** [param], lined up with the last dimensions of [data], agrees with them dimension by
    dimension in the sense of [R]; a dimension that meets the first one of [data], the batch
    dimension, must be 1. *)
Definition lines_up (R : nat -> nat -> Prop) (param data : list nat) : Prop :=
  exists lead rest, data = lead ++ rest /\
    match lead, param, rest with
    | _ :: _, _, _ => Forall2 R param rest
    | [], p :: param', _ :: rest' => p = 1 /\ Forall2 R param' rest'
    | [], [], [] => True
    | [], _, _ => False
    end.

(** The rule the documentation gives: a parameter broadcasts to the shape of the data. *)
Definition broadcasts : list nat -> list nat -> Prop :=
  lines_up (fun p d => p = d \/ p = 1).
