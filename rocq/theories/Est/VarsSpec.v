(** What a list of variables should hold. *)
From Coq Require Import String Bool List.
From Verif.Names Require Import Model.
From Verif.Est Require Import VarsModel.
Import ListNotations.

(** The variables behind an item *)
Definition behind (i : item) : list string :=
  match i with IVar n => [n] | ITuple ns => ns | IValue ns => ns end.
Definition spatially_uncorrelated (f : factor) : bool :=
  match f with ConvInputSUA _ _ _ => true | _ => false end.
Definition series_factor (f : factor) : bool :=
  match f with FCMulti _ _ _ _ => true | _ => false end.
