(** Vocabulary of Diff/GgnProps.v: what the losses contribute to a Gauss-Newton product. *)
From Coq Require Import List Arith Reals.
From Coquelicot Require Import Coquelicot.
From Verif.Base Require Import Py.
From Verif.Curv Require Import Model Spec.
From Verif.Diff Require Import Model Spec GnSpec.
Import ListNotations.
Open Scope list_scope.
Open Scope R_scope.

Section Spec.
Variable O : ops.
(** [product] only adds nodes and, given a node for each input, with the values [jv], returns nodes with the values of
    the curvature of the loss, as a function of its inputs, times [jv]. *)
Definition multiplies_curvature (env : nat -> R) (G : graph O) (loss : nat) (inputs : list nat)
    (product : graph O -> list nat -> graph O * list nat) : Prop :=
  forall before js jv, wf O (before ++ G) -> length js = length inputs ->
    Forall2 (fun j v => value O env (before ++ G) j = Some v) js jv ->
    let (G2, us) := product (before ++ G) js in
    (exists added, G2 = added ++ before ++ G) /\ wf O G2 /\
    Forall2 (fun z u => exists D, value O env G2 u = Some D /\
                          second_derivative O env inputs G loss z (along inputs jv) D) inputs us.
(** The loss is a convex function of its inputs, to second order. *)
Definition curvature_psd (env : nat -> R) (G : graph O) (loss : nat) (inputs : list nat) : Prop :=
  forall cs us, length cs = length inputs ->
    Forall2 (fun z u => second_derivative O env inputs G loss z (along inputs cs) u) inputs us ->
    0 <= rsum (map2 Rmult us cs).
(** The change of node [z] when the tensors [wrt] move along [v]. *)
Definition moves (env : nat -> R) (G : graph O) (wrt : list nat) (v : nat -> R) (z : nat) (d : R) : Prop :=
  derivative (fun e => after O env wrt G e z) no_move v d.
(** Node [i] computes the sum of coefficient * (prediction - target)^2 over the given predictions,
    targets and coefficients; its parts are none of the [inputs]. *)
Inductive squared_errors (G : graph O) (inputs : list nat) : list (nat * nat * R) -> nat -> Prop :=
| se_zero i : node_at O G i = Some (Const 0) -> ~ In i inputs -> squared_errors G inputs [] i
| se_more prediction target coeff rest i total scaled c square d minus_target minus_one :
    squared_errors G inputs rest total ->
    node_at O G i = Some (Add total scaled) -> node_at O G scaled = Some (Mul c square) ->
    node_at O G c = Some (Const coeff) -> node_at O G square = Some (Mul d d) ->
    node_at O G d = Some (Add prediction minus_target) -> node_at O G minus_target = Some (Mul minus_one target) ->
    node_at O G minus_one = Some (Const (-1)) ->
    (forall k, In k [i; scaled; c; square; d; minus_target; minus_one] -> ~ In k inputs) ->
    squared_errors G inputs ((prediction, target, coeff) :: rest) i.
End Spec.
