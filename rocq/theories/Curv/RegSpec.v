(** Vocabulary of the statements in Curv/RegProps.v: the textbook loss functions. *)
From Coq Require Import List Arith Bool Reals.
From Verif.Base Require Import Py.
From Verif.Curv Require Import Model Spec RegModel.
Import ListNotations.
Open Scope list_scope.
Open Scope R_scope.

(** The sum over a batch of a function of an output row and a target. *)
Definition total {A} (f : row -> A -> R) (outputs : tensor) (targets : list A) : R :=
  rsum (map2 f outputs targets).

(** ||target - prediction||^2 *)
Definition squared_distance (p t : row) : R := rsum (map2 (fun x y => (y - x) ^ 2) p t).

(** tf.nn.sparse_softmax_cross_entropy_with_logits: minus the log of the probability that
    softmax gives the label. *)
Definition softmax_cross_entropy (z : row) (k : nat) : R :=
  - ln (exp (nth k z 0) / rsum (map exp z)).

(** tf.nn.sigmoid_cross_entropy_with_logits, in the form its documentation gives. *)
Definition sigmoid_cross_entropy (x z : R) : R := Rmax x 0 - x * z + ln (1 + exp (- Rabs x)).
(** ... and the definition it gives, for comparison. *)
Definition binary_cross_entropy (x z : R) : R :=
  z * - ln (1 / (1 + exp (- x))) + (1 - z) * - ln (1 - 1 / (1 + exp (- x))).

(** A registration succeeded and its loss has this value. *)
Definition has_value (r : res registration) (x : R) : Prop :=
  exists g, r = Ok g /\ eval_loss g = Value x.

(** Two registrations a caller cannot tell apart by the value of the loss or by any
    curvature product, whatever the network. *)
Definition indistinguishable (r r' : res registration) : Prop :=
  match r, r' with
  | Ok g, Ok g' => eval_loss g = eval_loss g' /\
                   forall k wrt jac v, curvature_product k g wrt jac v = curvature_product k g' wrt jac v
  | Raise e, Raise e' => e = e'
  | _, _ => False
  end.

(** Labels in range, one per case. *)
Definition labels (b n : nat) (ks : list nat) : Prop := length ks = b /\ Forall (fun k => (k < n)%nat) ks.
