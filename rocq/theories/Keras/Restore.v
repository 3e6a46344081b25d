(** Model of how the state of a Keras optimizer is saved and read back.  The variables are those
    of Names/Model.v, in the order of their creation. *)
From Coq Require Import String List Arith Bool.
From Verif.Base Require Import Py.
From Verif.Names Require Import Model.
Import ListNotations.

(** The values of the weights in their order, as model.save writes them; the weights are the
    variables in the order of their creation (optimizers.py:410-418).  [content n] is what the
    variable called [n] holds; a value is a shape and a content. *)
Definition get_weights (content : string -> nat) (vars : list var) : list (list nat * nat) :=
  map (fun v => (v_shape v, content (v_name v))) vars.

(** OptimizerV2.set_weights as called in saving_utils.py:144-147: by position, with ValueError
    unless numbers and shapes agree.  The result says what each variable holds afterwards. *)
Fixpoint set_weights (vars : list var) (vals : list (list nat * nat)) : res (list (string * nat)) :=
  match vars, vals with
  | [], [] => Ok []
  | v :: vars', (s, x) :: vals' =>
      if nats_eqb (v_shape v) s then do r <- set_weights vars' vals' ; Ok ((v_name v, x) :: r)
      else Raise ValueError
  | _, _ => Raise ValueError
  end.
