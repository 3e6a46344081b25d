(** The six methods that register a loss (layer_collection.py:1489-1739) and the value of
    a registered loss (loss_functions.py:55-62, 363-364). *)
From Coq Require Import String List Arith Bool Reals.
From Verif.Base Require Import Py.
From Verif.Curv Require Import Model.
Import ListNotations.
Open Scope list_scope.
Open Scope R_scope.

(** What is passed as [targets]: one index per case, or one number per entry.
    [None] is the default of every method. *)
Inductive target := Labels (t : list nat) | Entries (t : tensor).

(** What is passed as [var]: a Python float, or anything else. *)
Inductive var_arg := PyFloat (x : R) | OtherType.

(** The distribution classes behind a loss: [Plain] is one of the four of Curv/Model.v,
    [Onehot] is OnehotCategoricalLogitsNegativeLogProbLoss (loss_functions.py:741-760), a
    subclass of the categorical loss that overrides only [dist]. *)
Inductive loss_class := Plain (l : loss) | Onehot (n : nat) (logits : tensor).

(** A loss object: its class with its parameters, and [self._targets].
    Not modelled: the seed. *)
Record loss_object := mkLoss { lo_class : loss_class; lo_targets : option target }.

(** loss_functions.py:576-589 *)
Definition new_categorical (n : nat) (logits : tensor) (targets : option target) : loss_object :=
  mkLoss (Plain (Categorical n logits)) targets.
(** loss_functions.py:655-660 *)
Definition new_multi_bernoulli (n : nat) (logits : tensor) (targets : option target) : loss_object :=
  mkLoss (Plain (MultiBernoulli n logits)) targets.
(** loss_functions.py:383-389 *)
Definition new_normal_mean (n : nat) (mean : tensor) (var : var_arg) (targets : option target)
  : res loss_object :=
  match var with
  | PyFloat v => Ok (mkLoss (Plain (NormalMean n mean v)) targets)
  | OtherType => Raise AssertionError
  end.
(** loss_functions.py:741-760 (the constructor is inherited, 576-589) *)
Definition new_onehot_categorical (n : nat) (logits : tensor) (targets : option target) : loss_object :=
  mkLoss (Onehot n logits) targets.

(** What the call hands to [_register_loss_function] (layer_collection.py:496-556, modelled
    in Registry/Model.v): the object, the stem of its generated name, its coefficient. *)
Record registration := mkReg { rg_loss : loss_object; rg_stem : string; rg_coeff : R }.

(** layer_collection.py:1489-1528 *)
Definition register_categorical_predictive_distribution n logits targets coeff : res registration :=
  Ok (mkReg (new_categorical n logits targets) "categorical_predictive_distribution" coeff).
(** layer_collection.py:1530-1570 *)
Definition register_softmax_cross_entropy_loss n logits targets coeff : res registration :=
  Ok (mkReg (new_categorical n logits targets) "sparse_softmax_cross_entropy_loss" coeff).
(** layer_collection.py:1572-1615; [var] defaults to 0.5 *)
Definition default_var : var_arg := PyFloat (1 / 2).
Definition register_normal_predictive_distribution n mean var targets coeff : res registration :=
  do l <- new_normal_mean n mean var targets;
  Ok (mkReg l "normal_predictive_distribution" coeff).
(** layer_collection.py:1617-1656 *)
Definition register_squared_error_loss n prediction targets coeff : res registration :=
  do l <- new_normal_mean n prediction (PyFloat (1 / 2)) targets;
  Ok (mkReg l "squared_error_loss" coeff).
(** layer_collection.py:1658-1698 *)
Definition register_multi_bernoulli_predictive_distribution n logits targets coeff : res registration :=
  Ok (mkReg (new_multi_bernoulli n logits targets) "multi_bernoulli_predictive_distribution" coeff).
(** layer_collection.py:1700-1739 *)
Definition register_sigmoid_cross_entropy_loss n logits targets coeff : res registration :=
  Ok (mkReg (new_multi_bernoulli n logits targets) "sigmoid_cross_entropy_loss" coeff).

(** tfp.distributions.Bernoulli(logits).log_prob of a number, which need not be 0 or 1. *)
Definition bern_log_prob_at (x k : R) : R := k * x - ln (1 + exp x).
(** tfp.distributions.OneHotCategorical(logits).log_prob of a row. *)
Definition onehot_log_prob (r t : row) : R := dot t (map (fun x => x - ln (rsum (map exp r))) r).

(** loss_functions.py:363-364, [-tf.reduce_sum(self.dist.log_prob(targets))].
    [None]: targets the distribution cannot evaluate. *)
Definition evaluate_on (l : loss_class) (t : target) : option R :=
  match l, t with
  | Plain (Categorical _ z), Labels ks => Some (evaluate_categorical z ks)
  | Plain (MultiBernoulli _ z), Entries ts =>
      Some (- rsum (map2 (fun r ks => rsum (map2 bern_log_prob_at r ks)) z ts))
  | Plain (NormalMean _ m var), Entries ts => Some (evaluate_normal_mean m var ts)
  | Plain (NormalMeanVariance _ m s), Entries ts => Some (evaluate_normal_mean_variance m s ts)
  | Onehot _ z, Entries ts => Some (- rsum (map2 onehot_log_prob z ts))
  | _, _ => None
  end.

(** loss_functions.py:55-62.  The exception is a bare [Exception]. *)
Inductive evaluation := Value (x : R) | NoTargets | BadTargets.
Definition evaluate (o : loss_object) : evaluation :=
  match lo_targets o with
  | Some t => match evaluate_on (lo_class o) t with Some x => Value x | None => BadTargets end
  | None => NoTargets
  end.

(** layer_collection.py:692-714 for target_mode = "data", coeff_mode = "regular". *)
Definition eval_loss (r : registration) : evaluation :=
  match evaluate (rg_loss r) with Value x => Value (rg_coeff r * x) | e => e end.

(** The products of a network whose only loss is [r]
    (curvature_matrix_vector_products.py:170-174, 198-202); the inherited products of the
    one-hot class are those of the categorical one. *)
Definition curv_loss (l : loss_class) : loss :=
  match l with Plain l => l | Onehot n z => Categorical n z end.
Definition curvature_product (k : mat) (r : registration) (wrt : list nat)
    (jac : list (list (list tensor))) (v : tensor) : res tensor :=
  multiply_curv k (mkComp [(curv_loss (lo_class (rg_loss r)), rg_coeff r)] wrt jac) v.
