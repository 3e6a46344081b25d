(** C119: a registered loss is the documented function of the network's outputs. *)
From Coq Require Import List Arith Bool Reals Lra.
From Verif.Base Require Import Py.
From Verif.Curv Require Import Model Spec RegModel RegSpec RegProofs.
Import ListNotations.
Open Scope list_scope.
Open Scope R_scope.

(** Squared error: coeff * ||target - prediction||^2, summed over the cases, up to a
    constant that depends neither on the predictions nor on the targets. *)
Theorem C119_squared_error :
  forall b n, exists K, forall prediction targets coeff,
    shaped b n prediction -> shaped b n targets ->
    has_value (register_squared_error_loss n prediction (Some (Entries targets)) coeff)
              (coeff * (total squared_distance prediction targets + K)).
Proof. exact squared_error_value. Qed.
Print Assumptions C119_squared_error.

(** Normal: coeff / (2 * var) * ||target - mean||^2 up to such a constant; the default
    variance is the squared error loss. *)
Theorem C119_normal :
  forall b n var, 0 < var -> exists K, forall mean targets coeff,
    shaped b n mean -> shaped b n targets ->
    has_value (register_normal_predictive_distribution n mean (PyFloat var) (Some (Entries targets)) coeff)
              (coeff / (2 * var) * total squared_distance mean targets + coeff * K).
Proof. exact normal_value. Qed.
Print Assumptions C119_normal.

(** Its curvature with respect to the outputs is coeff / var times the identity, so
    2 * coeff for the squared error loss: the second derivative of the value above. *)
Theorem C119_normal_curvature :
  forall k n mean var targets coeff wrt jac v,
    (exists g, register_normal_predictive_distribution n mean (PyFloat var) targets coeff = Ok g /\
      curvature_product k g wrt [jac] v
      = Ok (grad_tensor (zeros wrt) jac (tscale (coeff / var) (map (map (fun d => tdot d v)) jac)))) /\
    (exists g, register_squared_error_loss n mean targets coeff = Ok g /\
      curvature_product k g wrt [jac] v
      = Ok (grad_tensor (zeros wrt) jac (tscale (2 * coeff) (map (map (fun d => tdot d v)) jac)))).
Proof. exact normal_curvature. Qed.
Print Assumptions C119_normal_curvature.

(** Softmax cross-entropy and sigmoid cross-entropy are exactly coeff times the sums of
    the TensorFlow functions the documentation names. *)
Theorem C119_softmax :
  forall b n logits ks coeff, shaped b n logits -> labels b n ks ->
    has_value (register_softmax_cross_entropy_loss n logits (Some (Labels ks)) coeff)
              (coeff * total softmax_cross_entropy logits ks).
Proof. exact softmax_value. Qed.
Print Assumptions C119_softmax.

Theorem C119_sigmoid :
  forall b n logits targets coeff, shaped b n logits -> shaped b n targets ->
    has_value (register_sigmoid_cross_entropy_loss n logits (Some (Entries targets)) coeff)
              (coeff * total (fun x z => rsum (map2 sigmoid_cross_entropy x z)) logits targets) /\
    has_value (register_sigmoid_cross_entropy_loss n logits (Some (Entries targets)) coeff)
              (coeff * total (fun x z => rsum (map2 binary_cross_entropy x z)) logits targets).
Proof. exact sigmoid_value. Qed.
Print Assumptions C119_sigmoid.

(** "It behaves identically": the methods without the probabilistic interpretation. *)
Theorem C119_aliases :
  forall n outputs targets coeff,
    indistinguishable (register_softmax_cross_entropy_loss n outputs targets coeff)
                      (register_categorical_predictive_distribution n outputs targets coeff) /\
    indistinguishable (register_sigmoid_cross_entropy_loss n outputs targets coeff)
                      (register_multi_bernoulli_predictive_distribution n outputs targets coeff) /\
    indistinguishable (register_squared_error_loss n outputs targets coeff)
                      (register_normal_predictive_distribution n outputs default_var targets coeff).
Proof. exact aliases. Qed.
Print Assumptions C119_aliases.

(** The registered value is the sum over the cases of the mini-batch, not the average:
    registering two halves of a batch gives values that add up to that of the whole. *)
Theorem C119_sums_over_cases :
  forall n coeff,
    (forall p p' t t' x x', length p = length t ->
       has_value (register_squared_error_loss n p (Some (Entries t)) coeff) x ->
       has_value (register_squared_error_loss n p' (Some (Entries t')) coeff) x' ->
       has_value (register_squared_error_loss n (p ++ p') (Some (Entries (t ++ t'))) coeff) (x + x')) /\
    (forall p p' t t' x x', length p = length t ->
       has_value (register_sigmoid_cross_entropy_loss n p (Some (Entries t)) coeff) x ->
       has_value (register_sigmoid_cross_entropy_loss n p' (Some (Entries t')) coeff) x' ->
       has_value (register_sigmoid_cross_entropy_loss n (p ++ p') (Some (Entries (t ++ t'))) coeff) (x + x')) /\
    (forall p p' t t' x x', length p = length t ->
       has_value (register_softmax_cross_entropy_loss n p (Some (Labels t)) coeff) x ->
       has_value (register_softmax_cross_entropy_loss n p' (Some (Labels t')) coeff) x' ->
       has_value (register_softmax_cross_entropy_loss n (p ++ p') (Some (Labels (t ++ t'))) coeff) (x + x')).
Proof. exact sums_over_cases. Qed.
Print Assumptions C119_sums_over_cases.

(** "In the case of normal distributions it may be": for a normal distribution the
    coefficient is a temperature.  Coefficient c with variance v has the curvature of
    coefficient 1 with variance v / c, and the same value up to a constant. *)
Theorem C119_normal_temperature :
  forall b n var c, 0 < var -> 0 < c ->
    (exists K, forall mean targets x, shaped b n mean -> shaped b n targets ->
       has_value (register_normal_predictive_distribution n mean (PyFloat (var / c)) (Some (Entries targets)) 1) x ->
       has_value (register_normal_predictive_distribution n mean (PyFloat var) (Some (Entries targets)) c) (x + K)) /\
    (forall mean targets k wrt jac v, exists g g',
       register_normal_predictive_distribution n mean (PyFloat var) targets c = Ok g /\
       register_normal_predictive_distribution n mean (PyFloat (var / c)) targets 1 = Ok g' /\
       curvature_product k g wrt jac v = curvature_product k g' wrt jac v).
Proof. exact normal_temperature. Qed.
Print Assumptions C119_normal_temperature.

(** "This is NOT equivalent to changing the temperature": for a categorical and for a
    Bernoulli distribution no temperature T and no additive constant reproduces a
    coefficient other than 1. *)
Theorem C119_categorical_not_temperature :
  forall c T K, 0 < c -> 0 < T ->
    (forall logits k x, shaped 1 2 logits -> (k < 2)%nat ->
       has_value (register_categorical_predictive_distribution 2 (tscale (/ T) logits) (Some (Labels [k])) 1) x ->
       has_value (register_categorical_predictive_distribution 2 logits (Some (Labels [k])) c) (x + K)) ->
    c = 1.
Proof. exact categorical_not_temperature. Qed.
Print Assumptions C119_categorical_not_temperature.

Theorem C119_bernoulli_not_temperature :
  forall c T K, 0 < c -> 0 < T ->
    (forall logit k x,
       has_value (register_multi_bernoulli_predictive_distribution 1 [[logit / T]] (Some (Entries [[k]])) 1) x ->
       has_value (register_multi_bernoulli_predictive_distribution 1 [[logit]] (Some (Entries [[k]])) c) (x + K)) ->
    c = 1.
Proof. exact bernoulli_not_temperature. Qed.
Print Assumptions C119_bernoulli_not_temperature.

(** Targets are optional: without them the value cannot be asked for, and no curvature
    product changes. *)
Theorem C119_targets_optional :
  forall k n outputs var t coeff r r0,
    In (r, r0)
      [ (register_categorical_predictive_distribution n outputs (Some t) coeff,
         register_categorical_predictive_distribution n outputs None coeff);
        (register_softmax_cross_entropy_loss n outputs (Some t) coeff,
         register_softmax_cross_entropy_loss n outputs None coeff);
        (register_normal_predictive_distribution n outputs (PyFloat var) (Some t) coeff,
         register_normal_predictive_distribution n outputs (PyFloat var) None coeff);
        (register_squared_error_loss n outputs (Some t) coeff,
         register_squared_error_loss n outputs None coeff);
        (register_multi_bernoulli_predictive_distribution n outputs (Some t) coeff,
         register_multi_bernoulli_predictive_distribution n outputs None coeff);
        (register_sigmoid_cross_entropy_loss n outputs (Some t) coeff,
         register_sigmoid_cross_entropy_loss n outputs None coeff) ] ->
    exists g g0, r = Ok g /\ r0 = Ok g0 /\ eval_loss g <> NoTargets /\ eval_loss g0 = NoTargets /\
      forall wrt jac v, curvature_product k g wrt jac v = curvature_product k g0 wrt jac v.
Proof. exact targets_optional. Qed.
Print Assumptions C119_targets_optional.

(** A variance that is not a Python float (an int, a tensor) is refused. *)
Theorem C119_variance_must_be_float :
  forall n mean targets coeff,
    register_normal_predictive_distribution n mean OtherType targets coeff = Raise AssertionError.
Proof. reflexivity. Qed.
Print Assumptions C119_variance_must_be_float.

(** The one-hot class: one-hot rows as targets give the value that labels give. *)
Theorem C119_onehot_class :
  forall b n logits ks, shaped b n logits -> labels b n ks ->
    evaluate (new_onehot_categorical n logits (Some (Entries (map (one_hot n) ks))))
    = evaluate (new_categorical n logits (Some (Labels ks))).
Proof. exact onehot_class. Qed.
Print Assumptions C119_onehot_class.

(** It has the curvature of the categorical distribution with the same logits, whatever the
    targets and the names. *)
Theorem C119_onehot_curvature :
  forall k n logits targets targets' name name' coeff wrt jac v,
    curvature_product k (mkReg (new_onehot_categorical n logits targets) name coeff) wrt jac v
    = curvature_product k (mkReg (new_categorical n logits targets') name' coeff) wrt jac v.
Proof. reflexivity. Qed.
Print Assumptions C119_onehot_curvature.

(** The hypotheses are met, and the values are what one computes by hand. *)
Example C119_instance :
  shaped 2 2 [[1; 2]; [3; 4]] /\ shaped 2 2 [[0; 0]; [1; 1]] /\ labels 2 2 [1; 0]%nat /\
  total squared_distance [[1; 2]; [3; 4]] [[0; 0]; [1; 1]] = 18 /\
  total softmax_cross_entropy [[0; 0]; [5; 5]] [1; 0]%nat = 2 * ln 2 /\
  has_value (register_softmax_cross_entropy_loss 2 [[0; 0]; [5; 5]] (Some (Labels [1; 0]%nat)) 3) (6 * ln 2).
Proof. exact reg_instance. Qed.
