(** C55, C70, C73, C75, C76: registering Keras models. *)
From Coq Require Import String Ascii.
From Coq Require Import Reals List Arith Bool Lia Lra Permutation.
From Verif.Base Require Import Py.
From Verif.Keras Require Import Config Layers LayerSpec LayerProofs.
Import ListNotations.
Local Open Scope string_scope.

(** A dense layer without activation, and a graph without operations. *)
Definition dense (nm : string) (w t : nat) : leaf :=
  mkLeaf nm "Dense" KDense 6 true [w] (One t) (One (S t)) (S t) false.
Definition no_producer (t : nat) : option nat := None.
Definition no_inputs (o : nat) : list nat := [].

(* ------------------------------------------------------------------------ *)
(** * C55 *)

(** A model whose only layer is a nested model with one dense layer. *)
Definition nested : model := mkModel [Nest "inner" [Leaf (dense "d" 0 0)] ["d"]] ["inner"].

(** Refuted: the weight given for an output that is a nested model is not used. *)
Theorem C55_weights_refuted :
  exists calls d', get_layer_collection no_producer no_inputs Unset nested (LaOne (LStr "mse")) (CList [2%R]) CNone None = Ok (calls, d') /\
    weight_given (m_output_names nested) (CList [2%R]) "inner" = 2%R /\
    loss_calls calls = [RegLoss SquaredError (One 1) 1%R None] /\ 1%R <> 2%R.
Proof. eexists. eexists. split; [reflexivity|]. split; [reflexivity|]. split; [reflexivity|lra]. Qed.
Print Assumptions C55_weights_refuted.

(** Refuted: the caller's loss dict is changed. *)
Theorem C55_arguments_unchanged_refuted :
  exists calls, get_layer_collection no_producer no_inputs Unset nested (LaDict [("inner", LStr "mse")]) CNone CNone None =
    Ok (calls, [("d", LStr "mse")]).
Proof. eexists. reflexivity. Qed.
Print Assumptions C55_arguments_unchanged_refuted.

(** What holds: if the outputs are layers and not nested models, the output layers are registered
    in order, each once, with the loss and the weight given for its name, and the caller's dict
    is left alone. *)
Theorem C55_losses_as_given_partial producer op_inputs p m loss lw fa seed calls d' :
  get_layer_collection producer op_inputs p m loss lw fa seed = Ok (calls, d') ->
  outputs_are_layers m -> loss_was_given loss = true ->
  (forall v, loss = LaOne v -> (exists ls l, m_layers m = (ls ++ [l])%list /\ m_output_names m = [layer_name l])) ->
  (forall dd, loss = LaDict dd -> NoDup (map fst dd)) ->
  Permutation (map l_name (output_layers m)) (m_output_names m) /\
  Forall2 (fun l c => exists v, loss_given (m_output_names m) loss (l_name l) = Some v /\
             right_loss producer op_inputs l v (weight_given (m_output_names m) lw (l_name l)) seed c)
          (output_layers m) (loss_calls calls) /\
  (forall dd, loss = LaDict dd -> d' = dd).
Proof. exact (losses_as_given producer op_inputs p m loss lw fa seed calls d'). Qed.
Print Assumptions C55_losses_as_given_partial.

(** Two outputs, one of them a layer of a model that also has a nested part. *)
Definition two_outputs : model :=
  mkModel [Nest "inner" [Leaf (dense "a" 0 0); Leaf (dense "b" 1 1)] ["b"]; Leaf (dense "x" 2 2); Leaf (dense "y" 3 2)] ["y"; "x"].
Example C55_example :
  outputs_are_layers two_outputs /\
  exists calls d', get_layer_collection no_producer no_inputs Unset two_outputs (LaList [LStr "mse"; LFun "binary_crossentropy"])
      (CDict [("x", 3%R)]) CNone None = Ok (calls, d') /\
    loss_calls calls = [RegLoss SigmoidCrossEntropy (One 3) 3%R None; RegLoss SquaredError (One 3) 1%R None].
Proof.
  split; [|eexists; eexists; split; reflexivity].
  split; [cbn; repeat constructor; cbn; intuition discriminate|].
  split; [cbn; repeat constructor; cbn; intuition discriminate|].
  split; [intros n; cbn; intuition|]. cbn. intros n [<-|[]]. intuition discriminate.
Qed.

(* ------------------------------------------------------------------------ *)
(** * C70 *)

(** Refuted: two layers of the same name, in different nested models, get the approximation of
    the last. *)
Theorem C70_list_in_order_refuted :
  ~ (forall p m loss lw l seed calls d',
       get_layer_collection no_producer no_inputs p m loss lw (CList l) seed = Ok (calls, d') ->
       registrations calls = combine (map l_weights (trainable_layers m)) l).
Proof.
  intros H.
  specialize (H Unset (mkModel [Nest "m1" [Leaf (dense "d" 0 0)] ["d"]; Nest "m2" [Leaf (dense "d" 1 1)] ["d"]] ["m2"])
                LaNone CNone [Some "kron"; Some "diagonal"] None _ _ eq_refl).
  vm_compute in H. discriminate H.
Qed.
Print Assumptions C70_list_in_order_refuted.

(** What holds: if the trainable layers have different names, the list is used in order. *)
Theorem C70_list_in_order_partial producer op_inputs p m loss lw l seed calls d' :
  get_layer_collection producer op_inputs p m loss lw (CList l) seed = Ok (calls, d') ->
  NoDup (map l_name (trainable_layers m)) ->
  List.length l = List.length (trainable_layers m) /\
  registrations calls = combine (map l_weights (trainable_layers m)) l.
Proof. exact (approx_list producer op_inputs p m loss lw l seed calls d'). Qed.
Print Assumptions C70_list_in_order_partial.

(** From a dict: the name, else the class, else the default; a name that is no layer is refused. *)
Theorem C70_dict producer op_inputs p m loss lw d seed calls d' :
  get_layer_collection producer op_inputs p m loss lw (CDict d) seed = Ok (calls, d') ->
  NoDup (map fst d) -> (forall s v, In (KStr s, v) d -> String.prefix "kfac_class_" s = false) ->
  (forall l, In l (trainable_layers m) -> String.prefix "kfac_class_" (l_name l) = false) ->
  (forall s v, In (KStr s, v) d -> In s (map l_name (trainable_layers m))) /\
  registrations calls = map (fun l => (l_weights l, approx_given d l)) (trainable_layers m).
Proof. exact (approx_dict producer op_inputs p m loss lw d seed calls d'). Qed.
Print Assumptions C70_dict.

(** The form that the optimizer keeps in its configuration gives the same registrations. *)
Theorem C70_serialized_dict producer op_inputs p m loss lw d seed :
  get_layer_collection producer op_inputs p m loss lw
    (CDict (map (fun kv => (KStr (fst kv), snd kv)) (serialize_fisher_approx d))) seed =
  get_layer_collection producer op_inputs p m loss lw (CDict d) seed.
Proof. exact (approx_serialized producer op_inputs p m loss lw d seed). Qed.
Print Assumptions C70_serialized_dict.
Theorem C70_default producer op_inputs p m loss lw seed calls d' :
  get_layer_collection producer op_inputs p m loss lw CNone seed = Ok (calls, d') ->
  registrations calls = map (fun l => (l_weights l, None)) (trainable_layers m).
Proof. exact (approx_none producer op_inputs p m loss lw seed calls d'). Qed.
Print Assumptions C70_default.
Example C70_example :
  NoDup (map l_name (trainable_layers two_outputs)) /\
  (exists calls d', get_layer_collection no_producer no_inputs Unset two_outputs LaNone CNone
     (CList [Some "kron"; Some "diagonal"; None; Some "kron"]) None = Ok (calls, d') /\
     registrations calls = [([0], Some "kron"); ([1], Some "diagonal"); ([2], None); ([3], Some "kron")]) /\
  (exists calls d', get_layer_collection no_producer no_inputs Unset two_outputs LaNone CNone
     (CDict [(KStr "b", None); (KCls "Dense", Some "diagonal")]) None = Ok (calls, d') /\
     registrations calls = [([0], Some "diagonal"); ([1], None); ([2], Some "diagonal"); ([3], Some "diagonal")]).
Proof.
  split; [cbn; repeat constructor; cbn; intuition discriminate|].
  split; eexists; eexists; split; reflexivity.
Qed.

(* ------------------------------------------------------------------------ *)
(** * C73 *)

(** Refuted: with one output its weight is ignored. *)
Theorem C73_weighted_loss_refuted :
  exists deserialize value, exists r,
    loss_fn deserialize value ["out"] (LaOne (LFun "mse")) (CList [2%R]) [] (One 0) (One 1) = Ok r /\
    r <> (weight_given ["out"] (CList [2%R]) "out" * value (LFun "mse") 0%nat 1%nat)%R.
Proof.
  exists (fun _ => Raise ValueError), (fun _ _ _ => 1%R), 1%R. split; [reflexivity|]. cbn. lra.
Qed.
Print Assumptions C73_weighted_loss_refuted.

(** Refuted: a list of one loss, which registers, cannot be evaluated for one output, and a
    serialized loss object cannot be looked up. *)
Theorem C73_list_of_one_refuted :
  (forall deserialize value w own p y,
     loss_fn deserialize value ["out"] (LaList [LFun "mse"]) w own (One p) (One y) = Raise TypeError) /\
  (forall deserialize value w own p y,
     loss_fn deserialize value ["out"] (LaOne (LDict "MeanSquaredError")) w own (One p) (One y) = Raise KeyError) /\
  (exists calls d', get_layer_collection no_producer no_inputs Unset (mkModel [Leaf (dense "out" 0 0)] ["out"])
     (LaList [LFun "mse"]) CNone CNone None = Ok (calls, d')).
Proof. split; [reflexivity|]. split; [reflexivity|]. eexists. eexists. reflexivity. Qed.
Print Assumptions C73_list_of_one_refuted.

(** What holds: with several outputs, the weighted sum of the losses and the model's own. *)
Theorem C73_weighted_loss_partial deserialize value outs loss w own fns ps ys :
  NoDup outs -> outs <> [] ->
  (exists l, loss = LaList l /\ List.length l = List.length outs) \/ (exists d, loss = LaDict d) ->
  Forall2 (fun n f => exists v, loss_given outs loss n = Some v /\ stands_for deserialize v f) outs fns ->
  (forall ws, w = CList ws -> List.length ws = List.length outs) ->
  List.length ps = List.length outs -> List.length ys = List.length outs ->
  loss_fn deserialize value outs loss w own (Many ps) (Many ys) =
    Ok (weighted_sum (map (weight_given outs w) outs) (loss_values value fns ps ys) + total own)%R.
Proof. exact (loss_fn_many deserialize value outs loss w own fns ps ys). Qed.
Print Assumptions C73_weighted_loss_partial.
(** With one output, its loss and the model's own. *)
Theorem C73_one_output_partial deserialize value outs v f w own p y :
  stands_for deserialize v f -> loss_fn deserialize value outs (LaOne v) w own (One p) (One y) = Ok (value f p y + total own)%R.
Proof. exact (loss_fn_one deserialize value outs v f w own p y). Qed.
Print Assumptions C73_one_output_partial.
Example C73_example :
  let deserialize := fun s => Ok (LFun s) in
  Forall2 (fun n f => exists v, loss_given ["a"; "b"] (LaDict [("b", LStr "mse"); ("a", LClass "CategoricalCrossentropy")]) n = Some v /\
             stands_for deserialize v f) ["a"; "b"] [LClass "CategoricalCrossentropy"; LFun "mse"].
Proof.
  constructor; [exists (LClass "CategoricalCrossentropy"); split; [reflexivity|split; [exists "CategoricalCrossentropy"; auto|reflexivity]]|].
  constructor; [exists (LStr "mse"); split; [reflexivity|split; [exists "mse"; auto|reflexivity]]|constructor].
Qed.

(* ------------------------------------------------------------------------ *)
(** * C75 *)

(** Every spelling of a supported loss, given as a name, function or object, is registered as its
    KFAC loss on the right tensor; anything else is a ValueError. *)
Theorem C75_supported_losses_partial producer op_inputs l v w seed k t :
  (forall c, v <> LDict c) -> is_loss v k -> before_activation producer op_inputs l t ->
  register_loss producer op_inputs l v w seed =
    Ok [RegLoss k (match k with SquaredError => One (l_output l) | _ => t end) w seed].
Proof. exact (register_loss_complete producer op_inputs l v w seed k t). Qed.
Print Assumptions C75_supported_losses_partial.
Theorem C75_unsupported_losses producer op_inputs l v w seed :
  (forall k, ~ is_loss v k) -> (exists t, before_activation producer op_inputs l t) ->
  register_loss producer op_inputs l v w seed = Raise ValueError.
Proof. exact (register_loss_unsupported producer op_inputs l v w seed). Qed.
Print Assumptions C75_unsupported_losses.

(** Refuted: a serialized loss object is refused, also where serialize_loss made it. *)
Theorem C75_serialized_losses_refuted :
  ~ (forall producer op_inputs l v w seed k t, is_loss v k -> before_activation producer op_inputs l t ->
       is_ok (register_loss producer op_inputs l v w seed) = true) /\
  (exists v, serialize_loss (LaOne (LClass "MeanSquaredError")) = Ok v /\ serialize_loss v = Raise ValueError /\
     get_layer_collection no_producer no_inputs Unset (mkModel [Leaf (dense "out" 0 0)] ["out"]) v CNone CNone None = Raise ValueError).
Proof.
  split; [|eexists; split; [reflexivity|split; reflexivity]].
  intros H. specialize (H no_producer no_inputs (dense "out" 0 0) (LDict "mse") 1%R None SquaredError (One 1)).
  assert (X : is_loss (LDict "mse") SquaredError).
  { exists "mse". split; [left; reflexivity|]. apply lower_strip. reflexivity. }
  specialize (H X eq_refl). discriminate H.
Qed.
Print Assumptions C75_serialized_losses_refuted.
Example C75_example :
  is_loss (LFun "mean_squared_error") SquaredError /\ is_loss (LClass "SparseCategoricalCrossentropy") SoftmaxCrossEntropy /\
  before_activation no_producer no_inputs (dense "out" 0 0) (One 1) /\ forall k, ~ is_loss (LStr "hinge") k.
Proof.
  split; [exists "meansquarederror"; split; [cbn; tauto|apply lower_strip; reflexivity]|].
  split; [exists "sparsecategoricalcrossentropy"; split; [cbn; tauto|apply lower_strip; reflexivity]|].
  split; [reflexivity|]. intros k (c & I & S). apply lower_strip in S. cbn in S. subst c. cbn in I. intuition discriminate.
Qed.

(* ------------------------------------------------------------------------ *)
(** * C76 *)

(** Refuted: a layer without trainable parameters can make the registration fail, because the
    input of its activation is looked for before. *)
Theorem C76_untrained_layers_refuted :
  ~ (forall producer op_inputs p l a, has_trainable_params l = false -> register_layer producer op_inputs p l a = Ok []).
Proof.
  intros H. specialize (H (fun _ => Some 0) (fun _ => [0; 1]) Unset
    (mkLeaf "act" "Activation" KOther 0 true [] (One 0) (One 1) 1 true) None eq_refl).
  discriminate H.
Qed.
Print Assumptions C76_untrained_layers_refuted.

(** Refuted: a normalization with neither scale nor shift, whose statistics count as parameters,
    is not refused with the documented ValueError. *)
Theorem C76_no_scale_refuted :
  ~ (forall producer op_inputs p l a t fused center, has_trainable_params l = true -> before_activation producer op_inputs l t ->
       l_kind l = KNorm fused false center -> register_layer producer op_inputs p l a = Raise ValueError).
Proof.
  intros H. specialize (H no_producer no_inputs Unset (mkLeaf "bn" "BatchNormalization" (KNorm true false false) 4 true [] (One 0) (One 1) 1 false)
    None (One 1) true false eq_refl eq_refl eq_refl). discriminate H.
Qed.
Print Assumptions C76_no_scale_refuted.

(** Refuted: the extra use of the variables of a fused normalization is meant for an unset
    learning phase, but is also added when the phase was set to 0. *)
Theorem C76_fused_uses_refuted :
  ~ (forall producer op_inputs p l a cs, register_layer producer op_inputs p l a = Ok cs ->
       (exists ws, In (AddUses ws 1) cs) -> p = Unset).
Proof.
  intros H. specialize (H no_producer no_inputs (SetTo false)
    (mkLeaf "bn" "BatchNormalization" (KNorm true true true) 4 true [0; 1] (One 0) (One 1) 1 false) None _ eq_refl).
  discriminate H. exists [0; 1]. right. left. reflexivity.
Qed.
Print Assumptions C76_fused_uses_refuted.

(** What holds: a layer that is registered is registered once, with its weights, its input, the
    output before the activation and the attributes of its kind. *)
Theorem C76_layer_registration_partial producer op_inputs p l a cs :
  register_layer producer op_inputs p l a = Ok cs ->
  has_trainable_params l = false /\ cs = [] \/
  has_trainable_params l = true /\ exists i o t, l_in l = One i /\ l_out l = One o /\
    before_activation producer op_inputs l (One t) /\
    (exists w ws, l_weights l = w :: ws /\
     match l_kind l with
     | KDense => cs = [RegFullyConnected true (l_weights l) (InNode (One i)) t a]
     | KEmbedding => cs = [RegFullyConnected false (l_weights l) (InNode (One i)) t a]
     | KNorm fused scale center =>
         scale = true /\ exists uses,
         (if center then exists b ws', ws = b :: ws' /\ cs = RegScaleAndShift (l_weights l) (InUnscaled t w (Some b)) t a :: uses
          else cs = RegScaleAndShift (l_weights l) (InUnscaled t w None) t a :: uses) /\
         uses = (if fused && negb (match p with SetTo true => true | _ => false end) then [AddUses (l_weights l) 1] else [])
     | KConv cls cl pad st dl => cl = true /\ (cls = 1 \/ cls = 2) /\
         cs = [RegConv cls (l_weights l) (InNode (One i)) t a pad (1 :: st ++ [1])%list (1 :: dl ++ [1])%list]
     | KOther => False
     end).
Proof. exact (register_layer_cases producer op_inputs p l a cs). Qed.
Print Assumptions C76_layer_registration_partial.
(** Unsupported layers with trainable weights are refused. *)
Theorem C76_unsupported_layers producer op_inputs p l a t :
  has_trainable_params l = true -> before_activation producer op_inputs l t -> l_weights l <> [] ->
  (l_kind l = KOther \/ (exists cls cl pad st dl, l_kind l = KConv cls cl pad st dl /\ (cl = false \/ cls <> 1 /\ cls <> 2)) \/
   (exists fused center, l_kind l = KNorm fused false center) \/ (exists ts, l_in l = Many ts) \/ (exists ts, l_out l = Many ts)) ->
  register_layer producer op_inputs p l a = Raise ValueError.
Proof. exact (register_layer_unsupported producer op_inputs p l a t). Qed.
Print Assumptions C76_unsupported_layers.
Example C76_example :
  register_layer (fun _ => Some 0) (fun _ => [7]) Unset
    (mkLeaf "c" "Conv2D" (KConv 2 true "SAME" [2; 2] [1; 1]) 9 true [4; 5] (One 0) (One 1) 1 true) (Some "kron") =
    Ok [RegConv 2 [4; 5] (InNode (One 0)) 7 (Some "kron") "SAME" [1; 2; 2; 1] [1; 1; 1; 1]] /\
  has_trainable_params (mkLeaf "x" "LSTM" KOther 9 true [4] (One 0) (One 1) 1 false) = true.
Proof. split; reflexivity. Qed.
