(** Model of kfac/python/keras/utils.py: registering the layers and losses of a Keras model, and
    the loss function built for adapting the damping. *)
From Coq Require Import String Ascii.
From Coq Require Import Reals List Arith Bool.
From Verif.Base Require Import Py.
From Verif.Keras Require Import Config.
Import ListNotations.
Local Open Scope string_scope.

(** Tensors, operations and variables, by identity. *)
Notation tensor := nat (only parsing).
Notation op := nat (only parsing).
Notation var := nat (only parsing).

(** Dictionaries with string keys and any values (Python dicts, in insertion order). *)
Fixpoint lookup {V} (d : list (string * V)) (k : string) : option V :=
  match d with
  | [] => None
  | (k', v) :: d' => if String.eqb k' k then Some v else lookup d' k
  end.
Fixpoint assign {V} (d : list (string * V)) (k : string) (v : V) : list (string * V) :=
  match d with
  | [] => [(k, v)]
  | (k', v') :: d' => if String.eqb k' k then (k, v) :: d' else (k', v') :: assign d' k v
  end.
Definition delete {V} (d : list (string * V)) (k : string) : list (string * V) :=
  filter (fun kv => negb (String.eqb (fst kv) k)) d.
(** [dict(pairs)], and dict comprehensions: a later pair replaces an earlier one. *)
Definition dict_of {V} (pairs : list (string * V)) : list (string * V) :=
  fold_left (fun d kv => assign d (fst kv) (snd kv)) pairs [].
(** [set(a) == set(b)] and [set(a) - set(b)] being empty. *)
Definition mem (x : string) (l : list string) : bool := existsb (String.eqb x) l.
Definition subset (a b : list string) : bool := forallb (fun x => mem x b) a.

(** str.replace('_', ''). *)
Fixpoint strip_underscores (s : string) : string :=
  match s with
  | EmptyString => EmptyString
  | String c s' => if Ascii.eqb c "_"%char then strip_underscores s' else String c (strip_underscores s')
  end.

(* ------------------------------------------------------------------------ *)
(** ** Keras objects *)

(** The input_tensors or output_tensors of a Keras node: a tensor, or a list or tuple of them. *)
Inductive nodeval := One (t : tensor) | Many (ts : list tensor).

(** What the tests of register_layer see of the type of a layer (isinstance and hasattr). *)
Inductive kind :=
| KDense
| KEmbedding
| KNorm (fused scale center : bool)      (* Batch- or LayerNormalization; [fused]: has it, and it is true *)
| KConv (cls : nat)                      (* has strides, padding and dilation_rate; 2: a Conv2D, 1: a Conv1D *)
        (channels_last : bool) (padding : string) (strides dilation_rate : list nat)
| KOther.

(** A layer without sublayers: its name, the name of its class, count_params(), trainable,
    trainable_weights, the tensors of its last inbound node, [layer.output], and whether it has
    an activation that is not linear. *)
Record leaf := mkLeaf {
  l_name : string;
  l_class : string;
  l_kind : kind;
  l_params : nat;
  l_trainable : bool;
  l_weights : list var;
  l_in : nodeval;
  l_out : nodeval;
  l_output : tensor;
  l_activation : bool
}.

(** A layer, or a nested model with its name, layers and output_names. *)
Inductive layer :=
| Leaf (l : leaf)
| Nest (nm : string) (ls : list layer) (outs : list string).
Definition layer_name (l : layer) : string :=
  match l with Leaf l => l_name l | Nest nm _ _ => nm end.

Record model := mkModel { m_layers : list layer; m_output_names : list string }.

(** A loss: a string, a function with its name, an instance of a loss class, or a dict (the
    serialized form of such an instance, with its class_name). *)
Inductive lossv :=
| LStr (s : string)
| LFun (nm : string)
| LClass (cls : string)
| LDict (cls : string).

(** keras.losses.serialize: the name of a function, a dict for an instance of a class; a dict
    cannot be serialized. *)
Definition keras_serialize (v : lossv) : res lossv :=
  match v with
  | LStr s => Ok (LStr s)
  | LFun nm => Ok (LStr nm)
  | LClass c => Ok (LDict c)
  | LDict _ => Raise ValueError
  end.

(** The loss argument. *)
Inductive lossarg :=
| LaNone
| LaOne (v : lossv)
| LaList (l : list lossv)
| LaDict (d : list (string * lossv)).

(** Loss weights and Fisher approximations: absent, a list, a dict, or something else. *)
Inductive container (K V : Type) :=
| CNone
| CList (l : list V)
| CDict (d : list (K * V))
| COther.
Arguments CNone {K V}. Arguments CList {K V} l. Arguments CDict {K V} d. Arguments COther {K V}.

(** A key of the fisher_approx dict: a string, or a layer class with its name. *)
Inductive key := KStr (s : string) | KCls (nm : string).

(* ------------------------------------------------------------------------ *)
(** ** Calls made on the layer collection *)

(** What register_layer passes on.  The params are a list of one variable where the code passes
    the variable itself. *)
Inductive input := InNode (v : nodeval) | InUnscaled (out : tensor) (scale : var) (shift : option var).
Inductive loss_kind := SquaredError | SoftmaxCrossEntropy | SigmoidCrossEntropy.
Inductive call :=
| RegFullyConnected (dense : bool) (params : list var) (i : input) (o : tensor) (approx : option string)
| RegScaleAndShift (params : list var) (i : input) (o : tensor) (approx : option string)
| RegConv (dims : nat) (params : list var) (i : input) (o : tensor) (approx : option string)
          (padding : string) (strides dilations : list nat)
| AddUses (params : list var) (n : nat)
| RegLoss (k : loss_kind) (t : nodeval) (coeff : R) (seed : option nat).

(** The learning phase: not set (its value is False), or set to 0 or 1. *)
Inductive phase := Unset | SetTo (b : bool).

Section Graph.
  (** The graph: the operation that a tensor comes from (none for a leaf, as [is_leaf] says), and
      the inputs of an operation, both after skipping Identity operations. *)
  Variable producer : tensor -> option op.
  Variable op_inputs : op -> list tensor.

  (** utils.py:49-68 get_parent.  [expand_inputs] (tensorflow_graph_util.py:106-117) gives None
      for a leaf, whose [len] is a TypeError; for a list it wants one operation.  Simplification:
      in a list a leaf is refused, where the code gets to an operation without inputs. *)
  Definition get_parent (node : nodeval) : res tensor :=
    do o <- match node with
            | One t => match producer t with Some o => Ok o | None => Raise TypeError end
            | Many (t :: ts) =>
                match producer t with
                | Some o =>
                    if forallb (fun t => match producer t with Some o' => Nat.eqb o o' | None => false end) ts
                    then Ok o else Raise ValueError
                | None => Raise ValueError
                end
            | Many [] => Raise ValueError
            end;
    match op_inputs o with
    | [t] => Ok t
    | _ => Raise ValueError
    end.

  (** utils.py:141-144 and 239-242: the output of the layer before its activation. *)
  Definition pre_activation (l : leaf) : res nodeval :=
    if l_activation l then do t <- get_parent (l_out l); Ok (One t) else Ok (l_out l).

  (** utils.py:184: [K.get_value(K.learning_phase()) != False]; in Python, [0 != False] is false. *)
  Definition is_phase_set (p : phase) : bool :=
    match p with Unset => false | SetTo b => b end.

  (** utils.py:148: the layers that are registered. *)
  Definition is_trained (l : leaf) : bool := negb (Nat.eqb (l_params l) 0) && l_trainable l.

  (** utils.py:115-221 register_layer. *)
  Definition register_layer (p : phase) (l : leaf) (approx : option string) : res (list call) :=
    do pre <- pre_activation l;
    if negb (is_trained l) then Ok []
    else
      match l_in l, l_out l with
      | One _, One _ =>
          let outputs := match pre with One t => t | Many _ => 0 end in
          match l_weights l with
          | [] => Raise IndexError
          | w0 :: ws =>
              let params := w0 :: ws in
              match l_kind l with
              | KDense => Ok [RegFullyConnected true params (InNode (l_in l)) outputs approx]
              | KEmbedding => Ok [RegFullyConnected false params (InNode (l_in l)) outputs approx]
              | KNorm fused scale center =>
                  if negb scale then Raise ValueError
                  else
                    do shift <- (if center
                                 then match ws with w1 :: _ => Ok (Some w1) | [] => Raise IndexError end
                                 else Ok None);
                    Ok (RegScaleAndShift params (InUnscaled outputs w0 shift) outputs approx ::
                        (if fused && negb (is_phase_set p) then [AddUses params 1] else []))
              | KConv cls channels_last padding strides dilation_rate =>
                  if negb channels_last then Raise ValueError
                  else if Nat.eqb cls 2 || Nat.eqb cls 1
                  then Ok [RegConv cls params (InNode (l_in l)) outputs approx padding
                             ((1 :: strides ++ [1])%list) ((1 :: dilation_rate ++ [1])%list)]
                  else Raise ValueError
              | KOther => Raise ValueError
              end
          end
      | _, _ => Raise ValueError
      end.

  (** utils.py:224-267 register_loss.  For the squared error the tensor is [layer.output]. *)
  Definition register_loss (l : leaf) (loss : lossv) (coeff : R) (seed : option nat) : res (list call) :=
    do pre <- pre_activation l;
    do loss <- match loss with LStr s => Ok (LStr s) | v => keras_serialize v end;
    let s := lower (strip_underscores (match loss with LStr s => s | LDict c => c | LFun c => c | LClass c => c end)) in
    if String.eqb s "meansquarederror" || String.eqb s "mse" then Ok [RegLoss SquaredError (One (l_output l)) coeff seed]
    else if String.eqb s "sparsecategoricalcrossentropy" || String.eqb s "categoricalcrossentropy"
    then Ok [RegLoss SoftmaxCrossEntropy pre coeff seed]
    else if String.eqb s "binarycrossentropy" then Ok [RegLoss SigmoidCrossEntropy pre coeff seed]
    else Raise ValueError.

  (** utils.py:35 the prefix of serialized class names. *)
  Definition class_prefix : string := "kfac_class_".

  (** utils.py:86-96 serialize_fisher_approx. *)
  Definition serialize_key (k : key) : string :=
    match k with KStr s => s | KCls nm => class_prefix ++ nm end.
  Definition serialize_fisher_approx {V} (d : list (key * V)) : list (string * V) :=
    dict_of (map (fun kv => (serialize_key (fst kv), snd kv)) d).

  (** utils.py:99-121 _get_verified_dict.  Keys that are strings without the prefix of class
      names must name layers.  [inj] makes a key of a layer name. *)
  Definition get_verified_dict {K V} (string_key : K -> option string) (inj : string -> K)
      (c : container K V) (layer_names : list string) : res (list (K * V)) :=
    match c with
    | CNone => Ok []
    | CDict d =>
        if subset (flat_map (fun kv => match string_key (fst kv) with
                                       | Some s => if String.prefix class_prefix s then [] else [s]
                                       | None => []
                                       end) d) layer_names
        then Ok d else Raise ValueError
    | CList l =>
        if Nat.eqb (List.length layer_names) (List.length l)
        then Ok (map (fun kv => (inj (fst kv), snd kv)) (dict_of (zip layer_names l)))
        else Raise ValueError
    | COther => Raise ValueError
    end.
  Definition key_string (k : key) : option string := match k with KStr s => Some s | KCls _ => None end.

  (** utils.py:332-352: the dict from layer names to losses. *)
  Definition loss_dict (m : model) (loss : lossarg) : res (list (string * lossv)) :=
    match loss with
    | LaNone => Ok []
    | LaDict [] => Ok []
    | LaDict d =>
        if subset (m_output_names m) (map fst d) && subset (map fst d) (m_output_names m) then Ok d else Raise ValueError
    | LaList [] => Ok []
    | LaList l =>
        if Nat.eqb (List.length (m_output_names m)) (List.length l) then Ok (dict_of (zip (m_output_names m) l)) else Raise ValueError
    | LaOne (LStr "") => Ok []
    | LaOne (LDict c) =>
        (* a dict: its keys are class_name and config *)
        let ks := ["class_name"; "config"] in
        if subset (m_output_names m) ks && subset ks (m_output_names m)
        then Ok [("class_name", LStr c); ("config", LDict c)] else Raise ValueError
    | LaOne v =>
        if Nat.ltb 1 (List.length (m_output_names m)) then Raise ValueError
        else match rev (m_layers m) with
             | l :: _ => Ok [(layer_name l, v)]
             | [] => Raise IndexError
             end
    end.

  (** utils.py:354-370: the loop over the stack (its top first), which also moves the loss of a
      nested model to the layer its output comes from.  [fuel] bounds the number of iterations;
      [layers_size] is enough. *)
  Fixpoint layer_size (l : layer) : nat :=
    match l with
    | Leaf _ => 1
    | Nest _ ls _ => S (fold_right (fun l n => layer_size l + n) 0 ls)
    end.
  Definition layers_size (ls : list layer) : nat := fold_right (fun l n => layer_size l + n) 0 ls.
  Fixpoint flatten_loop (fuel : nat) (stack : list layer) (loss : list (string * lossv)) (flat : list leaf)
      : res (list leaf * list (string * lossv)) :=
    match fuel with
    | 0 => Ok (flat, loss)
    | S fuel =>
        match stack with
        | [] => Ok (flat, loss)
        | Leaf l :: stack => flatten_loop fuel stack loss (flat ++ [l])%list
        | Nest nm ls outs :: stack =>
            do loss <- match lookup loss nm with
                       | Some v =>
                           match outs with
                           | [] => Raise IndexError
                           | [o] => Ok (assign (delete loss nm) o v)
                           | _ => Raise ValueError
                           end
                       | None => Ok loss
                       end;
            flatten_loop fuel (ls ++ stack)%list loss flat
        end
    end.
  Definition flatten (m : model) (loss : list (string * lossv)) : res (list leaf * list (string * lossv)) :=
    flatten_loop (layers_size (m_layers m)) (m_layers m) loss [].

  (** utils.py:384-389: the approximation for a layer. *)
  Definition approx_for (fisher_approx : list (string * option string)) (l : leaf) : option string :=
    match lookup fisher_approx (l_name l) with
    | Some a => a
    | None => match lookup fisher_approx (class_prefix ++ l_class l) with Some a => a | None => None end
    end.

  (** utils.py:384-398: the loop over the layers. *)
  Fixpoint register_all (p : phase) (fisher_approx : list (string * option string)) (loss : list (string * lossv))
      (loss_weights : list (string * R)) (seed : option nat) (ls : list leaf) : res (list call) :=
    match ls with
    | [] => Ok []
    | l :: ls =>
        do cs <- register_layer p l (approx_for fisher_approx l);
        do cl <- match lookup loss (l_name l) with
                 | Some v => register_loss l v (match lookup loss_weights (l_name l) with Some w => w | None => 1%R end) seed
                 | None => Ok []
                 end;
        do rest <- register_all p fisher_approx loss loss_weights seed ls;
        Ok (cs ++ cl ++ rest)%list
    end.

  (** utils.py:270-400 get_layer_collection: the calls made on the collection, and the loss dict
      after the traversal, which is the caller's own object if the loss was a dict that is not
      empty.  Simplification: what the calls do is modelled in Registry. *)
  Definition get_layer_collection (p : phase) (m : model) (loss : lossarg) (loss_weights : container string R)
      (fisher_approx : container key (option string)) (seed : option nat) : res (list call * list (string * lossv)) :=
    do loss <- loss_dict m loss;
    do (flat, loss) <- flatten m loss;
    let trained := map l_name (filter is_trained flat) in
    do fa <- get_verified_dict key_string KStr fisher_approx trained;
    let fa := serialize_fisher_approx fa in
    do lw <- get_verified_dict (fun s => Some s) (fun s => s) loss_weights (m_output_names m);
    do calls <- register_all p fa loss lw seed flat;
    Ok (calls, loss).
End Graph.

(** utils.py:71-83 serialize_loss. *)
Definition serialize_one (v : lossv) : res lossv := match v with LStr s => Ok (LStr s) | v => keras_serialize v end.
Fixpoint map_res {A B} (f : A -> res B) (l : list A) : res (list B) :=
  match l with
  | [] => Ok []
  | a :: l => do b <- f a; do bs <- map_res f l; Ok (b :: bs)
  end.
Definition serialize_loss (loss : lossarg) : res lossarg :=
  match loss with
  | LaNone => Ok LaNone
  | LaOne (LStr s) => Ok (LaOne (LStr s))
  | LaOne (LDict c) => (* a dict; its config is a dict *) do _ <- serialize_one (LDict c); Ok (LaOne (LDict c))
  | LaOne v => do w <- keras_serialize v; Ok (LaOne w)
  | LaList l => do l' <- map_res serialize_one l; Ok (LaList l')
  | LaDict d => do d' <- map_res (fun kv => do w <- serialize_one (snd kv); Ok (fst kv, w)) d; Ok (LaDict d')
  end.

(* ------------------------------------------------------------------------ *)
(** ** The loss function for adapting the damping *)

Section LossFn.
  (** [deserialize s]: the loss function of that name, if there is one; [value f p y]: the reduced
      loss [reduce_fn(f(y_pred=p, y_true=y))]. *)
  Variable deserialize : string -> res lossv.
  Variable value : lossv -> tensor -> tensor -> R.

  (** Calling a loss: a string or dict cannot be called. *)
  Definition call_loss (v : lossv) (p y : tensor) : res R :=
    match v with LFun _ | LClass _ => Ok (value v p y) | LStr _ | LDict _ => Raise TypeError end.

  (** utils.py:448-460: the losses and weights that the returned function uses. *)
  Definition loss_fn_losses (outs : list string) (loss : lossarg) : res lossarg :=
    do loss <- match loss with
               | LaOne (LStr s) => do f <- deserialize s; Ok (LaOne f)
               | LaOne (LDict _) => match outs with [] => Ok (LaList []) | _ => Raise KeyError end
               | LaDict d => do l <- map_res (fun n => match lookup d n with Some v => Ok v | None => Raise KeyError end) outs;
                             Ok (LaList l)
               | l => Ok l
               end;
    match loss with
    | LaList l => do l <- map_res (fun v => match v with LStr s => deserialize s | v => Ok v end) l; Ok (LaList l)
    | l => Ok l
    end.
  Definition loss_fn_weights (outs : list string) (w : container string R) : container string R :=
    match w with
    | CDict d => CList (map (fun n => match lookup d n with Some w => w | None => 1%R end) outs)
    | w => w
    end.

  (** tf.add_n: an empty list is refused. *)
  Definition add_n (l : list R) : res R :=
    match l with [] => Raise ValueError | _ => Ok (fold_right Rplus 0%R l) end.

  (** utils.py:462-502 the returned function, given the prediction and the labels (each a tensor
      or a list of them) and the model's own losses.  Simplifications: the weights are a list or
      None; the labels of a prediction that is a list are a list; computing the prediction is
      left out. *)
  Definition loss_fn (outs : list string) (loss : lossarg) (w : container string R) (own : list R)
      (prediction y : nodeval) : res R :=
    do loss <- loss_fn_losses outs loss;
    let weights := match loss_fn_weights outs w with CList l => l | _ => [] end in
    do total <-
      match prediction with
      | Many ps =>
          match loss with
          | LaList fns =>
              let ys := match y with Many ys => ys | One _ => [] end in
              do vals <- map_res (fun fpy => call_loss (fst fpy) (fst (snd fpy)) (snd (snd fpy))) (zip fns (zip ps ys));
              let vals := match weights with [] => vals | _ => map (fun lw => (fst lw * snd lw)%R) (zip vals weights) end in
              add_n vals
          | _ => Raise TypeError
          end
      | One p =>
          match loss with
          | LaOne f => call_loss f p (match y with One y => y | Many _ => 0 end)
          | _ => Raise TypeError
          end
      end;
    match own with
    | [] => Ok total
    | _ => do r <- add_n own; Ok (total + r)%R
    end.
End LossFn.
