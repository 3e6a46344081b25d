(** What the properties about registering Keras models say, independently of the code. *)
From Coq Require Import String Ascii.
From Coq Require Import Reals List Arith Bool.
From Verif.Base Require Import Py.
From Verif.Keras Require Import Config Layers.
Import ListNotations.
Local Open Scope string_scope.

(** The layers of a model in left-to-right depth-first order, and the names of its nested models. *)
Fixpoint leaves (l : layer) : list leaf :=
  match l with Leaf l => [l] | Nest _ ls _ => flat_map leaves ls end.
Fixpoint nested_names (l : layer) : list string :=
  match l with Leaf _ => [] | Nest nm ls _ => nm :: flat_map nested_names ls end.
Definition all_leaves (m : model) : list leaf := flat_map leaves (m_layers m).

(** The layers with trainable parameters. *)
Definition has_trainable_params (l : leaf) : bool := l_trainable l && Nat.ltb 0 (l_params l).
Definition trainable_layers (m : model) : list leaf := filter has_trainable_params (all_leaves m).

(** The parameters registered, each with its approximation, and the losses registered. *)
Definition registrations (calls : list call) : list (list nat * option string) :=
  flat_map (fun c => match c with
                     | RegFullyConnected _ ps _ _ a | RegScaleAndShift ps _ _ a | RegConv _ ps _ _ a _ _ _ => [(ps, a)]
                     | _ => []
                     end) calls.
Definition loss_calls (calls : list call) : list call :=
  filter (fun c => match c with RegLoss _ _ _ _ => true | _ => false end) calls.

(** The value under a key in a dict. *)
Definition under {K V} (eqb : K -> K -> bool) (d : list (K * V)) (k : K) : option V :=
  option_map snd (find (fun kv => eqb (fst kv) k) d).
Definition key_eqb (a b : key) : bool :=
  match a, b with
  | KStr s, KStr t | KCls s, KCls t => String.eqb s t
  | _, _ => false
  end.
(** The approximation for a layer: under its name, else under its class, else the default. *)
Definition approx_given (d : list (key * option string)) (l : leaf) : option string :=
  match under key_eqb d (KStr (l_name l)) with
  | Some a => a
  | None => match under key_eqb d (KCls (l_class l)) with Some a => a | None => None end
  end.

(** [spells s c]: [s] is [c] up to underscores and capitals. *)
Inductive spells : string -> string -> Prop :=
| SpNil : spells "" ""
| SpUnderscore s c : spells s c -> spells (String "_" s) c
| SpSame a s c : a <> "_"%char -> (nat_of_ascii a < 65 \/ 90 < nat_of_ascii a) -> spells s c -> spells (String a s) (String a c)
| SpCapital a b s c : 65 <= nat_of_ascii a <= 90 -> nat_of_ascii b = nat_of_ascii a + 32 -> spells s c ->
    spells (String a s) (String b c).

(** The supported losses. *)
Definition supported_losses : list (string * loss_kind) :=
  [("mse", SquaredError); ("meansquarederror", SquaredError);
   ("categoricalcrossentropy", SoftmaxCrossEntropy); ("sparsecategoricalcrossentropy", SoftmaxCrossEntropy);
   ("binarycrossentropy", SigmoidCrossEntropy)].
Definition loss_name (v : lossv) : string := match v with LStr s | LFun s | LClass s | LDict s => s end.
Definition is_loss (v : lossv) (k : loss_kind) : Prop :=
  exists c, In (c, k) supported_losses /\ spells (loss_name v) c.

(** The tensors of a node. *)
Definition tensors_of (v : nodeval) : list nat := match v with One t => [t] | Many ts => ts end.
(** What the activation of a layer is applied to: the only input of the operation that the
    outputs of the layer come from. *)
Definition before_activation (producer : nat -> option nat) (op_inputs : nat -> list nat) (l : leaf) (v : nodeval) : Prop :=
  if l_activation l
  then exists o t, tensors_of (l_out l) <> [] /\ (forall t', In t' (tensors_of (l_out l)) -> producer t' = Some o) /\
         op_inputs o = [t] /\ v = One t
  else v = l_out l.

(** The index of a name in a list of names. *)
Fixpoint index (n : string) (l : list string) : option nat :=
  match l with
  | [] => None
  | m :: l => if String.eqb m n then Some 0 else option_map S (index n l)
  end.
(** The loss and the weight given for an output. *)
Definition loss_given (outs : list string) (loss : lossarg) (n : string) : option lossv :=
  match loss with
  | LaNone => None
  | LaOne v => if existsb (String.eqb n) outs then Some v else None
  | LaList vs => match index n outs with Some i => nth_error vs i | None => None end
  | LaDict d => under String.eqb d n
  end.
Definition weight_given (outs : list string) (w : container string R) (n : string) : R :=
  match w with
  | CList ws => match index n outs with Some i => nth i ws 1%R | None => 1%R end
  | CDict d => match under String.eqb d n with Some w => w | None => 1%R end
  | _ => 1%R
  end.

(** A registered loss is the one wanted: of the right kind, on the right tensor, with weight [w]. *)
Definition right_loss (producer : nat -> option nat) (op_inputs : nat -> list nat) (l : leaf) (v : lossv) (w : R)
    (seed : option nat) (c : call) : Prop :=
  exists k t, is_loss v k /\ c = RegLoss k t w seed /\
    match k with SquaredError => t = One (l_output l) | _ => before_activation producer op_inputs l t end.

(** A weighted sum. *)
Fixpoint weighted_sum (ws vs : list R) : R :=
  match ws, vs with w :: ws, v :: vs => (w * v + weighted_sum ws vs)%R | _, _ => 0%R end.
Definition total (l : list R) : R := fold_right Rplus 0%R l.

(** The model's outputs are layers, not nested models, whose names are unique. *)
Definition outputs_are_layers (m : model) : Prop :=
  NoDup (map l_name (all_leaves m)) /\ NoDup (m_output_names m) /\
  incl (m_output_names m) (map l_name (all_leaves m)) /\
  (forall n, In n (flat_map nested_names (m_layers m)) -> ~ In n (m_output_names m)).

(** [f] is the function that the argument [v] stands for. *)
Definition stands_for (deserialize : string -> res lossv) (v f : lossv) : Prop :=
  (exists nm, f = LFun nm \/ f = LClass nm) /\ match v with LStr s => deserialize s = Ok f | _ => v = f end.

(** The losses of the outputs. *)
Fixpoint loss_values (value : lossv -> nat -> nat -> R) (fns : list lossv) (ps ys : list nat) : list R :=
  match fns, ps, ys with
  | f :: fns, p :: ps, y :: ys => value f p y :: loss_values value fns ps ys
  | _, _, _ => []
  end.

(** A loss was given. *)
Definition loss_was_given (loss : lossarg) : bool :=
  match loss with LaNone | LaOne (LStr "") | LaList [] | LaDict [] => false | _ => true end.
(** The output layers. *)
Definition output_layers (m : model) : list leaf :=
  filter (fun l => existsb (String.eqb (l_name l)) (m_output_names m)) (all_leaves m).
