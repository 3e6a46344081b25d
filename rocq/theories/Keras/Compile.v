(** Model of kfac/python/keras/saving_utils.py:38-66 and 109-114, 134-135: what a loaded model is
    compiled with. *)
From Coq Require Import List String QArith Bool.
From Verif.Base Require Import Py.
Import ListNotations.
Open Scope string_scope.
Open Scope list_scope.

(** What json.loads returns, and what can take its place: an object of the user ([Given]) or one
    that Keras made of a class and a configuration ([Made]).  Dictionaries have string keys and
    keep their order. *)
Inductive val :=
| None_
| Bool_ (b : bool)
| Num (q : Q)
| Str (s : string)
| Lst (l : list val)
| Dict (d : list (string * val))
| Given (o : nat)
| Made (class : val) (config : val).

Fixpoint get {A : Type} (d : list (string * A)) (k : string) : option A :=
  match d with
  | [] => None
  | (k', v) :: d' => if String.eqb k k' then Some v else get d' k
  end.
Fixpoint set {A : Type} (d : list (string * A)) (k : string) (v : A) : list (string * A) :=
  match d with
  | [] => [(k, v)]
  | (k', w) :: d' => if String.eqb k k' then (k, v) :: d' else (k', w) :: set d' k v
  end.
(** d[k] *)
Definition item {A : Type} (d : list (string * A)) (k : string) : res A :=
  match get d k with Some v => Ok v | None => Raise KeyError end.

(** tf.nest.map_structure on lists and dictionaries *)
Fixpoint map_structure (f : val -> val) (v : val) : val :=
  match v with
  | Lst l => Lst (map (map_structure f) l)
  | Dict d => Dict (map (fun p => match p with (k, x) => (k, map_structure f x) end) d)
  | _ => f v
  end.

(** custom_objects.get(obj, obj) (54-60); the keys of custom_objects are strings. *)
Definition replace (customs : list (string * nat)) (v : val) : val :=
  match v with
  | Str s => match get customs s with Some o => Given o | None => v end
  | _ => v
  end.

(** keras deserialize of {class_name, config}: the class is looked up among the custom objects and
    then among the built-in ones.  Simplifications: custom_object_scope is not in use, and built-in
    names are written as Keras writes them. *)
Definition deserialize (builtin : list string) (customs : list (string * nat)) (v : val) : res val :=
  match v with
  | Dict d =>
      match get d "class_name", get d "config" with
      | Some (Str c), Some config =>
          match get customs c with
          | Some o => Ok (Made (Given o) config)
          | None => if existsb (String.eqb c) builtin then Ok (Made (Str c) config) else Raise ValueError
          end
      | _, _ => Raise ValueError
      end
  | _ => Raise ValueError
  end.

(** 61-66: the arguments of compile *)
Record args := mkArgs {
  a_optimizer : val; a_loss : val; a_metrics : val; a_weighted_metrics : val;
  a_loss_weights : val; a_sample_weight_mode : val }.

(** 51-52 *)
Definition loss_of_class (v : val) : bool :=
  match v with Dict d => match get d "class_name" with Some _ => true | None => false end | _ => false end.

(** 38-66, _compile_args_from_training_config.  tf.keras.losses.get is not given the custom
    objects (52). *)
Definition compile_args (optimizers losses : list string) (customs : list (string * nat))
    (training_config : list (string * val)) : res args :=
  do optimizer_config <- item training_config "optimizer_config" ;
  do optimizer <- deserialize optimizers customs optimizer_config ;
  do loss_config <- item training_config "loss" ;
  do loss_config <- (if loss_of_class loss_config then deserialize losses [] loss_config
                     else Ok loss_config) ;
  let loss := map_structure (replace customs) loss_config in
  do metrics <- item training_config "metrics" ;
  let metrics := map_structure (replace customs) metrics in
  let weighted := map_structure (replace customs)
                    (match get training_config "weighted_metrics" with Some w => w | None => None_ end) in
  do mode <- item training_config "sample_weight_mode" ;
  do weights <- item training_config "loss_weights" ;
  Ok (mkArgs optimizer loss metrics weighted weights mode).

(** 111-113 and 134-135 of load_model: the arguments of compile, and the caller's dictionary
    afterwards.  [kfac] is the class of the optimizer. *)
Definition load_args (kfac : nat) (optimizers losses : list string)
    (custom_objects : option (list (string * nat))) (training_config : list (string * val))
  : res args * option (list (string * nat)) :=
  match custom_objects with
  | None | Some [] => (compile_args optimizers losses (set [] "Kfac" kfac) training_config, custom_objects)
  | Some d => let d := set d "Kfac" kfac in (compile_args optimizers losses d training_config, Some d)
  end.
