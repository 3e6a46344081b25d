(** What it means that a loaded model is compiled as it was saved, in terms of the places in nested
    lists and dictionaries. *)
From Coq Require Import List String QArith Bool Arith.
From Verif.Base Require Import Py.
From Verif.Keras Require Import Compile.
Import ListNotations.
Open Scope string_scope.
Open Scope list_scope.

Inductive step := Idx (n : nat) | Key (k : string).
(** v[step1][step2]... *)
Fixpoint at_path (v : val) (p : list step) : option val :=
  match p with
  | [] => Some v
  | Idx n :: p' => match v with
                   | Lst l => match nth_error l n with Some x => at_path x p' | None => None end
                   | _ => None
                   end
  | Key k :: p' => match v with
                   | Dict d => match find (fun e => String.eqb k (fst e)) d with
                               | Some e => at_path (snd e) p'
                               | None => None
                               end
                   | _ => None
                   end
  end.

(** A name among the custom objects means the object, everything else means itself.
    [customs]: what load_model knows under a name. *)
Definition means (customs : string -> option nat) (saved got : val) : Prop :=
  match saved with
  | Str s => match customs s with Some o => got = Given o | None => got = saved end
  | Lst _ | Dict _ => False
  | _ => got = saved
  end.

(** The same lists and dictionaries, with the names at the leaves replaced by what they mean. *)
Definition same_up_to_names (customs : string -> option nat) (saved got : val) : Prop :=
  forall p, match at_path saved p, at_path got p with
            | None, None => True
            | Some (Lst l), Some (Lst l') => List.length l = List.length l'
            | Some (Dict d), Some (Dict d') => map fst d = map fst d'
            | Some x, Some y => means customs x y
            | _, _ => False
            end.

(** The custom objects, with the name of this optimizer always taken. *)
Definition known (kfac : nat) (custom_objects : option (list (string * nat))) (s : string) : option nat :=
  if String.eqb s "Kfac" then Some kfac
  else match custom_objects with
       | None => None
       | Some d => match find (fun e => String.eqb s (fst e)) d with Some e => Some (snd e) | None => None end
       end.

(** The saved description of an object: its class and its configuration. *)
Definition described (class : string) (config : val) : val :=
  Dict [("class_name", Str class); ("config", config)].
(** A training configuration as Keras writes it. *)
Definition written (optimizer loss metrics loss_weights mode : val) (weighted : option val)
  : list (string * val) :=
  [("optimizer_config", optimizer); ("loss", loss); ("metrics", metrics)]
  ++ match weighted with None => [] | Some w => [("weighted_metrics", w)] end
  ++ [("sample_weight_mode", mode); ("loss_weights", loss_weights)].
