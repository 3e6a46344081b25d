(** Model of the life cycle of the Keras optimizer (kfac/python/keras/optimizers.py) and of loading
    a saved model (kfac/python/keras/saving_utils.py).  Settings are those of Config.v. *)
From Coq Require Import String Ascii.
From Coq Require Import QArith List Arith Bool.
From Verif.Base Require Import Py.
From Verif.Keras Require Import Config.
Import ListNotations.
Local Open Scope string_scope.

(** Models and layer collections are numbers.  The optimizer that is wrapped: the scope it was
    constructed in, its layer collection, its keyword arguments, and whose predictions and loss
    its loss_fn computes if the wrapper made it ([Some (None, l)]: there is no model). *)
Record inner := mkInner {
  i_scope : string; i_layers : nat; i_kwargs : dict; i_loss_fn : option (option nat * pyval) }.

(** A Kfac object: 212-237.  [s_iterations] and [s_weights] belong to the base class, which adds
    its step counter to the weights when it is first read. *)
Record kst := mkKst {
  s_name : string;
  s_scope : string;
  s_kfac : kfac;
  s_model : option nat;
  s_loss : pyval;
  s_layers : option nat;
  s_fn : option (option nat * pyval);
  s_optimizer : option inner;
  s_iterations : bool;
  s_tracked : bool;
  s_weights : list string }.

(** The names of the global variables in the order of their creation *)
Notation graph := (list string).

Definition tf_scope (name : string) : string := name ++ "/tf_vars".
(** 197-258; the layers of [layer_collection] are registered at once (255-256). *)
Definition new_kfac (o : kfac) (name : string) (model : option nat) (loss : pyval)
    (layer_collection : option nat) : kst :=
  mkKst name (tf_scope name)
    (match layer_collection with
     | Some n => mkKfac (set (o_kwargs o) "var_list" (VOther n)) (o_config o) (o_hyper o)
     | None => o end)
    model loss layer_collection None None false false [].

Definition with_kfac (s : kst) (k : kfac) : kst :=
  mkKst (s_name s) (s_scope s) k (s_model s) (s_loss s) (s_layers s) (s_fn s) (s_optimizer s)
    (s_iterations s) (s_tracked s) (s_weights s).

(** re.match of a scope (tf.get_collection): the scope is a regular expression for a prefix.  Of
    the characters that scopes can have, only the dot is special. *)
Fixpoint matches (pattern s : string) : bool :=
  match pattern, s with
  | EmptyString, _ => true
  | String c p, String d t => (Ascii.eqb c "." || Ascii.eqb c d) && matches p t
  | String _ _, EmptyString => false
  end.

(** Creating variables one after the other; an existing name raises ValueError and the variables
    before it stay. *)
Fixpoint create (scope : string) (names : list string) (g : graph) : graph * res unit :=
  match names with
  | [] => (g, Ok tt)
  | n :: r => let full := scope ++ "/" ++ n in
              if existsb (String.eqb full) g then (g, Raise ValueError)
              else create scope r (g ++ [full])%list
  end.

Section Life.
(** What the rest of the library does: a model's own loss (after it was compiled), registering a
    model's layers, and the names of the variables that the wrapped optimizer makes in its
    constructor and in its first and later calls of minimize or apply_gradients. *)
Variable model_loss : nat -> option pyval.
Variable get_layer_collection : nat -> pyval -> res nat.
Variable constructor_vars : nat -> dict -> list string.
Variable update_vars : inner -> graph -> list string.

(** 271-280, the setter of [name] *)
Definition set_name (v : string) (s : kst) : kst * res unit :=
  match s_optimizer s with
  | Some _ => (s, Raise ValueError)
  | None =>
      let k := s_kfac s in
      (mkKst v (tf_scope v)
         (mkKfac (set (o_kwargs k) "name" (VStr v)) (set (o_config k) "name" (VStr v)) (o_hyper k))
         (s_model s) (s_loss s) (s_layers s) (s_fn s) (s_optimizer s) (s_iterations s) (s_tracked s)
         (s_weights s), Ok tt)
  end.

(** 298-308, register_layers.  A loss is true unless it is None or empty. *)
Definition use_layers (n : nat) (s : kst) : kst :=
  let k := s_kfac s in
  mkKst (s_name s) (s_scope s) (mkKfac (set (o_kwargs k) "var_list" (VOther n)) (o_config k) (o_hyper k))
    (s_model s) (s_loss s) (Some n) (s_fn s) (s_optimizer s) (s_iterations s) (s_tracked s) (s_weights s).
Definition register_layers (model : option nat) (loss : pyval) (layer_collection : option nat)
    (s : kst) : kst * res unit :=
  match layer_collection with
  | Some n => (use_layers n s, Ok tt)
  | None =>
      match truthy loss with
      | Raise e => (s, Raise e)
      | Ok t =>
          let loss' := if t : bool then loss
                       else match model with
                            | Some m => match model_loss m with Some l => l | None => loss end
                            | None => loss end in
          match model, truthy loss' with
          | Some m, Ok true =>
              match get_layer_collection m loss' with
              | Ok n => (use_layers n s, Ok tt)
              | Raise e => (s, Raise e)
              end
          | Some _, Raise e => (s, Raise e)
          | _, _ => (s, Raise ValueError)
          end
      end
  end.

(** 310-328.  A tuple of tensors is stored (317) before its size is looked for. *)
Definition register_batch (tb bs : pyval) (s : kst) : kst * res unit :=
  let k := s_kfac s in
  match register_train_batch (o_kwargs k) tb bs with
  | Ok kw => (with_kfac s (mkKfac kw (o_config k) (o_hyper k)), Ok tt)
  | Raise e =>
      (match tb with
       | VBatch true _ => with_kfac s (mkKfac (set (o_kwargs k) "train_batch" tb) (o_config k) (o_hyper k))
       | _ => s
       end, Raise e)
  end.

(** The step counter of the base class; not in the scope of the wrapped optimizer. *)
Definition iterations (s : kst) (g : graph) : kst * graph :=
  if s_iterations s then (s, g)
  else let n := s_name s ++ "/iter" in
       (mkKst (s_name s) (s_scope s) (s_kfac s) (s_model s) (s_loss s) (s_layers s) (s_fn s)
          (s_optimizer s) true (s_tracked s) (s_weights s ++ [n])%list, (g ++ [n])%list).

(** 350-400, _create_optimizer.  Simplifications: get_loss_fn does not fail; hyperparameters are
    not variables of the graph. *)
Definition make_loss_fn (s : kst) : kst :=
  let k := s_kfac s in
  mkKst (s_name s) (s_scope s) (mkKfac (set (o_kwargs k) "loss_fn" (VOther 0)) (o_config k) (o_hyper k))
    (s_model s) (s_loss s) (s_layers s) (Some (s_model s, s_loss s)) (s_optimizer s) (s_iterations s)
    (s_tracked s) (s_weights s).
Definition set_optimizer (i : inner) (s : kst) : kst :=
  mkKst (s_name s) (s_scope s) (s_kfac s) (s_model s) (s_loss s) (s_layers s) (s_fn s) (Some i)
    (s_iterations s) (s_tracked s) (s_weights s).
Definition create_inner (s : kst) (g : graph) : kst * graph * res unit :=
  match s_optimizer s with
  | Some _ => (s, g, Ok tt)
  | None =>
      let '(s1, r1) := match s_layers s with
                       | Some _ => (s, Ok tt)
                       | None => register_layers (s_model s) (s_loss s) None s end in
      match r1 with
      | Raise e => (s1, g, Raise e)
      | Ok _ =>
          match truthy (get_default (o_config (s_kfac s1)) "adapt_damping" VNone) with
          | Raise e => (s1, g, Raise e)
          | Ok ad =>
              if (ad : bool) && negb (has (o_kwargs (s_kfac s1)) "train_batch")
              then (s1, g, Raise ValueError)
              else
                let s2 := if ad && negb (has (o_kwargs (s_kfac s1)) "loss_fn") then make_loss_fn s1 else s1 in
                let '(s3, g3) := iterations s2 g in
                let k := s_kfac s3 in
                let kw := update (o_kwargs k) (o_hyper k) in
                let s4 := with_kfac s3 (mkKfac kw (o_config k) (o_hyper k)) in
                match s_layers s4 with
                | None => (s4, g3, Raise AttributeError)
                | Some n =>
                    let '(g5, r5) := create (s_scope s4) (constructor_vars n kw) g3 in
                    match r5 with
                    | Raise e => (s4, g5, Raise e)
                    | Ok _ => (set_optimizer (mkInner (s_scope s4) n kw (s_fn s4)) s4, g5, Ok tt)
                    end
                end
          end
      end
  end.

(** 402-420, _call_and_track_vars *)
Definition track (s : kst) (g : graph) : kst :=
  if s_tracked s then s
  else mkKst (s_name s) (s_scope s) (s_kfac s) (s_model s) (s_loss s) (s_layers s) (s_fn s)
         (s_optimizer s) (s_iterations s) true
         (s_weights s ++ filter (matches (s_scope s)) g)%list.
Definition call_and_track (s : kst) (g : graph) : kst * graph * res unit :=
  let '(s1, g1, r1) := create_inner s g in
  match r1, s_optimizer s1 with
  | Raise e, _ => (s1, g1, Raise e)
  | Ok _, None => (s1, g1, Raise AttributeError)
  | Ok _, Some i =>
      let '(g2, r2) := create (s_scope s1) (update_vars i g1) g1 in
      match r2 with
      | Raise e => (s1, g2, Raise e)
      | Ok _ => (track s1 g2, g2, Ok tt)
      end
  end.

(** 330-335, minimize *)
Definition minimize (loss : pyval) (s : kst) (g : graph) : kst * graph * res unit :=
  match minimize_loss (s_kfac s) loss with
  | Raise e => (s, g, Raise e)
  | Ok k => call_and_track (with_kfac s k) g
  end.

(** The calls a user can make (271-342). *)
Inductive call :=
| CName (v : string)
| CLayers (model : option nat) (loss : pyval) (layer_collection : option nat)
| CBatch (tb bs : pyval)
| COptimizer
| CMinimize (loss : pyval)
| CApply.
Definition perform (c : call) (s : kst) (g : graph) : kst * graph * res unit :=
  match c with
  | CName v => let '(s', r) := set_name v s in (s', g, r)
  | CLayers m l lc => let '(s', r) := register_layers m l lc s in (s', g, r)
  | CBatch tb bs => let '(s', r) := register_batch tb bs s in (s', g, r)
  | COptimizer => create_inner s g
  | CMinimize l => minimize l s g
  | CApply => call_and_track s g
  end.
(** A history in which exceptions are caught, and between whose calls others make variables *)
Inductive event := Call (c : call) | Elsewhere (names : list string).
Fixpoint history (es : list event) (s : kst) (g : graph) : kst * graph :=
  match es with
  | [] => (s, g)
  | Call c :: r => let '(s', g', _) := perform c s g in history r s' g'
  | Elsewhere ns :: r => history r s (g ++ ns)%list
  end.

End Life.

(* ------------------------------------------------------------------------ *)
(** * saving_utils.load_model (74-158) *)

Section Load.
Variable model_loss : nat -> option pyval.
Variable get_layer_collection : nat -> pyval -> res nat.
Variable constructor_vars : nat -> dict -> list string.
Variable update_vars : inner -> graph -> list string.

(** A saved file: what tf.keras.models.load_model makes of it without compiling, the optimizer's
    configuration and the model's loss if it was saved compiled (None: no training_config), and the
    optimizer's weights (names for their values) if there are any.  Simplifications: metrics are left
    out; json and the loss are read back as they were written. *)
Record file := mkFile {
  f_model : res nat; f_config : option (dict * pyval); f_weights : option (list string) }.
(** What is left afterwards: the optimizer (with its graph), whether its weights are those of the
    file, and whether the file is open. *)
Record loaded := mkLoaded { l_state : kst; l_graph : graph; l_restored : bool }.

Variables serialize_loss serialize_fisher_approx : pyval -> res pyval.
(** Whether values with these names fit these weights: set_weights raises ValueError otherwise. *)
Variable fits : list string -> list string -> bool.

(** compile (134-135) sets the model's loss. *)
Definition compiled (m : nat) (loss : pyval) : nat -> option pyval :=
  fun x => if Nat.eqb x m then Some loss else model_loss x.

(** 119-156 inside the try block; optimizers.deserialize is from_config; _make_train_function calls get_updates. *)
Definition load_compiled (f : file) (m : nat) (optimizer_name : option string) (g : graph)
  : graph * res loaded :=
  match f_config f with
  | None => (g, Raise ValueError)
  | Some (config, loss) =>
      match from_config serialize_loss serialize_fisher_approx config with
      | Raise e => (g, Raise e)
      | Ok o =>
          let name := match get config "name" with Some (VStr s) => s | _ => "kfac" end in
          let s0 := new_kfac o name None (get_default config "loss" VNone) None in
          let '(s1, r1) := register_layers (compiled m loss) get_layer_collection (Some m) VNone None s0 in
          match r1 with
          | Raise e => (g, Raise e)
          | Ok _ =>
              let '(s2, r2) := match optimizer_name with
                               | None | Some "" => (s1, Ok tt)
                               | Some n => set_name n s1 end in
              match r2, f_weights f with
              | Raise e, _ => (g, Raise e)
              | Ok _, None => (g, Ok (mkLoaded s2 g false))
              | Ok _, Some ws =>
                  let '(s3, g3, r3) := minimize (compiled m loss) get_layer_collection constructor_vars update_vars (VTensor 0) s2 g in
                  match r3 with
                  | Raise e => (g3, Raise e)
                  | Ok _ => (g3, Ok (mkLoaded s3 g3 (fits ws (s_weights s3))))
                  end
              end
          end
      end
  end.
(** 109-158; [path]: a path was given, so the file is opened here.  The last component says whether
    the file is open in the end. *)
Definition load_model (path : bool) (f : file) (optimizer_name : option string) (g : graph)
  : graph * res loaded * bool :=
  match f_model f with
  | Raise e => (g, Raise e, true)
  | Ok m => let '(g', r) := load_compiled f m optimizer_name g in (g', r, negb path)
  end.
End Load.
