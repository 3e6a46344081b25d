(** Model of the configuration handling of kfac/python/keras/optimizers.py. *)
From Coq Require Import String Ascii.
From Coq Require Import QArith List Arith Bool.
From Verif.Base Require Import Py.
Import ListNotations.
Local Open Scope string_scope.

(** Values of keyword arguments.  Simplifications: all numbers are rationals; a batch (a tuple)
    is described by whether all its parts are tensors and by the static first dimension of its
    first part; any other object is [VOther], and is true. *)
Inductive pyval :=
| VNone
| VBool (b : bool)
| VNum (q : Q)
| VStr (s : string)
| VTensor (n : nat)
| VBatch (all_tensors : bool) (first_dim : option nat)
| VOther (n : nat).

(** Truth of a value; a tensor has none while a graph is built. *)
Definition truthy (v : pyval) : res bool :=
  match v with
  | VNone => Ok false
  | VBool b => Ok b
  | VNum q => Ok (negb (Qeq_bool q 0))
  | VStr s => Ok (negb (String.eqb s ""))
  | VTensor _ => Raise TypeError
  | VBatch _ _ | VOther _ => Ok true
  end.
Definition is_none (v : pyval) : bool := match v with VNone => true | _ => false end.

(** Dictionaries with string keys. *)
Notation dict := (list (string * pyval)).
Fixpoint get (d : dict) (k : string) : option pyval :=
  match d with
  | [] => None
  | (k', v) :: d' => if String.eqb k' k then Some v else get d' k
  end.
Definition has (d : dict) (k : string) : bool :=
  match get d k with Some _ => true | None => false end.
Definition get_default (d : dict) (k : string) (v : pyval) : pyval :=
  match get d k with Some x => x | None => v end.
Definition getitem (d : dict) (k : string) : res pyval :=
  match get d k with Some x => Ok x | None => Raise KeyError end.
Definition set (d : dict) (k : string) (v : pyval) : dict :=
  (k, v) :: filter (fun p => negb (String.eqb (fst p) k)) d.
Definition update (d e : dict) : dict := fold_right (fun p acc => set acc (fst p) (snd p)) d e.
Definition remove (d : dict) (k : string) : dict := filter (fun p => negb (String.eqb (fst p) k)) d.

(** str.lower and str.startswith. *)
Definition lower_char (c : ascii) : ascii :=
  let n := nat_of_ascii c in if Nat.leb 65 n && Nat.leb n 90 then ascii_of_nat (n + 32) else c.
Fixpoint lower (s : string) : string :=
  match s with EmptyString => EmptyString | String c s' => String (lower_char c) (lower s') end.
Definition lower_of (v : pyval) : res string :=
  match v with VStr s => Ok (lower s) | _ => Raise AttributeError end.

(** optimizers.py:39-44, _DEFAULT_KWARGS: the arguments with defaults of KfacOptimizer.__init__
    (optimizer.py:52-88) and of PeriodicInvCovUpdateKfacOpt.__init__
    (periodic_inv_cov_update_kfac_opt.py:52-56).  [zip] of the reversed lists pairs the defaults
    with the last arguments, as they are declared. *)
Definition default_kwargs : dict :=
  [("cov_ema_decay", VNum (95 # 100)); ("var_list", VNone); ("momentum", VNum (9 # 10));
   ("momentum_type", VStr "adam"); ("use_weight_decay", VBool false);
   ("weight_decay_coeff", VNum (1 # 10)); ("qmodel_update_rescale", VNone);
   ("norm_constraint", VNone); ("name", VStr "KFAC"); ("estimation_mode", VStr "gradients");
   ("colocate_gradients_with_ops", VBool true); ("batch_size", VNone);
   ("placement_strategy", VNone); ("compute_params_stats", VBool false);
   ("adapt_damping", VBool false); ("update_damping_immediately", VBool true);
   ("is_chief", VBool true); ("prev_train_batch", VNone); ("loss", VNone); ("loss_fn", VNone);
   ("min_damping", VNum (1 # 100000000)); ("l2_reg", VNum 0);
   ("damping_adaptation_decay", VNum (95 # 100)); ("damping_adaptation_interval", VNum 5);
   ("damping_decrease_rho_threshold", VNum (75 # 100));
   ("damping_increase_rho_threshold", VNum (25 # 100)); ("precon_damping_mult", VNum 1);
   ("use_passed_loss", VBool true); ("train_batch", VNone); ("print_logs", VBool false);
   ("tf_replicator", VNone); ("dtype", VStr "float32"); ("invert_every", VNum 10);
   ("cov_update_every", VNum 1); ("num_burnin_steps", VNum 0)].

(** 79-102, _configure_kfac_kwargs_for_adaptive *)
Definition configure (kw : dict) (adaptive : pyval) : res dict :=
  do a <- truthy adaptive;
  let kw1 := if a : bool
             then update kw [("adapt_damping", VBool true); ("momentum", VNone);
                             ("momentum_type", VStr "qmodel")]
             else kw in
  do mt <- lower_of (get_default kw1 "momentum_type" (VStr "regular"));
  do _ <- (if String.prefix "qmodel" mt
           then do lr <- getitem kw1 "learning_rate"; do t <- truthy lr;
                if t : bool then Raise ValueError
                else do m <- truthy (get_default kw1 "momentum" VNone);
                     if m : bool then Raise ValueError else Ok tt
           else Ok tt);
  do ad <- truthy (get_default kw1 "adapt_damping" (VBool false));
  if ad : bool
  then let defaults := update [("use_passed_loss", VBool true);
                               ("update_damping_immediately", VBool true)] kw1 in
       let kw2 := update kw1 defaults in
       if has kw2 "invert_every" && has kw2 "damping_adaptation_interval" then Ok kw2
       else Ok (set (set kw2 "invert_every" (VNum 5)) "damping_adaptation_interval" (VNum 5))
  else Ok kw1.

(** 310-328, register_train_batch *)
Definition register_train_batch (kw : dict) (train_batch batch_size : pyval) : res dict :=
  match train_batch with
  | VBatch all first_dim =>
      if negb all then Raise ValueError
      else let kw1 := set kw "train_batch" train_batch in
           do b <- truthy batch_size;
           if b : bool then Ok (set kw1 "batch_size" batch_size)
           else if has kw1 "batch_size" then Ok kw1
           else match first_dim with
                | Some (S n) => Ok (set kw1 "batch_size" (VNum (inject_Z (Z.of_nat (S n)))))
                | _ => Raise ValueError
                end
  | _ => Raise ValueError
  end.

(** The arguments of Kfac.__init__ (108-121); [k_name] is the name that the base class chooses
    (212).  model and layer_collection only matter for the registration of layers. *)
Record kfac_args := mkKArgs {
  k_sentinel : pyval;
  k_learning_rate : pyval;
  k_damping : pyval;
  k_loss : pyval;
  k_loss_weights : pyval;
  k_fisher_approx : pyval;
  k_adaptive : pyval;
  k_train_batch : pyval;
  k_name : string;
  k_seed : pyval;
  k_kwargs : dict }.
(** The optimizer object: _kfac_kwargs, _config and _hyper. *)
Record kfac := mkKfac { o_kwargs : dict; o_config : dict; o_hyper : dict }.

(** 46-50 *)
Definition mutable_hyper_params : list string :=
  ["learning_rate"; "momentum"; "damping"; "weight_decay_coeff"; "norm_constraint"].

Section Init.
(** utils.serialize_loss and utils.serialize_fisher_approx (see Layers.v). *)
Variables serialize_loss serialize_fisher_approx : pyval -> res pyval.

(** 197-258, Kfac.__init__ *)
Definition kfac_init (a : kfac_args) : res kfac :=
  do s <- truthy (k_sentinel a);
  if s : bool then Raise ValueError
  else if is_none (k_damping a) then Raise ValueError
  else if has (k_kwargs a) "clipvalue" then Raise ValueError
  else if has (k_kwargs a) "clipnorm" then Raise ValueError
  else
  let kw0 := update (k_kwargs a) [("name", VStr (k_name a)); ("learning_rate", k_learning_rate a);
                                  ("damping", k_damping a)] in
  do kw1 <- configure kw0 (k_adaptive a);
  do sf <- serialize_fisher_approx (k_fisher_approx a);
  do sl <- serialize_loss (k_loss a);
  let config := set (update (update default_kwargs kw1)
                       [("loss_weights", k_loss_weights a); ("fisher_approx", sf); ("seed", k_seed a)])
                    "loss" sl in
  let kw2 := match get kw1 "loss_tensor" with
             | Some t => set (remove kw1 "loss_tensor") "loss" t
             | None => kw1
             end in
  do ad <- truthy (get_default config "adapt_damping" VNone);
  do mt <- lower_of (get_default config "momentum_type" VNone);
  let hypers0 := if ad : bool then filter (fun h => negb (String.eqb h "damping")) mutable_hyper_params
                 else mutable_hyper_params in
  let hypers1 := if String.prefix "qmodel" mt
                 then filter (fun h => negb (String.eqb h "learning_rate" || String.eqb h "momentum")) hypers0
                 else hypers0 in
  let hypers2 := filter (fun h => negb (is_none (get_default config h VNone))) hypers1 in
  let hyper := map (fun h => (h, get_default config h VNone)) hypers2 in
  do tb <- truthy (k_train_batch a);
  do ad2 <- truthy (get_default kw2 "adapt_damping" (VBool false));
  do kw3 <- (if (tb && ad2)%bool then register_train_batch kw2 (k_train_batch a) VNone else Ok kw2);
  Ok (mkKfac kw3 config hyper).

(** 294-296, mutable_hyperparameters *)
Definition mutable_hyperparameters (o : kfac) : list string := map fst (o_hyper o).

(** 344-348, get_config *)
Definition get_config (o : kfac) : dict := update (o_config o) (o_hyper o).

(** The inherited from_config: cls( ** config).  The keys that are parameters of __init__ go to
    them, the others to kfac_kwargs; a missing parameter has its default. *)
Definition init_params : list string :=
  ["_sentinel"; "learning_rate"; "damping"; "model"; "loss"; "loss_weights"; "fisher_approx";
   "layer_collection"; "adaptive"; "train_batch"; "name"; "seed"].
Definition from_config (c : dict) : res kfac :=
  kfac_init (mkKArgs (get_default c "_sentinel" VNone) (get_default c "learning_rate" VNone)
    (get_default c "damping" VNone) (get_default c "loss" VNone) (get_default c "loss_weights" VNone)
    (get_default c "fisher_approx" VNone) (get_default c "adaptive" (VBool false))
    (get_default c "train_batch" VNone)
    (match get c "name" with Some (VStr s) => s | _ => "kfac" end)
    (get_default c "seed" VNone)
    (filter (fun p => negb (existsb (String.eqb (fst p)) init_params)) c)).
End Init.

(** 350-378, _create_optimizer: the keyword arguments that the TF optimizer gets, without
    layer_collection and var_list.  [VOther 0] stands for the result of utils.get_loss_fn. *)
Definition create_optimizer (o : kfac) : res dict :=
  do ad <- truthy (get_default (o_config o) "adapt_damping" VNone);
  do kw <- (if ad : bool
            then if has (o_kwargs o) "train_batch"
                 then Ok (if has (o_kwargs o) "loss_fn" then o_kwargs o
                          else set (o_kwargs o) "loss_fn" (VOther 0))
                 else Raise ValueError
            else Ok (o_kwargs o));
  Ok (update kw (o_hyper o)).

(** 330-335, minimize: the loss that is passed on. *)
Definition minimize_loss (o : kfac) (loss : pyval) : res kfac :=
  do u <- truthy (get_default (o_config o) "use_passed_loss" VNone);
  Ok (if u && negb (has (o_kwargs o) "loss")
      then mkKfac (set (o_kwargs o) "loss" loss) (o_config o) (o_hyper o) else o).

(** The settings that training uses with these keyword arguments: an argument that is not
    given has its default (optimizer.py:52-88, periodic_inv_cov_update_kfac_opt.py:52-56), and
    an explicit cov_ema_decay is raised to the power cov_update_every (95-96). *)
Definition num_power (v n : pyval) : res pyval :=
  match v, n with
  | VNum q, VNum m => if Qeq_bool (inject_Z (Qnum m / Zpos (Qden m))) m
                      then Ok (VNum (Qpower q (Qnum m / Zpos (Qden m)))) else Raise TypeError
  | _, _ => Raise TypeError
  end.
Definition setting (kw : dict) (k : string) : res (option pyval) :=
  match get kw k with
  | None => Ok (get default_kwargs k)
  | Some v =>
      if String.eqb k "cov_ema_decay"
      then do p <- num_power v (get_default (update default_kwargs kw) "cov_update_every" VNone); Ok (Some p)
      else Ok (Some v)
  end.

(** 422-433, _set_hyper, once the variables exist.  Simplification: a hyperparameter is either
    a variable with a number, or a tensor given by the user. *)
Definition set_hyper (hyper : dict) (name : string) (value : pyval) : res dict :=
  match get hyper name with
  | None => Raise KeyError
  | Some (VNum _) =>
      match value with
      | VNum _ => Ok (set hyper name value)
      | VBool b => Ok (set hyper name (VNum (if b then 1 else 0)))
      | _ => Raise ValueError
      end
  | Some _ => Raise AttributeError
  end.
