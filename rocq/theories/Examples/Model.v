(** Model of the example programs (kfac/examples). *)
From Coq Require Import String List Arith ZArith Bool Reals.
From Flocq Require Import Core.
From Verif.Base Require Import Py.
From Verif.Sched Require Import Model.
From Verif.Train Require Import Model.
Import ListNotations.
Open Scope list_scope.

(* ------------------------------------------------------------------------ *)
(** * Roles of the workers (examples/convnet.py:337-362, 365-403, 480-556, 702-767) *)

(** A Python float operation: the exact result rounded to the nearest binary64 number, ties to
    even.  Simplification: no overflow (fewer than 2^1023 workers). *)
Definition fl (x : R) : R := round radix2 (FLT_exp (-1074) 53) ZnearestE x.
(** The literal 0.6: the binary64 number nearest to 6/10. *)
Definition lit06 : R := (IZR 5404319552844595 / IZR (2 ^ 53))%R.
(** 0.6 * num_tasks: the int is converted to a float first. *)
Definition sixty_percent (num_tasks : Z) : R := fl (lit06 * fl (IZR num_tasks)).

(** convnet.py:337-341.  Python compares an int with a float exactly. *)
Definition is_gradient_task (task_id num_tasks : Z) : bool :=
  if Z.ltb num_tasks 3 then true
  else Z.leb 0 task_id && Rlt_bool (IZR task_id) (sixty_percent num_tasks).
(** 344-348 *)
Definition is_cov_update_task (task_id num_tasks : Z) : bool :=
  if Z.ltb num_tasks 3 then false
  else Rle_bool (sixty_percent num_tasks) (IZR task_id) && Z.ltb task_id (num_tasks - 1).
(** 351-355 *)
Definition is_inv_update_task (task_id num_tasks : Z) : bool :=
  if Z.ltb num_tasks 3 then false else Z.eqb task_id (num_tasks - 1).
(** 358-362: int(np.ceil(x)) *)
Definition num_gradient_tasks (num_tasks : Z) : Z :=
  if Z.ltb num_tasks 3 then num_tasks else Zceil (sixty_percent num_tasks).

Inductive learning_op := TrainOp | CovUpdateOp | NextInvOp.
(** 537-547: the op a worker runs in every turn of the loop *)
Definition choose_op (task_id num_tasks : Z) : res learning_op :=
  if is_gradient_task task_id num_tasks then Ok TrainOp
  else if is_cov_update_task task_id num_tasks then Ok CovUpdateOp
  else if is_inv_update_task task_id num_tasks then Ok NextInvOp
  else Raise ValueError.

(** 365-403: the arguments of tf.train.SyncReplicasOptimizer *)
Record sync_replicas := mkSync { replicas_to_aggregate : Z; total_num_replicas : Z }.
Definition make_distributed_train_op (num_worker_tasks : Z) : sync_replicas :=
  mkSync (num_gradient_tasks num_worker_tasks) num_worker_tasks.

(** The attributes of KfacOptimizer that are functions (python/ops/optimizer.py, the defs of the class),
    and those it inherits from tf.train.GradientDescentOptimizer and tf.train.Optimizer. *)
Open Scope string_scope.
Definition kfac_optimizer_methods : list string :=
  ["__init__"; "get_cov_vars"; "get_inv_vars"; "factors"; "registered_variables"; "layers";
   "mat_type"; "damping"; "damping_adaptation_interval"; "learning_rate"; "momentum"; "rho";
   "qmodel_change"; "counter"; "params_stats"; "set_loss"; "_maybe_print_logging_info";
   "make_vars_and_create_op_thunks"; "create_ops_and_vars_thunks"; "check_var_list"; "_scale_loss";
   "minimize"; "compute_gradients"; "_is_damping_adaptation_time";
   "_is_just_after_damping_adaptation_time"; "_maybe_update_prev_loss";
   "maybe_pre_update_adapt_damping"; "_maybe_post_update_adapt_damping"; "apply_gradients";
   "_add_weight_decay"; "_squared_fisher_norm"; "_update_clip_coeff"; "_clip_updates";
   "_compute_prev_updates"; "_compute_qmodel"; "_sub_damping_out_qmodel_change_coeff";
   "_compute_qmodel_hyperparams"; "_compute_approx_qmodel_change"; "_maybe_update_qmodel_change";
   "_multiply_preconditioner"; "_get_qmodel_quantities"; "_compute_raw_update_steps";
   "_update_velocities"; "_get_current_loss"; "_get_prev_loss"; "_update_damping"; "get_name";
   "variables"; "get_slot"; "get_slot_names"; "_prepare"; "_apply_dense"; "_resource_apply_dense";
   "_resource_apply_sparse_duplicate_indices"; "_apply_sparse_duplicate_indices"; "_apply_sparse";
   "_resource_apply_sparse"; "_create_slots"; "_finish"; "_call_if_callable"; "_call_if_eager";
   "_assert_valid_dtypes"; "_valid_dtypes"; "_slot_dict"; "_get_or_make_slot";
   "_get_or_make_slot_with_initializer"; "_zeros_slot"; "_get_non_slot_variable";
   "_non_slot_devices"; "_create_non_slot_variable"; "_restore_slot_variable";
   "_create_or_restore_slot_variable"; "_get_processor"; "_distributed_apply"].
Fixpoint has_name (s : string) (l : list string) : bool :=
  match l with [] => false | x :: l' => String.eqb s x || has_name s l' end.

(** 516-534: what the worker sets up before its loop; the loop then runs [choose_op] *)
Definition dedicated_workers (task_id num_worker_tasks : Z) : res learning_op :=
  if has_name "make_ops_and_vars" kfac_optimizer_methods          (* 518 *)
  then choose_op task_id num_worker_tasks
  else Raise AttributeError.
Close Scope string_scope.

(* ------------------------------------------------------------------------ *)
(** * When statistics and inverses are updated *)

(** An op of one step: an update of statistics, of an inverse, or the update of the parameters. *)
Inductive ev := Cov (k : nat) | Inv (k : nat) | Apply.

(** tf.group of the ops made by a list of thunks; the order inside a group is not determined, the
    model runs them in the order of the list. *)
Definition group (mk : nat -> ev) (n : nat) : list ev := map mk (seq 0 n).

(** convnet.py:311-323 (single machine) and 443-457 (the chief): tf.mod by zero is an error at run
    time. *)
Definition manual_step (invert_every num_cov num_inv step : nat) : res (list ev) :=
  if Nat.eqb invert_every 0 then Raise InvalidArgumentError
  else Ok (group Cov num_cov
           ++ (if Nat.eqb (Nat.modulo step invert_every) 0 then group Inv num_inv else [])
           ++ [Apply]).
(** 443-460 *)
Definition chief_worker_step (is_chief : bool) (invert_every num_cov num_inv step : nat) : res (list ev) :=
  if is_chief then manual_step invert_every num_cov num_inv step else Ok [Apply].

(** 826-846: the model function of the tf.estimator example *)
Definition estimator_step (num_cov num_inv step : nat) : list ev :=
  group Cov num_cov
  ++ (if Nat.eqb step 0 then group Inv num_inv
      else effects (batch_execute (Z.of_nat step) 1 (group Inv num_inv)))
  ++ [Apply].

(* ------------------------------------------------------------------------ *)
(** * Sizes of the mini-batches
      (classifier_mnist.py:334-346, autoencoder_mnist.py:493-503, rnn_mnist.py:319-328; the choice in
      the loop: classifier_mnist.py:504-509, autoencoder_mnist.py:621-626, rnn_mnist.py:369-372)
    Simplification: exact real arithmetic instead of floats.  [targetiter] is 100 in the classifier and
    500 in the others, [startsize] is 1000 in all. *)
Open Scope R_scope.

Definition log2 (x : R) : R := ln x / ln 2.
(** int(x): towards zero *)
Definition py_int (x : R) : Z := Ztrunc x.

Definition batch_size_schedule (targetiter startsize maxsize : nat) : res (list Z) :=
  if Nat.eqb maxsize 0 then Raise ValueError                        (* math.log(0., 2) *)
  else
    let d := log2 (INR maxsize / INR startsize) in
    if Req_EM_T d 0 then Raise ZeroDivisionError
    else
      let div := (INR targetiter - 1) / d in
      Ok (map (fun k => Z.min (py_int (Rpower 2 (INR k / div) * INR startsize)) (Z.of_nat maxsize))
              (seq 0 targetiter)).

(** batch_size_schedule[min(i, len(batch_size_schedule) - 1)]; an index of -1 (empty list) is an
    IndexError *)
Definition batch_size_at (schedule : list Z) (i : nat) : res Z :=
  match nth_error schedule (Nat.min i (length schedule - 1)) with
  | Some b => Ok b
  | None => Raise IndexError
  end.

(* ------------------------------------------------------------------------ *)
(** * From flags to the optimizer
      (classifier_mnist.py:210-268, autoencoder_mnist.py:174-240) *)
Record flags := mkFlags {
  f_optimizer : string;
  f_lrmu : string;               (* lrmu_adaptation *)
  f_learning_rate : R;
  f_momentum : R;
  f_damping : R;
  f_initial_damping : R;
  f_adapt_damping : bool;
  f_immediate : bool             (* update_damping_immediately *)
}.

(** What is passed on: the arguments that the constructor of the optimizer checks, and the damping. *)
Inductive optimizer_args :=
| KfacArgs (a : args) (damping : R)
| AdamArgs (learning_rate beta1 epsilon : R).

Open Scope string_scope.
(** Local variables that no branch assigned are an UnboundLocalError at their use. *)
Definition make_train_op (f : flags) : res optimizer_args :=
  if String.eqb (f_optimizer f) "kfac" then
    let hyper :=
      if String.eqb (f_lrmu f) "on" then Ok (None, None, "qmodel")
      else if String.eqb (f_lrmu f) "only_lr" then Ok (None, Some (f_momentum f), "qmodel_fixedmu")
      else if String.eqb (f_lrmu f) "off" then
        Ok (Some (f_learning_rate f), Some (f_momentum f), "adam")
      else Raise UnboundLocalError in
    let damping := if f_adapt_damping f then f_initial_damping f else f_damping f in
    do h <- hyper ;
    let '(learning_rate, momentum, momentum_type) := h in
    Ok (KfacArgs (mkArgs momentum_type momentum None learning_rate None true true (f_adapt_damping f)
                         None false true) damping)
  else if String.eqb (f_optimizer f) "adam" then
    Ok (AdamArgs (f_learning_rate f) (f_momentum f) (f_damping f))
  else Raise UnboundLocalError.
Close Scope string_scope.

(* ------------------------------------------------------------------------ *)
(** * Evaluation with and without averaged parameters
      (classifier_mnist.py:272-293, 349-380) *)
Section Eval.
Variable V : Type.                     (* the value of one variable *)
Variable data_loss : list V -> R.      (* mean cross entropy over the training set *)
Variable data_error : list V -> R.     (* fraction of wrong predictions *)
Variable reg : list V -> R.            (* sum of the regularizers of the variables *)

(** group_assign, 349-350: zip stops at the shorter list. *)
Fixpoint group_assign (dest source : list V) : list V :=
  match dest, source with
  | _ :: d, s :: src => s :: group_assign d src
  | _, _ => dest
  end.

(** The ops of one evaluation.  The regularizers were made with the variables, by the first call of the
    model (359), outside of all control dependencies; the rest is ordered by control dependencies. *)
Inductive eop := ReadReg | AssignTrain | Eval | AssignAvg | EvalAvg.
Record emem := mkMem { m_vars : list V; m_reg : R; m_loss : R; m_err : R; m_lossa : R; m_erra : R }.
Definition run_eop (train avg : list V) (m : emem) (o : eop) : emem :=
  match o with
  | ReadReg => mkMem (m_vars m) (reg (m_vars m)) (m_loss m) (m_err m) (m_lossa m) (m_erra m)
  | AssignTrain => mkMem (group_assign (m_vars m) train) (m_reg m) (m_loss m) (m_err m) (m_lossa m) (m_erra m)
  | Eval => mkMem (m_vars m) (m_reg m) (data_loss (m_vars m)) (data_error (m_vars m)) (m_lossa m) (m_erra m)
  | AssignAvg => mkMem (group_assign (m_vars m) avg) (m_reg m) (m_loss m) (m_err m) (m_lossa m) (m_erra m)
  | EvalAvg => mkMem (m_vars m) (m_reg m) (m_loss m) (m_err m) (data_loss (m_vars m)) (data_error (m_vars m))
  end.
(** The orders that the control dependencies allow: 364-376; the averages are assigned after [eval_loss]
    (371), which needs the regularizers. *)
Definition eval_orders : list (list eop) :=
  [[ReadReg; AssignTrain; Eval; AssignAvg; EvalAvg];
   [AssignTrain; ReadReg; Eval; AssignAvg; EvalAvg];
   [AssignTrain; Eval; ReadReg; AssignAvg; EvalAvg]].

(** (eval_loss, eval_error, eval_loss_avg, eval_error_avg) of one run, and the variables of the evaluation
    model after it.  [num_regs] regularizers are in the collection: tf.add_n of an empty list is a
    ValueError, 281-284. *)
Definition eval_run (num_regs : nat) (order : list eop) (vars train avg : list V)
  : res (R * R * R * R * list V) :=
  if Nat.eqb num_regs 0 then Raise ValueError
  else
    let m := fold_left (run_eop train avg) order (mkMem vars 0 0 0 0 0) in
    Ok (m_loss m + m_reg m, m_err m, m_lossa m + m_reg m, m_erra m, m_vars m).
(** 146-166: the regularizers of the 8 variables of the model; none if l2_reg is 0. *)
Definition num_regularizers (l2_reg : R) : nat := if Req_EM_T l2_reg 0 then 0 else 8.
End Eval.

(* ------------------------------------------------------------------------ *)
(** * Several towers (convnet.py:607-700 and mnist.py:86-127) *)
Section Towers.
Variable X : Type.

(** Dataset.batch: consecutive batches, the last one may be smaller.  [fuel] bounds the number of
    batches by the number of examples. *)
Fixpoint batches_from (fuel batch_size : nat) (l : list X) : list (list X) :=
  match fuel, l with
  | S fuel', _ :: _ => firstn batch_size l :: batches_from fuel' batch_size (skipn batch_size l)
  | _, _ => []
  end.
Definition batches (batch_size : nat) (l : list X) : list (list X) := batches_from (length l) batch_size l.

(** mnist.py:105-127: num_epochs passes; [shuffles] gives the order of each pass. *)
Definition epochs (num_epochs : nat) (shuffles : nat -> list X) : list X :=
  concat (map shuffles (seq 0 num_epochs)).

(** tf.split(value, num_towers) along the first axis: fails at run time unless it divides evenly *)
Definition tf_split (num_towers : nat) (l : list X) : res (list (list X)) :=
  if Nat.eqb num_towers 0 then Raise ValueError
  else if Nat.eqb (Nat.modulo (length l) num_towers) 0
       then let k := Nat.div (length l) num_towers in
            Ok (map (fun i => firstn k (skipn (i * k) l)) (seq 0 num_towers))
       else Raise InvalidArgumentError.

(** tf.reduce_mean *)
Definition mean (l : list R) : R := fold_right Rplus 0 l / INR (length l).

(** One step: the mean of the losses of the towers (each a mean over its examples). *)
Definition tower_loss (loss : X -> R) (num_towers : nat) (batch : list X) : res R :=
  do parts <- tf_split num_towers batch ;
  Ok (mean (map (fun p => mean (map loss p)) parts)).

(** 625-630, 645: [devices] is a list of device names; no devices at all (an empty list) count as one
    tower, whose device is then looked up.  Simplification: [None] for the devices is the same, with a
    TypeError. *)
Definition num_towers_of (num_devices : nat) : nat := if Nat.eqb num_devices 0 then 1 else num_devices.
Fixpoint sequence_steps (f : list X -> res R) (l : list (list X)) : res (list R) :=
  match l with
  | [] => Ok []
  | b :: l' => do r <- f b ; do rs <- sequence_steps f l' ; Ok (r :: rs)
  end.
(** The losses of all steps of the run. *)
Definition train_multitower (loss : X -> R) (tower_batch_size num_devices num_epochs : nat)
    (shuffles : nat -> list X) : res (list R) :=
  let num_towers := num_towers_of num_devices in
  let batch_size := (tower_batch_size * num_towers)%nat in
  if Nat.eqb num_devices 0 then Raise IndexError                    (* devices[tower_id] *)
  else sequence_steps (tower_loss loss num_towers) (batches batch_size (epochs num_epochs shuffles)).
End Towers.
