(** C111 - C116: the example programs. *)
From Coq Require Import String List Arith ZArith Bool Reals Lra Lia Permutation.
From Flocq Require Import Core.
From Verif.Base Require Import Py.
From Verif.Sched Require Import Model.
From Verif.Train Require Import Model Spec CtorProofs.
From Verif.Examples Require Import Model Spec RoleProofs ScheduleProofs SizeProofs MiscProofs.
Import ListNotations.
Open Scope list_scope.
Open Scope Z_scope.

(* ------------------------------------------------------------------------ *)
(** * C111: the roles of the workers *)

(** Every worker has exactly one role, and runs the op of that role in every turn. *)
Theorem C111_one_role :
  forall n id : Z, 0 <= id < n ->
    (one_if (is_gradient_task id n) + one_if (is_cov_update_task id n)
     + one_if (is_inv_update_task id n) = 1)%nat /\
    (choose_op id n = Ok TrainOp <-> is_gradient_task id n = true) /\
    (choose_op id n = Ok CovUpdateOp <-> is_cov_update_task id n = true) /\
    (choose_op id n = Ok NextInvOp <-> is_inv_update_task id n = true).
Proof.
  intros n id H. destruct (one_role n id H) as [S E]. split; [exact S|]. rewrite E.
  unfold b2n in S.
  destruct (is_gradient_task id n), (is_cov_update_task id n), (is_inv_update_task id n);
    try discriminate S; repeat split; intros X; congruence || reflexivity.
Qed.
Print Assumptions C111_one_role.

(** The synchronizer waits for as many gradients as there are workers that compute them, whatever the
    rounding errors: with more it would wait for ever, with fewer it would drop gradients. *)
Theorem C111_gradient_count :
  forall n : nat,
    Z.of_nat (workers (fun id => is_gradient_task id (Z.of_nat n)) n)
    = replicas_to_aggregate (make_distributed_train_op (Z.of_nat n)) /\
    replicas_to_aggregate (make_distributed_train_op (Z.of_nat n))
    <= total_num_replicas (make_distributed_train_op (Z.of_nat n)) /\
    total_num_replicas (make_distributed_train_op (Z.of_nat n)) = Z.of_nat n.
Proof.
  intros n. split; [apply gradient_count|].
  unfold make_distributed_train_op, num_gradient_tasks. cbn [replicas_to_aggregate total_num_replicas].
  split; [|reflexivity]. destruct (Z.ltb_spec (Z.of_nat n) 3); [lia|].
  pose proof (ceil_sixty (Z.of_nat n) ltac:(assumption)). lia.
Qed.
Print Assumptions C111_gradient_count.

(** The exact shares, despite the rounding of the float literal and of the product. *)
Theorem C111_shares :
  forall n id : Z, 3 <= n < 2 ^ 50 -> 0 <= id < n ->
    (choose_op id n = Ok TrainOp <-> 5 * id < 3 * n) /\
    (choose_op id n = Ok CovUpdateOp <-> 3 * n <= 5 * id /\ id < n - 1) /\
    (choose_op id n = Ok NextInvOp <-> id = n - 1) /\
    replicas_to_aggregate (make_distributed_train_op n) = (3 * n + 4) / 5.
Proof. exact roles_exact. Qed.
Print Assumptions C111_shares.

Example C111_shares_of_ten :
  forall id, In id [0;1;2;3;4;5;6;7;8;9] -> 0 <= id < 10 /\
    choose_op id 10 = Ok (if id <? 6 then TrainOp else if id <? 9 then CovUpdateOp else NextInvOp).
Proof.
  intros id H. assert (I : 0 <= id < 10).
  { repeat (destruct H as [<-|H]; [lia|]). destruct H. }
  split; [exact I|]. destruct (roles_exact 10 id ltac:(lia) I) as [A [B [C _]]].
  destruct (Z.ltb_spec id 6); [apply A; lia|]. destruct (Z.ltb_spec id 9); [apply B; lia|]. apply C. lia.
Qed.

(** "The next 20% accumulate statistics, the last 20% invert" is false: a single worker inverts. *)
Theorem C111_twenty_percent_refuted :
  ~ (forall n : nat, (3 <= n)%nat -> (5 * workers (fun id => is_inv_update_task id (Z.of_nat n)) n >= n)%nat) /\
  forall n : nat, (3 <= n)%nat -> workers (fun id => is_inv_update_task id (Z.of_nat n)) n = 1%nat.
Proof.
  assert (A : forall n : nat, (3 <= n)%nat -> workers (fun id => is_inv_update_task id (Z.of_nat n)) n = 1%nat).
  { intros n H. unfold workers. destruct n as [|m]; [lia|].
    rewrite seq_S, filter_app, app_length. cbn [filter Nat.add].
    assert (Z0 : filter (fun id => is_inv_update_task (Z.of_nat id) (Z.of_nat (S m))) (seq 0 m) = []).
    { assert (Q : forall l, (forall i, In i l -> (i < m)%nat) ->
        filter (fun id => is_inv_update_task (Z.of_nat id) (Z.of_nat (S m))) l = []).
      { induction l as [|i l IH]; intros L; [reflexivity|]. cbn [filter].
        destruct (is_inv_update_task (Z.of_nat i) (Z.of_nat (S m))) eqn:E.
        - apply inv_iff in E; [|lia]. pose proof (L i (or_introl eq_refl)). lia.
        - apply IH. intros j J. apply L. right. exact J. }
      apply Q. intros i I. apply in_seq in I. lia. }
    rewrite Z0. assert (E : is_inv_update_task (Z.of_nat m) (Z.of_nat (S m)) = true).
    { apply inv_iff; lia. }
    rewrite E. reflexivity. }
  split; [|exact A]. intros H. specialize (H 10%nat ltac:(lia)). rewrite A in H by lia. lia.
Qed.
Print Assumptions C111_twenty_percent_refuted.

(** "Some worker accumulates statistics" is false for fewer than five workers ... *)
Theorem C111_statistics_refuted :
  ~ (forall n, 1 <= n -> exists id, 0 <= id < n /\ choose_op id n = Ok CovUpdateOp).
Proof. intros H. apply (some_statistics 4 ltac:(lia)) in H; lia. Qed.
Print Assumptions C111_statistics_refuted.
(** ... and true exactly from five on.  Missing: the smaller clusters. *)
Theorem C111_statistics_partial :
  forall n, n < 2 ^ 50 ->
    ((exists id, 0 <= id < n /\ choose_op id n = Ok CovUpdateOp) <-> 5 <= n).
Proof. exact some_statistics. Qed.
Print Assumptions C111_statistics_partial.

(** "ValueError if task_id >= num_worker_tasks" is false for one or two workers ... *)
Theorem C111_out_of_range_refuted :
  ~ (forall n id, 1 <= n <= id -> choose_op id n = Raise ValueError).
Proof. intros H. specialize (H 2 7 ltac:(lia)). rewrite few_workers in H by lia. discriminate H. Qed.
Print Assumptions C111_out_of_range_refuted.
(** ... and true from three on.  Missing: one or two workers. *)
Theorem C111_out_of_range_partial :
  forall n id, 3 <= n <= id -> choose_op id n = Raise ValueError.
Proof. exact out_of_range. Qed.
Print Assumptions C111_out_of_range_partial.

(** "Workers with different duties train together" is false: the set-up of every worker calls a method
    that the optimizer does not have. *)
Theorem C111_dedicated_refuted :
  ~ (forall n id, 0 <= id < n -> exists o, dedicated_workers id n = Ok o) /\
  forall n id, dedicated_workers id n = Raise AttributeError.
Proof.
  assert (A : forall n id, dedicated_workers id n = Raise AttributeError) by (intros; reflexivity).
  split; [|exact A]. intros H. destruct (H 5 0 ltac:(lia)) as [o E]. rewrite A in E. discriminate E.
Qed.
Print Assumptions C111_dedicated_refuted.

(** With a chief that does all updates every worker computes gradients, but the same synchronizer is
    used, so only part of them enter a step: "all gradients are aggregated" is false from three workers
    on. *)
Theorem C111_all_gradients_refuted :
  ~ (forall n, 1 <= n -> replicas_to_aggregate (make_distributed_train_op n)
                       = total_num_replicas (make_distributed_train_op n)) /\
  forall n, 3 <= n -> replicas_to_aggregate (make_distributed_train_op n)
                      < total_num_replicas (make_distributed_train_op n).
Proof.
  split; [|exact aggregates_less]. intros H. pose proof (aggregates_less 3 ltac:(lia)).
  rewrite (H 3) in * by lia. lia.
Qed.
Print Assumptions C111_all_gradients_refuted.

(* ------------------------------------------------------------------------ *)
(** * C112: the sizes of the mini-batches *)
Open Scope R_scope.

(** The sizes grow on a logarithmic scale from the start size to the whole training set, which they
    reach at the target iteration and keep; they are never more than the training set. *)
Theorem C112_schedule_partial :
  forall T S N : nat, (2 <= T)%nat -> (1 <= S)%nat -> (1 <= N)%nat -> N <> S ->
    exists l, batch_size_schedule T S N = Ok l /\ length l = T /\
    (forall k, (k < T)%nat ->
       nth_error l k = Some (Z.min (Zfloor (geometric (INR S) (INR N) k (T - 1))) (Z.of_nat N))) /\
    (forall i, exists b, batch_size_at l i = Ok b /\
       (Z.min (Z.of_nat S) (Z.of_nat N) <= b <= Z.of_nat N)%Z /\
       (i = 0%nat -> b = Z.min (Z.of_nat S) (Z.of_nat N)) /\ ((T - 1 <= i)%nat -> b = Z.of_nat N) /\
       (forall j b', (i <= j)%nat -> batch_size_at l j = Ok b' -> (b <= b')%Z)).
Proof.
  intros T S N HT HS HN Q. destruct (schedule_entries T S N HT HS HN Q) as [l [E _]].
  exists l. split; [exact E|]. exact (size_facts T S N HT HS HN l E).
Qed.
Print Assumptions C112_schedule_partial.

(** A training set of exactly the start size makes the schedule fail. *)
Theorem C112_schedule_refuted :
  ~ (forall N : nat, (1 <= N)%nat -> exists l, batch_size_schedule 500 1000 N = Ok l).
Proof.
  intros H. assert (A : (1 <= 1000)%nat) by lia. destruct (H 1000%nat A) as [l E].
  rewrite schedule_equal in E; [discriminate E|lia|lia|lia|reflexivity].
Qed.
Print Assumptions C112_schedule_refuted.

(** One step between two sizes: 1, 2, 4. *)
Example C112_example : exists l, batch_size_schedule 3 1 4 = Ok l /\ l = [1; 2; 4]%Z.
Proof.
  destruct (schedule_entries 3 1 4 ltac:(lia) ltac:(lia) ltac:(lia) ltac:(lia)) as [l [E [L H]]].
  exists l. split; [exact E|].
  assert (P2 : geometric (INR 1) (INR 4) 1 2 = IZR 2).
  { unfold geometric. replace (INR 1) with 1 by reflexivity. replace (INR 4) with (2 * 2) by (cbn; lra).
    replace (INR 2) with 2 by reflexivity. replace (2 * 2 / 1) with (2 * 2) by field.
    assert (X : Rpower 2 (1 / 2) * Rpower 2 (1 / 2) = 2).
    { rewrite <- Rpower_plus. replace (1 / 2 + 1 / 2) with 1 by field. apply Rpower_1. lra. }
    rewrite <- Rpower_mult_distr by lra. rewrite X. lra. }
  destruct l as [|a [|b [|c [|d l]]]]; try discriminate L.
  pose proof (H 0%nat ltac:(lia)) as H0. pose proof (H 1%nat ltac:(lia)) as H1. pose proof (H 2%nat ltac:(lia)) as H2.
  cbn [nth_error] in *. injection H0 as ->. injection H1 as ->. injection H2 as ->.
  unfold entry. cbn [Nat.sub]. f_equal; [|f_equal; [|f_equal]].
  - change 2%nat with (3 - 1)%nat. rewrite geo_zero by lia. rewrite floor_INR. reflexivity.
  - rewrite P2, Zfloor_IZR. reflexivity.
  - change (geometric (INR 1) (INR 4) 2 2) with (geometric (INR 1) (INR 4) (3 - 1) (3 - 1)).
    rewrite geo_last by lia. rewrite floor_INR. reflexivity.
Qed.

(* ------------------------------------------------------------------------ *)
(** * C113: when statistics and inverses are updated *)
Open Scope nat_scope.

(** The training loops that run the updates themselves: statistics before inverses before parameters;
    inverses every invert_every steps, from the first step on. *)
Theorem C113_manual :
  forall ie nc ni t : nat, ie <> 0 ->
    (exists l, manual_step ie nc ni t = Ok l /\ in_order nc ni l /\
       forall k, In (Inv k) l <-> k < ni /\ Nat.modulo t ie = 0) /\
    (forall k, k < ni ->
       fresh (fun s => match manual_step ie nc ni s with Ok l => l | Raise _ => [] end) ie t k).
Proof. intros ie nc ni t H. split; [apply manual_order; exact H|]. intros k K. apply manual_fresh; assumption. Qed.
Print Assumptions C113_manual.

(** Period 0 is not "never": every step fails. *)
Theorem C113_period_zero :
  forall nc ni t, manual_step 0 nc ni t = Raise InvalidArgumentError.
Proof. reflexivity. Qed.
Print Assumptions C113_period_zero.

(** With a chief, the chief does this and the others only the update of the parameters. *)
Theorem C113_chief :
  forall ie nc ni t, chief_worker_step true ie nc ni t = manual_step ie nc ni t /\
    chief_worker_step false ie nc ni t = Ok [Apply].
Proof. split; reflexivity. Qed.
Print Assumptions C113_chief.

(** The tf.estimator example: all inverses in the first step, then one in each step, so none is ever
    older than there are inverses. *)
Theorem C113_estimator :
  forall nc ni t : nat,
    in_order nc ni (estimator_step nc ni t) /\
    inverses_in (estimator_step nc ni t) = (if Nat.eqb t 0 then ni else Nat.min 1 ni) /\
    forall k, k < ni -> fresh (estimator_step nc ni) ni t k.
Proof.
  intros nc ni t. split; [apply estimator_order|]. split; [apply estimator_work|].
  intros k K. apply estimator_fresh. exact K.
Qed.
Print Assumptions C113_estimator.

Example C113_example :
  manual_step 2 2 2 3 = Ok [Cov 0; Cov 1; Apply] /\
  manual_step 2 2 2 4 = Ok [Cov 0; Cov 1; Inv 0; Inv 1; Apply] /\
  estimator_step 1 3 0 = [Cov 0; Inv 0; Inv 1; Inv 2; Apply] /\
  estimator_step 1 3 4 = [Cov 0; Inv 1; Apply].
Proof. repeat split; reflexivity. Qed.

(* ------------------------------------------------------------------------ *)
(** * C114: the flags *)

(** Every documented choice of flags makes an optimizer: the arguments are accepted by its constructor,
    and each flag has exactly the documented effect. *)
Theorem C114_documented_flags :
  forall f : flags, documented f -> exists o, make_train_op f = Ok o /\
  match o with
  | KfacArgs a d => f_optimizer f = "kfac"%string /\ legal a /\ legal_estimator a /\
      a_adapt_damping a = f_adapt_damping f /\
      d = (if f_adapt_damping f then f_initial_damping f else f_damping f) /\
      (a_learning_rate a = if String.eqb (f_lrmu f) "off" then Some (f_learning_rate f) else None) /\
      (a_momentum a = if String.eqb (f_lrmu f) "on" then None else Some (f_momentum f))
  | AdamArgs lr b1 e => f_optimizer f = "adam"%string /\
      lr = f_learning_rate f /\ b1 = f_momentum f /\ e = f_damping f
  end.
Proof. exact flags_accepted. Qed.
Print Assumptions C114_documented_flags.

(** The constructor does not raise. *)
Theorem C114_constructs :
  forall f a d, documented f -> make_train_op f = Ok (KfacArgs a d) ->
    exists vs t r, construct a = (vs, Ok (t, r)).
Proof.
  intros f a d D E. destruct (flags_accepted f D) as [o [E' M]]. rewrite E in E'. injection E' as <-.
  destruct M as [_ [L1 [L2 _]]]. destruct (legal_construct a L1 L2) as [t [C _]]. do 3 eexists. exact C.
Qed.
Print Assumptions C114_constructs.

(** An undocumented value is not reported as such: the program fails at a variable that no branch
    assigned. *)
Theorem C114_undocumented_refuted :
  ~ (forall f, f_optimizer f <> "adam"%string -> ~ documented f -> make_train_op f = Raise ValueError) /\
  forall f, ~ documented f -> f_optimizer f = "adam"%string \/ make_train_op f = Raise UnboundLocalError.
Proof.
  split; [|exact flags_rejected]. intros H.
  specialize (H (mkFlags "sgd" "on" 1 1 1 1 true true) ltac:(discriminate)).
  assert (N : ~ documented (mkFlags "sgd" "on" 1 1 1 1 true true)) by (intros [[X|X] _]; discriminate X).
  specialize (H N). discriminate H.
Qed.
Print Assumptions C114_undocumented_refuted.

Example C114_example : documented (mkFlags "kfac" "only_lr" (1/10) (9/10) (1/100) 150 true false) /\
  make_train_op (mkFlags "kfac" "only_lr" (1/10) (9/10) (1/100) 150 true false)
  = Ok (KfacArgs (mkArgs "qmodel_fixedmu" (Some (9/10)%R) None None None true true true None false true) 150%R).
Proof. split; [split; auto|reflexivity]. Qed.

(* ------------------------------------------------------------------------ *)
(** * C115: evaluation of trained and averaged parameters *)
Open Scope R_scope.

(** In every order that the control dependencies allow, and whatever the evaluation model contained
    before, the errors and the data terms of the losses are those of the trained and of the averaged
    parameters.  Missing: the regularization terms, of which only a bound is claimed (it is the one of
    the old or of the trained values). *)
Theorem C115_eval_partial :
  forall (V : Type) (data_loss data_error reg : list V -> R) (k : nat) order vars train avg,
    k <> 0%nat -> In order eval_orders -> length vars = length train -> length avg = length train ->
    exists r, (r = reg vars \/ r = reg train) /\
      eval_run V data_loss data_error reg k order vars train avg
      = Ok (data_loss train + r, data_error train, data_loss avg + r, data_error avg, avg).
Proof. exact eval_values. Qed.
Print Assumptions C115_eval_partial.

(** Full statement, false: the losses are those of the same parameters, regularization included. *)
Theorem C115_eval_refuted :
  ~ (forall (data_loss data_error reg : list R -> R) order vars train avg,
       In order eval_orders -> length vars = length train -> length avg = length train ->
       eval_run R data_loss data_error reg 8 order vars train avg
       = Ok (data_loss train + reg train, data_error train, data_loss avg + reg avg, data_error avg, avg)).
Proof.
  intros H.
  specialize (H (fun _ => 0) (fun _ => 0) (fun l => match l with x :: _ => x | [] => 0 end)
                [AssignTrain; ReadReg; Eval; AssignAvg; EvalAvg] [0] [1] [2]
                ltac:(right; left; reflexivity) eq_refl eq_refl).
  cbn in H. injection H as H. lra.
Qed.
Print Assumptions C115_eval_refuted.

(** Even the loss of the trained parameters depends on what the previous evaluation left behind. *)
Theorem C115_stale_refuted :
  ~ (forall (data_loss data_error reg : list R -> R) order vars vars' train avg,
       In order eval_orders -> length vars = length train -> length vars' = length train ->
       length avg = length train ->
       eval_run R data_loss data_error reg 8 order vars train avg
       = eval_run R data_loss data_error reg 8 order vars' train avg).
Proof.
  intros H.
  specialize (H (fun _ => 0) (fun _ => 0) (fun l => match l with x :: _ => x | [] => 0 end)
                [ReadReg; AssignTrain; Eval; AssignAvg; EvalAvg] [0] [1] [2] [3]
                ltac:(left; reflexivity) eq_refl eq_refl eq_refl).
  cbn in H. injection H as H. lra.
Qed.
Print Assumptions C115_stale_refuted.

(** Without regularization (l2_reg = 0) the loss cannot be built at all. *)
Theorem C115_no_regularizer_refuted :
  ~ (forall l2_reg (data_loss data_error reg : list R -> R) order vars train avg,
       In order eval_orders -> exists r,
       eval_run R data_loss data_error reg (num_regularizers l2_reg) order vars train avg = Ok r).
Proof.
  intros H. destruct (H 0 (fun _ => 0) (fun _ => 0) (fun _ => 0)
    [ReadReg; AssignTrain; Eval; AssignAvg; EvalAvg] [] [] [] ltac:(left; reflexivity)) as [r E].
  unfold num_regularizers in E. destruct (Req_EM_T 0 0); [discriminate E|contradiction].
Qed.
Print Assumptions C115_no_regularizer_refuted.

Example C115_example :
  (8 <> 0)%nat /\ In [AssignTrain; ReadReg; Eval; AssignAvg; EvalAvg] eval_orders /\
  length [0; 5] = length [1; 3] /\ length [2; 2] = length [1; 3] /\
  eval_run R (fun l => nth 1 l 0) (fun l => nth 0 l 0) (fun l => nth 0 l 0) 8
    [AssignTrain; ReadReg; Eval; AssignAvg; EvalAvg] [0; 5] [1; 3] [2; 2]
  = Ok (3 + 1, 1, 2 + 1, 2, [2; 2]).
Proof. split; [discriminate|]. split; [right; left; reflexivity|]. repeat split. Qed.

(* ------------------------------------------------------------------------ *)
(** * C116: several towers *)

(** A batch is split evenly, and then the average of the losses of the towers is the average over the
    examples of the batch. *)
Theorem C116_towers_average :
  forall (X : Type) (loss : X -> R) (t : nat) (batch : list X),
    (0 < t)%nat -> (0 < length batch)%nat -> Nat.divide t (length batch) ->
    (exists parts, tf_split X t batch = Ok parts /\ split_evenly t batch parts) /\
    tower_loss X loss t batch = Ok (mean (map loss batch)).
Proof.
  intros X loss t b T L D. split; [|apply tower_loss_mean; assumption].
  destruct (split_ok X t b T D) as [p [E [S _]]]. eauto.
Qed.
Print Assumptions C116_towers_average.

(** A whole run: it ends without an error exactly if the number of towers divides the number of
    examples of all epochs together; then each example of each epoch is used once, in consecutive
    batches, and the losses are the means of these batches. *)
Theorem C116_run_partial :
  forall (X : Type) (loss : X -> R) (tower_batch_size num_devices num_epochs : nat) (shuffles : nat -> list X),
    (0 < tower_batch_size)%nat -> (0 < num_devices)%nat ->
    (Nat.divide num_devices (length (epochs X num_epochs shuffles)) ->
     exists bs, concat bs = epochs X num_epochs shuffles /\
       (forall b, In b bs -> (0 < length b <= tower_batch_size * num_devices)%nat) /\
       train_multitower X loss tower_batch_size num_devices num_epochs shuffles
       = Ok (map (fun b => mean (map loss b)) bs)) /\
    (~ Nat.divide num_devices (length (epochs X num_epochs shuffles)) ->
     train_multitower X loss tower_batch_size num_devices num_epochs shuffles = Raise InvalidArgumentError).
Proof. exact multitower. Qed.
Print Assumptions C116_run_partial.

(** Each example of the training set takes part exactly once per epoch. *)
Theorem C116_each_example :
  forall (X : Type) (dec : forall a b : X, {a = b} + {a <> b}) (data : list X) (num_epochs : nat)
         (shuffles : nat -> list X) (x : X),
    (forall e, Permutation data (shuffles e)) ->
    count_occ dec (epochs X num_epochs shuffles) x = (num_epochs * count_occ dec data x)%nat /\
    length (epochs X num_epochs shuffles) = (num_epochs * length data)%nat.
Proof.
  intros X dec data ne sh x P. unfold epochs.
  assert (G : forall a, count_occ dec (concat (map sh (seq a ne))) x = (ne * count_occ dec data x)%nat /\
                        length (concat (map sh (seq a ne))) = (ne * length data)%nat).
  { induction ne as [|ne IH]; intros a; [split; reflexivity|]. cbn [seq map concat].
    destruct (IH (S a)) as [I1 I2]. rewrite count_occ_app, app_length, I1, I2.
    rewrite <- (proj1 (Permutation_count_occ dec data (sh a)) (P a) x), <- (Permutation_length (P a)).
    split; cbn; lia. }
  apply G.
Qed.
Print Assumptions C116_each_example.

(** Full statement, false: any number of devices can train on any data. *)
Theorem C116_run_refuted :
  ~ (forall (loss : nat -> R) tb nd ne shuffles, (0 < tb)%nat -> (0 < nd)%nat ->
       exists r, train_multitower nat loss tb nd ne shuffles = Ok r).
Proof.
  intros H. destruct (H (fun _ => 0) 128%nat 2%nat 1%nat (fun _ => [0%nat]) ltac:(lia) ltac:(lia)) as [r E].
  discriminate E.
Qed.
Print Assumptions C116_run_refuted.

(** "No devices: one tower" is false too: the number of towers is 1, and then the device of the first
    tower is looked up in the empty list. *)
Theorem C116_no_devices_refuted :
  num_towers_of 0 = 1%nat /\
  forall (X : Type) loss tb ne shuffles, train_multitower X loss tb 0 ne shuffles = Raise IndexError.
Proof. split; reflexivity. Qed.
Print Assumptions C116_no_devices_refuted.

Example C116_example :
  Nat.divide 2 (length (epochs nat 3 (fun _ => [1; 2]%nat))) /\
  train_multitower nat INR 1 2 3 (fun e => if Nat.even e then [1; 2]%nat else [2; 1]%nat)
  = Ok [mean [mean [INR 1]; mean [INR 2]]; mean [mean [INR 2]; mean [INR 1]]; mean [mean [INR 1]; mean [INR 2]]].
Proof. split; [exists 3%nat; reflexivity|reflexivity]. Qed.
