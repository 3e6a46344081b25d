(** Model of the scheduling code: utils.batch_execute, op_queue.OpQueue, the
    background workers of AsyncInvCovUpdateKfacOpt, the two placement mixins, and
    utils.map_gather / all_sum / all_average. *)
From Coq Require Import List Arith ZArith Bool Reals.
From Verif.Base Require Import Py.
Import ListNotations.

(* ------------------------------------------------------------------------ *)
(** * utils.batch_execute  (kfac/python/ops/utils.py:719-783) *)

(** utils.py:771-775: the condition under which thunk [j] of [n] runs at
    [global_step = t].  [tf.mod] on integers is the floored remainder, which is
    [Z.modulo] (the divisor [n] is positive whenever some [j] exists).
    Simplification: unbounded integers instead of int32/int64. *)
Definition batch_condition (t b n j : Z) : bool :=
  Z.ltb (Z.modulo (b - 1 + t * b - j) n) b.

(** utils.py:765-783: the list of conditional ops; the op at position [j] is
    [Some thunk_j] when its [tf.cond] takes the branch that executes the thunk
    and [None] when it takes the no-op branch. *)
Definition batch_execute {A : Type} (t b : Z) (thunks : list A) : list (option A) :=
  let n := Z.of_nat (length thunks) in
  map (fun jt => if batch_condition t b n (Z.of_nat (fst jt))
                 then Some (snd jt) else None)
      (enumerate thunks).

(** The thunks that take effect at step [t]. *)
Fixpoint effects {A : Type} (l : list (option A)) : list A :=
  match l with
  | [] => []
  | Some a :: l' => a :: effects l'
  | None :: l' => effects l'
  end.

(* ------------------------------------------------------------------------ *)
(** * op_queue.OpQueue  (kfac/python/ops/op_queue.py:25-70) *)

(** An op is an identity with a name.  Names are strings in the code; only their
    order and equality matter, so they are modelled by their rank, a [nat]. *)
Record op := mkOp { op_name : nat; op_id : nat }.

(** [sorted(names)] (op_queue.py:48): insertion sort; any sorting algorithm gives
    the same list since names are totally ordered. *)
Fixpoint insert_name (x : nat) (l : list nat) : list nat :=
  match l with
  | [] => [x]
  | y :: l' => if Nat.leb x y then x :: l else y :: insert_name x l'
  end.
Fixpoint sort_names (l : list nat) : list nat :=
  match l with [] => [] | x :: l' => insert_name x (sort_names l') end.

(** [{op.name: op for op in ops}] followed by a lookup (op_queue.py:45, 70): the
    last op with the name wins; a missing name is a KeyError. *)
Fixpoint lookup_op (ops : list op) (n : nat) : res op :=
  match ops with
  | [] => Raise KeyError
  | o :: ops' =>
      match lookup_op ops' n with
      | Ok o' => Ok o'
      | Raise e => if Nat.eqb (op_name o) n then Ok o else Raise e
      end
  end.

(** [tf.data.Dataset.shuffle(k)] (op_queue.py:49-51): a buffer is filled with the
    first [k] elements; then repeatedly a random buffer slot is emitted and
    replaced by the next input element, or dropped when the input is exhausted.
    [picks] are the random numbers (taken modulo the buffer size). *)
Fixpoint remove_nth {A : Type} (i : nat) (l : list A) : list A :=
  match l, i with
  | [], _ => []
  | _ :: l', 0 => l'
  | x :: l', S i' => x :: remove_nth i' l'
  end.
Fixpoint shuffle_run {A : Type} (fuel : nat) (picks : nat -> nat)
    (buf input : list A) : list A :=
  match fuel with
  | 0 => []
  | S f =>
      let r := Nat.modulo (picks f) (length buf) in
      match nth_error buf r with
      | None => []
      | Some x =>
          match input with
          | [] => x :: shuffle_run f picks (remove_nth r buf) []
          | y :: input' => x :: shuffle_run f picks (remove_nth r buf ++ [y]) input'
          end
      end
  end.
Definition shuffle {A : Type} (k : nat) (picks : nat -> nat) (l : list A) : list A :=
  shuffle_run (length l) picks (firstn k l) (skipn k l).

(** One pass ("epoch") of the shuffled dataset, as ops (op_queue.py:45-51, 69-70).
    [rnd e] is the random stream used in epoch [e]; [repeat()] reshuffles. *)
Definition op_epoch (rnd : nat -> nat -> nat) (ops : list op) (e : nat) : list (res op) :=
  map (lookup_op ops)
      (shuffle (length ops) (rnd e) (sort_names (map op_name ops))).

(** The op returned by the [k]-th call of [next_op]: the names arrive epoch after
    epoch.  [shuffle(0)] is rejected by TensorFlow (buffer_size must be positive),
    so an empty op list raises at construction. *)
Definition next_op (rnd : nat -> nat -> nat) (ops : list op) (k : nat) : res op :=
  match ops with
  | [] => Raise ValueError
  | _ => nth (Nat.modulo k (length ops))
             (op_epoch rnd ops (Nat.div k (length ops))) (Raise IndexError)
  end.

(* ------------------------------------------------------------------------ *)
(** * AsyncInvCovUpdateKfacOpt workers
      (kfac/python/ops/kfac_utils/async_inv_cov_update_kfac_opt.py:94-140) *)

(** Where a worker thread is in its loop (lines 115-118): before the stop check,
    after a passed check, or holding a drawn op not yet run. *)
Inductive wphase := AtCheck | Passed | Holding (o : res op) | Exited.

(** The shared one-shot iterator is a position; the worker phases are indexed by
    worker; [ran] is the history of executed ops, newest last; [stop] is the
    coordinator flag. *)
Record astate := mkA {
  a_pos : nat;
  a_phase : list wphase;
  a_ran : list (res op);
  a_stop : bool }.

(** lines 137-140: names sorted, repeated for ever: draw number [k]. *)
Definition async_draw (ops : list op) (k : nat) : res op :=
  match ops with
  | [] => Raise IndexError
  | _ => lookup_op ops
           (nth (Nat.modulo k (length ops)) (sort_names (map op_name ops)) 0)
  end.

(** lines 135-136: default number of threads.  The documentation says half the
    number of ops, capped at [cap]; the code takes the maximum. *)
Definition num_threads (requested : option nat) (nops cap : nat) : nat :=
  match requested with
  | Some (S n) => S n
  | _ => Nat.max (Nat.div nops 2) cap
  end.

(** lines 94-103 *)
Definition async_init (workers : nat) : astate :=
  mkA 0 (repeat AtCheck workers) [] false.

Definition set_nth {A : Type} (i : nat) (x : A) (l : list A) : list A :=
  firstn i l ++ match skipn i l with [] => [] | _ :: t => x :: t end.

(** Atomic events: worker [w] makes the next move of its loop, or the main thread
    requests a stop.  A schedule is any list of events, which covers every
    interleaving (lines 115-118, 120-123). *)
Inductive aevent := Move (w : nat) | Stop.

Definition async_step (ops : list op) (s : astate) (e : aevent) : astate :=
  match e with
  | Stop => mkA (a_pos s) (a_phase s) (a_ran s) true
  | Move w =>
      match nth_error (a_phase s) w with
      | None => s
      | Some Exited => s
      | Some AtCheck =>
          mkA (a_pos s)
              (set_nth w (if a_stop s then Exited else Passed) (a_phase s))
              (a_ran s) (a_stop s)
      | Some Passed =>
          mkA (S (a_pos s))
              (set_nth w (Holding (async_draw ops (a_pos s))) (a_phase s))
              (a_ran s) (a_stop s)
      | Some (Holding o) =>
          mkA (a_pos s) (set_nth w AtCheck (a_phase s)) (a_ran s ++ [o]) (a_stop s)
      end
  end.
(** The draws that workers hold but have not yet run. *)
Definition holding_of (p : wphase) : list (res op) :=
  match p with Holding o => [o] | _ => [] end.
Definition holdings (ps : list wphase) : list (res op) := concat (map holding_of ps).

Definition async_run (ops : list op) (workers : nat) (sched : list aevent) : astate :=
  fold_left (async_step ops) sched (async_init workers).

(* ------------------------------------------------------------------------ *)
(** * Placement mixins  (kfac/python/ops/placement.py) *)

(** A thunk builds ops of type [B] in the current device scope. *)
Notation thunk dev B := (option dev -> B).

(** placement.py:29-33: [with tf.device(device): return func()]. *)
Definition make_thunk_on_device {dev B} (f : thunk dev B) (d : dev) : thunk dev B :=
  fun _ => f (Some d).

(** placement.py:81-88.  [devs = None] or an empty list is falsy. *)
Definition place_transformation_thunks {dev B} (devs : option (list dev))
    (ctx : option dev) (thunks : list (thunk dev B)) : list B :=
  match devs with
  | Some (d :: ds) =>
      map (fun td => (fst td) (Some (snd td))) (zip_cycle (d :: ds) (d :: ds) thunks)
  | _ => map (fun t => t ctx) thunks
  end.

(** placement.py:90-166.  The four raw thunk lists come from
    estimator.py:463-512, one entry per factor. *)
Definition round_robin_thunks {dev B} (cov_devs inv_devs : option (list dev))
    (raw : list (thunk dev B) * list (thunk dev B) *
           list (thunk dev B) * list (thunk dev B))
  : list (thunk dev B) * list (thunk dev B) *
    list (thunk dev B) * list (thunk dev B) :=
  let '(cov_var_raw, cov_upd_raw, inv_var_raw, inv_upd_raw) := raw in
  let '(cov_var, cov_upd) :=
    match cov_devs with
    | Some (d :: ds) =>
        let zipped := zip_cycle (d :: ds) (d :: ds) (zip cov_var_raw cov_upd_raw) in
        (map (fun x => make_thunk_on_device (fst (fst x)) (snd x)) zipped,
         map (fun x => make_thunk_on_device (snd (fst x)) (snd x)) zipped)
    | _ => (cov_var_raw, cov_upd_raw)
    end in
  let inv_upd :=
    match inv_devs with
    | Some (d :: ds) =>
        map (fun x => make_thunk_on_device (fst x) (snd x))
            (zip_cycle (d :: ds) (d :: ds) inv_upd_raw)
    | _ => inv_upd_raw
    end in
  (cov_var, cov_upd, inv_var_raw, inv_upd).

(* ------------------------------------------------------------------------ *)
(** * Replica communication  (kfac/python/ops/utils.py:519-708) *)

(** A tensor is its list of entries and a nested structure a list of tensors. *)
Notation tensor := (list R).
Notation structure := (list tensor).

Fixpoint map2 {A B C : Type} (f : A -> B -> C) (l : list A) (m : list B) : list C :=
  match l, m with
  | a :: l', b :: m' => f a b :: map2 f l' m'
  | _, _ => []
  end.
Definition tensor_add (x y : tensor) : tensor := map2 Rplus x y.
Definition structure_add (x y : structure) : structure := map2 tensor_add x y.
(** utils.py:683-684, 691-694: zeros of the same (static) shapes. *)
Definition zeros_like (x : structure) : structure :=
  map (map (fun _ => 0%R)) x.

(** The replication context the code can find itself in: outside replication or a
    single replica; TPU replication (TPUEstimator shards or TPUStrategy); another
    tf.distribute strategy.  A TF-Replicator object delegates [map_gather] to its
    own implementation and is not modelled. *)
Inductive rcontext := Unreplicated | TpuReplicated (n : nat) | OtherStrategy (n : nat).

(** utils.py:538-558 *)
Definition num_replicas (c : rcontext) : nat :=
  match c with Unreplicated => 1 | TpuReplicated n => n | OtherStrategy n => n end.

(** utils.py:588-621: the sum over replicas of what each replica passes in; every
    replica receives the same sum.  [x r] is the structure passed by replica [r]. *)
Fixpoint cross_sum (x : nat -> structure) (n : nat) : structure :=
  match n with
  | 0 => []
  | 1 => x 0
  | S m => structure_add (cross_sum x m) (x m)
  end.
Definition all_sum (c : rcontext) (x : nat -> structure) (r : nat) : structure :=
  if Nat.leb (num_replicas c) 1 then x r else cross_sum x (num_replicas c).

(** utils.py:624-649: MEAN reduction of the strategy, or the sum divided by the
    number of replicas; both are the same real number. *)
Definition all_average (c : rcontext) (x : nat -> structure) (r : nat) : structure :=
  if Nat.leb (num_replicas c) 1 then x r
  else map (map (fun v => (v / INR (num_replicas c))%R))
           (cross_sum x (num_replicas c)).

(** utils.py:652-708.  [thunks] are evaluated in the context of a replica, whose
    variables may differ, hence they take the replica id.  The result is what
    replica [r] obtains. *)
Definition map_gather (c : rcontext) (thunks : list (nat -> structure)) (r : nat)
  : list structure :=
  if Nat.leb (num_replicas c) 1 then map (fun t => t r) thunks
  else
    match c with
    | TpuReplicated n =>
        map (fun it =>
               all_sum c (fun r' =>
                 if Nat.eqb r' (Nat.modulo (fst it) n)
                 then snd it r' else zeros_like (snd it r')) r)
            (enumerate thunks)
    | _ => map (fun t => t r) thunks
    end.

(** Which thunks replica [r] evaluates for real (utils.py:701-703). *)
Definition runs_thunk (c : rcontext) (i r : nat) : bool :=
  if Nat.leb (num_replicas c) 1 then true
  else match c with
       | TpuReplicated n => Nat.eqb r (Nat.modulo i n)
       | _ => true
       end.

(* ------------------------------------------------------------------------ *)
(** * ReplicaRoundRobinPlacementMixin inverse update
      (kfac/python/ops/placement.py:274-309) *)

(** A factor: the inverse-related variables its update op writes, the ones
    returned by [get_inv_vars], and the values the update computes (from the
    covariances, which are identical on all replicas). *)
Record rfactor := mkRF {
  rf_written : list nat;           (* variables assigned by make_inverse_update_ops *)
  rf_exposed : list nat;           (* variables returned by get_inv_vars *)
  rf_compute : nat -> tensor }.    (* variable -> newly computed value *)

(** The variables of one replica. *)
Definition rvars := nat -> tensor.
Definition upd (s : rvars) (v : nat) (x : tensor) : rvars :=
  fun v' => if Nat.eqb v' v then x else s v'.

(** Running [make_inverse_update_ops] on a replica. *)
Definition run_inv_update (f : rfactor) (s : rvars) : rvars :=
  fold_left (fun s v => upd s v (rf_compute f v)) (rf_written f) s.

(** placement.py:274-279: run the update, then read the exposed variables. *)
Definition inv_thunk (f : rfactor) (st : nat -> rvars) (r : nat) : structure :=
  map (run_inv_update f (st r)) (rf_exposed f).

(** placement.py:288-303: factors that have inverse variables. *)
Definition has_inv_vars (f : rfactor) : bool :=
  match rf_exposed f with [] => false | _ => true end.

(** placement.py:282-309: the whole inverse update.  The side effect of an executed
    thunk on its own replica happens first; then the gathered values are assigned
    on every replica. *)
Definition replica_inv_update (c : rcontext) (factors : list rfactor)
    (st : nat -> rvars) : res (nat -> rvars) :=
  let kept := filter has_inv_vars factors in
  match kept with
  | [] => Raise ValueError      (* factors, _ = zip( *() )  line 295 *)
  | _ =>
      let gathered r := map_gather c (map (fun f => inv_thunk f st) kept) r in
      let local r :=
        fold_left (fun s it => if runs_thunk c (fst it) r
                               then run_inv_update (snd it) s else s)
                  (enumerate kept) (st r) in
      Ok (fun r =>
            fold_left (fun s fr =>
              fold_left (fun s vv => upd s (fst vv) (snd vv))
                        (zip (rf_exposed (fst fr)) (snd fr)) s)
              (zip kept (gathered r)) (local r))
  end.

(** Inverse update without distribution: every factor's update op runs. *)
Definition plain_inv_update (factors : list rfactor) (s : rvars) : rvars :=
  fold_left (fun s f => run_inv_update f s) factors s.
