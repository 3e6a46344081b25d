(** Property theorems C01, C04 - C08. *)
From Coq Require Import List Arith ZArith Lia Bool Permutation Reals.
From Verif.Base Require Import Py ListFacts.
From Verif.Sched Require Import Model Spec BatchProofs QueueProofs PlacementProofs.
Import ListNotations.

(* ======================================================================= *)
(** ** C01 *)

(** At step [t] thunk [j] takes effect iff it is one of the [b] slots
    [t*b, ..., t*b+b-1] modulo [n]. *)
Theorem C01_batch_execute_selects :
  forall (A : Type) (t b : nat) (thunks : list A) (j : nat) (a : A),
    nth_error thunks j = Some a ->
    (in_batch (length thunks) b t j ->
     nth_error (batch_execute (Z.of_nat t) (Z.of_nat b) thunks) j = Some (Some a)) /\
    (~ in_batch (length thunks) b t j ->
     nth_error (batch_execute (Z.of_nat t) (Z.of_nat b) thunks) j = Some None).
Proof. exact @batch_execute_runs_iff. Qed.
Print Assumptions C01_batch_execute_selects.

(** One result per thunk, and exactly [min b n] of them take effect. *)
Theorem C01_batch_execute_count :
  forall (A : Type) (t b : nat) (thunks : list A),
    length (batch_execute (Z.of_nat t) (Z.of_nat b) thunks) = length thunks /\
    length (effects (batch_execute (Z.of_nat t) (Z.of_nat b) thunks))
    = Nat.min b (length thunks).
Proof.
  exact (fun A t b thunks => conj (batch_execute_length (Z.of_nat t) (Z.of_nat b) thunks)
                                  (batch_execute_effects_count t b thunks)).
Qed.
Print Assumptions C01_batch_execute_count.

(** Over any window of [k] steps the run counts of any two thunks differ by at
    most one (and are [k*b/n] or one more). *)
Theorem C01_batch_execute_fair :
  forall (A : Type) (thunks : list A) (b j1 j2 t0 k : nat),
    b <= length thunks -> j1 < length thunks -> j2 < length thunks ->
    within 1
      (runs (fun t => batch_execute (Z.of_nat t) (Z.of_nat b) thunks) j1 t0 k)
      (runs (fun t => batch_execute (Z.of_nat t) (Z.of_nat b) thunks) j2 t0 k).
Proof. exact @batch_execute_fair. Qed.
Print Assumptions C01_batch_execute_fair.

Theorem C01_batch_execute_rate :
  forall (A : Type) (thunks : list A) (b j t0 k : nat),
    b <= length thunks -> j < length thunks ->
    k * b / length thunks
    <= runs (fun t => batch_execute (Z.of_nat t) (Z.of_nat b) thunks) j t0 k
    <= k * b / length thunks + 1.
Proof. exact @runs_in_window_exact. Qed.
Print Assumptions C01_batch_execute_rate.

Example C01_example :
  batch_execute 1 2 [10; 20; 30] = [Some 10; None; Some 30] /\
  nth_error [10; 20; 30] 2 = Some 30 /\ in_batch 3 2 1 2 /\ 2 <= length [10; 20; 30].
Proof. repeat split; try (simpl; lia). exists 0. split; [lia|reflexivity]. Qed.

(* ======================================================================= *)
(** ** C04 *)

Theorem C04_next_op_blocks_are_permutations :
  forall (rnd : nat -> nat -> nat) (ops : list op) (e : nat),
    NoDup (map op_name ops) ->
    Permutation (map (next_op rnd ops) (seq (e * length ops) (length ops))) (map Ok ops).
Proof. exact next_op_epoch_perm. Qed.
Print Assumptions C04_next_op_blocks_are_permutations.

Theorem C04_next_op_counts :
  forall (rnd : nat -> nat -> nat) (ops : list op) (o : op) (m : nat),
    NoDup (map op_name ops) -> In o ops ->
    count_occ res_op_eq_dec (map (next_op rnd ops) (seq 0 (m * length ops))) (Ok o) = m.
Proof. exact next_op_counts. Qed.
Print Assumptions C04_next_op_counts.

(** An op returned by call [p] is returned again by a call [q] with at most
    [2*len(ops) - 2] calls strictly between them. *)
Theorem C04_next_op_gap :
  forall (rnd : nat -> nat -> nat) (ops : list op) (p : nat) (o : op),
    NoDup (map op_name ops) -> next_op rnd ops p = Ok o ->
    exists q, p < q /\ q <= p + (2 * length ops - 1) /\ next_op rnd ops q = Ok o.
Proof. exact next_op_gap. Qed.
Print Assumptions C04_next_op_gap.

Example C04_example :
  let ops := [mkOp 7 0; mkOp 3 1; mkOp 5 2] in
  NoDup (map op_name ops) /\ In (mkOp 3 1) ops /\
  exists o, next_op (fun e i => e + i) ops 4 = Ok o.
Proof.
  simpl. split; [|split; [auto|eexists; reflexivity]].
  repeat constructor; simpl; intuition discriminate.
Qed.

(* ======================================================================= *)
(** ** C05 *)

(** The [k]-th value drawn from the shared dataset is the [(k mod n)]-th op in the
    order of names. *)
Theorem C05_kth_draw :
  forall (ops : list op) (k : nat),
    NoDup (map op_name ops) -> ops <> [] ->
    exists o, In o ops /\ async_draw ops k = Ok o /\ rank_by op_name ops o = k mod length ops.
Proof. exact async_kth_draw. Qed.
Print Assumptions C05_kth_draw.

(** For every number of workers and every interleaving: what was run, together with
    what workers have drawn but not yet run, is exactly the first draws, no draw
    lost or duplicated. *)
Theorem C05_no_draw_lost :
  forall (ops : list op) (workers : nat) (sched : list aevent),
    let s := async_run ops workers sched in
    length (a_phase s) = workers /\
    Permutation (a_ran s ++ holdings (a_phase s)) (map (async_draw ops) (seq 0 (a_pos s))).
Proof. exact async_run_inv. Qed.
Print Assumptions C05_no_draw_lost.

(** Draw counts of two ops differ by at most one, run counts by at most one plus
    the number of workers. *)
Theorem C05_async_fair :
  forall (ops : list op) (workers : nat) (sched : list aevent) (o1 o2 : op),
    NoDup (map op_name ops) -> In o1 ops -> In o2 ops ->
    let s := async_run ops workers sched in
    let draws o := count_occ res_op_eq_dec (map (async_draw ops) (seq 0 (a_pos s))) (Ok o) in
    let done o := count_occ res_op_eq_dec (a_ran s) (Ok o) in
    within 1 (draws o1) (draws o2) /\ within (1 + workers) (done o1) (done o2).
Proof. exact async_fair. Qed.
Print Assumptions C05_async_fair.

(** After a stop request at most one further op per worker is drawn or run. *)
Theorem C05_async_stop :
  forall (ops : list op) (workers : nat) (sched1 sched2 : list aevent),
    let s1 := async_run ops workers sched1 in
    let s2 := async_run ops workers (sched1 ++ Stop :: sched2) in
    a_pos s2 <= a_pos s1 + workers /\ length (a_ran s2) <= length (a_ran s1) + workers.
Proof. exact async_after_stop. Qed.
Print Assumptions C05_async_stop.

Example C05_example :
  let ops := [mkOp 7 0; mkOp 3 1] in
  NoDup (map op_name ops) /\
  a_ran (async_run ops 2 [Move 0; Move 0; Move 1; Move 1; Move 1; Move 0]) =
    [Ok (mkOp 7 0); Ok (mkOp 3 1)].
Proof.
  split; [|reflexivity]. simpl. repeat constructor; simpl; intuition discriminate.
Qed.

(* ======================================================================= *)
(** ** C06 *)

Theorem C06_cov_placement :
  forall (dev B : Type) (ds : list dev) (inv_devs : option (list dev))
         (cov_var cov_upd inv_var inv_upd : list (option dev -> B)),
    ds <> [] -> length cov_var = length cov_upd ->
    let '(cov_var', cov_upd', inv_var', inv_upd') :=
      round_robin_thunks (Some ds) inv_devs (cov_var, cov_upd, inv_var, inv_upd) in
    placed ds cov_var cov_var' /\ placed ds cov_upd cov_upd' /\ inv_var' = inv_var.
Proof. exact @rr_cov. Qed.
Print Assumptions C06_cov_placement.

Theorem C06_inv_placement :
  forall (dev B : Type) (ds : list dev) (cov_devs : option (list dev))
         (cov_var cov_upd inv_var inv_upd : list (option dev -> B)),
    ds <> [] ->
    let '(cov_var', cov_upd', inv_var', inv_upd') :=
      round_robin_thunks cov_devs (Some ds) (cov_var, cov_upd, inv_var, inv_upd) in
    placed ds inv_upd inv_upd' /\ inv_var' = inv_var.
Proof. exact @rr_inv. Qed.
Print Assumptions C06_inv_placement.

Theorem C06_trans_placement :
  forall (dev B : Type) (ds : list dev) (scope : option dev) (ts : list (option dev -> B)),
    ds <> [] ->
    length (place_transformation_thunks (Some ds) scope ts) = length ts /\
    forall i t, nth_error ts i = Some t ->
      exists d, nth_error ds (i mod length ds) = Some d /\
        nth_error (place_transformation_thunks (Some ds) scope ts) i = Some (t (Some d)).
Proof. exact @place_trans_some. Qed.
Print Assumptions C06_trans_placement.

Theorem C06_no_devices_no_placement :
  forall (dev B : Type) (devs1 devs2 devs3 : option (list dev)) (scope : option dev)
         (cov_var cov_upd inv_var inv_upd ts : list (option dev -> B)),
    (devs1 = None \/ devs1 = Some []) -> (devs2 = None \/ devs2 = Some []) ->
    (devs3 = None \/ devs3 = Some []) ->
    round_robin_thunks devs1 devs2 (cov_var, cov_upd, inv_var, inv_upd)
      = (cov_var, cov_upd, inv_var, inv_upd) /\
    place_transformation_thunks devs3 scope ts = map (fun t => t scope) ts.
Proof.
  exact (fun dev B d1 d2 d3 sc cv cu iv iu ts H1 H2 H3 =>
           conj (rr_none d1 d2 cv cu iv iu H1 H2) (place_trans_none d3 sc ts H3)).
Qed.
Print Assumptions C06_no_devices_no_placement.

Theorem C06_loads_balanced :
  forall n k j1 j2 : nat, j1 < k -> j2 < k -> within 1 (load n k j1) (load n k j2).
Proof. exact load_balanced. Qed.
Print Assumptions C06_loads_balanced.

Example C06_example :
  let mk i := fun d : option nat => (i, d) in
  let '(cv, _, _, _) :=
    round_robin_thunks (Some [100; 200]) None
      ([mk 1; mk 2; mk 3], [mk 4; mk 5; mk 6], [mk 7; mk 8; mk 9], [mk 10; mk 11; mk 12]) in
  map (fun t => t None) cv = [(1, Some 100); (2, Some 200); (3, Some 100)] /\
  length [mk 1; mk 2; mk 3] = length [mk 4; mk 5; mk 6].
Proof. split; reflexivity. Qed.

(* ======================================================================= *)
(** ** C07 *)

(** Outside replication the thunks are evaluated in place. *)
Theorem C07_map_gather_unreplicated :
  forall (c : rcontext) (thunks : list (nat -> list (list R))) (r : nat),
    num_replicas c <= 1 -> map_gather c thunks r = map (fun t => t r) thunks.
Proof. exact map_gather_single. Qed.
Print Assumptions C07_map_gather_unreplicated.

(** With [n] replicas every replica gets, at position [i], the value that thunk [i]
    has on replica [i mod n]: the thunks' static shapes are the same everywhere. *)
Theorem C07_map_gather_replicated :
  forall (n : nat) (thunks : list (nat -> list (list R))) (r : nat),
    2 <= n ->
    (forall t r1 r2, In t thunks -> shapes (t r1) = shapes (t r2)) ->
    length (map_gather (TpuReplicated n) thunks r) = length thunks /\
    forall i t, nth_error thunks i = Some t ->
      nth_error (map_gather (TpuReplicated n) thunks r) i = Some (t (i mod n)).
Proof. exact map_gather_tpu. Qed.
Print Assumptions C07_map_gather_replicated.

(** In particular, when a thunk computes the same value everywhere, [map_gather]
    returns exactly the values, in order, in every context and on every replica. *)
Theorem C07_map_gather_transparent :
  forall (c : rcontext) (vals : list (list (list R))) (r : nat),
    map_gather c (map (fun v _ => v) vals) r = vals.
Proof. exact map_gather_pure. Qed.
Print Assumptions C07_map_gather_transparent.

(** Thunk [i] really runs on replica [i mod n] only. *)
Theorem C07_thunk_runs_once :
  forall n i r : nat, 2 <= n ->
    (runs_thunk (TpuReplicated n) i r = true <-> r = i mod n).
Proof. exact runs_thunk_tpu. Qed.
Print Assumptions C07_thunk_runs_once.

(** Of any [m] thunks, the numbers run by two replicas differ by at most one. *)
Theorem C07_loads_balanced :
  forall n m r1 r2 : nat, 2 <= n -> r1 < n -> r2 < n ->
    within 1 (countb (fun i => runs_thunk (TpuReplicated n) i r1) (seq 0 m))
             (countb (fun i => runs_thunk (TpuReplicated n) i r2) (seq 0 m)).
Proof. exact runs_thunk_balanced. Qed.
Print Assumptions C07_loads_balanced.

(** [all_sum] and [all_average] give every replica the same entrywise sum / mean. *)
Theorem C07_all_sum :
  forall (c : rcontext) (x : nat -> list (list R)) (f : nat -> R) (j i r : nat),
    2 <= num_replicas c ->
    (forall r', r' < num_replicas c -> entry (x r') j i = Some (f r')) ->
    entry (all_sum c x r) j i = Some (sum_f_R0 f (num_replicas c - 1)).
Proof. exact all_sum_entry. Qed.
Print Assumptions C07_all_sum.

Theorem C07_all_average :
  forall (c : rcontext) (x : nat -> list (list R)) (f : nat -> R) (j i r : nat),
    2 <= num_replicas c ->
    (forall r', r' < num_replicas c -> entry (x r') j i = Some (f r')) ->
    entry (all_average c x r) j i
    = Some (sum_f_R0 f (num_replicas c - 1) / INR (num_replicas c))%R.
Proof. exact all_average_entry. Qed.
Print Assumptions C07_all_average.

Example C07_example :
  2 <= 3 /\
  let t1 := fun r : nat => [[1%R; INR r]; [2%R]] in
  let t2 := fun _ : nat => [[5%R]] in
  forall t r1 r2, In t [t1; t2] -> shapes (t r1) = shapes (t r2).
Proof.
  split; [lia|]. intros t1 t2 t r1 r2 [<-|[<-|[]]]; reflexivity.
Qed.

(* ======================================================================= *)
(** ** C08 *)

(** When every factor's update writes exactly the variables it exposes, some factor
    has inverse variables, and no two factors share one, then all replicas end
    with the values of an undistributed update, whatever they held before. *)
Theorem C08_replica_inverses_partial :
  forall (c : rcontext) (factors : list rfactor) (st : nat -> nat -> list R),
    (exists f, In f factors /\ rf_exposed f <> []) ->
    (forall f, In f factors -> forall v, In v (rf_written f) <-> In v (rf_exposed f)) ->
    (forall f g v, In f factors -> In g factors ->
       In v (rf_written f) -> In v (rf_written g) -> f = g) ->
    exists st', replica_inv_update c factors st = Ok st' /\
      forall r v, st' r v = plain_inv_update factors (st r) v.
Proof. exact replica_inv_update_correct. Qed.
Print Assumptions C08_replica_inverses_partial.

(** Finding: a factor that writes variables it does not expose (as the SUA
    convolution factor does with its damping, [cov_inv_mu] and rank-one scale
    variables) leaves the replicas with different contents: here on replica 0 the
    hidden variable keeps its stale value. *)
Theorem C08_replica_inverses_refuted :
  exists (factors : list rfactor) (st st' : nat -> nat -> list R) (v : nat),
    replica_inv_update (TpuReplicated 2) factors st = Ok st' /\
    (exists f, In f factors /\ In v (rf_written f)) /\
    st' 0 v <> st' 1 v /\ st' 0 v <> plain_inv_update factors (st 0) v.
Proof. exact replica_inv_update_refuted. Qed.
Print Assumptions C08_replica_inverses_refuted.

(** Finding: when no factor has inverse variables (e.g. only diagonal factors) the
    construction of the update raises. *)
Theorem C08_no_inverse_variables_raises :
  forall (c : rcontext) (factors : list rfactor) (st : nat -> nat -> list R),
    replica_inv_update c factors st = Raise ValueError <->
    (forall f, In f factors -> rf_exposed f = []).
Proof. exact replica_inv_update_raises. Qed.
Print Assumptions C08_no_inverse_variables_raises.

Example C08_example :
  let f := mkRF [0; 1] [1; 0] (fun v => [INR v]) in
  let g := mkRF [2] [2] (fun v => [INR v]) in
  (exists h, In h [f; g] /\ rf_exposed h <> []) /\
  (forall h, In h [f; g] -> forall v, In v (rf_written h) <-> In v (rf_exposed h)) /\
  (forall h k v, In h [f; g] -> In k [f; g] ->
     In v (rf_written h) -> In v (rf_written k) -> h = k).
Proof.
  split; [|split].
  - eexists; split; [left; reflexivity|discriminate].
  - intros h [<-|[<-|[]]] v; simpl; tauto.
  - intros h k v [<-|[<-|[]]] [<-|[<-|[]]]; simpl; intuition (subst; try discriminate; auto).
Qed.
