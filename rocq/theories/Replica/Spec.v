(** What training on several replicas is compared with: one device that sees all the data. *)
From Coq Require Import List Arith Bool Reals.
From Verif.Base Require Import Py.
From Verif.Tensors Require Import Model.
From Verif.Train Require Import Model.
From Verif.Replica Require Import Model.
Import ListNotations.
Open Scope list_scope.
Open Scope R_scope.

(** * Contexts *)

(** [n] replicas run the code and the library can make them communicate: whoever says how many
    replicas there are (a TF-Replicator, the TPU context, a tf.distribute strategy) says [n], and
    if there is a strategy the code is inside one of its replicas.  Nobody says anything if there
    is just the one device. *)
Definition replicated (k : rctx) (n : nat) : Prop :=
  (1 <= n)%nat /\
  (forall m, replicator k = Some m \/ shards k = Some m -> m = n) /\
  match strategy k with None => True | Some (_, m) => m = n /\ in_replica k = true end /\
  (replicator k = None -> shards k = None -> strategy k = None -> n = 1%nat).

(** Inside a strategy's scope, but in none of its replicas, and nothing else to communicate by. *)
Definition cross_replica (k : rctx) : Prop :=
  is_some (strategy k) = true /\ in_replica k = false /\ replicator k = None /\ shards k = None.

Definition mirrored (k : rctx) : Prop := exists n, strategy k = Some (Mirrored, n).

(** * Entries of structures *)

(** Same number of tensors, with the same numbers of entries *)
Definition same_shape (xs : list structure) : Prop :=
  forall x y, In x xs -> In y xs -> map (@length R) x = map (@length R) y.
Definition entry (x : structure) (i j : nat) : R := nth j (nth i x []) 0.
Definition average (l : list R) : R := rsum l / INR (length l).

(** * A learning problem, example by example

    The loss, the gradients and the raw statistics of a mini-batch are the averages over its
    examples; the products with the transposed factor of the curvature matrix are the products
    for the individual examples put after each other. *)
Record problem (Ex I : Type) := mkProblem {
  pb_vars : list nat;
  pb_dim : nat -> nat;                                     (* entries of a variable *)
  pb_loss : (nat -> vec) -> Ex -> R;
  pb_grad : (nat -> vec) -> Ex -> nat -> nat -> R;         (* variable, entry *)
  pb_factors : nat;
  pb_stat : (nat -> vec) -> Ex -> nat -> I -> R;           (* factor, position *)
  pb_finish : list (I -> R) -> list (I -> R);
  pb_losses : nat;                                         (* registered loss functions *)
  pb_out : nat -> nat;                                     (* entries per example *)
  pb_mft : (nat -> vec) -> Ex -> nat -> list vec -> nat -> R;
  pb_invert : list (mav I) -> R -> structure;
  pb_precond : structure -> pairs -> pairs;
  pb_mult : list (mav I) -> structure -> R -> pairs -> pairs }.
Arguments mkProblem {Ex I}. Arguments pb_vars {Ex I}. Arguments pb_dim {Ex I}.
Arguments pb_loss {Ex I}. Arguments pb_grad {Ex I}. Arguments pb_factors {Ex I}.
Arguments pb_stat {Ex I}. Arguments pb_finish {Ex I}. Arguments pb_losses {Ex I}.
Arguments pb_out {Ex I}. Arguments pb_mft {Ex I}. Arguments pb_invert {Ex I}.
Arguments pb_precond {Ex I}. Arguments pb_mult {Ex I}.

Definition avg {Ex : Type} (b : list Ex) (f : Ex -> R) : R := average (map f b).

(** The environment of a device whose input [b] stands for the examples [of_ b], and whose
    statistics are taken over the examples [stat_of b] and then passed through [post]. *)
Definition env_of {Ex I B : Type} (pb : problem Ex I) (post : list (I -> R) -> list (I -> R))
    (of_ stat_of : B -> list Ex) : env B I structure :=
  mkEnv
    (fun th b => map (fun v => (map (fun i => avg (of_ b) (fun x => pb_grad pb th x v i))
                                    (seq 0 (pb_dim pb v)), v)) (pb_vars pb))
    (fun b th => avg (of_ b) (pb_loss pb th))
    (fun th b => post (map (fun f i => avg (stat_of b) (fun x => pb_stat pb th x f i))
                           (seq 0 (pb_factors pb))))
    (pb_invert pb) (pb_precond pb) (pb_mult pb)
    (fun th b us => map (fun l => flat_map (fun x => map (pb_mft pb th x l us)
                                                         (seq 0 (pb_out pb l))) (of_ b))
                        (seq 0 (pb_losses pb))).

(** One of several replicas, with its own examples *)
Definition replica_env {Ex I} (pb : problem Ex I) : renv (list Ex) I :=
  mkRenv (env_of pb (fun s => s) (fun b => b) (fun b => b)) (pb_finish pb).

(** One device that gets everything; its input is the list of what the replicas would get. *)
Definition device_env {Ex I} (pb : problem Ex I) : env (list (list Ex)) I structure :=
  env_of pb (pb_finish pb) (@concat Ex) (@concat Ex).
(** The same, but with the statistics of what the first replica would get *)
Definition first_stats_env {Ex I} (pb : problem Ex I) : env (list (list Ex)) I structure :=
  env_of pb (pb_finish pb) (@concat Ex) (hd []).

(** Inputs for [n] replicas, [B] examples each, and the same data for one device *)
Definition split_evenly {Ex} (n B : nat) (i : rinput (list Ex)) : Prop :=
  length (ri_batches i) = n /\
  (forall b, In b (ri_batches i) -> length (fst b) = B /\ length (snd b) = B).
Definition merged {Ex} (i : rinput (list Ex)) : input (list (list Ex)) :=
  mkIn (map fst (ri_batches i)) (map snd (ri_batches i)) (ri_cov_first i).

(** batch_size is the number of examples the device or replica is given at a time. *)
Definition with_batch_size (n : nat) (p : pcfg) : pcfg :=
  let c := p_cfg p in
  mkP (mkCfg (c_mtype c) (c_lr c) (c_momentum c) (c_norm c) (c_use_wd c) (c_wd c) (c_rescale c)
         (INR n) (c_adapt c) (c_immediate c) (c_chief c) (c_passed c) (c_decay c) (c_interval c)
         (c_min_damping c) (c_l2 c) (c_dec c) (c_inc c) (c_incl c))
      (p_invert_every p) (p_cov_every p) (p_burnin p) (p_ema p).

(** Any number of calls of minimize on one device *)
Fixpoint train {B I Inv : Type} (p : pcfg) (e : env B I Inv) (q : pst I Inv) (is_ : list (input B))
  : res (pst I Inv) :=
  match is_ with
  | [] => Ok q
  | i :: is' => do q' <- minimize p e q i ; train p e q' is'
  end.

(** The same on each of [n] replicas *)
Definition on_each {A : Type} (n : nat) (r : res A) : res (list A) :=
  match r with Ok a => Ok (repeat a n) | Raise e => Raise e end.
