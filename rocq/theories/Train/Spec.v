(** Vocabulary of the training properties, independent of how the optimizer
    computes things. *)
From Coq Require Import String List Arith Bool Reals.
From Verif.Base Require Import Py.
From Verif.Tensors Require Import Model.
From Verif.Train Require Import Model.
Import ListNotations.
Open Scope list_scope.
Open Scope R_scope.

(* ------------------------------------------------------------------------ *)
(** * Legal constructor options  (C29) *)

Definition legal (a : args) : Prop :=
  exists t,
    ((lower (a_momentum_type a) = "regular"%string /\ t = Regular) \/
     (lower (a_momentum_type a) = "adam"%string /\ t = Adam) \/
     (lower (a_momentum_type a) = "qmodel"%string /\ t = Qmodel) \/
     (lower (a_momentum_type a) = "qmodel_fixedmu"%string /\ t = QmodelFixedMu)) /\
    (a_norm_constraint a <> None -> t = Regular \/ t = Adam) /\
    (t = Qmodel -> a_momentum a = None) /\
    (a_learning_rate a = None <-> t = Qmodel \/ t = QmodelFixedMu) /\
    (a_rescale a <> None -> t = Qmodel \/ t = QmodelFixedMu) /\
    (a_use_passed_loss a = false -> a_train_batch a = true).

(** The estimator options that the constructor forwards. *)
Definition legal_estimator (a : args) : Prop :=
  (a_place a = None \/ a_place a = Some "round_robin"%string \/
   a_place a = Some "replica_round_robin"%string) /\
  (a_params_stats a = true -> a_has_batch_size a = true).

(* ------------------------------------------------------------------------ *)
(** * Coordinates *)

(** Coordinate [j] of a tensor. *)
Definition coord (j : nat) (v : vec) : R := nth j v 0.
(** Coordinate [j] of the tensor that a list of pairs gives for variable [k]. *)
Fixpoint entry_of (k j : nat) (l : pairs) : R :=
  match l with
  | [] => 0
  | (v, k') :: l' => if Nat.eqb k' k then coord j v else entry_of k j l'
  end.

(** [l] gives each of its variables once, with the shape it has in [f]. *)
Definition fits (f : nat -> vec) (l : pairs) : Prop :=
  NoDup (map snd l) /\ forall v k, In (v, k) l -> length v = length (f k).

(** Sum of a function over 0 .. n-1. *)
Fixpoint sum_to (n : nat) (f : nat -> R) : R :=
  match n with O => 0 | S m => sum_to m f + f m end.

(** Inner product of two lists of tensors: over variables and coordinates. *)
Definition inner (x y : list vec) : R :=
  sum_to (length x) (fun i =>
    sum_to (length (nth i x [])) (fun j => coord j (nth i x []) * coord j (nth i y []))).

(** Two lists of tensors with the same shapes. *)
Definition same_shape (x y : list vec) : Prop := map (@length R) x = map (@length R) y.

(* ------------------------------------------------------------------------ *)
(** * Clipping  (C31) *)

(** The documented factor: min(1, sqrt(c / r^T F r)), for the update r = -lr * v. *)
Definition clip_factor (nc lr q : R) : R :=
  if Req_EM_T (lr ^ 2 * q) 0 then 1 else Rmin 1 (sqrt (nc / (lr ^ 2 * q))).

(** The preconditioned and possibly clipped direction of a step. *)
Definition direction (c : cfg) (g pg : pairs) : pairs :=
  match c_norm c with
  | None => pg
  | Some nc =>
      map (fun p => (map (Rmult (clip_factor nc (c_lr c) (inner (map fst g) (map fst pg)))) (fst p),
                     snd p)) pg
  end.

(* ------------------------------------------------------------------------ *)
(** * Momentum  (C30) *)

(** Geometric sum of what was added, oldest first, on top of a start value. *)
Definition decayed (mu start : R) (us : list R) : R :=
  mu ^ length us * start +
  sum_to (length us) (fun i => mu ^ (length us - 1 - i) * nth i us 0).

(* ------------------------------------------------------------------------ *)
(** * Levenberg-Marquardt rule  (C32, C33) *)

(** The reduction ratio (loss change) / (predicted change) exceeds [t].  With a
    zero prediction the ratio is infinite, or undefined when the loss is
    unchanged as well. *)
Definition ratio_above (dl q t : R) : Prop :=
  (q <> 0 /\ dl / q > t) \/ (q = 0 /\ dl > 0).
Definition ratio_below (dl q t : R) : Prop :=
  (q <> 0 /\ dl / q < t) \/ (q = 0 /\ dl < 0).

(** [d'] is the damping after adapting [d] to a loss change [dl] where the model
    predicted [q]. *)
Definition lm_rule (c : cfg) (d dl q d' : R) : Prop :=
  let w := c_decay c ^ c_interval c in
  let floor := c_min_damping c + c_l2 c in
  ((dl < 0 /\ q > 0) \/ ratio_above dl q (c_dec c) -> d' = Rmax (d * w) floor) /\
  (~ ((dl < 0 /\ q > 0) \/ ratio_above dl q (c_dec c)) ->
     (ratio_below dl q (c_inc c) -> d' = Rmax (d / w) floor) /\
     (~ ratio_below dl q (c_inc c) -> d' = Rmax d floor)).

(* ------------------------------------------------------------------------ *)
(** * Quadratic model  (C33, C34, C35) *)

(** All tensors of [x] times [a] plus those of [y] times [b]. *)
Definition comb (a : R) (x : list vec) (b : R) (y : list vec) : list vec :=
  map (fun p => map (fun q => a * fst q + b * snd q) (zip (fst p) (snd p))) (zip x y).

(** The model of the loss change for a displacement [d]: curvature
    J J^T / n + lambda I, where [mft] multiplies by J^T, and gradient [g]. *)
Definition quad (mft : list vec -> list vec) (n lambda : R) (g d : list vec) : R :=
  1/2 * (inner (mft d) (mft d) / n + lambda * inner d d) + inner g d.

(** [mft] is linear on lists of the shape of [x], and never empty. *)
Definition linear_on (mft : list vec -> list vec) (x : list vec) : Prop :=
  (forall u, same_shape u x -> same_shape (mft u) (mft x) /\ mft u <> []) /\
  (forall a u b v, same_shape u x -> same_shape v x ->
     mft (comb a u b v) = comb a (mft u) b (mft v)).

(** Displacement of the variables [vars] between two parameter stores. *)
Definition displacement (vars : list nat) (p p' : nat -> vec) : list vec :=
  map (fun k => map (fun q => snd q - fst q) (zip (p k) (p' k))) vars.

(* ------------------------------------------------------------------------ *)
(** * The periodic schedule  (C02, C03) *)

(** The multiples of [e] below [n], in increasing order. *)
Definition multiples_below (e n : nat) : list nat :=
  filter (fun i => Nat.eqb (Nat.modulo i e) 0) (seq 0 n).

(* ------------------------------------------------------------------------ *)
(** * Well-formed steps *)

(** A transformation that returns, for each vector it is given, a vector of the
    same shape for the same variable. *)
Definition shape_preserving (f : pairs -> pairs) : Prop :=
  forall l, map snd (f l) = map snd l /\ same_shape (map fst (f l)) (map fst l).

(** Gradients for at least one variable, each variable once, with the variable's
    shape. *)
Definition well_shaped (s : st) (g : pairs) : Prop :=
  g <> [] /\ fits (s_vel s) g /\ (forall k, length (s_vel s k) = length (s_params s k)).

(** The library side of a step is well-behaved: the preconditioner and the
    curvature preserve shapes, the transposed factor is linear. *)
Definition good_ctx (x : ctx) (g : pairs) : Prop :=
  shape_preserving (x_precond x) /\ shape_preserving (x_mult x) /\ linear_on (x_mft x) (map fst g).

(** Coordinate [j] of variable [k] in the lists of a history. *)
Definition coords (k j : nat) (ls : list pairs) : list R := map (entry_of k j) ls.

(** The previous update, as remembered by the velocities. *)
Definition previous_update (s : st) (vars : list nat) : list vec :=
  map (fun k => map (Rmult (-1)) (s_vel s k)) vars.

(** The learning rate the constructor sets for the quadratic-model modes. *)
Definition qmodel_lr (c : cfg) : Prop :=
  c_lr c = match c_rescale c with Some r => r | None => 1 end.

(** Curvature of the quadratic model along [d]. *)
Definition curvature (mft : list vec -> list vec) (n lambda : R) (d : list vec) : R :=
  inner (mft d) (mft d) / n + lambda * inner d d.

(** The damping that the reported change contains: all of it, or only the part
    that the user's l2 regularisation accounts for. *)
Definition reported_lambda (c : cfg) (s : st) : R :=
  if c_incl c then s_damping s else c_l2 c.

(** Every call of a history gets gradients of the right shapes and well-behaved
    library functions. *)
Definition good_history (s : st) (h : list (ctx * pairs)) : Prop :=
  forall x g, In (x, g) h -> well_shaped s g /\ good_ctx x g.
Definition dirs_of (c : cfg) (h : list (ctx * pairs)) : list pairs :=
  map (fun e => direction c (snd e) (x_precond (fst e) (snd e))) h.

(** The approximate model of the loss change for a displacement [d] of the
    variables [vars], with the curvature [mult] reduced by [removed] times the
    identity, and gradient [g]. *)
Definition approx_quad (mult : pairs -> pairs) (removed : R) (vars : list nat) (g d : list vec) : R :=
  1/2 * (inner d (map fst (mult (zip d vars))) - removed * inner d d) + inner d g.

(** The damping that the reported change of the approximate model leaves out. *)
Definition removed_damping (c : cfg) (s : st) : R :=
  if c_incl c then 0 else s_damping s - c_l2 c.

(** The velocities of the given variables, paired with them. *)
Definition velocity_pairs (s : st) (vars : list nat) : pairs := map (fun k => (s_vel s k, k)) vars.

(* ------------------------------------------------------------------------ *)
(** * Training runs *)

(** [states t] is the state after [t] executions of the op that minimize returns,
    the [t]-th execution having read [inputs t]. *)
Definition is_run {Batch I Inv} (p : pcfg) (e : env Batch I Inv) (start : pst I Inv)
    (inputs : nat -> input Batch) (states : nat -> pst I Inv) : Prop :=
  states 0%nat = start /\
  forall t, minimize p e (states t) (inputs t) = Ok (states (S t)).

(** The library and the model behave: gradients for a fixed non-empty list of
    distinct variables with the shapes of the parameters, shape-preserving
    transformations, a linear curvature factor, one statistic per factor. *)
Definition good_env {Batch I Inv} (e : env Batch I Inv) (params0 : nat -> vec) (factors : nat) : Prop :=
  (forall params b, (forall k, length (params k) = length (params0 k)) ->
     e_grads e params b <> [] /\ fits params0 (e_grads e params b) /\
     linear_on (e_mft e params b) (map fst (e_grads e params b)) /\
     length (e_stats e params b) = factors) /\
  (forall inv, shape_preserving (e_precond e inv)) /\
  (forall cov inv d, shape_preserving (e_mult e cov inv d)).

(** The statistic that execution [t] contributes to factor [f]. *)
Definition stat_at {Batch I Inv} (e : env Batch I Inv) (inputs : nat -> input Batch)
    (states : nat -> pst I Inv) (f t : nat) : I -> R :=
  nth f (e_stats e (s_params (o_st (states t))) (i_batch (inputs t))) (fun _ => 0).

(** Average over the first [n] executions. *)
Definition mean_to (n : nat) (f : nat -> R) : R := sum_to n f / INR n.
