(** What the properties of automatic registration speak about. *)
From Coq Require Import String List Arith ZArith Bool.
From Verif.Base Require Import Py.
From Verif.Graph Require Import Model.
From Verif.Registry Require Import Model.
From Verif.Match Require Model Spec.
From Verif.Search Require Import Model.
Import ListNotations.
Open Scope list_scope.

(* ------------------------------------------------------------------------ *)
(** * Filtering *)

(** Records grouped by parameters. *)
Definition grouped (d : list (params * list record)) : Prop :=
  NoDup (map fst d) /\ forall p l r, In (p, l) d -> In r l -> r_params r = p.
Definition candidate (d : list (params * list record)) (r : record) : Prop :=
  exists l, In (r_params r, l) d /\ In r l.

Definition uses_var (r : record) (v : nat) : Prop := In v (vars_of (r_params r)).
(** The record uses a variable that the user registered; it violates a linked group. *)
Definition touches (user : list nat) (r : record) : Prop := exists v, uses_var r v /\ In v user.
Definition violates (group : list nat) (r : record) : Prop :=
  (exists v, uses_var r v /\ In v group) /\ ~ (forall v, uses_var r v <-> In v group).
(** A record that the first two documented rules leave. *)
Definition eligible (linked : list (list nat)) (user : list nat) (r : record) : Prop :=
  ~ touches user r /\ forall grp, In grp linked -> ~ violates grp r.
(** Strictly smaller match. *)
Definition part_of (r o : record) : Prop :=
  (forall x, In x (r_tensors r) -> In x (r_tensors o)) /\
  exists x, In x (r_tensors o) /\ ~ In x (r_tensors r).
(** Strictly smaller than another candidate that passes the first two rules. *)
Definition absorbed (linked : list (list nat)) (user : list nat) (d : list (params * list record)) (r : record) : Prop :=
  exists o, candidate d o /\ eligible linked user o /\ part_of r o.
(** The same, where the other candidate also shares a variable. *)
Definition absorbed_sharing (linked : list (list nat)) (user : list nat) (d : list (params * list record)) (r : record) : Prop :=
  exists o v, candidate d o /\ eligible linked user o /\ part_of r o /\ uses_var r v /\ uses_var o v.
Definition kept (linked : list (list nat)) (user : list nat) (d : list (params * list record)) (r : record) : Prop :=
  eligible linked user r /\ ~ absorbed_sharing linked user d r.

(** Parameter groups that could not all be registered. *)
Definition conflicting (ps : list params) : Prop :=
  ~ (NoDup (concat (map vars_of ps))).

(* ------------------------------------------------------------------------ *)
(** * Registration *)

(** What one tower's pass registers for a group of parameters, given the records [d] that
    the filter left: the inputs and outputs of a layer's records; or just the batch size, for
    (the parts of) a batch normalisation and for every single variable that is in no record. *)
Inductive tower_data (d : list (params * list record)) (varlist user : list nat) (batch_size : option nat)
  : params -> tower -> Prop :=
| td_layer p l : In (p, l) d -> (forall r, In r l -> r_type r <> RT_batch_norm) ->
    tower_data d varlist user batch_size p (mkTower (map r_inputs l) (map r_outputs l))
| td_norm p l q n : In (p, l) d -> (forall r, In r l -> r_type r = RT_batch_norm) ->
    q = p \/ (exists v, In v (vars_of p) /\ q = PVar v) -> batch_size = Some n ->
    tower_data d varlist user batch_size q (mkTower [n] [])
| td_rest v n : In v varlist -> ~ In v user -> (forall p l, In (p, l) d -> ~ In v (vars_of p)) ->
    batch_size = Some n -> tower_data d varlist user batch_size (PVar v) (mkTower [n] []).

(** The data registered for [p] by the pass over the loss inputs [outs]. *)
Definition tower_for (pr : program) (linked : list (list nat)) (varlist user : list nat) (batch_size : option nat)
    (outs : list linputs) (p : params) (tw : tower) : Prop :=
  exists members found d,
    subgraph_of_losses (Match.Model.tg_graph (pr_graph pr)) outs = Ok members /\
    find_records pr varlist members = Ok found /\ filter_records linked found user = Ok d /\
    tower_data d varlist user batch_size p tw.

(** The inputs of the [i]-th tower of every loss. *)
Definition tower_outs (loss_in : nat -> linputs) (c : coll) (i : nat) : list linputs :=
  concat (map (fun ts => match nth_error ts i with Some x => [loss_in x] | None => [] end) (towers_by_loss c)).

(* ------------------------------------------------------------------------ *)
(** * What the scan finds *)

(** Tensor [t] stands for variable [v] of the list; no tensor stands for two of them. *)
Definition stands (pr : program) (varlist : list nat) (t v : nat) : Prop :=
  In v varlist /\ exists ts, pr_tensors pr v = Ok ts /\ In t ts.
Definition separate (pr : program) (varlist : list nat) : Prop :=
  forall t v w, stands pr varlist t v -> stands pr varlist t w -> v = w.
(** Variable of an optional tensor. *)
Definition trains (pr : program) (varlist : list nat) (t : option nat) (v : option nat) : Prop :=
  match v with
  | Some v => exists x, t = Some x /\ stands pr varlist x v
  | None => forall x v, t = Some x -> ~ stands pr varlist x v
  end.

(** Tensor [t] is the output of a layer of type [ty] with input [i] and the two parameter
    tensors [a] and [b]; [dense] and [attrs] (strides, and whether the data format is NHWC)
    describe its operation. *)
Inductive layer_at (pr : program) (t : nat) : rtype -> nat -> option nat -> option nat -> bool -> list Z * bool -> Prop :=
| la_matmul l : Match.Spec.dense_layer (pr_graph pr) t l ->
    Match.Spec.has_type (pr_graph pr) (Match.Spec.l_op l) ["MatMul"%string; "BatchMatMulV2"%string] ->
    layer_at pr t RT_fully_connected (Match.Spec.l_in l) (Some (Match.Spec.l_weights l)) (Match.Spec.l_biases l) true ([], true)
| la_conv l : Match.Spec.dense_layer (pr_graph pr) t l ->
    Match.Spec.has_type (pr_graph pr) (Match.Spec.l_op l) ["Conv2D"%string] ->
    layer_at pr t RT_conv2d (Match.Spec.l_in l) (Some (Match.Spec.l_weights l)) (Match.Spec.l_biases l) true
      (pr_strides pr (Match.Spec.l_op l), pr_nhwc pr (Match.Spec.l_op l))
| la_embed l ax : Match.Spec.embedding (pr_graph pr) t l ax ->
    layer_at pr t RT_fully_connected (Match.Spec.l_in l) (Some (Match.Spec.l_weights l)) None false ([], true)
| la_scale i s sh : Match.Spec.scale_shift (pr_graph pr) t i s sh ->
    layer_at pr t RT_scale_and_shift i (Some s) sh true ([], true)
| la_norm i s o : Match.Spec.batch_norm (pr_graph pr) t i s o -> layer_at pr t RT_batch_norm i s o true ([], true)
| la_fused i s o : Match.Spec.fused_norm (pr_graph pr) t i s o ->
    layer_at pr t RT_batch_norm i (Some s) (Some o) true ([], true).

(** The parameters of a layer: those of its parameter tensors that stand for variables.  All
    but batch normalisations need the first one. *)
Definition layer_params (pr : program) (varlist : list nat) (ty : rtype) (a b : option nat) (p : params) : Prop :=
  exists v w, trains pr varlist a v /\ trains pr varlist b w /\
    match v, w with
    | Some v, Some w => p = PTup [v; w]
    | Some v, None => p = PVar v
    | None, Some w => ty = RT_batch_norm /\ p = PVar w
    | None, None => False
    end.

(** A set of nodes is the whole of a match of one of the five patterns at [t]. *)
Definition is_match (pr : program) (t : nat) (nodes : list node) : Prop :=
  let g := pr_graph pr in
  exists q P b used,
    In q [Match.Model.gp_Affine g; Match.Model.gp_ScaleAndShift g; Match.Model.gp_BatchNorm g;
          Match.Model.gp_FusedBatchNormOutput g; Match.Model.gp_Embed g] /\
    Match.Spec.denotes q P /\ Match.Spec.binds g P [] b (Match.Model.DNode (Tn t)) used /\
    Match.Spec.same_nodes nodes used.
(** Fully connected layers that the optimizer supports: no more than two dimensions besides
    the features (one for sparse inputs), and no argument is transposed. *)
Definition supported (pr : program) (t : nat) (r : record) : Prop :=
  r_type r = RT_fully_connected ->
  rank pr (r_inputs r) <= (if r_dense r then 3 else 2) /\
  forall l, r_dense r = true -> Match.Spec.dense_layer (pr_graph pr) t l -> pr_transposed pr (Match.Spec.l_op l) = false.
(** The record of the layer with output [t]. *)
Definition record_for (pr : program) (varlist : list nat) (t : nat) (r : record) : Prop :=
  exists a b, layer_at pr t (r_type r) (r_inputs r) a b (r_dense r) (r_strides r, r_nhwc r) /\
              layer_params pr varlist (r_type r) a b (r_params r) /\ r_outputs r = t /\
              is_match pr t (r_tensors r) /\ supported pr t r.
(** A layer of type [ty] ends at [t], and it trains some of the variables however it is read. *)
Definition trained_layer (pr : program) (varlist : list nat) (t : nat) (ty : rtype) : Prop :=
  (exists i a b dense attrs, layer_at pr t ty i a b dense attrs) /\
  forall i a b dense attrs, layer_at pr t ty i a b dense attrs -> exists p, layer_params pr varlist ty a b p.
(** Tensors of a subgraph that are computed by an operation other than an identity. *)
Definition proper_member (pr : program) (members : list node) (t : nat) : Prop :=
  let g := Match.Model.tg_graph (pr_graph pr) in
  In (Tn t) members /\ t < g_ntensors g /\ Match.Model.is_identity (pr_graph pr) (g_op g t) = false.
(** Every tensor is an output of the operation that produces it, and of no other. *)
Definition outputs_agree (g : graph) : Prop :=
  (forall t, t < g_ntensors g -> g_op g t < g_nops g /\ In t (g_outputs g (g_op g t))) /\
  forall o t, o < g_nops g -> In t (g_outputs g o) -> t < g_ntensors g /\ g_op g t = o.

(* ------------------------------------------------------------------------ *)
(** * The calls made for a group of records *)

(** The largest rank of an input without a dimension for uses. *)
Definition usual_rank (r : record) : nat :=
  match r_type r with RT_conv2d => 4 | _ => if r_dense r then 2 else 1 end.
(** The first dimension of the input of a record. *)
Definition leading (pr : program) (r : record) : option nat :=
  match pr_dims pr (r_inputs r) with Some (d, _) => d | None => None end.
(** The documented number of uses: [batch_size * uses] is the size of a folded leading
    dimension; the leading dimension of an input with one more dimension is the number of
    uses; otherwise the layer is used once. *)
Definition uses_of (pr : program) (batch_size : option nat) (r : record) (uses : option nat) : Prop :=
  if Nat.ltb (usual_rank r) (rank pr (r_inputs r)) then
    forall f, leading pr r = Some f -> uses = Some f
  else
    match uses with
    | Some u => exists n f, batch_size = Some n /\ leading pr r = Some f /\ f = u * n /\ f <> n
    | None => forall n f, batch_size = Some n -> leading pr r = Some f -> f = n
    end.
