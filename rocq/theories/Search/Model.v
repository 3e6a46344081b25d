(** Model of kfac/python/ops/tensormatch/graph_search.py: automatic registration of the
    layers of a graph. *)
From Coq Require Import String List Arith ZArith Bool.
From Verif.Base Require Import Py.
From Verif.Graph Require Import Model.
From Verif.Registry Require Import Model.
From Verif.Match Require Model.
Import ListNotations.
Open Scope string_scope.
Open Scope list_scope.
Notation tgraph := Match.Model.tgraph.
Notation datum := Match.Model.datum.
Notation bindings := Match.Model.bindings.

(* ------------------------------------------------------------------------ *)
(** * The program under analysis *)

(** The graph with the attributes of its operations and the static shapes of its tensors.
    Variables and tensors are numbered separately: [pr_tensors v] are the tensors that stand
    for variable [v] (graph_search.py:380-394: its handle, the captures of its handle, or its
    reference), or an exception if it is no variable.  Simplifications: the rank of a tensor
    is known, and so is every dimension but possibly the first ([None] is a scalar); the
    attributes padding and data_format matter only as [pr_nhwc]. *)
Record program := mkProgram {
  pr_graph : tgraph;
  pr_transposed : nat -> bool;           (* transpose_a or transpose_b, adj_x or adj_y *)
  pr_strides : nat -> list Z;
  pr_dilations : nat -> list Z;
  pr_nhwc : nat -> bool;
  pr_dims : nat -> option (option nat * list nat);
  pr_tensors : nat -> res (list nat);
  pr_shape : nat -> list nat;            (* shapes of the variables *)
  pr_str : params -> string }.           (* str(params) *)

Definition rank (pr : program) (t : nat) : nat :=
  match pr_dims pr t with None => 0 | Some (_, rest) => S (List.length rest) end.
(** A tensor as an argument of a registration function, which never looks at the first
    dimension of an input or output. *)
Definition arg (pr : program) (t : nat) : targ :=
  mkArg t match pr_dims pr t with
          | None => []
          | Some (d, rest) => match d with Some n => n | None => 0 end :: rest
          end.

(* ------------------------------------------------------------------------ *)
(** * Match records  (graph_search.py:30-68) *)

Inductive rtype := RT_fully_connected | RT_conv2d | RT_scale_and_shift | RT_batch_norm.
Definition rtype_eqb (a b : rtype) : bool :=
  match a, b with
  | RT_fully_connected, RT_fully_connected | RT_conv2d, RT_conv2d
  | RT_scale_and_shift, RT_scale_and_shift | RT_batch_norm, RT_batch_norm => true
  | _, _ => false
  end.

(** graph_search.py:41-60.  Of [data] there are the inputs and outputs of every record, and
    what the functions below store: dense_inputs, and strides and data_format. *)
Record record := mkRec {
  r_type : rtype;
  r_params : params;
  r_tensors : list node;
  r_inputs : nat;
  r_outputs : nat;
  r_dense : bool;
  r_strides : list Z;
  r_nhwc : bool }.

(** bindings[name] *)
Definition binding (b : bindings) (n : string) : res node :=
  match Match.Model.lookup b n with Some x => Ok x | None => Raise KeyError end.
Definition tensor_binding (b : bindings) (n : string) : res nat :=
  do x <- binding b n; match x with Tn t => Ok t | _ => Raise AttributeError end.
Definition op_binding (b : bindings) (n : string) : res nat :=
  do x <- binding b n; match x with Opn o => Ok o | _ => Raise AttributeError end.

(** tensors_to_variables: a dict comprehension, later variables win. *)
Notation varmap := (list (nat * nat)).
Fixpoint var_of (m : varmap) (t : nat) : option nat :=
  match m with
  | [] => None
  | (t', v) :: m' => match var_of m' t with Some w => Some w | None => if Nat.eqb t' t then Some v else None end
  end.
Definition var_at (m : varmap) (x : node) : option nat := match x with Tn t => var_of m t | _ => None end.
(** [if name in bindings: tensors_to_variables.get(bindings[name]) else: None] *)
Definition optional_var (m : varmap) (b : bindings) (n : string) : option nat :=
  match Match.Model.lookup b n with Some x => var_at m x | None => None end.

Section Records.
Variable pr : program.
Notation op_type o := (Match.Model.tg_type (pr_graph pr) o).

(** graph_search.py:71-158 *)
Definition record_affine_from_bindings (b : bindings) (consumed : list node) (m : varmap)
  : res (option record) :=
  let biases := optional_var m b "biases" in
  do w <- binding b "weights";
  let weights := var_at m w in
  do inputs <- tensor_binding b "in";
  do outputs <- tensor_binding b "pre_activations";
  do linear_op <- op_binding b "linear_op";
  match biases, weights with
  | Some _, None => Raise ValueError
  | None, None => Ok None
  | _, Some w =>
      let ps := match biases with Some v => PTup [w; v] | None => PVar w end in
      let ty := op_type linear_op in
      let is_sparse := String.eqb ty "Gather" || String.eqb ty "GatherV2" || String.eqb ty "ResourceGather" in
      if String.eqb ty "MatMul" || String.eqb ty "BatchMatMulV2" || is_sparse then
        if (Nat.leb 4 (rank pr inputs)) || (is_sparse && Nat.leb 3 (rank pr inputs)) then Raise ValueError
        else if (String.eqb ty "MatMul" || String.eqb ty "BatchMatMulV2") && pr_transposed pr linear_op
        then Raise ValueError
        else Ok (Some (mkRec RT_fully_connected ps consumed inputs outputs (negb is_sparse) [] true))
      else if String.eqb ty "Conv2D" then
        Ok (Some (mkRec RT_conv2d ps consumed inputs outputs true (pr_strides pr linear_op) (pr_nhwc pr linear_op)))
      else Raise ValueError
  end.

(** graph_search.py:161-203 *)
Definition record_scale_and_shift_from_bindings (b : bindings) (consumed : list node) (m : varmap)
  : res (option record) :=
  let shift := optional_var m b "shift" in
  do s <- binding b "scale";
  let scale := var_at m s in
  do inputs <- tensor_binding b "in";
  do outputs <- tensor_binding b "out";
  match shift, scale with
  | Some _, None => Raise ValueError
  | None, None => Ok None
  | _, Some s =>
      let ps := match shift with Some v => PTup [s; v] | None => PVar s end in
      Ok (Some (mkRec RT_scale_and_shift ps consumed inputs outputs true [] true))
  end.

(** graph_search.py:206-248 *)
Definition record_batch_norm_from_bindings (b : bindings) (consumed : list node) (m : varmap)
  : res (option record) :=
  let offset := optional_var m b "offset" in
  let scale := optional_var m b "scale" in
  do inputs <- tensor_binding b "in";
  do outputs <- tensor_binding b "out";
  let ps := match scale, offset with
            | Some s, Some o => Some (PTup [s; o])
            | Some s, None => Some (PVar s)
            | None, Some o => Some (PVar o)
            | None, None => None
            end in
  Ok (option_map (fun ps => mkRec RT_batch_norm ps consumed inputs outputs true [] true) ps).

(* ------------------------------------------------------------------------ *)
(** * Scanning a subgraph  (graph_search.py:365-423) *)

(** record_list_dict, in insertion order. *)
Notation records := (list (params * list record)).
Fixpoint add_record (d : records) (r : record) : records :=
  match d with
  | [] => [(r_params r, [r])]
  | (p, l) :: d' => if params_eqb p (r_params r) then (p, l ++ [r]) :: d' else (p, l) :: add_record d' r
  end.

Fixpoint mapM {A B} (f : A -> res B) (l : list A) : res (list B) :=
  match l with
  | [] => Ok []
  | x :: l' => do y <- f x; do ys <- mapM f l'; Ok (y :: ys)
  end.
(** A loop that threads a value. *)
Fixpoint foldM {A S} (f : S -> A -> res S) (l : list A) (s : S) : res S :=
  match l with
  | [] => Ok s
  | x :: l' => do s' <- f s x; foldM f l' s'
  end.

(** graph_search.py:366-376 *)
Definition match_register_list
  : res (list ((datum -> res Match.Model.value) * (bindings -> list node -> varmap -> res (option record)))) :=
  let g := pr_graph pr in
  do affine <- Match.Model.matcher_with_consumed g (Match.Model.gp_Affine g);
  do scale <- Match.Model.matcher_with_consumed g (Match.Model.gp_ScaleAndShift g);
  do norm <- Match.Model.matcher_with_consumed g (Match.Model.gp_BatchNorm g);
  do fused <- Match.Model.matcher_with_consumed g (Match.Model.gp_FusedBatchNormOutput g);
  do embed <- Match.Model.matcher_with_consumed g (Match.Model.gp_Embed g);
  Ok [(affine, record_affine_from_bindings); (scale, record_scale_and_shift_from_bindings);
      (norm, record_batch_norm_from_bindings); (fused, record_batch_norm_from_bindings);
      (embed, record_affine_from_bindings)].

(** The loop body of 412-423: one tensor, one pattern. *)
Definition try_pattern (m : varmap) (t : node) (d : records)
    (mr : (datum -> res Match.Model.value) * (bindings -> list node -> varmap -> res (option record)))
  : res records :=
  do v <- fst mr (Match.Model.DNode t);
  if Match.Model.truthy v then
    match v with
    | Match.Model.VPair b consumed =>
        do r <- snd mr b consumed m;
        match r with None => Ok d | Some r => Ok (add_record d r) end
    | _ => Raise TypeError
    end
  else Ok d.

(** graph_search.py:393-394 *)
Definition tensors_to_variables (varlist : list nat) : res varmap :=
  do l <- mapM (fun v => do ts <- pr_tensors pr v; Ok (map (fun t => (t, v)) ts)) varlist;
  Ok (concat l).

(** graph_search.py:396-423: all tensors of the subgraph that identities do not produce, in
    the order of the operations. *)
Definition scanned_tensors (members : list node) : list node :=
  let g := pr_graph pr in
  let ops := filter (fun o => negb (Match.Model.is_identity g o)) (seq 0 (g_nops (Match.Model.tg_graph g))) in
  filter_list members (map Tn (concat (map (g_outputs (Match.Model.tg_graph g)) ops))).
Definition find_records (varlist : list nat) (members : list node) : res records :=
  do ml <- match_register_list;
  do m <- tensors_to_variables varlist;
  foldM (fun d t => foldM (try_pattern m t) ml d) (scanned_tensors members) [].

(* ------------------------------------------------------------------------ *)
(** * Filtering  (graph_search.py:471-577) *)

(** 471-479 *)
Definition filter_user_registered_records (d : records) (user : list nat) : records :=
  filter (fun pl => negb (existsb (fun v => mem v user) (vars_of (fst pl)))) d.

(** 482-493 *)
Definition filter_grouped_variable_records (linked : list (list nat)) (d : records) : records :=
  filter (fun pl => negb (existsb (fun grp => existsb (fun v => mem v grp) (vars_of (fst pl))
                                             && negb (set_eqb (vars_of (fst pl)) grp)) linked)) d.

(** Python's [a < b] for sets. *)
Definition strict_subset (a b : list node) : bool :=
  forallb (fun x => in_members x b) a && negb (forallb (fun x => in_members x a) b).

(** 496-527.  The two passes with the set [records_to_remove] (records are compared by
    identity) amount to a filter, since whether a record is marked depends only on its
    parameters and tensors. *)
Definition filter_subgraph_records (d : records) : records :=
  let flat := concat (map snd d) in
  let records_by_variable v := filter (fun r => mem v (vars_of (r_params r))) flat in
  let to_remove r := existsb (fun v => existsb (fun o => strict_subset (r_tensors r) (r_tensors o))
                                               (records_by_variable v)) (vars_of (r_params r)) in
  fold_left add_record (filter (fun r => negb (to_remove r)) flat) [].

(** 560-575: the number of error messages. *)
Fixpoint ambiguities (vs : list nat) (recorded : list nat) : nat :=
  match vs with
  | [] => 0
  | v :: vs' => if mem v recorded then S (ambiguities vs' recorded) else ambiguities vs' (v :: recorded)
  end.
(** 530-577; [linked] is layer_collection.linked_parameters. *)
Definition filter_records (linked : list (list nat)) (d : records) (user : list nat) : res records :=
  let d := filter_user_registered_records d user in
  let d := filter_grouped_variable_records linked d in
  let d := filter_subgraph_records d in
  if Nat.eqb (ambiguities (concat (map (fun pl => vars_of (fst pl)) d)) []) 0 then Ok d
  else Raise AmbiguousRegistrationError.

(* ------------------------------------------------------------------------ *)
(** * Registering records  (graph_search.py:580-816) *)

(** A registration call with its num_uses argument, which the collection passes on to the
    block without looking at it. *)
Record planned := mkPlan { pl_call : layer_call; pl_uses : option nat }.

(** 664-724 *)
Definition plan_fully_connected (c : coll) (r : reuse) (batch_size : option nat) (p : params)
    (first : record) (rest : list record) : res (list planned) :=
  let dense := r_dense first in
  let approx := if negb dense && match get_linked_approx c p with None => true | Some _ => false end
                then Some "kron_indep_in_diag" else None in
  match rest with
  | _ :: _ =>
      let l := first :: rest in
      Ok [mkPlan (FullyConnectedMulti p (AMany (map (fun x => arg pr (r_inputs x)) l))
                    (AMany (map (fun x => arg pr (r_outputs x)) l)) approx dense r) None]
  | [] =>
      let limit := if dense then 2 else 1 in
      let i := arg pr (r_inputs first) in
      let o := arg pr (r_outputs first) in
      match pr_dims pr (r_inputs first) with
      | None => Raise IndexError
      | Some (first_dim, dims) =>
          let num_dim := S (List.length dims) in
          let too_many := Nat.ltb limit num_dim in
          match batch_size, first_dim with
          | Some n, Some f =>
              if negb (Nat.eqb f n) && negb too_many then
                if Nat.eqb n 0 then Raise ZeroDivisionError
                else if negb (Nat.eqb (f mod n) 0) then Raise ValueError
                else Ok [mkPlan (FullyConnectedMulti p (AOne i) (AOne o) approx dense r) (Some (f / n))]
              else if too_many then
                match dims with
                | [] => Raise IndexError
                | d1 :: _ => Ok [mkPlan (FullyConnectedMulti p (AOne i) (AOne o) approx dense r) (Some d1)]
                end
              else Ok [mkPlan (FullyConnected p i o approx dense r) None]
          | _, _ =>
              if too_many then
                match dims with
                | [] => Raise IndexError
                | d1 :: _ => Ok [mkPlan (FullyConnectedMulti p (AOne i) (AOne o) approx dense r) (Some d1)]
                end
              else Ok [mkPlan (FullyConnected p i o approx dense r) None]
          end
      end
  end.

(** 726-780; strides and padding are not arguments of the multi-use block's checks. *)
Definition plan_conv2d (r : reuse) (batch_size : option nat) (p : params)
    (first : record) (rest : list record) : res (list planned) :=
  match rest with
  | _ :: _ =>
      let l := first :: rest in
      Ok [mkPlan (Conv2dMulti p (AMany (map (fun x => arg pr (r_inputs x)) l))
                    (AMany (map (fun x => arg pr (r_outputs x)) l)) (r_nhwc first) None r) None]
  | [] =>
      let i := arg pr (r_inputs first) in
      let o := arg pr (r_outputs first) in
      match pr_dims pr (r_inputs first) with
      | None => Raise IndexError
      | Some (first_dim, dims) =>
          let too_many := Nat.ltb 4 (S (List.length dims)) in
          let single := Ok [mkPlan (Conv2d p (r_strides first) None i o (r_nhwc first) None r) None] in
          match batch_size, first_dim with
          | Some n, Some f =>
              if negb (Nat.eqb f n) && negb too_many then
                if Nat.eqb n 0 then Raise ZeroDivisionError
                else if negb (Nat.eqb (f mod n) 0) then Raise ValueError
                else Ok [mkPlan (Conv2dMulti p (AOne i) (AOne o) (r_nhwc first) None r) (Some (f / n))]
              else if too_many then Raise ValueError
              else single
          | _, _ => if too_many then Raise ValueError else single
          end
      end
  end.

(** 782-794 *)
Definition plan_scale_and_shift (r : reuse) (p : params) (first : record) (rest : list record)
  : res (list planned) :=
  match rest with
  | _ :: _ => Raise ValueError
  | [] => Ok [mkPlan (ScaleAndShift p (arg pr (r_inputs first)) (arg pr (r_outputs first)) None r) None]
  end.

(** 796-810 *)
Definition plan_batch_norm (c : coll) (r : reuse) (batch_size : option nat) (p : params)
  : res (list planned) :=
  match batch_size with
  | None => Raise AmbiguousRegistrationError
  | Some n =>
      let will_use_diag :=
        match get_linked_approx c p with
        | Some a => String.eqb a "diagonal"
        | None => String.eqb (d_generic (c_def c)) "diagonal"
        end in
      Ok (map (fun q => mkPlan (Generic q n None r) None)
              (if will_use_diag then map PVar (vars_of p) else [p]))
  end.

(** The registration calls for one group of parameters; [None] if its records have mixed
    types (649-656), which is reported after everything else was registered. *)
Definition plan (c : coll) (r : reuse) (batch_size : option nat) (p : params) (l : list record)
  : res (option (list planned)) :=
  match l with
  | [] => Raise IndexError
  | first :: rest =>
      if negb (forallb (fun x => rtype_eqb (r_type first) (r_type x)) l) then Ok None
      else
        do calls <- match r_type first with
                    | RT_fully_connected => plan_fully_connected c r batch_size p first rest
                    | RT_conv2d => plan_conv2d r batch_size p first rest
                    | RT_scale_and_shift => plan_scale_and_shift r p first rest
                    | RT_batch_norm => plan_batch_norm c r batch_size p
                    end;
        Ok (Some calls)
  end.

(** Calls in turn.  The functions pass [reuse] explicitly; inside register_layers the
    variable scope has the same flag (312-313). *)
Fixpoint run_calls (r : reuse) (l : list planned) : M unit :=
  match l with
  | [] => ret tt
  | x :: l' => let! _ := run_layer (pr_shape pr) r (pl_call x) in run_calls r l'
  end.

(** sorted(record_list_dict.keys(), key=str): a stable sort. *)
Fixpoint insert_sorted (x : params * list record) (l : records) : records :=
  match l with
  | [] => [x]
  | y :: l' => if String.leb (pr_str pr (fst x)) (pr_str pr (fst y)) then x :: l else y :: insert_sorted x l'
  end.
Definition sorted_records (d : records) : records := fold_right insert_sorted [] d.

Fixpoint register_loop (r : reuse) (batch_size : option nat) (d : records) (mixed : bool) : M unit :=
  match d with
  | [] => if mixed then raise ValueError else ret tt
  | (p, l) :: d' =>
      let! calls := (fun c => (c, plan c r batch_size p l)) in
      match calls with
      | None => register_loop r batch_size d' true
      | Some calls => let! _ := run_calls r calls in register_loop r batch_size d' mixed
      end
  end.
(** 580-816 *)
Definition register_records (d : records) (r : reuse) (batch_size : option nat) : M unit :=
  register_loop r batch_size (sorted_records d) false.

(* ------------------------------------------------------------------------ *)
(** * Registering a subgraph, and all of them *)

(** 439-468: what the scan left over is registered generically. *)
Fixpoint register_rest (varlist registered : list nat) (r : reuse) (batch_size : option nat) : M unit :=
  match varlist with
  | [] => ret tt
  | v :: varlist' =>
      if mem v registered then register_rest varlist' registered r batch_size
      else
        let! _ := (fun c =>
          if existsb (fun grp => mem v (fst grp) && Nat.ltb 1 (List.length (nodup Nat.eq_dec (fst grp)))) (c_linked c)
          then (c, Raise ValueError)
          else match batch_size with
               | None => (c, Raise AmbiguousRegistrationError)
               | Some n => run_layer (pr_shape pr) r (Generic (PVar v) n None r) c
               end) in
        register_rest varlist' registered r batch_size
  end.

(** 330-468 *)
Definition register_subgraph_layers (varlist : list nat) (members : list node) (user : list nat)
    (r : reuse) (batch_size : option nat) : M unit :=
  let! found := lift (find_records varlist members) in
  let! d := (fun c => (c, filter_records (map fst (c_linked c)) found user)) in
  let! _ := register_records d r batch_size in
  register_rest varlist (concat (map (fun pl => vars_of (fst pl)) d) ++ user) r batch_size.

(** The inputs of a loss: a tensor, or the pair of mean and variance
    (loss_functions.py:190-191, 401-402, 466-467, 607-608, 678-679). *)
Inductive linputs := LOne (t : nat) | LPair (mean variance : nat).
(** A node of the list handed to SubGraph: a pair of tensors is neither a tensor nor an
    operation. *)
Definition loss_node (x : linputs) : node :=
  match x with LOne t => Tn t | LPair m _ => Other m end.
(** utils.py:362-367: [outputs[0].graph] *)
Definition subgraph_of_losses (g : graph) (outs : list linputs) : res (list node) :=
  match outs with
  | LPair _ _ :: _ => Raise AttributeError
  | _ => subgraph g (map loss_node outs)
  end.

(** zip over the losses (311) *)
Fixpoint transpose_losses (n : nat) (l : list (list linputs)) : list (list linputs) :=
  match n with
  | 0 => []
  | S n' => concat (map (fun xs => match xs with [] => [] | x :: _ => [x] end) l)
            :: transpose_losses n' (map (@tl linputs) l)
  end.

(** The loop over towers, 311-321. *)
Fixpoint register_towers (varlist user : list nat) (batch_size : option nat)
    (towers : list (list linputs)) (first : bool) : M unit :=
  match towers with
  | [] => ret tt
  | outs :: towers' =>
      let r := if first then RFalse else RTrue in
      let! members := lift (subgraph_of_losses (Match.Model.tg_graph (pr_graph pr)) outs) in
      let! _ := register_subgraph_layers varlist members user r batch_size in
      register_towers varlist user batch_size towers' false
  end.

(** 251-327; [loss_in] gives the inputs of a loss object.  The result is the list of the
    new keys (the order of a set difference is not specified; insertion order here). *)
Definition register_layers (loss_in : nat -> linputs) (varlist : list nat) (batch_size : option nat)
  : M (list params) :=
  let! c0 := (fun c => (c, Ok c)) in
  let user := registered (c_blocks c0) in
  match losses c0 with
  | [] => raise ValueError
  | _ =>
      let inputs_by_loss := map (map loss_in) (towers_by_loss c0) in
      match inputs_by_loss with
      | [] => raise IndexError
      | l0 :: _ =>
          let num_towers := List.length l0 in
          if negb (forallb (fun l => Nat.eqb (List.length l) num_towers) inputs_by_loss)
          then raise ValueError
          else
            let! _ := register_towers varlist user batch_size (transpose_losses num_towers inputs_by_loss) true in
            let! c1 := (fun c => (c, Ok c)) in
            ret (filter (fun p => negb (existsb (params_eqb p) (map fst (c_blocks c0)))) (map fst (c_blocks c1)))
      end
  end.
End Records.
