(** Property theorems C50, C51 and C63-C67. *)
From Coq Require Import String List Arith ZArith Bool Lia Reals Permutation.
From Verif.Base Require Import Py.
From Verif.Graph Require Import Model Spec.
From Verif.Registry Require Import Model Spec.
From Verif.Match Require Model Spec Props.
From Verif.Search Require Import Model Spec FilterProofs RegisterProofs FindProofs PlanProofs.
Import ListNotations.
Open Scope string_scope.
Open Scope list_scope.
Open Scope nat_scope.

(** The program around the graph of [y = relu(matmul(x, read(w)) + read(b))] of Match.Props:
    variables 0 and 1 are w and b, 2 and 3 do not occur in the graph. *)
Definition relu_program : program :=
  mkProgram Match.Props.relu_graph (fun _ => false) (fun _ => []) (fun _ => []) (fun _ => true)
    (fun t => match t with 0 => Some (Some 5, [3]) | _ => Some (Some 5, [4]) end)
    (fun v => match v with 0 => Ok [1] | 1 => Ok [3] | _ => Ok [] end)
    (fun v => match v with 0 => [3; 4] | _ => [4] end)
    (fun _ => "").

Remark relu_graph_closed : closed_graph (Match.Model.tg_graph Match.Props.relu_graph).
Proof.
  split; [|split]; cbn.
  - intros t L. do 9 (destruct t as [|t]; [cbn; lia|]). lia.
  - intros o t L I. do 9 (destruct o as [|o]; [cbn in I; intuition lia|]). lia.
  - intros o t L [<-|[]]. exact L.
Qed.

(** [y = tf.nn.batch_normalization(x, mean, var, beta, gamma)] where x is a variable, too:
    0, 1, 2 are x, gamma, beta, 3 and 4 the moments, 10 the output. *)
Definition norm_graph : tgraph :=
  Match.Model.mkTG
    (mkG 11 11 (fun t => if Nat.ltb t 11 then t else 0)
       (fun o => match o with 5 => [4] | 6 => [5; 1] | 7 => [0; 6] | 8 => [3; 6] | 9 => [2; 8] | 10 => [7; 9] | _ => [] end)
       (fun o => [o]) (fun _ => false))
    (fun o => match o with 0 | 1 | 2 => "VariableV2" | 3 | 4 => "Placeholder" | 5 => "Rsqrt" | 6 | 7 | 8 => "Mul"
              | 9 => "Sub" | _ => "AddV2" end)
    (fun t => Nat.ltb t 3).
Definition norm_program : program :=
  mkProgram norm_graph (fun _ => false) (fun _ => []) (fun _ => []) (fun _ => true)
    (fun _ => Some (Some 5, [4])) (fun v => Ok [v]) (fun _ => [4]) (fun _ => "").

(** ** C50 *)

(** The filter keeps exactly the records that touch no user-registered variable, violate no
    linked group, and are no strict part of another such record that shares a variable; the
    groups of parameters that remain are disjoint.
    Missing from the full statement: that no strict part of another candidate remains, also
    when the two share no variable (see below). *)
Theorem C50_kept_records_partial :
  forall (linked : list (list nat)) (d : list (params * list record)) (user : list nat) d',
  grouped d -> filter_records linked d user = Ok d' ->
  grouped d' /\
  (exists keep, (forall r, keep r = true <-> kept linked user d r) /\
     forall p l, In (p, l) d' <-> l <> [] /\ exists l0, In (p, l0) d /\ l = filter keep l0) /\
  NoDup (concat (map vars_of (map fst d'))).
Proof. exact filter_characterised. Qed.
Print Assumptions C50_kept_records_partial.

(** It raises only if two of the groups that remain have a variable in common. *)
Theorem C50_ambiguous :
  forall (linked : list (list nat)) (d : list (params * list record)) (user : list nat) e,
  grouped d -> filter_records linked d user = Raise e ->
  e = AmbiguousRegistrationError /\
  exists ps, conflicting ps /\ NoDup ps /\
    forall p, In p ps <-> exists r, candidate d r /\ kept linked user d r /\ r_params r = p.
Proof. exact filter_raises. Qed.
Print Assumptions C50_ambiguous.

(** The documented third rule is violated by records that share no variable: in the graph
    above, the product [x * (rsqrt * gamma)] is recorded as a scale of its second factor by
    x, it is strictly part of the batch normalisation, and it is kept along with it. *)
Theorem C50_no_strict_part_refuted :
  exists (pr : program) (varlist : list nat) (members : list node) found d r o,
    find_records pr varlist members = Ok found /\ filter_records [] found [] = Ok d /\
    candidate d r /\ candidate d o /\ part_of r o.
Proof.
  exists norm_program, [0; 1; 2], (map Tn (seq 0 11) ++ map Opn (seq 0 11)). do 2 eexists.
  exists (mkRec RT_scale_and_shift (PVar 0) [Tn 7; Opn 7; Tn 0; Tn 6] 6 7 true [] true).
  exists (mkRec RT_batch_norm (PTup [1; 2]) [Tn 10; Opn 10; Tn 7; Opn 7; Tn 0; Tn 6; Opn 6; Tn 5; Opn 5; Tn 1; Tn 9; Opn 9;
                                            Tn 2; Tn 8; Opn 8; Tn 3] 0 10 true [] true).
  split; [vm_compute; reflexivity|]. split; [vm_compute; reflexivity|]. split; [|split].
  - eexists. split; [left; reflexivity|left; reflexivity].
  - eexists. split; [right; left; reflexivity|left; reflexivity].
  - split; [cbn; intuition|]. exists (Tn 10). split; [left; reflexivity|]. cbn. intuition discriminate.
Qed.
Print Assumptions C50_no_strict_part_refuted.

(** Four records: of the product and the sum of one layer, of a layer that the user
    registered, and of one that splits a linked group. *)
Definition some_records : list (params * list record) :=
  [(PVar 0, [mkRec RT_fully_connected (PVar 0) [Tn 5; Opn 5; Tn 0] 0 5 true [] true]);
   (PTup [0; 1], [mkRec RT_fully_connected (PTup [0; 1]) [Tn 6; Opn 6; Tn 5; Opn 5; Tn 0; Tn 3] 0 6 true [] true]);
   (PVar 2, [mkRec RT_scale_and_shift (PVar 2) [Tn 7] 6 7 true [] true]);
   (PVar 3, [mkRec RT_scale_and_shift (PVar 3) [Tn 8] 6 8 true [] true])].
Example C50_example :
  grouped some_records /\
  filter_records [[3; 4]] some_records [2] =
    Ok [(PTup [0; 1], [mkRec RT_fully_connected (PTup [0; 1]) [Tn 6; Opn 6; Tn 5; Opn 5; Tn 0; Tn 3] 0 6 true [] true])] /\
  filter_records [] [(PVar 0, [mkRec RT_fully_connected (PVar 0) [Tn 5] 0 5 true [] true]);
                     (PTup [0; 1], [mkRec RT_fully_connected (PTup [0; 1]) [Tn 6] 0 6 true [] true])] [] =
    Raise AmbiguousRegistrationError.
Proof.
  split; [|split; vm_compute; reflexivity]. split.
  - repeat constructor; cbn; intuition discriminate.
  - intros p l r I J. repeat destruct I as [I|I]; [..|destruct I]; injection I as <- <-; destruct J as [<-|[]]; reflexivity.
Qed.

(** ** C51 *)

(** If register_layers returns: the earlier blocks, losses, linked groups and defaults are as
    before; the result lists the new blocks; every variable of the list is in exactly one
    block; a new block consists of listed variables that the user had not registered, and its
    [i]-th tower is what the search of the [i]-th tower of the losses found. *)
Theorem C51_every_variable_registered :
  forall (pr : program) (shape : nat -> list nat) (h : list call) (loss_in : nat -> linputs)
    (varlist : list nat) (batch_size : option nat) (c' : coll) (ks : list params),
  let c := after shape h initial in
  NoDup varlist -> register_layers pr loss_in varlist batch_size c = (c', Ok ks) ->
  exists new, c_blocks c' = c_blocks c ++ new /\ ks = map fst new /\
    (c_losses c' = c_losses c /\ c_linked c' = c_linked c /\ c_def c' = c_def c) /\
    (forall v, In v varlist -> exists! p, owns c' p v) /\
    forall p b, In (p, b) new ->
      (forall v, In v (vars_of p) -> In v varlist /\ ~ In v (registered (c_blocks c))) /\
      (forall ts, In ts (towers_by_loss c) -> List.length ts = List.length (b_towers b)) /\
      forall i tw, nth_error (b_towers b) i = Some tw ->
        tower_for pr (map fst (c_linked c)) varlist (registered (c_blocks c)) batch_size (tower_outs loss_in c i) p tw.
Proof. exact register_layers_spec. Qed.
Print Assumptions C51_every_variable_registered.

(** Variable 3 registered by the user, a loss with two towers: the dense layer is found, the
    variable that is not in the graph is registered generically. *)
Definition user_calls (weight : R) : list call :=
  [Layer RFalse (Generic (PVar 3) 5 None RFalse);
   Loss RFalse (Some "loss") "loss" weight RFalse; Loss RTrue (Some "loss") "loss" weight RTrue].
Example C51_example : forall weight,
  let c := after (pr_shape relu_program) (user_calls weight) initial in
  exists c', register_layers relu_program (fun _ => LOne 7) [0; 1; 2; 3] (Some 5) c = (c', Ok [PTup [0; 1]; PVar 2]) /\
    c_blocks c' = [(PVar 3, mkBlock NaiveDiagonalFB "diagonal" [mkTower [5] []]);
                   (PTup [0; 1], mkBlock FullyConnectedKFACBasicFB "kron" [mkTower [0] [6]; mkTower [0] [6]]);
                   (PVar 2, mkBlock NaiveDiagonalFB "diagonal" [mkTower [5] []; mkTower [5] []])].
Proof.
  intros weight. cbn zeta.
  assert (E : exists c, after (pr_shape relu_program) (user_calls weight) initial = c /\
     c = mkColl [(PVar 3, mkBlock NaiveDiagonalFB "diagonal" [mkTower [5] []])] [] (c_def initial)
           [("loss", [0; 1])] [(1, weight); (0, weight)] 2 [(3, Inf)] false).
  { eexists. split; [reflexivity|]. cbv -[Req_EM_T]. destruct (Req_EM_T weight weight); [reflexivity|congruence]. }
  destruct E as (c & -> & ->). eexists. split; vm_compute; reflexivity.
Qed.

(** ** C63 *)

(** The scan of a subgraph records layers only: every record describes a layer whose output
    is in the subgraph, with its input, parameters and attributes, and the nodes it consists
    of; and there is a record of every layer in the subgraph that trains some of the
    variables (however it is read, in case there is more than one reading). *)
Theorem C63_found_exactly :
  forall (pr : program) (varlist : list nat) (members : list node) d,
  Match.Spec.wf_graph (pr_graph pr) -> outputs_agree (Match.Model.tg_graph (pr_graph pr)) -> separate pr varlist ->
  find_records pr varlist members = Ok d ->
  grouped d /\
  (forall r, candidate d r -> exists t, proper_member pr members t /\ record_for pr varlist t r) /\
  (forall t ty, proper_member pr members t -> trained_layer pr varlist t ty ->
     exists r, candidate d r /\ r_type r = ty /\ r_outputs r = t).
Proof. exact found_exactly. Qed.
Print Assumptions C63_found_exactly.

(** Fully connected layers and convolutions can be read in one way only. *)
Theorem C63_one_reading :
  forall (pr : program) t ty i a b dense attrs i' a' b' dense' attrs',
  Match.Spec.wf_graph (pr_graph pr) -> ty = RT_fully_connected \/ ty = RT_conv2d ->
  layer_at pr t ty i a b dense attrs -> layer_at pr t ty i' a' b' dense' attrs' ->
  i = i' /\ a = a' /\ b = b' /\ dense = dense' /\ attrs = attrs'.
Proof. exact reading_unique. Qed.
Print Assumptions C63_one_reading.

(** The order of the variables does not matter. *)
Theorem C63_order_of_variables :
  forall (pr : program) (varlist varlist' : list nat) (members : list node) d,
  separate pr varlist -> Permutation varlist varlist' ->
  find_records pr varlist members = Ok d -> find_records pr varlist' members = Ok d.
Proof. exact find_order. Qed.
Print Assumptions C63_order_of_variables.

(** A fully connected layer that trains its weights, and whose input has too many dimensions
    or which transposes an argument, makes the scan fail: such layers are not registered as
    something else. *)
Theorem C63_unsupported_layers :
  forall (pr : program) (varlist : list nat) (members : list node) t i a b dense attrs v,
  Match.Spec.wf_graph (pr_graph pr) -> outputs_agree (Match.Model.tg_graph (pr_graph pr)) -> separate pr varlist ->
  proper_member pr members t -> layer_at pr t RT_fully_connected i (Some a) b dense attrs -> stands pr varlist a v ->
  ((if dense then 4 else 3) <= rank pr i \/
   exists l, dense = true /\ Match.Spec.dense_layer (pr_graph pr) t l /\ pr_transposed pr (Match.Spec.l_op l) = true) ->
  exists e, find_records pr varlist members = Raise e.
Proof. exact unsupported_raises. Qed.
Print Assumptions C63_unsupported_layers.

Example C63_example :
  Match.Spec.wf_graph (pr_graph relu_program) /\ outputs_agree (Match.Model.tg_graph (pr_graph relu_program)) /\
  separate relu_program [0; 1; 2; 3] /\
  find_records relu_program [1; 0; 3; 2] (map Tn (seq 0 8) ++ map Opn (seq 0 8)) =
    Ok [(PVar 0, [mkRec RT_fully_connected (PVar 0) [Tn 5; Opn 5; Tn 0; Tn 1] 0 5 true [] true]);
        (PTup [0; 1], [mkRec RT_fully_connected (PTup [0; 1])
           [Tn 6; Opn 6; Tn 5; Opn 5; Tn 0; Tn 1; Tn 3] 0 6 true [] true])] /\
  proper_member relu_program (map Tn (seq 0 8) ++ map Opn (seq 0 8)) 6 /\
  trained_layer relu_program [0; 1; 2; 3] 6 RT_fully_connected.
Proof.
  pose proof Match.Props.relu_graph_wf as W.
  assert (L : layer_at relu_program 6 RT_fully_connected 0 (Some 1) (Some 3) true ([], true)).
  { apply (la_matmul _ _ (Match.Spec.mkLayer 0 5 1 (Some 3))); [apply Match.Props.C62_example|left; reflexivity]. }
  split; [exact W|]. split; [|split; [|split; [vm_compute; reflexivity|split]]].
  - split; cbn.
    + intros t Lt. do 9 (destruct t as [|t]; [cbn; split; [lia|auto]|]). lia.
    + intros o t Lo [<-|[]]. split; [exact Lo|]. do 9 (destruct o as [|o]; [reflexivity|]). lia.
  - intros t v w (_ & ts & E & I) (_ & ts' & E' & I').
    destruct v as [|[|v]], w as [|[|w]]; cbn in E, E'; injection E as <-; injection E' as <-; cbn in I, I'; intuition congruence.
  - split; [|split; [cbn; lia|reflexivity]]. cbn. tauto.
  - split; [eauto 10|]. intros i a b dn at_ L'.
    destruct (reading_unique relu_program _ _ _ _ _ _ _ _ _ _ _ _ W (or_introl eq_refl) L L') as (_ & <- & <- & _).
    exists (PTup [0; 1]), (Some 0), (Some 1). split; [exists 1|split; [exists 3|reflexivity]];
      (split; [reflexivity|split; [cbn; tauto|eexists; split; [reflexivity|left; reflexivity]]]).
Qed.

(** The same layer on inputs with four dimensions. *)
Example C63_unsupported_example :
  let pr := mkProgram Match.Props.relu_graph (fun _ => false) (fun _ => []) (fun _ => []) (fun _ => true)
    (fun t => Some (Some 5, [3; 3; 3])) (pr_tensors relu_program) (pr_shape relu_program) (fun _ => "") in
  proper_member pr (map Tn (seq 0 8) ++ map Opn (seq 0 8)) 6 /\ separate pr [0; 1] /\
  layer_at pr 6 RT_fully_connected 0 (Some 1) (Some 3) true ([], true) /\ stands pr [0; 1] 1 0 /\ 4 <= rank pr 0 /\
  find_records pr [0; 1] (map Tn (seq 0 8) ++ map Opn (seq 0 8)) = Raise ValueError.
Proof.
  cbn zeta. split; [|split; [|split; [|split; [|split; [cbn; lia|vm_compute; reflexivity]]]]].
  - split; [|split; [cbn; lia|reflexivity]]. cbn. tauto.
  - intros t v w (_ & ts & E & I) (_ & ts' & E' & I').
    destruct v as [|[|v]], w as [|[|w]]; cbn in E, E'; injection E as <-; injection E' as <-; cbn in I, I'; intuition congruence.
  - apply (la_matmul _ _ (Match.Spec.mkLayer 0 5 1 (Some 3))); [apply Match.Props.C62_example|left; reflexivity].
  - split; [cbn; auto|]. exists [1]. split; [reflexivity|left; reflexivity].
Qed.

(** ** C64 *)

(** A dilated convolution: 0 is the input, 1 the filter, 2 the convolution. *)
Definition conv_program : program :=
  mkProgram
    (Match.Model.mkTG
       (mkG 3 3 (fun t => if Nat.ltb t 3 then t else 0) (fun o => match o with 2 => [0; 1] | _ => [] end)
          (fun o => [o]) (fun _ => false))
       (fun o => match o with 0 => "Placeholder" | 1 => "VariableV2" | _ => "Conv2D" end)
       (fun t => Nat.eqb t 1))
    (fun _ => false) (fun _ => [1; 1; 1; 1]%Z) (fun _ => [1; 2; 2; 1]%Z) (fun _ => true)
    (fun _ => Some (Some 5, [8; 8; 3])) (fun v => Ok [S v]) (fun _ => [3; 3; 3; 4]) (fun _ => "").

(** The dilation of a convolution is not passed on: it is registered as an undilated one. *)
Theorem C64_dilation_passed_refuted :
  exists (pr : program) (varlist : list nat) (members : list node) p r o x,
    find_records pr varlist members = Ok [(p, [r])] /\
    Match.Model.tg_type (pr_graph pr) o = "Conv2D" /\ r_outputs r = o /\ pr_dilations pr o = [1; 2; 2; 1]%Z /\
    plan pr initial RFalse (Some 5) p [r] = Ok (Some [x]) /\
    exists s i o' f a ru, pl_call x = Conv2d p s None i o' f a ru.
Proof.
  exists conv_program, [0], (map Tn (seq 0 3) ++ map Opn (seq 0 3)). do 2 eexists. exists 2. eexists.
  split; [vm_compute; reflexivity|]. do 3 (split; [reflexivity|]). split; [vm_compute; reflexivity|].
  repeat eexists.
Qed.
Print Assumptions C64_dilation_passed_refuted.

(** What holds: the strides and the data format of a convolution that is used once are those
    of its record, which by C63 are those of its operation; and it is never registered with
    another approximation than the collection's. *)
Theorem C64_strides_and_format_partial :
  forall (pr : program) (c : coll) (ru : reuse) (batch_size : option nat) (p : params) (r : record) xs,
  r_type r = RT_conv2d -> plan pr c ru batch_size p [r] = Ok (Some xs) ->
  exists x, xs = [x] /\
    pl_call x = match pl_uses x with
                | None => Conv2d p (r_strides r) None (arg pr (r_inputs r)) (arg pr (r_outputs r)) (r_nhwc r) None ru
                | Some _ => Conv2dMulti p (AOne (arg pr (r_inputs r))) (AOne (arg pr (r_outputs r))) (r_nhwc r) None ru
                end.
Proof. exact single_conv. Qed.
Print Assumptions C64_strides_and_format_partial.

Example C64_example :
  let r := mkRec RT_conv2d (PVar 0) [] 0 2 true [1; 2; 2; 1]%Z true in
  exists x y, plan conv_program initial RFalse (Some 5) (PVar 0) [r] = Ok (Some [x]) /\ pl_uses x = None /\
              plan conv_program initial RFalse (Some 1) (PVar 0) [r] = Ok (Some [y]) /\ pl_uses y = Some 5.
Proof. do 2 eexists. repeat split. Qed.

(** ** C65 *)

(** Inputs of the usual rank: the number of uses is the leading dimension divided by the
    batch size, and there is an exception if it does not divide.
    Missing: inputs with a dimension for the uses (see below). *)
Theorem C65_folded_uses_partial :
  forall (pr : program) (c : coll) (ru : reuse) (batch_size : option nat) (p : params) (r : record) xs,
  r_type r = RT_fully_connected \/ r_type r = RT_conv2d -> rank pr (r_inputs r) <= usual_rank r ->
  plan pr c ru batch_size p [r] = Ok (Some xs) ->
  exists x, xs = [x] /\ uses_of pr batch_size r (pl_uses x) /\ forall u, pl_uses x = Some u -> u <> 1.
Proof. exact single_uses. Qed.
Print Assumptions C65_folded_uses_partial.

Theorem C65_no_uses :
  forall (pr : program) (c : coll) (ru : reuse) (batch_size : option nat) (p : params) (r : record) e,
  r_type r = RT_fully_connected \/ r_type r = RT_conv2d -> rank pr (r_inputs r) <= usual_rank r ->
  plan pr c ru batch_size p [r] = Raise e ->
  rank pr (r_inputs r) = 0 \/ exists n f, batch_size = Some n /\ leading pr r = Some f /\ forall u, f <> u * n.
Proof. exact single_raises. Qed.
Print Assumptions C65_no_uses.

(** An input of shape [[uses; batch_size; size]], which is the documented order, is
    registered with as many uses as there are cases in a batch. *)
Definition time_program : program :=
  mkProgram Match.Props.relu_graph (fun _ => false) (fun _ => []) (fun _ => []) (fun _ => true)
    (fun t => match t with 0 => Some (Some 2, [5; 3]) | 1 => Some (Some 10, [3]) | _ => Some (Some 11, [3]) end)
    (fun v => match v with 0 => Ok [1] | 1 => Ok [3] | _ => Ok [] end)
    (fun v => match v with 0 => [3; 4] | _ => [4] end)
    (fun _ => "").
Theorem C65_uses_dimension_refuted :
  exists (pr : program) (p : params) (r : record) x,
    r_type r = RT_fully_connected /\ plan pr initial RFalse (Some 5) p [r] = Ok (Some [x]) /\
    ~ uses_of pr (Some 5) r (pl_uses x).
Proof.
  exists time_program, (PVar 0), (mkRec RT_fully_connected (PVar 0) [] 0 6 true [] true). eexists.
  split; [reflexivity|]. split; [vm_compute; reflexivity|]. intros H. specialize (H 2 eq_refl). discriminate.
Qed.
Print Assumptions C65_uses_dimension_refuted.

(** Ten rows are two uses of five cases; eleven rows cannot be split. *)
Example C65_example :
  let r i := mkRec RT_fully_connected (PVar 0) [] i 6 true [] true in
  rank time_program 1 <= usual_rank (r 1) /\
  (exists x, plan time_program initial RFalse (Some 5) (PVar 0) [r 1] = Ok (Some [x]) /\ pl_uses x = Some 2) /\
  plan time_program initial RFalse (Some 5) (PVar 0) [r 2] = Raise ValueError.
Proof. split; [cbn; lia|]. split; [eexists; split; vm_compute; reflexivity|vm_compute; reflexivity]. Qed.

(** ** C66 *)

(** The search covers everything that the inputs of the losses depend on, and nothing else,
    if all losses have a single parameter. *)
Theorem C66_search_covers_losses_partial :
  forall (g : graph) (outs : list linputs),
  closed_graph g -> outs <> [] -> (forall t, In (LOne t) outs -> t < g_ntensors g) ->
  (forall x, In x outs -> exists t, x = LOne t) ->
  exists m, subgraph_of_losses g outs = Ok m /\ forall x, In x m <-> ancestor g (map loss_node outs) x.
Proof. exact scans_ancestors. Qed.
Print Assumptions C66_search_covers_losses_partial.

(** The parameters of a loss with a mean and a variance are left out of the search if another
    loss comes first, and they make it raise AttributeError otherwise. *)
Theorem C66_search_covers_losses_refuted :
  exists (g : graph) (t mean variance : nat) m,
    closed_graph g /\ mean < g_ntensors g /\
    subgraph_of_losses g [LOne t; LPair mean variance] = Ok m /\
    ~ In (Tn mean) m /\ ~ In (Tn variance) m /\
    subgraph_of_losses g [LPair mean variance; LOne t] = Raise AttributeError.
Proof.
  exists (Match.Model.tg_graph Match.Props.relu_graph), 5, 7, 4. eexists.
  split; [exact relu_graph_closed|]. split; [cbn; lia|].
  split; [vm_compute; reflexivity|]. split; [|split; [|reflexivity]]; cbn; intuition discriminate.
Qed.
Print Assumptions C66_search_covers_losses_refuted.

Example C66_example :
  let g := Match.Model.tg_graph Match.Props.relu_graph in
  closed_graph g /\ exists m, subgraph_of_losses g [LOne 5; LOne 7] = Ok m /\ In (Tn 3) m.
Proof. split; [exact relu_graph_closed|]. eexists. split; [vm_compute; reflexivity|]. cbn. tauto. Qed.

(** ** C67 *)

(** An embedding lookup of a vector of indices is recorded, but registering it fails
    whenever it is used once and the user has not linked its variable with an approximation:
    the approximation it asks for exists only for layers used more than once. *)
Theorem C67_embedding_used_once_refuted :
  forall (pr : program) (c : coll) (ru : reuse) (batch_size : option nat) (p : params) (r : record),
  r_type r = RT_fully_connected -> r_dense r = false -> rank pr (r_inputs r) = 1 ->
  get_linked_approx c p = None ->
  (forall n f, batch_size = Some n -> leading pr r = Some f -> n = f) ->
  register_records pr [(p, [r])] ru batch_size c = (c, Raise ValueError).
Proof. exact single_embedding. Qed.
Print Assumptions C67_embedding_used_once_refuted.

(** Used more than once, the approximation is one of the known ones. *)
Theorem C67_embedding_used_often_partial :
  forall (pr : program) (c : coll) (ru : reuse) (batch_size : option nat) (p : params) (r1 r2 : record) l,
  (forall r, In r (r1 :: r2 :: l) -> r_type r = RT_fully_connected) -> r_dense r1 = false ->
  get_linked_approx c p = None ->
  exists x, plan pr c ru batch_size p (r1 :: r2 :: l) = Ok (Some [x]) /\ pl_uses x = None /\
    pl_call x = FullyConnectedMulti p (AMany (map (fun r => arg pr (r_inputs r)) (r1 :: r2 :: l)))
                  (AMany (map (fun r => arg pr (r_outputs r)) (r1 :: r2 :: l))) (Some "kron_indep_in_diag") false ru /\
    lookup fc_multi_table "kron_indep_in_diag" = Some FullyConnectedMultiIndepFB.
Proof. exact multi_embedding. Qed.
Print Assumptions C67_embedding_used_often_partial.

(** A lookup of five indices in a graph, found and then refused. *)
Definition embedding_program : program :=
  mkProgram
    (Match.Model.mkTG
       (mkG 3 3 (fun t => if Nat.ltb t 3 then t else 0) (fun o => match o with 2 => [1; 0] | _ => [] end)
          (fun o => [o]) (fun _ => false))
       (fun o => match o with 0 => "Placeholder" | 1 => "VarHandleOp" | _ => "ResourceGather" end)
       (fun t => Nat.eqb t 1))
    (fun _ => false) (fun _ => []) (fun _ => []) (fun _ => true)
    (fun t => match t with 0 => Some (Some 5, []) | _ => Some (Some 5, [4]) end)
    (fun v => Ok [S v]) (fun _ => [7; 4]) (fun _ => "").
Example C67_example : forall weight,
  exists r, find_records embedding_program [0] (map Tn (seq 0 3) ++ map Opn (seq 0 3)) = Ok [(PVar 0, [r])] /\
    r_type r = RT_fully_connected /\ r_dense r = false /\ rank embedding_program (r_inputs r) = 1 /\
    get_linked_approx initial (PVar 0) = None /\
    snd (register_layers embedding_program (fun _ => LOne 2) [0] (Some 5)
           (after (fun _ => []) [Loss RFalse (Some "loss") "loss" weight RFalse] initial)) = Raise ValueError.
Proof. intros weight. eexists. split; [vm_compute; reflexivity|]. do 4 (split; [reflexivity|]). vm_compute. reflexivity. Qed.
