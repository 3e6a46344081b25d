(** Property theorems C48, C49 and C62. *)
From Coq Require Import String List Arith Bool Lia.
From Verif.Base Require Import Py.
From Verif.Graph Require Import Model.
From Verif.Match Require Import Model Spec MatchProofs SatProofs LayerProofs.
Import ListNotations.
Open Scope string_scope.
Open Scope list_scope.

(** The graph of [y = relu(matmul(x, read(w)) + read(b))]: operations and their outputs have
    the same number; 0 is the placeholder x, 1 and 3 are the variables w and b, 2 and 4 their
    reads, 5 the product, 6 the sum, 7 the relu.  Numbers above 7 belong to operation 8. *)
Definition relu_graph : tgraph :=
  mkTG (mkG 9 9 (fun t => if Nat.ltb t 8 then t else 8)
          (fun o => match o with 2 => [1] | 4 => [3] | 5 => [0; 2] | 6 => [5; 4] | 7 => [6] | _ => [] end)
          (fun o => [o]) (fun o => Nat.eqb o 2 || Nat.eqb o 4))
       (fun o => match o with 0 => "Placeholder" | 1 => "VarHandleOp" | 3 => "VarHandleOp" | 2 => "ReadVariableOp"
                 | 4 => "ReadVariableOp" | 5 => "MatMul" | 6 => "BiasAdd" | 7 => "Relu" | _ => "NoOp" end)
       (fun t => Nat.eqb t 1 || Nat.eqb t 3).

(** ** C48 *)

(** For every pattern: what the matcher returns is a match, and it returns something falsy
    only if there is no match. *)
Theorem C48_matcher_sound_complete :
  forall (g : tgraph) (q : pat) (P : pattern), wf_graph g -> denotes q P ->
  exists f, matcher g q = Ok f /\
    forall x,
      (exists b used, binds g P [] b (DNode x) used /\ f (DNode x) = Ok (bindings_or_true b)) \/
      ((forall b used, ~ binds g P [] b (DNode x) used) /\
       exists v, f (DNode x) = Ok v /\ truthy v = false).
Proof. exact matcher_general. Qed.
Print Assumptions C48_matcher_sound_complete.

(** For patterns whose negated parts bind no names this is the order-independent meaning:
    some assignment of nodes to names makes the node match. *)
Theorem C48_matcher_finds_an_assignment :
  forall (g : tgraph) (q : pat) (P : pattern), wf_graph g -> denotes q P -> plain_negations P ->
  exists f, matcher g q = Ok f /\
    forall x,
      (exists b used, sat g (lookup b) P (DNode x) used /\ NoDup (map fst b) /\ incl (map fst b) (names P) /\
         f (DNode x) = Ok (bindings_or_true b)) \/
      ((forall s used, ~ sat g s P (DNode x) used) /\ exists v, f (DNode x) = Ok v /\ truthy v = false).
Proof. exact matcher_plain. Qed.
Print Assumptions C48_matcher_finds_an_assignment.

(** matcher_with_consumed also returns exactly the nodes that the match consists of. *)
Theorem C48_consumed_nodes :
  forall (g : tgraph) (q : pat) (P : pattern), wf_graph g -> denotes q P -> plain_negations P ->
  exists f, matcher_with_consumed g q = Ok f /\
    forall x,
      (exists b c used, sat g (lookup b) P (DNode x) used /\ same_nodes c used /\
         f (DNode x) = Ok (VPair b c)) \/
      ((forall s used, ~ sat g s P (DNode x) used) /\ exists v, f (DNode x) = Ok v /\ truthy v = false).
Proof. exact consumed_plain. Qed.
Print Assumptions C48_consumed_nodes.

(** The first call of the function that all_matcher returns enumerates all matches. *)
Theorem C48_all_matcher_enumerates :
  forall (g : tgraph) (q : pat) (P : pattern), wf_graph g -> denotes q P -> plain_negations P ->
  exists f, all_matcher g q = Ok f /\
    forall x, exists L,
      fst (f (DNode x) []) = Ok (map bindings_or_true L) /\
      (forall b, In b L -> exists used, sat g (lookup b) P (DNode x) used) /\
      (forall s used, sat g s P (DNode x) used ->
         exists b, In b L /\ agrees b s /\ sat g (lookup b) P (DNode x) used).
Proof.
  intros g q P W D Pl. destruct (all_plain g q P W D Pl) as (f & E & H). exists f. split; [exact E|].
  intros x. destruct (H x []) as (L & R & A & B). exists L. rewrite R. auto.
Qed.
Print Assumptions C48_all_matcher_enumerates.

(** matcher returns the first of the matches that all_matcher lists. *)
Theorem C48_matcher_returns_the_first :
  forall (g : tgraph) (q : pat) (P : pattern), wf_graph g -> denotes q P ->
  exists f h, matcher g q = Ok f /\ all_matcher g q = Ok h /\
    forall x, match h (DNode x) [] with
              | (Ok [], _) => exists v, f (DNode x) = Ok v /\ truthy v = false
              | (Ok (v :: _), _) => f (DNode x) = Ok v
              | _ => False
              end.
Proof. exact matcher_is_first. Qed.
Print Assumptions C48_matcher_returns_the_first.

(** Outside the grammar: an object stands for itself, and a node with two constraints that
    are not one on inputs followed by one on outputs matches nothing. *)
Theorem C48_outside_the_grammar :
  forall g : tgraph,
    (forall y, exists f, matcher_with_consumed g (PObj y) = Ok f /\
       f (DNode y) = Ok (VPair [] [y]) /\ forall x, x <> y -> f (DNode x) = Ok VFalse) /\
    (forall h t a qs b qs', ~ (a = "In" /\ b = "Out") ->
       let q := PSeq [PSeq (h :: t); PSeq (PStr a :: qs); PSeq (PStr b :: qs')] in
       exists f, matcher g q = Ok f /\ forall d, f d = Ok VFalse).
Proof.
  intros g. split.
  - intros y. eexists. split; [reflexivity|]. split.
    + cbn. rewrite (proj2 (node_eqb_eq y y) eq_refl). destruct y as [| |[|]]; reflexivity.
    + intros x N. cbn. destruct (node_eqb x y) eqn:E; [|destruct x as [| |[|]]; reflexivity]. apply node_eqb_eq in E. contradiction.
  - intros h t a qs b qs' N q. eexists. split; [|].
    + unfold matcher, q. cbn. destruct (String.eqb a "In") eqn:A; [|reflexivity].
      destruct (String.eqb b "Out") eqn:B; [|reflexivity].
      apply String.eqb_eq in A, B. exfalso. auto.
    + intros [[| |[|]]|l]; reflexivity.
Qed.
Print Assumptions C48_outside_the_grammar.

(** Tensors that have no single producer: an identity of several different tensors, or a
    list of tensors that different operations compute. *)
Theorem C48_no_single_producer :
  forall (g : tgraph) (q : pat) (P : pattern) ins outs, wf_graph g -> denotes q (Internal P ins outs) ->
  (forall ts ts', Forall2 (sees g) ts ts' ->
     (exists t u, In t ts' /\ In u ts' /\ producer g t <> producer g u) ->
     exists f, matcher g q = Ok f /\ f (DList (tensors ts)) = Ok VFalse).
Proof. exact several_producers. Qed.
Print Assumptions C48_no_single_producer.
Theorem C48_ambiguous_identity :
  forall (g : tgraph) (q : pat) (P : pattern) ins outs t a b rest, denotes q (Internal P ins outs) ->
    is_leaf g (DNode (Tn t)) = false -> 0 < g_nops (tg_graph g) ->
    is_identity g (producer g t) = true -> op_inputs g (producer g t) = a :: b :: rest ->
    tg_type g (producer g t) <> "IdentityN" \/ a <> b ->
    forall f, matcher g q = Ok f -> f (DNode (Tn t)) = Raise AssertionError.
Proof. exact ambiguous_identity. Qed.
Print Assumptions C48_ambiguous_identity.

(** The product and the sum in the graph above have different producers. *)
Example C48_no_single_producer_example :
  exists P, denotes (PSeq [PSeq [PStr "?:any"]; PSeq [PStr "In"]]) (Internal P (Some []) None) /\
    Forall2 (sees relu_graph) [5; 6] [5; 6] /\ producer relu_graph 5 <> producer relu_graph 6.
Proof.
  exists Any. split; [apply dn_in; constructor|]. split; [|discriminate].
  repeat constructor.
Qed.

(** The hypotheses hold of a graph with two reads of variables, and of a pattern with a
    choice, a negation, a repeated name and a neighbour constraint. *)
Example C48_example :
  let q := PSeq [PSeq [PStr "?"; PStr "y"; PPred is_tensor];
                 PSeq [PStr "In"; PSeq [PStr "?:choice"; PSeq [PStr "?:not"; PSeq [PStr "?:any"]];
                                        PSeq [PStr "?"; PStr "op"; PPred (op_type_is relu_graph "Relu")]]]] in
  wf_graph relu_graph /\
  (exists P, denotes q P /\ plain_negations P) /\
  exists f, matcher relu_graph q = Ok f /\ f (DNode (Tn 7)) = Ok (VDict [("y", Tn 7); ("op", Opn 7)]) /\
            f (DNode (Tn 6)) = Ok VFalse.
Proof.
  split; [|split].
  - split.
    + intros t. change ((if Nat.ltb t 8 then t else 8) < 9). destruct (Nat.ltb_spec t 8); lia.
    + intros t. destruct t as [|[|[|[|[|[|[|[|t]]]]]]]];
        try (eexists; apply sees_here; reflexivity);
        (eexists; eapply sees_one; [reflexivity|reflexivity|apply sees_here; reflexivity]).
  - eexists. split.
    + apply dn_in; [exact (dn_elem (Some "y") [is_tensor])|]. constructor; [|constructor].
      apply dn_choice. constructor; [apply dn_not, dn_any|].
      constructor; [exact (dn_elem (Some "op") [op_type_is relu_graph "Relu"])|constructor].
    + cbn. repeat split.
  - eexists. split; [reflexivity|]. split; reflexivity.
Qed.
Lemma relu_graph_wf : wf_graph relu_graph. Proof. exact (proj1 C48_example). Qed.

(** ** C49 *)

(** The result of a call does depend on the earlier calls: the list of results is shared. *)
Theorem C49_history_independent_refuted :
  exists (g : tgraph) (q : pat) f (x y : node) v,
    wf_graph g /\ all_matcher g q = Ok f /\
    fst (f (DNode y) []) = Ok [] /\
    fst (f (DNode y) (snd (f (DNode x) []))) = Ok [v].
Proof.
  exists relu_graph, (PSeq [PStr "?"; PStr "y"; PPred is_tensor]). eexists. exists (Tn 7), (Opn 7). eexists.
  split; [exact relu_graph_wf|]. split; [reflexivity|]. split; reflexivity.
Qed.
Print Assumptions C49_history_independent_refuted.

(** What does hold: a call returns what the previous call returned, followed by exactly the
    matches of its own node. *)
Theorem C49_each_call_appends_its_matches_partial :
  forall (g : tgraph) (q : pat) (P : pattern), wf_graph g -> denotes q P ->
  exists f, all_matcher g q = Ok f /\
    forall x results, exists L,
      f (DNode x) results = (Ok (results ++ map bindings_or_true L), results ++ map bindings_or_true L) /\
      (forall b, In b L <-> exists used, binds g P [] b (DNode x) used).
Proof. exact all_general. Qed.
Print Assumptions C49_each_call_appends_its_matches_partial.

(** ** C62: the patterns for automatic registration *)

(** Dense layers: a tensor is recognised iff it is the output of a convolution or matrix
    product with a variable, or of the sum of such an output and a variable; there is only one
    way to read it as such, and the bindings name its parts. *)
Theorem C62_dense_layers :
  forall g : tgraph, wf_graph g ->
  exists f, matcher_with_consumed g (gp_Affine g) = Ok f /\ forall x,
    (exists t l b c, x = Tn t /\ dense_layer g t l /\ (forall l', dense_layer g t l' -> l' = l) /\
       describes b t l None /\ f (DNode x) = Ok (VPair b c)) \/
    ((forall t l, x = Tn t -> ~ dense_layer g t l) /\ exists v, f (DNode x) = Ok v /\ truthy v = false).
Proof. exact affine_recognised. Qed.
Print Assumptions C62_dense_layers.

Theorem C62_embeddings :
  forall g : tgraph, wf_graph g ->
  exists f, matcher_with_consumed g (gp_Embed g) = Ok f /\ forall x,
    (exists t l a b c, x = Tn t /\ embedding g t l a /\ (forall l' a', embedding g t l' a' -> l' = l /\ a' = a) /\
       describes b t l a /\ f (DNode x) = Ok (VPair b c)) \/
    ((forall t l a, x = Tn t -> ~ embedding g t l a) /\ exists v, f (DNode x) = Ok v /\ truthy v = false).
Proof. exact embed_recognised. Qed.
Print Assumptions C62_embeddings.

(** When both factors of the product are variables there are two readings; one of them is
    returned. *)
Theorem C62_scale_and_shift :
  forall g : tgraph, wf_graph g ->
  exists f, matcher_with_consumed g (gp_ScaleAndShift g) = Ok f /\ forall x,
    (exists t i s sh b c, x = Tn t /\ scale_shift g t i s sh /\ scale_describes b t i s sh /\ f (DNode x) = Ok (VPair b c)) \/
    ((forall t i s sh, x = Tn t -> ~ scale_shift g t i s sh) /\ exists v, f (DNode x) = Ok v /\ truthy v = false).
Proof. exact scale_shift_recognised. Qed.
Print Assumptions C62_scale_and_shift.

Theorem C62_fused_batch_norm :
  forall g : tgraph, wf_graph g ->
  exists f, matcher_with_consumed g (gp_FusedBatchNormOutput g) = Ok f /\ forall x,
    (exists t i s o b c, x = Tn t /\ fused_norm g t i s o /\ norm_describes b t i (Some s) (Some o) /\ f (DNode x) = Ok (VPair b c)) \/
    ((forall t i s o, x = Tn t -> ~ fused_norm g t i s o) /\ exists v, f (DNode x) = Ok v /\ truthy v = false).
Proof. exact fused_recognised. Qed.
Print Assumptions C62_fused_batch_norm.

Theorem C62_batch_norm :
  forall g : tgraph, wf_graph g ->
  exists f, matcher_with_consumed g (gp_BatchNorm g) = Ok f /\ forall x,
    (exists t i s o b c, x = Tn t /\ batch_norm g t i s o /\ norm_describes b t i s o /\ f (DNode x) = Ok (VPair b c)) \/
    ((forall t i s o, x = Tn t -> ~ batch_norm g t i s o) /\ exists v, f (DNode x) = Ok v /\ truthy v = false).
Proof. exact bn_recognised. Qed.
Print Assumptions C62_batch_norm.

(** The sum in the graph above is a dense layer with biases; the relu is none. *)
Example C62_example :
  wf_graph relu_graph /\
  dense_layer relu_graph 6 (mkLayer 0 5 1 (Some 3)) /\
  exists f b c, matcher_with_consumed relu_graph (gp_Affine relu_graph) = Ok f /\
    f (DNode (Tn 6)) = Ok (VPair b c) /\ lookup b "weights" = Some (Tn 1) /\ lookup b "biases" = Some (Tn 3) /\
    f (DNode (Tn 7)) = Ok VFalse.
Proof.
  split; [exact relu_graph_wf|]. split.
  - assert (S : forall t t', sees relu_graph t t' -> computed_by relu_graph t (producer relu_graph t') \/ is_leaf relu_graph (DNode (Tn t)) = true).
    { intros t t' K. destruct (is_leaf relu_graph (DNode (Tn t))) eqn:L; [auto|]. left. split; [exact L|]. eauto. }
    apply (dl_bias_right relu_graph 6 6 5 3 5 0 1); try reflexivity.
    + destruct (S 6 6) as [K|K]; [apply sees_here; reflexivity|exact K|discriminate K].
    + cbn. auto.
    + constructor; [apply sees_here; reflexivity|]. constructor; [|constructor].
      eapply sees_one; [reflexivity|reflexivity|apply sees_here; reflexivity].
    + destruct (S 5 5) as [K|K]; [apply sees_here; reflexivity|exact K|discriminate K].
    + split; [cbn; auto|]. split; [|reflexivity].
      constructor; [apply sees_here; reflexivity|]. constructor; [|constructor].
      eapply sees_one; [reflexivity|reflexivity|apply sees_here; reflexivity].
  - do 3 eexists. split; [reflexivity|]. split; [reflexivity|]. split; [reflexivity|]. split; reflexivity.
Qed.
