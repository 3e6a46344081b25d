(** The pattern language of graph_matcher.py:32-53 and its meaning, independently of how
    the matcher searches. *)
From Coq Require Import String List Arith Bool.
From Verif.Base Require Import Py.
From Verif.Graph Require Import Model.
From Verif.Match Require Import Model.
Import ListNotations.
Open Scope string_scope.
Open Scope list_scope.

(* ------------------------------------------------------------------------ *)
(** * Grammar *)

Inductive pattern :=
| Elem (name : option string) (restrictions : list (datum -> bool))
| Choice (ps : list pattern)
| Lst (ps : list pattern)
| Internal (p : pattern) (inputs outputs : option (list pattern))
| Neg (p : pattern)
| Any
| AnyNoConsume.

(** How a pattern is written in Python, possibly with argument-less functions standing
    for the patterns that they return. *)
Inductive denotes : pat -> pattern -> Prop :=
| dn_thunk q P : denotes q P -> denotes (PThunk q) P
| dn_elem n rs : denotes (PSeq (PStr "?" :: pname n :: map PPred rs)) (Elem n rs)
| dn_choice qs Ps : Forall2 denotes qs Ps -> denotes (PSeq (PStr "?:choice" :: qs)) (Choice Ps)
| dn_list qs Ps : Forall2 denotes qs Ps -> denotes (PSeq (PStr "List" :: qs)) (Lst Ps)
| dn_in q P qs Ps : denotes q P -> Forall2 denotes qs Ps ->
    denotes (PSeq [q; PSeq (PStr "In" :: qs)]) (Internal P (Some Ps) None)
| dn_out q P qs Ps : denotes q P -> Forall2 denotes qs Ps ->
    denotes (PSeq [q; PSeq (PStr "Out" :: qs)]) (Internal P None (Some Ps))
| dn_in_out q P qi Pi qo Po : denotes q P -> Forall2 denotes qi Pi -> Forall2 denotes qo Po ->
    denotes (PSeq [q; PSeq (PStr "In" :: qi); PSeq (PStr "Out" :: qo)]) (Internal P (Some Pi) (Some Po))
| dn_not q P : denotes q P -> denotes (PSeq [PStr "?:not"; q]) (Neg P)
| dn_any : denotes (PSeq [PStr "?:any"]) Any
| dn_any_noconsume : denotes (PSeq [PStr "?:any_noconsume"]) AnyNoConsume.

(* ------------------------------------------------------------------------ *)
(** * Graphs *)

(** The tensor whose value [t] passes on: identity operations are looked through.  An
    IdentityN may have several inputs if the first two are the same tensor. *)
Inductive sees (g : tgraph) : nat -> nat -> Prop :=
| sees_here t : is_identity g (producer g t) = false -> sees g t t
| sees_one t s t' : is_identity g (producer g t) = true ->
    op_inputs g (producer g t) = [s] -> sees g s t' -> sees g t t'
| sees_n t s rest t' : tg_type g (producer g t) = "IdentityN" ->
    op_inputs g (producer g t) = s :: s :: rest -> sees g s t' -> sees g t t'.

(** Every chain of identity operations ends, and operations are numbered. *)
Definition wf_graph (g : tgraph) : Prop :=
  (forall t, producer g t < g_nops (tg_graph g)) /\ (forall t, exists t', sees g t t').

Definition tensors (ts : list nat) : list datum := map (fun t => DNode (Tn t)) ts.
Definition ops (os : list nat) : list datum := map (fun o => DNode (Opn o)) os.

(** The input and output neighbours of a node.  Variables, constants and placeholders
    have no inputs. *)
Inductive inputs_of (g : tgraph) : datum -> list datum -> Prop :=
| in_op o ts : Forall2 (sees g) (op_inputs g o) ts -> inputs_of g (DNode (Opn o)) (tensors ts)
| in_tensor t t' : is_leaf g (DNode (Tn t)) = false -> sees g t t' ->
    inputs_of g (DNode (Tn t)) (ops [producer g t']).
Inductive outputs_of (g : tgraph) : datum -> list datum -> Prop :=
| out_op o : outputs_of g (DNode (Opn o)) (tensors (op_outputs g o))
| out_tensor t : outputs_of g (DNode (Tn t)) (ops (consumers (tg_graph g) t)).

(* ------------------------------------------------------------------------ *)
(** * Meaning *)

(** One of the list satisfies [S]; the elements of two lists satisfy [S] in turn, with the
    concatenation of what they use. *)
Definition one_of {A} (S : A -> Prop) : list A -> Prop :=
  fix go l := match l with [] => False | x :: l' => S x \/ go l' end.
Definition in_turn {A} (S : A -> datum -> list node -> Prop) : list A -> list datum -> list node -> Prop :=
  fix go ps ds used :=
    match ps, ds with
    | [], [] => used = []
    | p :: ps', d :: ds' => exists u v, S p d u /\ go ps' ds' v /\ used = u ++ v
    | _, _ => False
    end.

(** Constraint on neighbours, if there is one. *)
Definition constrained {A} (neighbours : list datum -> Prop) (S : A -> datum -> list node -> Prop)
    (constraint : option (list A)) (used : list node) : Prop :=
  match constraint with
  | None => used = []
  | Some ps => exists ds, neighbours ds /\ in_turn S ps ds used
  end.

(** The element names that bind. *)
Definition naming (n : option string) : option string :=
  match n with Some EmptyString => None | _ => n end.

(** [sat g s P d used]: under the assignment [s] of nodes to names, [d] matches [P], and
    [used] are the nodes that the match consists of. *)
Fixpoint sat (g : tgraph) (s : string -> option node) (P : pattern) (d : datum) (used : list node)
  {struct P} : Prop :=
  match P with
  | Elem n rs =>
      exists x, d = DNode x /\ used = [x] /\ Forall (fun r => r d = true) rs /\
        match naming n with None => True | Some n => s n = Some x end
  | Choice Ps => one_of (fun P => sat g s P d used) Ps
  | Lst Ps => exists ds, d = DList ds /\ in_turn (sat g s) Ps ds used
  | Internal P ins outs =>
      exists u v w, used = u ++ v ++ w /\ sat g s P d u /\
        constrained (inputs_of g d) (sat g s) ins v /\ constrained (outputs_of g d) (sat g s) outs w
  | Neg P => used = [] /\ forall s' u, ~ sat g s' P d u
  | Any => match d with DNode x => used = [x] | DList l => l = map DNode used end
  | AnyNoConsume => used = []
  end.

(** The names of a pattern, outside and inside negations. *)
Fixpoint names (P : pattern) : list string :=
  match P with
  | Elem n _ => match naming n with None => [] | Some n => [n] end
  | Choice Ps | Lst Ps => concat (map names Ps)
  | Internal P i o =>
      names P ++ match i with None => [] | Some Ps => concat (map names Ps) end
              ++ match o with None => [] | Some Ps => concat (map names Ps) end
  | Neg P => names P
  | Any | AnyNoConsume => []
  end.
(** Negated parts bind no names. *)
Definition all_of {A} (S : A -> Prop) : list A -> Prop :=
  fix go l := match l with [] => True | x :: l' => S x /\ go l' end.
Fixpoint plain_negations (P : pattern) : Prop :=
  match P with
  | Elem _ _ | Any | AnyNoConsume => True
  | Choice Ps | Lst Ps => all_of plain_negations Ps
  | Internal P i o =>
      plain_negations P /\ match i with None => True | Some Ps => all_of plain_negations Ps end
                        /\ match o with None => True | Some Ps => all_of plain_negations Ps end
  | Neg P => names P = []
  end.

(** The meaning of patterns with arbitrary negations, which depends on the names bound so
    far: [binds g P d b b' used] says that [d] matches [P] when the names in [b] are fixed,
    and that this extends the bindings to [b']. *)
Definition choose {A} (S : A -> bindings -> bindings -> datum -> list node -> Prop)
  : list A -> bindings -> bindings -> list datum -> list node -> Prop :=
  fix go ps b b' ds used :=
    match ps, ds with
    | [], [] => b' = b /\ used = []
    | p :: ps', d :: ds' => exists b1 u v, S p b b1 d u /\ go ps' b1 b' ds' v /\ used = u ++ v
    | _, _ => False
    end.
Definition then_constrained {A} (neighbours : list datum -> Prop)
    (S : A -> bindings -> bindings -> datum -> list node -> Prop)
    (constraint : option (list A)) (b b' : bindings) (used : list node) : Prop :=
  match constraint with
  | None => b' = b /\ used = []
  | Some ps => exists ds, neighbours ds /\ choose S ps b b' ds used
  end.
Fixpoint binds (g : tgraph) (P : pattern) (b b' : bindings) (d : datum) (used : list node)
  {struct P} : Prop :=
  match P with
  | Elem n rs =>
      exists x, d = DNode x /\ used = [x] /\ Forall (fun r => r d = true) rs /\
        match naming n with
        | None => b' = b
        | Some n => (lookup b n = Some x /\ b' = b) \/ (lookup b n = None /\ b' = b ++ [(n, x)])
        end
  | Choice Ps => one_of (fun P => binds g P b b' d used) Ps
  | Lst Ps => exists ds, d = DList ds /\ choose (binds g) Ps b b' ds used
  | Internal P ins outs =>
      exists b1 b2 u v w, used = u ++ v ++ w /\ binds g P b b1 d u /\
        then_constrained (inputs_of g d) (binds g) ins b1 b2 v /\
        then_constrained (outputs_of g d) (binds g) outs b2 b' w
  | Neg P => b' = b /\ used = [] /\ forall b1 u, ~ binds g P b b1 d u
  | Any => b' = b /\ match d with DNode x => used = [x] | DList l => l = map DNode used end
  | AnyNoConsume => b' = b /\ used = []
  end.

(** Two lists represent the same set. *)
Definition same_nodes (c d : list node) : Prop := forall x, In x c <-> In x d.
(** The bindings [b] agree with the assignment [s]. *)
Definition agrees (b : bindings) (s : string -> option node) : Prop :=
  forall n x, lookup b n = Some x -> s n = Some x.

(* ------------------------------------------------------------------------ *)
(** * Layers in a graph *)

(** Operation [o] computes tensor [t] (identities aside; variables, constants and
    placeholders are not computed), and [o] reads the tensors [ts]. *)
Definition computed_by (g : tgraph) (t o : nat) : Prop :=
  is_leaf g (DNode (Tn t)) = false /\ exists t', sees g t t' /\ o = producer g t'.
Definition reads (g : tgraph) (o : nat) (ts : list nat) : Prop := Forall2 (sees g) (op_inputs g o) ts.
Definition has_type (g : tgraph) (o : nat) (types : list string) : Prop := In (tg_type g o) types.

(** A linear layer: input, operation, weights and biases if any. *)
Record layer := mkLayer { l_in : nat; l_op : nat; l_weights : nat; l_biases : option nat }.

(** [linear g o i w]: a convolution or matrix product of [i] with the variable [w]. *)
Definition linear (g : tgraph) (o i w : nat) : Prop :=
  has_type g o ["Conv2D"; "MatMul"; "BatchMatMulV2"] /\ reads g o [i; w] /\ tg_isvar g w = true.
(** [dense_layer g t l]: [t] is the output of layer [l]: the linear operation, or the sum of
    its result and a variable, in either order. *)
Inductive dense_layer (g : tgraph) (t : nat) : layer -> Prop :=
| dl_linear o i w : computed_by g t o -> linear g o i w -> dense_layer g t (mkLayer i o w None)
| dl_bias_right a y b o i w : computed_by g t a -> has_type g a ["Add"; "BiasAdd"; "AddV2"] ->
    reads g a [y; b] -> tg_isvar g b = true -> computed_by g y o -> linear g o i w ->
    dense_layer g t (mkLayer i o w (Some b))
| dl_bias_left a y b o i w : computed_by g t a -> has_type g a ["Add"; "BiasAdd"; "AddV2"] ->
    reads g a [b; y] -> tg_isvar g b = true -> computed_by g y o -> linear g o i w ->
    dense_layer g t (mkLayer i o w (Some b)).
(** [embedding g t l]: [t] is the rows of the variable that the tensor [l_in] selects. *)
Inductive embedding (g : tgraph) (t : nat) : layer -> option nat -> Prop :=
| em_v1 o i w : computed_by g t o -> has_type g o ["Gather"; "ResourceGather"] ->
    reads g o [w; i] -> tg_isvar g w = true -> embedding g t (mkLayer i o w None) None
| em_v2 o i w a : computed_by g t o -> has_type g o ["GatherV2"] ->
    reads g o [w; i; a] -> tg_isvar g w = true -> embedding g t (mkLayer i o w None) (Some a).

(** The bindings that describe a layer with output [t]. *)
Definition describes (b : bindings) (t : nat) (l : layer) (axis : option nat) : Prop :=
  forall n, lookup b n =
    if String.eqb n "pre_activations" then Some (Tn t)
    else if String.eqb n "linear_op" then Some (Opn (l_op l))
    else if String.eqb n "in" then Some (Tn (l_in l))
    else if String.eqb n "weights" then Some (Tn (l_weights l))
    else if String.eqb n "biases" then option_map Tn (l_biases l)
    else if String.eqb n "axis" then option_map Tn axis
    else None.

(** A multiplication by a variable, and a sum with a variable, in either order. *)
Inductive scaling (g : tgraph) (o i s : nat) : Prop :=
| sc_right : has_type g o ["Mul"] -> reads g o [i; s] -> tg_isvar g s = true -> scaling g o i s
| sc_left : has_type g o ["Mul"] -> reads g o [s; i] -> tg_isvar g s = true -> scaling g o i s.
Inductive scale_shift (g : tgraph) (t : nat) : nat -> nat -> option nat -> Prop :=
| ss_scale o i s : computed_by g t o -> scaling g o i s -> scale_shift g t i s None
| ss_right a y o i s b : computed_by g t a -> has_type g a ["Add"; "AddV2"] -> reads g a [y; b] ->
    tg_isvar g b = true -> computed_by g y o -> scaling g o i s -> scale_shift g t i s (Some b)
| ss_left a y o i s b : computed_by g t a -> has_type g a ["Add"; "AddV2"] -> reads g a [b; y] ->
    tg_isvar g b = true -> computed_by g y o -> scaling g o i s -> scale_shift g t i s (Some b).

(** The bindings that describe a scale and shift of [i] with output [t]. *)
Definition scale_describes (b : bindings) (t i s : nat) (shift : option nat) : Prop :=
  forall n, lookup b n =
    if String.eqb n "out" then Some (Tn t)
    else if String.eqb n "in" then Some (Tn i)
    else if String.eqb n "scale" then Some (Tn s)
    else if String.eqb n "shift" then option_map Tn shift
    else None.

(** The output of a fused batch normalisation. *)
Inductive fused_norm (g : tgraph) (t : nat) : nat -> nat -> nat -> Prop :=
| fn o i s b m v : computed_by g t o -> has_type g o ["FusedBatchNorm"; "FusedBatchNormV2"; "FusedBatchNormV3"] ->
    reads g o [i; s; b; m; v] -> fused_norm g t i s b.

(** The output of tf.nn.batch_normalization: in * inv + (offset - mean * inv), where inv is
    1/sqrt(...), possibly times the scale; without an offset, in * inv + mean * inv (the
    sum with whatever tensor multiplies inv). *)
Inductive inverse_deviation (g : tgraph) (v : nat) : option nat -> Prop :=
| id_plain r : computed_by g v r -> has_type g r ["Rsqrt"] -> inverse_deviation g v None
| id_scaled m x s r : computed_by g v m -> has_type g m ["Mul"] -> reads g m [x; s] ->
    computed_by g x r -> has_type g r ["Rsqrt"] -> inverse_deviation g v (Some s).
Inductive batch_norm (g : tgraph) (t : nat) : nat -> option nat -> option nat -> Prop :=
| bn_offset a x y m i v sub o z m2 u sc : computed_by g t a -> has_type g a ["AddV2"] -> reads g a [x; y] ->
    computed_by g x m -> has_type g m ["Mul"] -> reads g m [i; v] -> inverse_deviation g v sc ->
    computed_by g y sub -> has_type g sub ["Sub"] -> reads g sub [o; z] ->
    computed_by g z m2 -> has_type g m2 ["Mul"] -> reads g m2 [u; v] -> batch_norm g t i sc (Some o)
| bn_plain a x y m i v m2 u sc : computed_by g t a -> has_type g a ["AddV2"] -> reads g a [x; y] ->
    computed_by g x m -> has_type g m ["Mul"] -> reads g m [i; v] -> inverse_deviation g v sc ->
    computed_by g y m2 -> has_type g m2 ["Mul"] -> reads g m2 [u; v] -> batch_norm g t i sc None.
(** The bindings that describe a normalisation of [i] with output [t]. *)
Definition norm_describes (b : bindings) (t i : nat) (scale offset : option nat) : Prop :=
  lookup b "out" = Some (Tn t) /\ lookup b "in" = Some (Tn i) /\
  lookup b "scale" = option_map Tn scale /\ lookup b "offset" = option_map Tn offset.
