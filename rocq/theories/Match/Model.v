(** Model of the graph pattern matcher: kfac/python/ops/tensormatch/graph_matcher.py,
    tensorflow_graph_util.py and graph_patterns.py. *)
From Coq Require Import String List Arith Bool.
From Verif.Base Require Import Py.
From Verif.Graph Require Import Model.
Import ListNotations.
Open Scope string_scope.
Open Scope list_scope.

(* ------------------------------------------------------------------------ *)
(** * The TensorFlow graph *)

(** The part of the graph that SubGraph looks at (Graph/Model.v), with the type of every
    operation and with which tensors are variables.  [is_var]
    (tensorflow_graph_util.py:46-60) is taken as given: it depends on the classes of the
    Python objects. *)
Record tgraph := mkTG {
  tg_graph : graph;
  tg_type : nat -> string;
  tg_isvar : nat -> bool }.
Notation producer g t := (g_op (tg_graph g) t).
Notation op_inputs g o := (g_inputs (tg_graph g) o).
Notation op_outputs g o := (g_outputs (tg_graph g) o).

(** What a pattern is matched against: a node (an operation, a tensor or any other
    hashable Python object) or a list, which is not hashable. *)
Inductive datum := DNode (x : node) | DList (l : list datum).
(** Python's None is one of the other objects. *)
Definition py_none : datum := DNode (Other 0).

(** tensorflow_graph_util.py:34-44, 63-73 *)
Definition is_op (d : datum) : bool := match d with DNode (Opn _) => true | _ => false end.
Definition is_tensor (d : datum) : bool := match d with DNode (Tn _) => true | _ => false end.
Definition is_var (g : tgraph) (d : datum) : bool :=
  match d with DNode (Tn t) => tg_isvar g t | _ => false end.
Definition is_const (g : tgraph) (d : datum) : bool :=
  match d with DNode (Tn t) => String.eqb (tg_type g (producer g t)) "Const" | _ => false end.
Definition is_placeholder (g : tgraph) (d : datum) : bool :=
  match d with DNode (Tn t) => String.eqb (tg_type g (producer g t)) "Placeholder" | _ => false end.
Definition is_leaf (g : tgraph) (d : datum) : bool :=
  is_var g d || is_const g d || is_placeholder g d.

(** Python's [a in b] for strings. *)
Definition str_in (a b : string) : bool :=
  match String.index 0 a b with Some _ => true | None => false end.
(** tensorflow_graph_util.py:76-82 *)
Definition is_identity (g : tgraph) (o : nat) : bool :=
  existsb (String.eqb (tg_type g o)) ["Identity"; "ReadVariableOp"; "Enter"; "IdentityN"]%string
  || str_in "convert_gradient_to_tensor" (tg_type g o).
(** tensorflow_graph_util.py:85-90 *)
Definition op_type_is (g : tgraph) (typename : string) (d : datum) : bool :=
  match d with DNode (Opn o) => String.eqb (tg_type g o) typename | _ => false end.

(** tensorflow_graph_util.py:93-103.  The loop runs once per identity operation; a loop
    that does not end (a cycle of identities) is a RuntimeError here. *)
Fixpoint reduce_loop (fuel : nat) (g : tgraph) (t : nat) : res nat :=
  if is_identity g (producer g t) then
    match fuel with
    | 0 => Raise RuntimeError
    | S f =>
        match op_inputs g (producer g t) with
        | [t'] => reduce_loop f g t'
        | a :: b :: _ =>
            if String.eqb (tg_type g (producer g t)) "IdentityN" && Nat.eqb a b
            then reduce_loop f g a else Raise AssertionError
        | [] => if String.eqb (tg_type g (producer g t)) "IdentityN"
                then Raise IndexError else Raise AssertionError
        end
    end
  else Ok t.
Definition reduce_identity_ops (g : tgraph) (t : nat) : res nat :=
  reduce_loop (g_nops (tg_graph g)) g t.

Definition mapM {A B : Type} (f : A -> res B) : list A -> res (list B) :=
  fix go l :=
    match l with
    | [] => Ok []
    | a :: l' => do b <- f a; do bs <- go l'; Ok (b :: bs)
    end.

(** The tensors of a list, if it contains nothing else. *)
Fixpoint all_tensors (l : list datum) : option (list nat) :=
  match l with
  | [] => Some []
  | DNode (Tn t) :: l' => match all_tensors l' with Some ts => Some (t :: ts) | None => None end
  | _ => None
  end.

(** tensorflow_graph_util.py:106-117 *)
Definition expand_inputs (g : tgraph) (d : datum) : res datum :=
  match d with
  | DNode (Opn o) =>
      do ts <- mapM (reduce_identity_ops g) (op_inputs g o);
      Ok (DList (map (fun t => DNode (Tn t)) ts))
  | DNode (Tn t) =>
      if negb (is_leaf g d) then
        do t' <- reduce_identity_ops g t; Ok (DList [DNode (Opn (producer g t'))])
      else Ok py_none
  | DNode (Other _) => Ok py_none
  | DList l =>
      match all_tensors l with
      | Some ts =>
          do ts' <- mapM (reduce_identity_ops g) ts;
          match nodup Nat.eq_dec (map (fun t => producer g t) ts') with
          | [o] => Ok (DList [DNode (Opn o)])
          | _ => Raise ValueError
          end
      | None => Ok py_none
      end
  end.

(** tensorflow_graph_util.py:120-128.  Simplification: tf.Variable objects are not nodes
    of the model. *)
Definition expand_outputs (g : tgraph) (d : datum) : datum :=
  match d with
  | DNode (Opn o) => DList (map (fun t => DNode (Tn t)) (op_outputs g o))
  | DNode (Tn t) => DList (map (fun o => DNode (Opn o)) (consumers (tg_graph g) t))
  | _ => py_none
  end.

(* ------------------------------------------------------------------------ *)
(** * Patterns as Python objects *)

(** A pattern as it is written: strings, None, other nodes, functions of one argument,
    functions that can be called without arguments (with what they return), and tuples.
    Simplification: pattern sequences are tuples, never lists (a list in the graph data
    is then never equal to a pattern). *)
Inductive pat :=
| PStr (s : string)
| PNone
| PObj (x : node)
| PPred (r : datum -> bool)
| PThunk (p : pat)
| PSeq (ps : list pat).

(** graph_matcher.py:320-339 *)
Fixpoint expand_thunks (p : pat) : pat :=
  match p with
  | PThunk q => expand_thunks q
  | PSeq ps => PSeq (map expand_thunks ps)
  | _ => p
  end.

(** graph_matcher.py:81-94: [is_pattern], and [pat[0] == s]. *)
Definition is_pattern (p : pat) : bool := match p with PSeq (_ :: _) => true | _ => false end.
Definition head_is (s : string) (p : pat) : bool :=
  match p with PSeq (PStr s' :: _) => String.eqb s' s | _ => false end.
(** graph_matcher.py:144-149: the tags of the neighbour constraints. *)
Definition tag (p : pat) : option string :=
  match p with PSeq (PStr s :: _) => Some s | _ => None end.
Definition is_internal_node_pattern (p : pat) : bool :=
  match p with
  | PSeq (h :: items) =>
      forallb is_pattern (h :: items) &&
      match map tag items with
      | [Some a] => String.eqb a "In" || String.eqb a "Out"
      | [Some a; Some b] => String.eqb a "In" && String.eqb b "Out"
      | _ => false
      end
  | _ => false
  end.

(* ------------------------------------------------------------------------ *)
(** * Combinators  (graph_matcher.py:177-269) *)

(** Names bound so far; a Python dict keeps insertion order. *)
Notation bindings := (list (string * node)).
Fixpoint lookup (b : bindings) (n : string) : option node :=
  match b with
  | [] => None
  | (m, x) :: b' => if String.eqb m n then Some x else lookup b' n
  end.
(** [consumed | {x}] *)
Definition set_add (x : node) (c : list node) : list node := if in_members x c then c else c ++ [x].
Definition set_union (c d : list node) : list node := fold_left (fun c x => set_add x c) d c.

(** The values the matchers and their continuations return. *)
Inductive value :=
| VFalse | VTrue | VNone
| VDict (b : bindings)
| VPair (b : bindings) (consumed : list node).
(** Python truth *)
Definition truthy (v : value) : bool :=
  match v with
  | VFalse | VNone => false
  | VTrue => true
  | VDict b => match b with [] => false | _ => true end
  | VPair _ _ => true
  end.

(** A call may append to the list [results] of all_matcher. *)
Notation action := (list value -> res value * list value).
Definition ret (v : value) : action := fun s => (Ok v, s).
Definition fail (e : exn) : action := fun s => (Raise e, s).
Notation continuation := (bindings -> list node -> action).
Notation combinator := (datum -> bindings -> list node -> continuation -> action).

(** graph_matcher.py:180-183.  A list is never equal to the pattern (a tuple or an
    atom). *)
Definition match_eqv (p : pat) : combinator := fun d b c k =>
  match d, p with
  | DNode x, PObj y => if node_eqb x y then k b (set_add x c) else ret VFalse
  | DNode (Other 0), PNone => k b (set_add (Other 0) c)
  | _, _ => ret VFalse
  end.

(** graph_matcher.py:186-191; a list of lists cannot be made into a set. *)
Fixpoint atoms (l : list datum) : option (list node) :=
  match l with
  | [] => Some []
  | DNode x :: l' => match atoms l' with Some xs => Some (x :: xs) | None => None end
  | DList _ :: _ => None
  end.
Definition match_any : combinator := fun d b c k =>
  match d with
  | DNode x => k b (set_add x c)
  | DList l => match atoms l with Some xs => k b (set_union c xs) | None => fail TypeError end
  end.

(** graph_matcher.py:194-198 *)
Definition match_any_noconsume : combinator := fun d b c k => k b c.

(** graph_matcher.py:201-212.  A list cannot be added to the consumed set; the name None
    and the empty name bind nothing. *)
Definition match_element (name : option string) (restrictions : list (datum -> bool)) : combinator :=
  fun d b c k =>
  match d with
  | DList _ => fail TypeError
  | DNode x =>
      let c' := set_add x c in
      if forallb (fun r => r d) restrictions then
        match name with
        | None | Some EmptyString => k b c'
        | Some n =>
            match lookup b n with
            | Some y => if node_eqb y x then k b c' else ret VFalse
            | None => k (b ++ [(n, x)]) c'
            end
        end
      else ret VFalse
  end.

(** graph_matcher.py:65-70, 215-219: the first true result. *)
Fixpoint match_choice (ms : list combinator) : combinator := fun d b c k =>
  match ms with
  | [] => ret VFalse
  | m :: ms' => fun s =>
      match m d b c k s with
      | (Ok v, s') => if truthy v then (Ok v, s') else match_choice ms' d b c k s'
      | (Raise e, s') => (Raise e, s')
      end
  end.

(** graph_matcher.py:222-250 *)
Fixpoint list_match (data : list datum) (ms : list combinator) : bindings -> list node -> continuation -> action :=
  fun b c k =>
  match ms, data with
  | [], [] => k b c
  | m :: ms', x :: data' => m x b c (fun b c => list_match data' ms' b c k)
  | _, _ => ret VFalse
  end.
Definition match_list (ms : list combinator) : combinator := fun d b c k =>
  match d with
  | DList data => list_match data ms b c k
  | DNode _ => ret VFalse
  end.

(** graph_matcher.py:253-258 *)
Definition match_not (m : combinator) : combinator := fun d b c k s =>
  match m d b [] (fun _ _ => ret VTrue) s with
  | (Ok v, s') => if truthy v then (Ok VFalse, s') else k b c s'
  | (Raise e, s') => (Raise e, s')
  end.

(** graph_matcher.py:261-269 *)
Definition match_internal (g : tgraph) (ms : list combinator) : combinator := fun d b c k =>
  match expand_inputs g d with
  | Ok ins => match_list ms (DList [d; ins; expand_outputs g d]) b c k
  | Raise ValueError => ret VFalse
  | Raise e => fail e
  end.

(* ------------------------------------------------------------------------ *)
(** * Compiling patterns  (graph_matcher.py:275-314) *)

(** pat[1] of an element: None or a string. *)
Definition element_name (p : pat) : res (option string) :=
  match p with
  | PNone => Ok None
  | PStr s => Ok (Some s)
  | _ => Raise TypeError
  end.
(** pat[2:]: Simplification: restrictions that cannot be called are rejected when the
    pattern is compiled, not when they are first called. *)
Definition element_restriction (p : pat) : res (datum -> bool) :=
  match p with PPred r => Ok r | _ => Raise TypeError end.

(** The handlers in the order in which they are registered (289-314); the default is
    equality.  [internal_node_input_pattern] / [internal_node_output_pattern] (154-173)
    are '?:any_noconsume' when the constraint is missing. *)
Fixpoint make_combinators (g : tgraph) (p : pat) : res combinator :=
  let neighbours (side : string) (items : list pat) : res combinator :=
    match items with
    | PSeq (PStr s :: qs) :: rest =>
        if String.eqb s side then do ms <- mapM (make_combinators g) qs; Ok (match_list ms)
        else match rest with
             | PSeq (PStr s' :: qs') :: _ =>
                 if String.eqb s' side then do ms <- mapM (make_combinators g) qs'; Ok (match_list ms)
                 else Ok match_any_noconsume
             | _ => Ok match_any_noconsume
             end
    | _ => Ok match_any_noconsume
    end in
  if head_is "?" p then
    match p with
    | PSeq (_ :: name :: restrictions) =>
        do n <- element_name name;
        do rs <- mapM element_restriction restrictions;
        Ok (match_element n rs)
    | _ => Raise IndexError
    end
  else if head_is "List" p then
    match p with
    | PSeq (_ :: ps) => do ms <- mapM (make_combinators g) ps; Ok (match_list ms)
    | _ => Raise IndexError
    end
  else if head_is "?:choice" p then
    match p with
    | PSeq (_ :: ps) => do ms <- mapM (make_combinators g) ps; Ok (match_choice ms)
    | _ => Raise IndexError
    end
  else if head_is "?:not" p then
    match p with
    | PSeq (_ :: q :: _) => do m <- make_combinators g q; Ok (match_not m)
    | _ => Raise IndexError
    end
  else if head_is "?:any" p then Ok match_any
  else if head_is "?:any_noconsume" p then Ok match_any_noconsume
  else if is_internal_node_pattern p then
    match p with
    | PSeq (q :: items) =>
        do m <- make_combinators g q;
        do mi <- neighbours "In" items;
        do mo <- neighbours "Out" items;
        Ok (match_internal g [m; mi; mo])
    | _ => Raise IndexError
    end
  else Ok (match_eqv p).

(* ------------------------------------------------------------------------ *)
(** * The matcher interface  (graph_matcher.py:345-369) *)

(** [bindings or True] *)
Definition bindings_or_true (b : bindings) : value := match b with [] => VTrue | _ => VDict b end.

Definition matcher (g : tgraph) (p : pat) : res (datum -> res value) :=
  do m <- make_combinators g (expand_thunks p);
  Ok (fun d => fst (m d [] [] (fun b _ => ret (bindings_or_true b)) [])).

(** The function that all_matcher returns, as a function of the list [results] it closes
    over; it returns that very list. *)
Definition all_matcher (g : tgraph) (p : pat)
  : res (datum -> list value -> res (list value) * list value) :=
  do m <- make_combinators g (expand_thunks p);
  Ok (fun d results =>
        match m d [] [] (fun b _ s => (Ok VNone, s ++ [bindings_or_true b])) results with
        | (Ok _, results') => (Ok results', results')
        | (Raise e, results') => (Raise e, results')
        end).

Definition matcher_with_consumed (g : tgraph) (p : pat) : res (datum -> res value) :=
  do m <- make_combinators g (expand_thunks p);
  Ok (fun d => fst (m d [] [] (fun b c => ret (VPair b c)) [])).

(* ------------------------------------------------------------------------ *)
(** * The patterns of graph_patterns.py *)

Section Patterns.
Variable g : tgraph.

Definition pname (n : option string) : pat := match n with None => PNone | Some s => PStr s end.
(** graph_patterns.py:30-47 *)
Definition gp_Tensor (n : option string) : pat := PSeq [PStr "?"; pname n; PPred is_tensor].
Definition gp_Variable (n : option string) : pat := PSeq [PStr "?"; pname n; PPred (is_var g)].
(** tensorflow_graph_util.py:131-140: the pattern constructors made for every op type. *)
Definition gp_op (typename : string) (n : option string) : pat :=
  PSeq [PStr "?"; pname n; PPred (op_type_is g typename)].
(** A pattern constructor given as a pattern, to be called without arguments. *)
Definition thunk (f : option string -> pat) : pat := PThunk (f None).

Definition In_ (ps : list pat) : pat := PSeq (PStr "In" :: ps).
Definition choice (ps : list pat) : pat := PSeq (PStr "?:choice" :: ps).
Notation tensor := (thunk gp_Tensor).

(** graph_patterns.py:121-138, with the default arguments. *)
Definition gp_Affine : pat :=
  let linear_pat := PSeq [choice [gp_op "Conv2D" (Some "linear_op"); gp_op "MatMul" (Some "linear_op");
                                  gp_op "BatchMatMulV2" (Some "linear_op")];
                          In_ [gp_Tensor (Some "in"); gp_Variable (Some "weights")]] in
  let adds := choice [thunk (gp_op "Add"); thunk (gp_op "BiasAdd"); thunk (gp_op "AddV2")] in
  let affine_pat_r := PSeq [adds; In_ [PSeq [tensor; In_ [linear_pat]]; gp_Variable (Some "biases")]] in
  let affine_pat_l := PSeq [adds; In_ [gp_Variable (Some "biases"); PSeq [tensor; In_ [linear_pat]]]] in
  let affine_pat := choice [affine_pat_r; affine_pat_l] in
  PThunk (PSeq [gp_Tensor (Some "pre_activations"); In_ [choice [affine_pat; linear_pat]]]).

(** graph_patterns.py:102-118 *)
Definition gp_ScaleAndShift : pat :=
  let scale_pat_r := PSeq [thunk (gp_op "Mul"); In_ [gp_Tensor (Some "in"); gp_Variable (Some "scale")]] in
  let scale_pat_l := PSeq [thunk (gp_op "Mul"); In_ [gp_Variable (Some "scale"); gp_Tensor (Some "in")]] in
  let scale_pat := choice [scale_pat_r; scale_pat_l] in
  let adds := choice [thunk (gp_op "Add"); thunk (gp_op "AddV2")] in
  let pat_r := PSeq [adds; In_ [PSeq [tensor; In_ [scale_pat]]; gp_Variable (Some "shift")]] in
  let pat_l := PSeq [adds; In_ [gp_Variable (Some "shift"); PSeq [tensor; In_ [scale_pat]]]] in
  PThunk (PSeq [gp_Tensor (Some "out"); In_ [choice [pat_r; pat_l; scale_pat]]]).

(** graph_patterns.py:61-78 *)
Definition gp_BatchNorm : pat :=
  let inv_pat := PSeq [gp_Tensor (Some "inv");
    In_ [choice [thunk (gp_op "Rsqrt");
                 PSeq [thunk (gp_op "Mul"); In_ [PSeq [tensor; In_ [thunk (gp_op "Rsqrt")]];
                                                 gp_Tensor (Some "scale")]]]]] in
  let without_offset_pat := PSeq [thunk (gp_op "Mul"); In_ [tensor; gp_Tensor (Some "inv")]] in
  let with_offset_pat := PSeq [thunk (gp_op "Sub"); In_ [gp_Tensor (Some "offset");
    PSeq [tensor; In_ [PSeq [thunk (gp_op "Mul"); In_ [tensor; gp_Tensor (Some "inv")]]]]]] in
  PThunk (PSeq [gp_Tensor (Some "out"); In_ [PSeq [thunk (gp_op "AddV2");
    In_ [PSeq [tensor; In_ [PSeq [thunk (gp_op "Mul"); In_ [gp_Tensor (Some "in"); inv_pat]]]];
         PSeq [tensor; In_ [choice [with_offset_pat; without_offset_pat]]]]]]]).

(** graph_patterns.py:81-91 *)
Definition gp_FusedBatchNormOutput : pat :=
  PThunk (PSeq [gp_Tensor (Some "out");
    In_ [PSeq [choice [thunk (gp_op "FusedBatchNorm"); thunk (gp_op "FusedBatchNormV2");
                       thunk (gp_op "FusedBatchNormV3")];
               In_ [gp_Tensor (Some "in"); gp_Tensor (Some "scale"); gp_Tensor (Some "offset");
                    tensor; tensor]]]]).

(** graph_patterns.py:141-156 *)
Definition gp_Embed : pat :=
  let embed_v1 := PSeq [choice [gp_op "Gather" (Some "linear_op"); gp_op "ResourceGather" (Some "linear_op")];
                        In_ [gp_Variable (Some "weights"); gp_Tensor (Some "in")]] in
  let embed_v2 := PSeq [gp_op "GatherV2" (Some "linear_op");
                        In_ [gp_Variable (Some "weights"); gp_Tensor (Some "in"); gp_Tensor (Some "axis")]] in
  PThunk (PSeq [gp_Tensor (Some "pre_activations"); In_ [choice [embed_v1; embed_v2]]]).
End Patterns.
