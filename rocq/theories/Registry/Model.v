(** Model of kfac/python/ops/layer_collection.py: the LayerCollection registry as a
    state machine over registration calls, with exceptions.  Only object identity of
    variables, tensors and losses matters, so they are natural numbers. *)
From Coq Require Import String List Arith ZArith Bool Reals.
From Verif.Base Require Import Py.
Import ListNotations.
Open Scope list_scope.

(* ------------------------------------------------------------------------ *)
(** * Parameters, blocks, state *)

(** A variable, or a tuple/list of variables (a list key is canonicalised to a tuple,
    layer_collection.py:156-159, so the two are not distinguished). *)
Inductive params := PVar (v : nat) | PTup (vs : list nat).

(** utils.ensure_sequence (utils.py:711-716) *)
Definition vars_of (p : params) : list nat :=
  match p with PVar v => [v] | PTup vs => vs end.

Fixpoint nats_eqb (a b : list nat) : bool :=
  match a, b with
  | [], [] => true
  | x :: a', y :: b' => Nat.eqb x y && nats_eqb a' b'
  | _, _ => false
  end.
(** Python equality of dict keys. *)
Definition params_eqb (p q : params) : bool :=
  match p, q with
  | PVar v, PVar w => Nat.eqb v w
  | PTup a, PTup b => nats_eqb a b
  | _, _ => false
  end.

Definition mem (v : nat) (l : list nat) : bool := existsb (Nat.eqb v) l.

(** The FisherBlock classes the registration functions instantiate. *)
Inductive cls :=
| NaiveFullFB | NaiveDiagonalFB
| FullyConnectedKFACBasicFB | FullyConnectedDiagonalFB
| ConvKFCBasicFB | ConvDiagonalFB | DepthwiseConvDiagonalFB
| FullyConnectedMultiIndepFB | FullyConnectedSeriesFB
| ConvKFCBasicMultiIndepFB
| ScaleAndShiftFullFB | ScaleAndShiftDiagonalFB.
Definition cls_eqb (a b : cls) : bool :=
  match a, b with
  | NaiveFullFB, NaiveFullFB | NaiveDiagonalFB, NaiveDiagonalFB
  | FullyConnectedKFACBasicFB, FullyConnectedKFACBasicFB
  | FullyConnectedDiagonalFB, FullyConnectedDiagonalFB
  | ConvKFCBasicFB, ConvKFCBasicFB | ConvDiagonalFB, ConvDiagonalFB
  | DepthwiseConvDiagonalFB, DepthwiseConvDiagonalFB
  | FullyConnectedMultiIndepFB, FullyConnectedMultiIndepFB
  | FullyConnectedSeriesFB, FullyConnectedSeriesFB
  | ConvKFCBasicMultiIndepFB, ConvKFCBasicMultiIndepFB
  | ScaleAndShiftFullFB, ScaleAndShiftFullFB
  | ScaleAndShiftDiagonalFB, ScaleAndShiftDiagonalFB => true
  | _, _ => false
  end.

(** One tower of data: input and output tensors (for generic blocks: the batch size,
    fisher_blocks.py:346-353, 441). *)
Record tower := mkTower { tw_inputs : list nat; tw_outputs : list nat }.

(** A block: its class, the approximation it was created with (which determines its
    configuration), and its registered towers. *)
Record block := mkBlock { b_cls : cls; b_approx : string; b_towers : list tower }.

(** Number of uses: an int, or float("inf") (layer_collection.py:1198). *)
Inductive uses := Fin (n : nat) | Inf.
Definition uses_add (a b : uses) : uses :=
  match a, b with Fin x, Fin y => Fin (x + y) | _, _ => Inf end.

Record defaults := mkDef {
  d_generic : string; d_fc : string; d_conv2d : string;
  d_fc_multi : string; d_conv2d_multi : string; d_scale_shift : string }.

(** The mutable state of a LayerCollection (layer_collection.py:194-219).  The
    colocation ops, the graph and the variable scope are not modelled. *)
Record coll := mkColl {
  c_blocks : list (params * block);           (* fisher_blocks, insertion order *)
  c_linked : list (list nat * option string); (* _linked_parameters: frozensets *)
  c_def : defaults;
  c_losses : list (string * list nat);        (* _loss_dict: name -> loss objects *)
  c_coeffs : list (nat * R);                  (* loss_coeffs *)
  c_next : nat;                               (* next fresh loss object *)
  c_uses : list (nat * uses);                 (* _vars_to_uses *)
  c_final : bool }.

(** layer_collection.py:202-216 *)
Definition initial : coll :=
  mkColl [] []
    (mkDef "diagonal" "kron" "kron" "kron_indep" "kron_indep" "full")
    [] [] 0 [] false.

Definition set_blocks b c := mkColl b (c_linked c) (c_def c) (c_losses c) (c_coeffs c) (c_next c) (c_uses c) (c_final c).
Definition set_linked l c := mkColl (c_blocks c) l (c_def c) (c_losses c) (c_coeffs c) (c_next c) (c_uses c) (c_final c).
Definition set_def d c := mkColl (c_blocks c) (c_linked c) d (c_losses c) (c_coeffs c) (c_next c) (c_uses c) (c_final c).
Definition set_losses l k n c := mkColl (c_blocks c) (c_linked c) (c_def c) l k n (c_uses c) (c_final c).
Definition set_uses u c := mkColl (c_blocks c) (c_linked c) (c_def c) (c_losses c) (c_coeffs c) (c_next c) u (c_final c).
Definition set_final c := mkColl (c_blocks c) (c_linked c) (c_def c) (c_losses c) (c_coeffs c) (c_next c) (c_uses c) true.

(** Python statements: they change the state and may raise; the state changes made
    before an exception remain. *)
Notation M A := (coll -> coll * res A).
Definition ret {A} (a : A) : M A := fun c => (c, Ok a).
Definition raise {A} (e : exn) : M A := fun c => (c, Raise e).
Definition mbind {A B} (m : M A) (k : A -> M B) : M B :=
  fun c => match m c with
           | (c', Ok a) => k a c'
           | (c', Raise e) => (c', Raise e)
           end.
Notation "'let!' x := m 'in' k" := (mbind m (fun x => k))
  (at level 200, x pattern, m at level 100, k at level 200).
Definition assert_ (b : bool) : M unit := if b then ret tt else raise AssertionError.
Definition lift {A} (r : res A) : M A := fun c => (c, r).

(* ------------------------------------------------------------------------ *)
(** * Approximation tables  (layer_collection.py:221-273) *)

Notation table := (list (string * cls)).
Definition generic_table : table :=
  [("full", NaiveFullFB); ("diagonal", NaiveDiagonalFB)]%string.
Definition fc_table : table :=
  [("kron", FullyConnectedKFACBasicFB); ("kron_in_diag", FullyConnectedKFACBasicFB);
   ("kron_out_diag", FullyConnectedKFACBasicFB);
   ("kron_both_diag", FullyConnectedKFACBasicFB);
   ("diagonal", FullyConnectedDiagonalFB)]%string.
Definition conv2d_table : table :=
  [("kron", ConvKFCBasicFB); ("diagonal", ConvDiagonalFB); ("kron_sua", ConvKFCBasicFB)]%string.
Definition fc_multi_table : table :=
  [("kron_indep", FullyConnectedMultiIndepFB);
   ("kron_indep_in_diag", FullyConnectedMultiIndepFB);
   ("kron_indep_out_diag", FullyConnectedMultiIndepFB);
   ("kron_indep_both_diag", FullyConnectedMultiIndepFB);
   ("kron_series_1", FullyConnectedSeriesFB);
   ("kron_series_2", FullyConnectedSeriesFB)]%string.
Definition conv2d_multi_table : table := [("kron_indep", ConvKFCBasicMultiIndepFB)]%string.
Definition scale_shift_table : table :=
  [("full", ScaleAndShiftFullFB); ("diagonal", ScaleAndShiftDiagonalFB)]%string.

Fixpoint lookup (t : table) (a : string) : option cls :=
  match t with
  | [] => None
  | (k, c) :: t' => if String.eqb k a then Some c else lookup t' a
  end.

(** Frozenset equality and membership. *)
Definition subset (a b : list nat) : bool := forallb (fun v => mem v b) a.
Definition set_eqb (a b : list nat) : bool := subset a b && subset b a.

(** layer_collection.py:724-730 *)
Fixpoint linked_lookup (l : list (list nat * option string)) (s : list nat)
  : option (option string) :=
  match l with
  | [] => None
  | (s', a) :: l' => if set_eqb s' s then Some a else linked_lookup l' s
  end.
Definition get_linked_approx (c : coll) (p : params) : option string :=
  match linked_lookup (c_linked c) (vars_of p) with Some a => a | None => None end.

(** layer_collection.py:732-741 *)
Definition get_block_type (p : params) (approx : option string) (default : coll -> string)
    (t : table) : M (cls * string) :=
  fun c =>
    let a := match approx with
             | Some a => a
             | None => match get_linked_approx c p with
                       | Some a => a
                       | None => default c
                       end
             end in
    match lookup t a with
    | Some k => (c, Ok (k, a))
    | None => (c, Raise ValueError)
    end.

(* ------------------------------------------------------------------------ *)
(** * fisher_blocks and _register_block *)

Fixpoint find_block (bs : list (params * block)) (p : params) : option block :=
  match bs with
  | [] => None
  | (k, b) :: bs' => if params_eqb k p then Some b else find_block bs' p
  end.
(** All variables registered so far: LayerParametersDict._tensors, and the keys of
    variable_to_block (layer_collection.py:478-482). *)
Definition registered (bs : list (params * block)) : list nat :=
  concat (map (fun kb => vars_of (fst kb)) bs).

(** The [reuse] argument: True, False, tf.AUTO_REUSE, VARIABLE_SCOPE, or any other
    (truthy) object; [scope] is tf.get_variable_scope().reuse. *)
Inductive reuse := RTrue | RFalse | RAuto | RScope | ROther.
Definition resolve (scope r : reuse) : reuse := match r with RScope => scope | _ => r end.

(** LayerParametersDict.__setitem__ (layer_collection.py:136-143) *)
Definition dict_insert (p : params) (b : block) : M unit :=
  fun c => if existsb (fun v => mem v (registered (c_blocks c))) (vars_of p)
           then (c, Raise ValueError)
           else (set_blocks (c_blocks c ++ [(p, b)]) c, Ok tt).

(** layer_collection.py:421-494.  The returned block object is identified by its
    key. *)
Definition register_block (scope : reuse) (p : params) (b : block) (r : reuse) : M params :=
  fun c =>
    if c_final c then (c, Raise ValueError)
    else
      let r := resolve scope r in
      let present := find_block (c_blocks c) p in
      let reusing := match r with
                     | RTrue => true
                     | RAuto => match present with Some _ => true | None => false end
                     | _ => false
                     end in
      if reusing then
        match present with
        | None => (c, Raise ValueError)
        | Some b0 => if cls_eqb (b_cls b0) (b_cls b) then (c, Ok p)
                     else (c, Raise ValueError)
        end
      else
        match present with
        | Some _ => (c, Raise ValueError)
        | None =>
            if existsb (fun v => mem v (registered (c_blocks c))) (vars_of p)
            then (c, Raise ValueError)
            else (let! _ := dict_insert p b in ret p) c
        end.

(** block.register_additional_tower (fisher_blocks.py:519-521): appends to the block
    object, which the dict shares. *)
Fixpoint append_tower (bs : list (params * block)) (p : params) (t : tower)
  : list (params * block) :=
  match bs with
  | [] => []
  | (k, b) :: bs' =>
      if params_eqb k p
      then (k, mkBlock (b_cls b) (b_approx b) (b_towers b ++ [t])) :: bs'
      else (k, b) :: append_tower bs' p t
  end.
Definition add_tower (p : params) (t : tower) : M unit :=
  fun c => (set_blocks (append_tower (c_blocks c) p t) c, Ok tt).

(** layer_collection.py:571-580; the table is a defaultdict of zeros. *)
Fixpoint bump (u : list (nat * uses)) (v : nat) (n : uses) : list (nat * uses) :=
  match u with
  | [] => [(v, uses_add (Fin 0) n)]
  | (w, m) :: u' => if Nat.eqb w v then (w, uses_add m n) :: u' else (w, m) :: bump u' v n
  end.
Definition add_uses (p : params) (n : uses) : M unit :=
  fun c => (set_uses (fold_left (fun u v => bump u v n) (vars_of p) (c_uses c)) c, Ok tt).

(* ------------------------------------------------------------------------ *)
(** * Layer registration functions *)

(** A tensor argument: identity and static shape (fully known). *)
Record targ := mkArg { a_id : nat; a_shape : list nat }.
(** A tensor or a list of tensors. *)
Inductive targs := AOne (t : targ) | AMany (ts : list targ).
Definition ids (a : targs) : list nat :=
  match a with AOne t => [a_id t] | AMany ts => map a_id ts end.

Section Registration.
(** Static shapes of the variables. *)
Variable shape : nat -> list nat.
(** tf.get_variable_scope().reuse during the call. *)
Variable scope : reuse.

(** [int(params.shape[0])]: a tuple has no attribute shape; a scalar has no
    dimension 0. *)
Definition one_hot_depth (p : params) : res nat :=
  match p with
  | PTup _ => Raise AttributeError
  | PVar v => match shape v with [] => Raise IndexError | d :: _ => Ok d end
  end.

(** layer_collection.py:743-794 *)
Definition register_fully_connected (p : params) (inputs outputs : targ)
    (approx : option string) (dense : bool) (r : reuse) : M unit :=
  let! (k, a) := get_block_type p approx (fun c => d_fc (c_def c)) fc_table in
  let! key := register_block scope p (mkBlock k a []) r in
  let! _ := (if dense then ret 0 else lift (one_hot_depth p)) in
  let! _ := add_tower key (mkTower [a_id inputs] [a_id outputs]) in
  add_uses p (Fin 1).

(** [fltr = params[0] if has_bias else params] in the convolution block constructors
    (fisher_blocks.py:1054). *)
Definition filter_var (p : params) : res nat :=
  match p with
  | PVar v => Ok v
  | PTup (v :: _) => Ok v
  | PTup [] => Raise IndexError
  end.

(** ConvKFCBasicFB.__init__ (fisher_blocks.py:1045-1061): no validation besides. *)
Definition conv_kfc_ctor (p : params) : M unit := let! _ := lift (filter_var p) in ret tt.

(** ConvDiagonalFB.__init__ (fisher_blocks.py:638-667); [nhwc] tells whether
    data_format is channels-last. *)
Definition conv_diag_ctor (p : params) (strides : list Z) (dilations : option (list Z))
    (nhwc : bool) : M unit :=
  if negb (Nat.eqb (List.length strides) 4) then raise ValueError
  else if negb (match dilations with None => true | Some d => Nat.eqb (List.length d) 4 end)
  then raise ValueError
  else if negb nhwc then raise ValueError
  else let! v := lift (filter_var p) in
       if negb (Nat.eqb (List.length (shape v)) 4) then raise ValueError else ret tt.

(** approx is None or approx == name *)
Definition approx_ok (approx : option string) (name : string) : bool :=
  match approx with None => true | Some a => String.eqb a name end.

(** layer_collection.py:796-855 *)
Definition register_conv1d (p : params) (inputs outputs : targ)
    (approx : option string) (r : reuse) : M unit :=
  let! _ := assert_ (approx_ok approx "kron") in
  let! _ := conv_kfc_ctor p in
  let! key := register_block scope p (mkBlock ConvKFCBasicFB "kron" []) r in
  let! _ := add_tower key (mkTower [a_id inputs] [a_id outputs]) in
  add_uses p (Fin 1).

(** strides[0] == strides[-1] == 1 *)
Definition unit_ends (s : list Z) : res bool :=
  match s with
  | [] => Raise IndexError
  | x :: _ => Ok (Z.eqb x (last s 0%Z) && Z.eqb (last s 0%Z) 1)
  end.

(** layer_collection.py:857-964; [nhwc] is [data_format in [None, "NHWC"]]. *)
Definition register_conv2d (p : params) (strides : list Z) (dilations : option (list Z))
    (inputs outputs : targ) (nhwc : bool) (approx : option string) (r : reuse) : M unit :=
  let! _ := assert_ nhwc in
  let! (k, a) := get_block_type p approx (fun c => d_conv2d (c_def c)) conv2d_table in
  let! key :=
    (if String.eqb a "kron" then
       let! _ := conv_kfc_ctor p in
       register_block scope p (mkBlock k a []) r
     else if String.eqb a "diagonal" then
       let! ok := lift (unit_ends strides) in
       let! _ := assert_ ok in
       let! _ := conv_diag_ctor p strides dilations nhwc in
       register_block scope p (mkBlock k a []) r
     else if String.eqb a "kron_sua" then
       let! _ := conv_kfc_ctor p in
       register_block scope p (mkBlock k a []) r
     else raise NotImplementedErr) in
  let! _ := add_tower key (mkTower [a_id inputs] [a_id outputs]) in
  add_uses p (Fin 1).

(** layer_collection.py:966-1025 *)
Definition register_convolution (p : params) (inputs outputs : targ)
    (approx : option string) (r : reuse) : M unit :=
  register_conv1d p inputs outputs approx r.

(** DepthwiseConvDiagonalFB.__init__ (fisher_blocks.py:1124-1154) *)
Definition depthwise_ctor (p : params) (strides : list Z) (rate : option (list Z))
    (nhwc : bool) : M unit :=
  match p with
  | PTup _ => raise NotImplementedErr
  | PVar v =>
      if negb (Nat.eqb (List.length (shape v)) 4) then raise ValueError
      else if negb (Nat.eqb (List.length strides) 4) then raise ValueError
      else match rate with
           | Some rt => if Nat.eqb (List.length rt) 2
                        then conv_diag_ctor p strides (Some (1%Z :: rt ++ [1%Z])) nhwc
                        else raise ValueError
           | None => conv_diag_ctor p strides None nhwc
           end
  end.

(** layer_collection.py:1027-1084 *)
Definition register_depthwise_conv2d (p : params) (strides : list Z)
    (rate : option (list Z)) (inputs outputs : targ) (nhwc : bool)
    (approx : option string) (r : reuse) : M unit :=
  let! _ := assert_ (approx_ok approx "diagonal") in
  let! _ := assert_ nhwc in
  let! _ := depthwise_ctor p strides rate nhwc in
  let! key := register_block scope p (mkBlock DepthwiseConvDiagonalFB "diagonal" []) r in
  let! _ := add_tower key (mkTower [a_id inputs] [a_id outputs]) in
  add_uses p (Fin 1).

(** layer_collection.py:1086-1157 *)
Definition register_separable_conv2d (dp pp : params) (strides : list Z)
    (rate : option (list Z)) (inputs douts pouts : targ) (nhwc : bool)
    (approx : option string) (r : reuse) : M unit :=
  let! _ := register_depthwise_conv2d dp strides rate inputs douts nhwc (Some "diagonal"%string) r in
  register_conv2d pp [1;1;1;1]%Z None douts pouts nhwc approx r.

Definition is_tuple (p : params) : bool := match p with PTup _ => true | PVar _ => false end.

(** layer_collection.py:1159-1198 *)
Definition register_generic (p : params) (batch_size : nat) (approx : option string)
    (r : reuse) : M unit :=
  let! (k, a) := get_block_type p approx (fun c => d_generic (c_def c)) generic_table in
  if String.eqb a "diagonal" && is_tuple p then raise ValueError
  else
    let! key := register_block scope p (mkBlock k a []) r in
    let! _ := add_tower key (mkTower [batch_size] []) in
    add_uses p Inf.

(** The tail shared by the two multi-use functions (layer_collection.py:1283-1289,
    1371-1377): add the tower, then check the lengths.  [len] of a Tensor is a
    TypeError. *)
Definition finish_multi (p key : params) (inputs outputs : targs) : M unit :=
  let! _ := add_tower key (mkTower (ids inputs) (ids outputs)) in
  match inputs with
  | AMany ts =>
      match outputs with
      | AOne _ => raise TypeError
      | AMany us => let! _ := assert_ (Nat.eqb (List.length ts) (List.length us)) in
                    add_uses p (Fin (List.length ts))
      end
  | AOne _ => add_uses p (Fin 1)
  end.

(** layer_collection.py:1200-1289.  The one_hot_depth of every input is computed from
    the parameters; with an empty input list it is never computed. *)
Definition register_fully_connected_multi (p : params) (inputs outputs : targs)
    (approx : option string) (dense : bool) (r : reuse) : M unit :=
  let! (k, a) := get_block_type p approx (fun c => d_fc_multi (c_def c)) fc_multi_table in
  let! key := register_block scope p (mkBlock k a []) r in
  let! _ := (if dense then ret 0
             else match inputs with
                  | AMany [] => ret 0
                  | _ => lift (one_hot_depth p)
                  end) in
  finish_multi p key inputs outputs.

(** layer_collection.py:1291-1377; the constructor reads the filter shape
    (fisher_blocks.py:1597-1603). *)
Definition register_conv2d_multi (p : params) (inputs outputs : targs) (nhwc : bool)
    (approx : option string) (r : reuse) : M unit :=
  let! _ := assert_ nhwc in
  let! (k, a) := get_block_type p approx (fun c => d_conv2d_multi (c_def c)) conv2d_multi_table in
  let! _ := conv_kfc_ctor p in
  let! key := register_block scope p (mkBlock k a []) r in
  finish_multi p key inputs outputs.

(** The shape checks of register_scale_and_shift (layer_collection.py:1429-1470).
    [param] and [data] are shapes; [strict] distinguishes the shift check, which also
    rejects a parameter dimension larger than the data's. *)
Definition check_broadcast (strict : bool) (param data : list nat) : res unit :=
  if Nat.ltb (List.length data) (List.length param) then Raise ValueError
  else
    let start := List.length data - List.length param in
    if Nat.eqb start 0 && negb (Nat.eqb (hd 1 param) 1) then Raise ValueError
    else
      (fix go (is : list nat) : res unit :=
         match is with
         | [] => Ok tt
         | i :: is' =>
             let pd := nth (i - start) param 0 in
             let dd := nth i data 0 in
             if Nat.ltb pd dd then
               (if Nat.eqb pd 1 then go is' else Raise ValueError)
             else if strict && Nat.ltb dd pd then Raise ValueError
             else go is'
         end) (seq (Nat.max start 1) (List.length data - Nat.max start 1)).

(** layer_collection.py:1379-1487.  Simplification: both shapes of rank 0 would index
    a missing dimension; [hd 1] avoids that corner. *)
Definition register_scale_and_shift (p : params) (inputs outputs : targ)
    (approx : option string) (r : reuse) : M unit :=
  let! scale :=
    (match p with
     | PTup (sc :: sh :: _) =>
         let! _ := lift (check_broadcast true (shape sh) (a_shape outputs)) in ret sc
     | PTup _ => raise IndexError
     | PVar sc => ret sc
     end) in
  let! _ := lift (check_broadcast false (shape scale) (a_shape inputs)) in
  let! (k, a) := get_block_type p approx (fun c => d_scale_shift (c_def c)) scale_shift_table in
  let! key := register_block scope p (mkBlock k a []) r in
  let! _ := add_tower key (mkTower [a_id inputs] [a_id outputs]) in
  add_uses p (Fin 1).

(* ------------------------------------------------------------------------ *)
(** * Losses  (layer_collection.py:496-565) *)

Fixpoint find_loss (l : list (string * list nat)) (n : string) : option (list nat) :=
  match l with
  | [] => None
  | (k, ts) :: l' => if String.eqb k n then Some ts else find_loss l' n
  end.
Fixpoint append_loss (l : list (string * list nat)) (n : string) (x : nat)
  : list (string * list nat) :=
  match l with
  | [] => [(n, [x])]
  | (k, ts) :: l' => if String.eqb k n then (k, ts ++ [x]) :: l' else (k, ts) :: append_loss l' n x
  end.
Fixpoint coeff_of (l : list (nat * R)) (x : nat) : option R :=
  match l with
  | [] => None
  | (k, c) :: l' => if Nat.eqb k x then Some c else coeff_of l' x
  end.

(** Every public loss registration creates a loss object and calls this function with
    its own base name.  [fresh] is the name returned by graph.unique_name(base_name).
    The name None test at line 538 can never succeed. *)
Definition register_loss (name : option string) (fresh : string) (coeff : R) (r : reuse)
  : M unit :=
  fun c =>
    if c_final c then (c, Raise ValueError)
    else
      let n := match name with
               | Some EmptyString | None => fresh
               | Some n => n
               end in
      let truthy := match resolve scope r with RFalse => false | _ => true end in
      let add c :=
        (set_losses (append_loss (c_losses c) n (c_next c))
                    ((c_next c, coeff) :: c_coeffs c) (S (c_next c)) c, Ok tt) in
      if truthy then
        match find_loss (c_losses c) n with
        | None => (c, Raise KeyError)
        | Some ts =>
            match ts with
            | [] => (c, Raise IndexError)
            | t :: _ =>
                match coeff_of (c_coeffs c) t with
                | None => (c, Raise KeyError)
                | Some k => if Req_EM_T k coeff then add c else (c, Raise ValueError)
                end
            end
        end
      else
        match find_loss (c_losses c) n with
        | Some _ => (c, Raise KeyError)
        | None => add c
        end.
End Registration.

(** layer_collection.py:275-283 *)
Definition towers_by_loss (c : coll) : list (list nat) := map snd (c_losses c).
Definition losses (c : coll) : list nat := concat (towers_by_loss c).

(** layer_collection.py:692-722.  [value] gives the loss values (on the data or on
    samples). *)
Inductive coeff_mode := Regular | Sqrt | Off.
Definition eval_losses (c : coll) (value : nat -> R) (m : coeff_mode) : list (option R) :=
  map (fun x =>
         match m with
         | Regular => option_map (fun k => (k * value x)%R) (coeff_of (c_coeffs c) x)
         | Sqrt => option_map (fun k => (sqrt k * value x)%R) (coeff_of (c_coeffs c) x)
         | Off => Some (1 * value x)%R
         end) (losses c).
(** tf.add_n: needs at least one summand. *)
Fixpoint add_n (l : list (option R)) : option R :=
  match l with
  | [] => None
  | [x] => x
  | x :: l' => match x, add_n l' with Some a, Some b => Some (a + b)%R | _, _ => None end
  end.
Definition total_loss (c : coll) (value : nat -> R) (m : coeff_mode) : option R :=
  add_n (eval_losses c value m).

(* ------------------------------------------------------------------------ *)
(** * Linking, defaults, finalisation, checking *)

(** layer_collection.py:640-684 *)
Definition define_linked_parameters (p : params) (approx : option string) : M unit :=
  fun c =>
    let s := vars_of p in
    if existsb (fun kb => existsb (fun v => mem v (vars_of (fst kb))) s
                          && negb (set_eqb s (vars_of (fst kb)))) (c_blocks c)
    then (c, Raise ValueError)
    else if existsb (fun v => existsb (fun l => mem v (fst l)) (c_linked c)) s
    then (c, Raise ValueError)
    else (set_linked ((s, approx) :: c_linked c) c, Ok tt).

Inductive kind := KGeneric | KFc | KConv2d | KFcMulti | KConv2dMulti | KScaleShift.
Definition table_of (k : kind) : table :=
  match k with
  | KGeneric => generic_table | KFc => fc_table | KConv2d => conv2d_table
  | KFcMulti => fc_multi_table | KConv2dMulti => conv2d_multi_table
  | KScaleShift => scale_shift_table
  end.
(** layer_collection.py:307-368: the six setters. *)
Definition set_default (k : kind) (a : string) : M unit :=
  fun c =>
    match lookup (table_of k) a with
    | None => (c, Raise ValueError)
    | Some _ =>
        let d := c_def c in
        (set_def (match k with
          | KGeneric => mkDef a (d_fc d) (d_conv2d d) (d_fc_multi d) (d_conv2d_multi d) (d_scale_shift d)
          | KFc => mkDef (d_generic d) a (d_conv2d d) (d_fc_multi d) (d_conv2d_multi d) (d_scale_shift d)
          | KConv2d => mkDef (d_generic d) (d_fc d) a (d_fc_multi d) (d_conv2d_multi d) (d_scale_shift d)
          | KFcMulti => mkDef (d_generic d) (d_fc d) (d_conv2d d) a (d_conv2d_multi d) (d_scale_shift d)
          | KConv2dMulti => mkDef (d_generic d) (d_fc d) (d_conv2d d) (d_fc_multi d) a (d_scale_shift d)
          | KScaleShift => mkDef (d_generic d) (d_fc d) (d_conv2d d) (d_fc_multi d) (d_conv2d_multi d) a
          end) c, Ok tt)
    end.

(** layer_collection.py:411-419, 686-690 *)
Definition finalize : M unit :=
  fun c =>
    if c_final c then (c, Raise ValueError)
    else match losses c with
         | [] => (c, Raise ValueError)
         | _ => (set_final c, Ok tt)
         end.

(** Lookup in the defaultdict inserts a zero entry. *)
Fixpoint uses_get (u : list (nat * uses)) (v : nat) : option uses :=
  match u with
  | [] => None
  | (w, n) :: u' => if Nat.eqb w v then Some n else uses_get u' v
  end.
Definition uses_lookup (u : list (nat * uses)) (v : nat) : list (nat * uses) * uses :=
  match uses_get u v with
  | Some n => (u, n)
  | None => (u ++ [(v, Fin 0)], Fin 0)
  end.

(** layer_collection.py:601-612: the loop, with the number of error messages.
    [total v] is subgraph.variable_uses(v). *)
Definition wrong_uses (reg : uses) (total : nat) : bool :=
  match reg with
  | Fin 0 => true
  | Fin n => negb (Nat.eqb n total)
  | Inf => false
  end.
Fixpoint check_loop (total : nat -> nat) (vs : list nat) (u : list (nat * uses))
    (errors : nat) : list (nat * uses) * nat :=
  match vs with
  | [] => (u, errors)
  | v :: vs' =>
      let (u', n) := uses_lookup u v in
      check_loop total vs' u' (if wrong_uses n (total v) then S errors else errors)
  end.

(** layer_collection.py:582-624.  Before finalisation there is no subgraph, and its
    first use raises AttributeError. *)
Definition check_registration (total : nat -> nat) (vs : list nat) : M unit :=
  fun c =>
    if negb (c_final c) && negb (match vs with [] => true | _ => false end)
    then (c, Raise AttributeError)
    else
      let (u, errors) := check_loop total vs (c_uses c) 0 in
      let errors := if Nat.ltb (List.length vs) (List.length u) then S errors else errors in
      (set_uses u c, if Nat.eqb errors 0 then Ok tt else Raise ValueError).

(* ------------------------------------------------------------------------ *)
(** * Histories of API calls *)

(** A layer registration call with its arguments. *)
Inductive layer_call :=
| FullyConnected (p : params) (i o : targ) (approx : option string) (dense : bool) (r : reuse)
| Conv1d (p : params) (i o : targ) (approx : option string) (r : reuse)
| Conv2d (p : params) (strides : list Z) (dil : option (list Z)) (i o : targ) (nhwc : bool)
    (approx : option string) (r : reuse)
| Convolution (p : params) (i o : targ) (approx : option string) (r : reuse)
| Depthwise (p : params) (strides : list Z) (rate : option (list Z)) (i o : targ)
    (nhwc : bool) (approx : option string) (r : reuse)
| Separable (dp pp : params) (strides : list Z) (rate : option (list Z)) (i d o : targ)
    (nhwc : bool) (approx : option string) (r : reuse)
| Generic (p : params) (batch_size : nat) (approx : option string) (r : reuse)
| FullyConnectedMulti (p : params) (i o : targs) (approx : option string) (dense : bool) (r : reuse)
| Conv2dMulti (p : params) (i o : targs) (nhwc : bool) (approx : option string) (r : reuse)
| ScaleAndShift (p : params) (i o : targ) (approx : option string) (r : reuse).

Definition run_layer (shape : nat -> list nat) (scope : reuse) (l : layer_call) : M unit :=
  match l with
  | FullyConnected p i o a d r => register_fully_connected shape scope p i o a d r
  | Conv1d p i o a r => register_conv1d scope p i o a r
  | Conv2d p s d i o f a r => register_conv2d shape scope p s d i o f a r
  | Convolution p i o a r => register_convolution scope p i o a r
  | Depthwise p s t i o f a r => register_depthwise_conv2d shape scope p s t i o f a r
  | Separable dp pp s t i d o f a r => register_separable_conv2d shape scope dp pp s t i d o f a r
  | Generic p b a r => register_generic scope p b a r
  | FullyConnectedMulti p i o a d r => register_fully_connected_multi shape scope p i o a d r
  | Conv2dMulti p i o f a r => register_conv2d_multi scope p i o f a r
  | ScaleAndShift p i o a r => register_scale_and_shift shape scope p i o a r
  end.

Inductive call :=
| Layer (scope : reuse) (l : layer_call)
| Loss (scope : reuse) (name : option string) (fresh : string) (coeff : R) (r : reuse)
| Link (p : params) (approx : option string)
| SetDefault (k : kind) (a : string)
| Finalize
| Check (total : nat -> nat) (vs : list nat).

Definition run_call (shape : nat -> list nat) (k : call) : M unit :=
  match k with
  | Layer s l => run_layer shape s l
  | Loss s n f x r => register_loss s n f x r
  | Link p a => define_linked_parameters p a
  | SetDefault k a => set_default k a
  | Finalize => finalize
  | Check t vs => check_registration t vs
  end.

(** The user program may catch exceptions and go on, so a history is any list of
    calls; the collection after it: *)
Definition after (shape : nat -> list nat) (h : list call) (c : coll) : coll :=
  fold_left (fun c k => fst (run_call shape k c)) h c.

(* ------------------------------------------------------------------------ *)
(** * make_or_get_factor  (layer_collection.py:1741-1770) *)

(** A request is a class and hashable arguments (both numbered); [None] arguments are
    unhashable.  Factor objects are numbered in creation order. *)
Record fstore := mkFS { fs_table : list ((nat * nat) * nat); fs_next : nat }.
Definition fs_init : fstore := mkFS [] 0.
Fixpoint fs_find (t : list ((nat * nat) * nat)) (k : nat * nat) : option nat :=
  match t with
  | [] => None
  | ((a, b), f) :: t' => if Nat.eqb a (fst k) && Nat.eqb b (snd k) then Some f else fs_find t' k
  end.
Definition make_or_get_factor (s : fstore) (k : nat * option nat) : fstore * res nat :=
  match snd k with
  | None => (s, Raise TypeError)
  | Some args =>
      match fs_find (fs_table s) (fst k, args) with
      | Some f => (s, Ok f)
      | None => (mkFS (fs_table s ++ [((fst k, args), fs_next s)]) (S (fs_next s)),
                 Ok (fs_next s))
      end
  end.
Fixpoint requests (s : fstore) (ks : list (nat * option nat)) : fstore * list (res nat) :=
  match ks with
  | [] => (s, [])
  | k :: ks' => let (s', r) := make_or_get_factor s k in
                let (s'', rs) := requests s' ks' in (s'', r :: rs)
  end.
Definition get_factors (s : fstore) : list nat := map snd (fs_table s).

(* ------------------------------------------------------------------------ *)
(** * The default collection  (layer_collection.py:104-123, 1772-1777) *)

(** Programs over the module-level default: reading it, setting it, an as_default
    block, raising, and try/except around a body (with the handler doing nothing). *)
Inductive prog :=
| Skip
| GetDefault
| SetDefaultColl (l : option nat)
| AsDefault (l : nat) (body : prog)
| RaiseIt (e : exn)
| Seq (a b : prog)
| Try (body : prog).

(** State: the global [_DEFAULT_LAYER_COLLECTION]; the output records what each
    successful [get_default_layer_collection] returned. *)
Definition set_default_coll (l : option nat) (g : option nat) : option nat * res unit :=
  match g, l with
  | Some _, Some _ => (g, Raise ValueError)
  | _, _ => (l, Ok tt)
  end.

Fixpoint exec (p : prog) (g : option nat) : option nat * list nat * res unit :=
  match p with
  | Skip => (g, [], Ok tt)
  | GetDefault => match g with None => (g, [], Raise ValueError) | Some l => (g, [l], Ok tt) end
  | SetDefaultColl l => let (g', r) := set_default_coll l g in (g', [], r)
  | AsDefault l body =>
      match set_default_coll (Some l) g with
      | (g1, Raise e) => (g1, [], Raise e)
      | (g1, Ok _) =>
          (* @contextmanager: an exception is thrown into the generator at the yield,
             which has no handler, so the last line does not run *)
          match exec body g1 with
          | (g2, out, Raise e) => (g2, out, Raise e)
          | (g2, out, Ok _) => let (g3, r) := set_default_coll None g2 in (g3, out, r)
          end
      end
  | RaiseIt e => (g, [], Raise e)
  | Seq a b =>
      match exec a g with
      | (g1, o1, Raise e) => (g1, o1, Raise e)
      | (g1, o1, Ok _) => let '(g2, o2, r) := exec b g1 in (g2, o1 ++ o2, r)
      end
  | Try body => let '(g1, o1, _) := exec body g in (g1, o1, Ok tt)
  end.
