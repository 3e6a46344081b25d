(** Model of the tensor plumbing in kfac/python/ops/utils.py (SequenceDict,
    tensors_to_column, layer_params_to_mat2d, AccumulatorVariable,
    PartitionedTensor, MovingAverageVariable, num_conv_locations) and of the two
    depthwise filter conversions of kfac/python/ops/fisher_blocks.py. *)
From Coq Require Import String Ascii List Arith ZArith Bool Reals.
From Verif.Base Require Import Py.
Import ListNotations.
Open Scope list_scope.

(* ------------------------------------------------------------------------ *)
(** * Dense tensors: a static shape and the row-major list of entries *)

Definition size (shape : list nat) : nat := fold_right Nat.mul 1 shape.

Record tensor (A : Type) := mkT { t_shape : list nat; t_data : list A }.
Arguments mkT {A}. Arguments t_shape {A}. Arguments t_data {A}.

(** TensorFlow invariant: as many entries as the shape says. *)
Definition wf {A} (t : tensor A) : Prop := length (t_data t) = size (t_shape t).

(** [tf.reshape] with a fully specified target shape. *)
Definition reshape {A} (t : tensor A) (sh : list nat) : res (tensor A) :=
  if Nat.eqb (length (t_data t)) (size sh) then Ok (mkT sh (t_data t))
  else Raise ValueError.

(** [tf.reshape(t, [-1] + rest)]: the first dimension is inferred; TensorFlow
    refuses when it cannot be (zero-sized or non-dividing rest). *)
Definition reshape_infer {A} (t : tensor A) (rest : list nat) : res (tensor A) :=
  let n := length (t_data t) in
  if Nat.eqb (size rest) 0 then Raise ValueError
  else if Nat.eqb (Nat.modulo n (size rest)) 0
       then Ok (mkT (Nat.div n (size rest) :: rest) (t_data t))
       else Raise ValueError.

(** [tf.reshape(t, [1, -1])] *)
Definition reshape_row {A} (t : tensor A) : tensor A :=
  mkT [1; length (t_data t)] (t_data t).

Fixpoint shape_eqb (a b : list nat) : bool :=
  match a, b with
  | [], [] => true
  | x :: a', y :: b' => Nat.eqb x y && shape_eqb a' b'
  | _, _ => false
  end.

Definition head_dim {A} (t : tensor A) : nat := hd 0 (t_shape t).
Definition trailing {A} (t : tensor A) : list nat := tl (t_shape t).

(** [tf.concat(ts, axis=0)]: at least one tensor, rank >= 1, equal trailing
    dimensions; the data is concatenated. *)
Definition concat0 {A} (ts : list (tensor A)) : res (tensor A) :=
  match ts with
  | [] => Raise ValueError
  | t :: _ =>
      if forallb (fun u => negb (shape_eqb (t_shape u) []) &&
                           shape_eqb (trailing u) (trailing t)) ts
      then Ok (mkT (fold_right Nat.add 0 (map head_dim ts) :: trailing t)
                   (List.concat (map t_data ts)))
      else Raise ValueError
  end.

(** [t[lo:hi]] on the leading axis (Python slices clamp to the axis). *)
Definition slice0 {A} (lo hi : nat) (t : tensor A) : tensor A :=
  let hi' := Nat.min hi (head_dim t) in
  let row := size (trailing t) in
  mkT ((hi' - lo) :: trailing t)
      (firstn ((hi' - lo) * row) (skipn (lo * row) (t_data t))).

(** [t[-1]] on the leading axis. *)
Definition last0 {A} (t : tensor A) : res (tensor A) :=
  match head_dim t with
  | 0 => Raise ValueError
  | S n => Ok (mkT (trailing t) (firstn (size (trailing t))
                                 (skipn (n * size (trailing t)) (t_data t))))
  end.

(** Row-major position of a multi-index. *)
Fixpoint flat_index (sh idx : list nat) : nat :=
  match sh, idx with
  | _ :: sh', i :: idx' => i * size sh' + flat_index sh' idx'
  | _, _ => 0
  end.
Definition entry {A} (t : tensor A) (idx : list nat) : option A :=
  nth_error (t_data t) (flat_index (t_shape t) idx).

(* ------------------------------------------------------------------------ *)
(** * tensors_to_column / column_to_tensors  (utils.py:192-235) *)

(** "A tensor or list of tensors". *)
Inductive tens_or_list (A : Type) :=
| One (t : tensor A)
| Many (ts : list (tensor A)).
Arguments One {A}. Arguments Many {A}.

Fixpoint sequence {A} (l : list (res A)) : res (list A) :=
  match l with
  | [] => Ok []
  | r :: l' => do x <- r; do xs <- sequence l'; Ok (x :: xs)
  end.

(** utils.py:201-205 *)
Definition tensors_to_column {A} (x : tens_or_list A) : res (tensor A) :=
  match x with
  | Many ts => do cs <- sequence (map (fun t => reshape_infer t [1]) ts); concat0 cs
  | One t => reshape_infer t [1]
  end.

(** utils.py:222-231: the loop over templates with a running offset. *)
Fixpoint split_column {A} (templates : list (list nat)) (offset : nat)
    (colvec : tensor A) : res (list (tensor A)) :=
  match templates with
  | [] => Ok []
  | sh :: rest =>
      let sz := size sh in
      do t <- reshape (slice0 offset (offset + sz) colvec) sh;
      do ts <- split_column rest (offset + sz) colvec;
      Ok (t :: ts)
  end.

(** utils.py:208-235 *)
Definition column_to_tensors {A} (template : tens_or_list A) (colvec : tensor A)
  : res (tens_or_list A) :=
  match template with
  | Many ts => do l <- split_column (map t_shape ts) 0 colvec; Ok (Many l)
  | One t => do r <- reshape colvec (t_shape t); Ok (One r)
  end.

(* ------------------------------------------------------------------------ *)
(** * layer_params_to_mat2d / mat2d_to_layer_params  (utils.py:247-291) *)

(** A layer parameter vector: a tensor, a (weights, bias) pair, or IndexedSlices
    (kept opaque). *)
Inductive layer_vec (A : Type) :=
| LWeights (w : tensor A)
| LPair (w b : tensor A)
| LSlices (id : nat).
Arguments LWeights {A}. Arguments LPair {A}. Arguments LSlices {A}.

(** A 2-D matrix or IndexedSlices. *)
Inductive mat2d (A : Type) :=
| Mat (m : tensor A)
| MatSlices (id : nat).
Arguments Mat {A}. Arguments MatSlices {A}.

(** [w.shape.as_list()[-1]] *)
Definition last_dim (sh : list nat) : res nat :=
  match rev sh with [] => Raise IndexError | d :: _ => Ok d end.

(** utils.py:247-267 *)
Definition layer_params_to_mat2d {A} (v : layer_vec A) : res (mat2d A) :=
  match v with
  | LPair w b =>
      do d <- last_dim (t_shape w);
      do wr <- reshape_infer w [d];
      do m <- concat0 [wr; reshape_row b];
      Ok (Mat m)
  | LSlices i => Ok (MatSlices i)
  | LWeights w =>
      do d <- last_dim (t_shape w);
      do wr <- reshape_infer w [d];
      Ok (Mat wr)
  end.

(** utils.py:270-291.  Indexing or reshaping an IndexedSlices is a TypeError. *)
Definition mat2d_to_layer_params {A} (template : layer_vec A) (m : mat2d A)
  : res (layer_vec A) :=
  match template, m with
  | LPair w _, Mat m =>
      do b <- last0 m;
      do w' <- reshape (slice0 0 (head_dim m - 1) m) (t_shape w);
      Ok (LPair w' b)
  | LSlices _, MatSlices i => Ok (LSlices i)
  | LSlices _, Mat _ => Raise TypeError
  | LWeights w, Mat m => do w' <- reshape m (t_shape w); Ok (LWeights w')
  | _, MatSlices _ => Raise TypeError
  end.

(* ------------------------------------------------------------------------ *)
(** * SequenceDict  (utils.py:169-189) *)

(** A key is a hashable scalar or a (nested) tuple/list of keys. *)
Inductive skey := KScalar (k : nat) | KSeq (ks : list skey).
(** A value stored or returned: an object, or a sequence of values.  A stored value
    can itself be a sequence. *)
Inductive sval := VObj (v : nat) | VSeq (vs : list sval).

(** The wrapped Python dict: newest binding first. *)
Definition sdict := list (nat * sval).

Fixpoint dict_get (d : sdict) (k : nat) : res sval :=
  match d with
  | [] => Raise KeyError
  | (k', v) :: d' => if Nat.eqb k' k then Ok v else dict_get d' k
  end.
Definition dict_set (d : sdict) (k : nat) (v : sval) : sdict := (k, v) :: d.

(** utils.py:175-179 *)
Fixpoint sd_get (d : sdict) (k : skey) : res sval :=
  match k with
  | KScalar k => dict_get d k
  | KSeq ks =>
      do vs <- (fix go (ks : list skey) : res (list sval) :=
                  match ks with
                  | [] => Ok []
                  | k :: ks' => do v <- sd_get d k; do vs <- go ks'; Ok (v :: vs)
                  end) ks;
      Ok (VSeq vs)
  end.

(** utils.py:181-186.  [zip] truncates to the shorter sequence; zipping with a
    non-sequence value is a TypeError (the value objects of the model are not
    iterable). *)
Fixpoint sd_set (k : skey) (v : sval) (d : sdict) : res sdict :=
  match k with
  | KScalar k => Ok (dict_set d k v)
  | KSeq ks =>
      match v with
      | VObj _ => Raise TypeError
      | VSeq vs =>
          (fix go (ks : list skey) (vs : list sval) (d : sdict) : res sdict :=
             match ks, vs with
             | k :: ks', v :: vs' => do d' <- sd_set k v d; go ks' vs' d'
             | _, _ => Ok d
             end) ks vs d
      end
  end.

(* ------------------------------------------------------------------------ *)
(** * PartitionedTensor  (utils.py:1035-1121) *)

(** A part: object identity, dtype, static shape (batch dimension possibly
    unknown), optional one_hot_depth attribute, device, and its run-time rows.
    Simplification: only the batch dimension may be statically unknown. *)
Record part (A : Type) := mkPart {
  p_id : nat; p_dtype : nat; p_batch : option nat; p_feature : list nat;
  p_onehot : option nat; p_device : nat; p_rows : list A }.
Arguments mkPart {A}. Arguments p_id {A}. Arguments p_dtype {A}.
Arguments p_batch {A}. Arguments p_feature {A}. Arguments p_onehot {A}.
Arguments p_device {A}. Arguments p_rows {A}.

(** The container: [pt_list] tells whether [tensors] is a list or a tuple. *)
Record ptensor (A : Type) := mkPT { pt_list : bool; pt_parts : list (part A) }.
Arguments mkPT {A}. Arguments pt_list {A}. Arguments pt_parts {A}.

Definition opt_eqb (a b : option nat) : bool :=
  match a, b with
  | Some x, Some y => Nat.eqb x y
  | None, None => true
  | _, _ => false
  end.

(** utils.py:1038-1067 *)
Definition make_ptensor {A} (is_list : bool) (ps : list (part A)) : res (ptensor A) :=
  match ps with
  | [] => Raise ValueError
  | p :: _ =>
      if negb (forallb (fun q => Nat.eqb (p_dtype q) (p_dtype p)) ps) then Raise ValueError
      else if negb (forallb (fun q => shape_eqb (p_feature q) (p_feature p)) ps)
      then Raise ValueError
      else if negb (forallb (fun q => opt_eqb (p_onehot q) (p_onehot p)) ps)
      then Raise ValueError
      else Ok (mkPT is_list ps)
  end.

(** utils.py:1069-1074: [tf.Dimension] addition is unknown as soon as one is. *)
Definition dim_add (a b : option nat) : option nat :=
  match a, b with Some x, Some y => Some (x + y) | _, _ => None end.
Definition pt_shape {A} (p : ptensor A) : option nat * list nat :=
  (fold_left dim_add (map p_batch (pt_parts p)) (Some 0),
   match pt_parts p with [] => [] | q :: _ => p_feature q end).
(** utils.py:1079-1085 *)
Definition pt_dtype {A} (p : ptensor A) : nat :=
  match pt_parts p with [] => 0 | q :: _ => p_dtype q end.
Definition pt_onehot {A} (p : ptensor A) : option nat :=
  match pt_parts p with [] => None | q :: _ => p_onehot q end.
(** utils.py:1094-1097: Python list (tuple) equality of the parts, which compare by
    identity; a list never equals a tuple. *)
Definition pt_eqb {A} (p q : ptensor A) : bool :=
  Bool.eqb (pt_list p) (pt_list q) &&
  shape_eqb (map p_id (pt_parts p)) (map p_id (pt_parts q)).
(** utils.py:1091-1092: the hash is a function of the tuple of identities. *)
Definition pt_hash {A} (h : list nat -> nat) (p : ptensor A) : nat :=
  h (map p_id (pt_parts p)).
(** utils.py:1105-1109, 1102-1103 *)
Definition pt_as_tensor {A} (p : ptensor A) : list A := List.concat (map p_rows (pt_parts p)).
(** utils.py:1111-1118 *)
Definition pt_device {A} (p : ptensor A) : option nat :=
  match pt_parts p with
  | [] => None
  | q :: _ => if forallb (fun r => Nat.eqb (p_device r) (p_device q)) (pt_parts p)
              then Some (p_device q) else None
  end.

(* ------------------------------------------------------------------------ *)
(** * MovingAverageVariable  (utils.py:1248-1326) and AccumulatorVariable
      (utils.py:969-1032).  A tensor value is a function from positions. *)

Section Averages.
Variable I : Type.

Record mav := mkMav { m_var : I -> R; m_weight : R; m_norm : bool }.

(** utils.py:1257-1287 *)
Definition mav_init (initializer : I -> R) (normalize : bool) : mav :=
  mkMav initializer 0%R normalize.

(** utils.py:1292-1297: [None] stands for the NaN/Inf of a division by zero. *)
Definition mav_value (m : mav) (i : I) : option R :=
  if m_norm m
  then (if Req_EM_T (m_weight m) 0 then None else Some (m_var m i / m_weight m)%R)
  else Some (m_var m i).

Inductive mav_op := MAdd (v : I -> R) (decay weight : R) | MReset.

(** utils.py:1299-1326 *)
Definition mav_step (m : mav) (o : mav_op) : mav :=
  match o with
  | MAdd v d w =>
      mkMav (fun i => d * m_var m i + w * v i)%R (d * m_weight m + w)%R (m_norm m)
  | MReset => mkMav (fun _ => 0%R) 0%R (m_norm m)
  end.
Definition mav_run (m : mav) (ops : list mav_op) : mav := fold_left mav_step ops m.

Record acc := mkAcc { c_var : I -> R; c_count : R }.
Definition acc_init : acc := mkAcc (fun _ => 0%R) 0%R.
(** utils.py:1012-1015 *)
Definition acc_value (a : acc) (i : I) : option R :=
  if Req_EM_T (c_count a) 0 then None else Some (c_var a i / c_count a)%R.

Inductive acc_op := AAccumulate (v : I -> R) | AReset | AReadReset.

(** utils.py:1006-1032: new state and, for [read_value_and_reset], the output. *)
Definition acc_step (a : acc) (o : acc_op) : acc * option (I -> option R) :=
  match o with
  | AAccumulate v => (mkAcc (fun i => c_var a i + v i)%R (c_count a + 1)%R, None)
  | AReset => (acc_init, None)
  | AReadReset => (acc_init, Some (acc_value a))
  end.
Fixpoint acc_run (a : acc) (ops : list acc_op) : acc * list (option (I -> option R)) :=
  match ops with
  | [] => (a, [])
  | o :: ops' =>
      let (a', out) := acc_step a o in
      let (a'', outs) := acc_run a' ops' in (a'', out :: outs)
  end.
End Averages.
Arguments mkMav {I}. Arguments m_var {I}. Arguments m_weight {I}. Arguments m_norm {I}.
Arguments mav_init {I}. Arguments mav_value {I}. Arguments MAdd {I}. Arguments MReset {I}.
Arguments mav_step {I}. Arguments mav_run {I}. Arguments mkAcc {I}. Arguments c_var {I}.
Arguments c_count {I}. Arguments acc_init {I}. Arguments acc_value {I}.
Arguments AAccumulate {I}. Arguments AReset {I}. Arguments AReadReset {I}.
Arguments acc_step {I}. Arguments acc_run {I}.

(* ------------------------------------------------------------------------ *)
(** * num_conv_locations  (utils.py:1329-1379) *)

(** [str.lower] on ASCII letters. *)
Definition lower_ascii (c : ascii) : ascii :=
  let n := nat_of_ascii c in
  if Nat.leb 65 n && Nat.leb n 90 then ascii_of_nat (n + 32) else c.
Fixpoint lower (s : string) : string :=
  match s with
  | EmptyString => EmptyString
  | String c s' => String (lower_ascii c) (lower s')
  end.
Definition is_valid_padding (p : option string) : bool :=
  match p with Some s => String.eqb (lower s) "valid" | None => false end.

(** Python list indexing with a non-negative literal index. *)
Definition py_nth (l : list Z) (i : nat) : res Z :=
  match nth_error l i with Some x => Ok x | None => Raise IndexError end.

(** [-(-x // s)] with Python's floored division. *)
Definition ceil_div (x s : Z) : Z := (- ((- x) / s))%Z.

Definition num_conv_locations (input_shape filter_shape : list Z)
    (strides : option (list Z)) (padding : option string) : res Z :=
  let r := List.length input_shape in
  if negb (Nat.eqb r 4) && negb (Nat.eqb r 3) then Raise ValueError
  else if negb (Nat.eqb r (List.length filter_shape)) then Raise ValueError
  else
    let strides := match strides with
                   | Some s => s
                   | None => if Nat.eqb r 4 then [1;1;1;1]%Z else [1;1;1]%Z
                   end in
    if Nat.eqb r 3 then
      do i1 <- py_nth input_shape 1; do f0 <- py_nth filter_shape 0;
      do s1 <- py_nth strides 1;
      Ok (if is_valid_padding padding then ceil_div (i1 - f0 + 1) s1
          else ceil_div i1 s1)
    else
      do i1 <- py_nth input_shape 1; do f0 <- py_nth filter_shape 0;
      do s1 <- py_nth strides 1;
      do i2 <- py_nth input_shape 2; do f1 <- py_nth filter_shape 1;
      do s2 <- py_nth strides 2;
      Ok (if is_valid_padding padding
          then ceil_div (i1 - f0 + 1) s1 * ceil_div (i2 - f1 + 1) s2
          else ceil_div i1 s1 * ceil_div i2 s2)%Z.

(* ------------------------------------------------------------------------ *)
(** * Depthwise filter conversion  (fisher_blocks.py:1237-1318) *)

(** A rank-4 tensor given by its dimensions and entries. *)
Record filter4 := mkF4 {
  f_h : nat; f_w : nat; f_in : nat; f_out : nat;
  f_at : nat -> nat -> nat -> nat -> R }.

Definition zeros4 (h w ci co : nat) : filter4 := mkF4 h w ci co (fun _ _ _ _ => 0%R).
(** [f[:, :, i:(i+1), :]] *)
Definition slice_in (i : nat) (f : filter4) : filter4 :=
  mkF4 (f_h f) (f_w f) 1 (f_out f) (fun a b c d => f_at f a b (i + c) d).

(** [tf.concat(fs, axis=-2)] and [tf.concat(fs, axis=-1)] (shapes agree by
    construction): the entry comes from the first piece that covers the index. *)
Fixpoint at_in (fs : list filter4) (a b c d : nat) : R :=
  match fs with
  | [] => 0%R
  | f :: fs' => if Nat.ltb c (f_in f) then f_at f a b c d
                else at_in fs' a b (c - f_in f) d
  end.
Fixpoint at_out (fs : list filter4) (a b c d : nat) : R :=
  match fs with
  | [] => 0%R
  | f :: fs' => if Nat.ltb d (f_out f) then f_at f a b c d
                else at_out fs' a b c (d - f_out f)
  end.
Definition sum_nat (l : list nat) : nat := fold_right Nat.add 0 l.
Definition concat_in (h w co : nat) (fs : list filter4) : filter4 :=
  mkF4 h w (sum_nat (map f_in fs)) co (at_in fs).
Definition concat_out (h w ci : nat) (fs : list filter4) : filter4 :=
  mkF4 h w ci (sum_nat (map f_out fs)) (at_out fs).

(** fisher_blocks.py:1257-1276: [elements] for input channel [i]. *)
Definition depthwise_elements (f : filter4) (i : nat) : list filter4 :=
  (if Nat.ltb 0 i then [zeros4 (f_h f) (f_w f) i (f_out f)] else [])
  ++ [slice_in i f]
  ++ (if Nat.ltb (i + 1) (f_in f)
      then [zeros4 (f_h f) (f_w f) (f_in f - (i + 1)) (f_out f)] else []).

(** fisher_blocks.py:1237-1279.  [tf.concat] of an empty list raises. *)
Definition depthwise_to_conv2d (f : filter4) : res filter4 :=
  match f_in f with
  | 0 => Raise ValueError
  | _ =>
      Ok (concat_out (f_h f) (f_w f) (f_in f)
            (map (fun i => concat_in (f_h f) (f_w f) (f_out f) (depthwise_elements f i))
                 (seq 0 (f_in f))))
  end.

(** fisher_blocks.py:1282-1318.  The reshape splits the output channel index into
    (in_channel, multiplier); [x % 0] is an error. *)
Definition conv2d_to_depthwise (f : filter4) : res filter4 :=
  match f_in f with
  | 0 => Raise ValueError
  | _ =>
      if negb (Nat.eqb (Nat.modulo (f_out f) (f_in f)) 0) then Raise ValueError
      else
        let mult := Nat.div (f_out f) (f_in f) in
        Ok (concat_in (f_h f) (f_w f) mult
              (map (fun i => mkF4 (f_h f) (f_w f) 1 mult
                       (fun a b _ d => f_at f a b i (i * mult + d)))
                   (seq 0 (f_in f))))
  end.
