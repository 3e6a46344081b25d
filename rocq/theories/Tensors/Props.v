(** Property theorems C09 - C15 and C18. *)
From Coq Require Import String List Arith ZArith Lia Bool Reals Lra.
From Verif.Base Require Import Py ListFacts.
From Verif.Tensors Require Import Model Spec Proofs AvgProofs.
Import ListNotations.
Open Scope list_scope.

(* ======================================================================= *)
(** ** C09 *)

(** The column holds all entries, tensor after tensor, in row-major order. *)
Theorem C09_column_is_concatenation :
  forall (A : Type) (x : tens_or_list A),
    x <> Many [] ->
    tensors_to_column x = Ok (mkT [List.length (flat x); 1] (flat x)).
Proof. exact @tensors_to_column_flat. Qed.
Print Assumptions C09_column_is_concatenation.

Theorem C09_roundtrip_tensors :
  forall (A : Type) (x : tens_or_list A) (c : tensor A),
    all_wf x -> tensors_to_column x = Ok c -> column_to_tensors x c = Ok x.
Proof. exact @column_roundtrip_1. Qed.
Print Assumptions C09_roundtrip_tensors.

Theorem C09_roundtrip_column :
  forall (A : Type) (x : tens_or_list A) (data : list A),
    x <> Many [] -> List.length data = total_size x ->
    exists y, column_to_tensors x (mkT [List.length data; 1] data) = Ok y /\
      same_shapes x y /\ tensors_to_column y = Ok (mkT [List.length data; 1] data).
Proof. exact @column_roundtrip_2. Qed.
Print Assumptions C09_roundtrip_column.

Example C09_example :
  let x := Many [mkT [2; 2] [1; 2; 3; 4]; mkT [] [5]; mkT [0; 3] []; mkT [3] [6; 7; 8]] in
  all_wf x /\ x <> Many [] /\ total_size x = 8 /\
  tensors_to_column x = Ok (mkT [8; 1] [1; 2; 3; 4; 5; 6; 7; 8]) /\
  column_to_tensors x (mkT [8; 1] [1; 2; 3; 4; 5; 6; 7; 8]) = Ok x.
Proof.
  cbn. split; [|split; [discriminate|auto]].
  intros t [<-|[<-|[<-|[<-|[]]]]]; reflexivity.
Qed.

(* ======================================================================= *)
(** ** C10 *)

Theorem C10_roundtrip_params :
  forall (A : Type) (v : layer_vec A),
    match v with
    | LWeights w => wf w /\ exists sh d, t_shape w = sh ++ [d] /\ d <> 0
    | LPair w b => wf w /\ wf b /\
                   exists sh d, t_shape w = sh ++ [d] /\ d <> 0 /\ t_shape b = [d]
    | LSlices _ => True
    end ->
    exists m, layer_params_to_mat2d v = Ok m /\ mat2d_to_layer_params v m = Ok v.
Proof. exact @layer_params_roundtrip. Qed.
Print Assumptions C10_roundtrip_params.

Theorem C10_roundtrip_matrix :
  forall (A : Type) (v : layer_vec A) (m : tensor A),
    wf m ->
    match v with
    | LWeights w => exists sh d, t_shape w = sh ++ [d] /\ d <> 0 /\ t_shape m = [size sh; d]
    | LPair w b => exists sh d, t_shape w = sh ++ [d] /\ d <> 0 /\ t_shape m = [size sh + 1; d]
    | LSlices _ => False
    end ->
    exists v', mat2d_to_layer_params v (Mat m) = Ok v' /\
               layer_params_to_mat2d v' = Ok (Mat m).
Proof. exact @layer_params_roundtrip_mat. Qed.
Print Assumptions C10_roundtrip_matrix.

(** One row per flattened input coordinate, a final bias row, one column per output. *)
Theorem C10_matrix_entries :
  forall (A : Type) (w b : tensor A) (sh : list nat) (d : nat),
    t_shape w = sh ++ [d] -> wf w -> d <> 0 -> List.length (t_data b) = d ->
    exists m, layer_params_to_mat2d (LPair w b) = Ok (Mat m) /\
      t_shape m = [size sh + 1; d] /\
      (forall i j, i < size sh -> j < d ->
         entry m [i; j] = nth_error (t_data w) (i * d + j)) /\
      (forall j, j < d -> entry m [size sh; j] = nth_error (t_data b) j).
Proof. exact @mat2d_entries. Qed.
Print Assumptions C10_matrix_entries.

Example C10_example :
  let w := mkT [2; 1; 2] [1; 2; 3; 4] in
  let b := mkT [2] [5; 6] in
  wf w /\ wf b /\ t_shape w = [2; 1] ++ [2] /\
  layer_params_to_mat2d (LPair w b) = Ok (Mat (mkT [3; 2] [1; 2; 3; 4; 5; 6])).
Proof. repeat split. Qed.

(* ======================================================================= *)
(** ** C11 *)

(** After any successful history of assignments with scalar or nested sequence keys
    the value of a scalar key is the one most recently assigned to it, and a key
    never assigned raises KeyError.  [ls] lists what each assignment means. *)
Theorem C11_latest_assignment_wins :
  forall (ops : list (skey * sval)) (d : sdict) (k : nat),
    sd_run ops [] = Ok d ->
    exists ls, Forall2 (fun o l => assigns (fst o) (snd o) l) ops ls /\
      (forall v, sd_get d (KScalar k) = Ok v <-> latest (concat ls) k v) /\
      (sd_get d (KScalar k) = Raise KeyError <-> forall v, ~ In (k, v) (concat ls)).
Proof. exact sd_history. Qed.
Print Assumptions C11_latest_assignment_wins.

(** Looking up a sequence is looking up its elements, in order. *)
Theorem C11_sequence_lookup :
  forall (d : sdict) (ks : list skey) (v : sval),
    sd_get d (KSeq ks) = Ok v <->
    exists vs, v = VSeq vs /\ Forall2 (fun k v => sd_get d k = Ok v) ks vs.
Proof. exact sd_get_seq. Qed.
Print Assumptions C11_sequence_lookup.

(** Assigning equally long sequences is assigning element by element. *)
Theorem C11_sequence_assignment :
  forall (ks : list skey) (vs : list sval) (d : sdict),
    List.length ks = List.length vs ->
    sd_set (KSeq ks) (VSeq vs) d = sd_run (combine ks vs) d.
Proof. exact sd_set_elementwise. Qed.
Print Assumptions C11_sequence_assignment.

Theorem C11_set_get :
  forall (ks : list nat) (vs : list sval) (d : sdict),
    NoDup ks -> List.length ks = List.length vs ->
    exists d', sd_set (KSeq (map KScalar ks)) (VSeq vs) d = Ok d' /\
      sd_get d' (KSeq (map KScalar ks)) = Ok (VSeq vs) /\
      forall k, ~ In k ks -> sd_get d' (KScalar k) = sd_get d (KScalar k).
Proof. exact sd_roundtrip. Qed.
Print Assumptions C11_set_get.

Example C11_example :
  let ops := [(KScalar 1, VObj 10);
              (KSeq [KScalar 2; KSeq [KScalar 1; KScalar 3]],
               VSeq [VObj 20; VSeq [VObj 11; VObj 30]])] in
  exists d, sd_run ops [] = Ok d /\ sd_get d (KScalar 1) = Ok (VObj 11) /\
            sd_get d (KScalar 9) = Raise KeyError /\ NoDup [2; 1; 3].
Proof.
  eexists. split; [reflexivity|]. split; [reflexivity|]. split; [reflexivity|].
  repeat constructor; simpl; intuition discriminate.
Qed.

(* ======================================================================= *)
(** ** C12 *)

Theorem C12_accepted_iff_consistent :
  forall (A : Type) (is_list : bool) (ps : list (part A)),
    (exists t, make_ptensor is_list ps = Ok t) <->
    ps <> [] /\ forall p q, In p ps -> In q ps ->
      p_dtype p = p_dtype q /\ p_feature p = p_feature q /\ p_onehot p = p_onehot q.
Proof. exact @make_ptensor_ok. Qed.
Print Assumptions C12_accepted_iff_consistent.

Theorem C12_rejected_with_ValueError :
  forall (A : Type) (is_list : bool) (ps : list (part A)) (e : exn),
    make_ptensor is_list ps = Raise e -> e = ValueError.
Proof. exact @make_ptensor_raises. Qed.
Print Assumptions C12_rejected_with_ValueError.

(** The reported batch size, when known, is the number of rows of [as_tensor()]
    (which is the rows of the parts in order), provided each part's own static
    batch size is right. *)
Theorem C12_shape_is_shape_of_concatenation :
  forall (A : Type) (is_list : bool) (ps : list (part A)) (t : ptensor A),
    make_ptensor is_list ps = Ok t ->
    pt_as_tensor t = concat (map p_rows ps) /\
    (forall p, In p ps -> snd (pt_shape t) = p_feature p /\ pt_dtype t = p_dtype p /\
                          pt_onehot t = p_onehot p) /\
    (forall n, (forall p m, In p ps -> p_batch p = Some m -> m = List.length (p_rows p)) ->
       fst (pt_shape t) = Some n -> n = List.length (pt_as_tensor t)) /\
    ((forall p, In p ps -> p_batch p = Some (List.length (p_rows p))) ->
       fst (pt_shape t) = Some (List.length (pt_as_tensor t))).
Proof. exact @ptensor_shape. Qed.
Print Assumptions C12_shape_is_shape_of_concatenation.

(** Equality is equality of the sequences of parts, as Python sequences (a list is
    never equal to a tuple); equal objects have equal hashes. *)
Theorem C12_equality :
  forall (A : Type) (p q : ptensor A),
    (pt_eqb p q = true <->
     pt_list p = pt_list q /\ map p_id (pt_parts p) = map p_id (pt_parts q)) /\
    (pt_eqb p q = true -> forall h, pt_hash h p = pt_hash h q).
Proof. exact @ptensor_equality. Qed.
Print Assumptions C12_equality.

(** A device is reported exactly when all parts live on it. *)
Theorem C12_device :
  forall (A : Type) (t : ptensor A) (d : nat),
    pt_device t = Some d <->
    pt_parts t <> [] /\ forall p, In p (pt_parts t) -> p_device p = d.
Proof. exact @ptensor_device. Qed.
Print Assumptions C12_device.

Example C12_example :
  let p1 := mkPart 1 0 (Some 2) [3] None 0 [10; 11] in
  let p2 := mkPart 2 0 None [3] None 1 [12] in
  make_ptensor true [p1; p2] = Ok (mkPT true [p1; p2]) /\
  pt_shape (mkPT true [p1; p2]) = (None, [3]) /\
  pt_shape (mkPT true [p1; p1]) = (Some 4, [3]) /\
  make_ptensor true [p1; mkPart 3 0 None [4] None 1 [12]] = Raise ValueError.
Proof. repeat split. Qed.

(* ======================================================================= *)
(** ** C13 *)

(** After any sequence of add_to_average calls the value is the weighted mean, each
    value weighted by its weight times all later decays. *)
Theorem C13_weighted_mean :
  forall (I : Type) (h : list ((I -> R) * R * R)) (init : I -> R) (i : I),
    init i = 0%R -> total_weight h <> 0%R ->
    mav_value (mav_run (mav_init init true)
                 (map (fun e => MAdd (fst (fst e)) (snd (fst e)) (snd e)) h)) i
    = Some (weighted_sum (fun v => v i) h / total_weight h)%R.
Proof. exact @mav_fresh_value. Qed.
Print Assumptions C13_weighted_mean.

Theorem C13_constant_data :
  forall (I : Type) (h : list ((I -> R) * R * R)) (init : I -> R) (i : I) (c : R),
    init i = 0%R -> total_weight h <> 0%R ->
    (forall e, In e h -> fst (fst e) i = c) ->
    mav_value (mav_run (mav_init init true)
                 (map (fun e => MAdd (fst (fst e)) (snd (fst e)) (snd e)) h)) i = Some c.
Proof. exact @mav_constant. Qed.
Print Assumptions C13_constant_data.

Theorem C13_convex_hull :
  forall (I : Type) (h : list ((I -> R) * R * R)) (init : I -> R) (i : I) (lo hi : R),
    init i = 0%R -> total_weight h <> 0%R ->
    (forall e, In e h -> 0 <= snd (fst e) /\ 0 <= snd e /\ lo <= fst (fst e) i <= hi)%R ->
    exists x, mav_value (mav_run (mav_init init true)
                (map (fun e => MAdd (fst (fst e)) (snd (fst e)) (snd e)) h)) i = Some x /\
              (lo <= x <= hi)%R.
Proof. exact @mav_convex. Qed.
Print Assumptions C13_convex_hull.

(** The total is non-zero after any positively weighted addition. *)
Theorem C13_total_positive :
  forall (I : Type) (h : list ((I -> R) * R * R)),
    h <> [] -> (forall e, In e h -> 0 <= snd (fst e) /\ 0 < snd e)%R ->
    (0 < total_weight h)%R.
Proof. exact @total_weight_pos. Qed.
Print Assumptions C13_total_positive.

(** What happened before a reset does not matter. *)
Theorem C13_reset_forgets :
  forall (I : Type) (m1 m2 : mav I) (pre1 pre2 : list (mav_op I))
         (h : list ((I -> R) * R * R)) (i : I),
    m_norm m1 = m_norm m2 ->
    mav_value (mav_run m1 (pre1 ++ MReset ::
                 map (fun e => MAdd (fst (fst e)) (snd (fst e)) (snd e)) h)) i =
    mav_value (mav_run m2 (pre2 ++ MReset ::
                 map (fun e => MAdd (fst (fst e)) (snd (fst e)) (snd e)) h)) i.
Proof. exact @mav_reset_irrelevant. Qed.
Print Assumptions C13_reset_forgets.

(** Without normalisation the value is the plain decayed sum, including what the
    initial value has decayed to. *)
Theorem C13_unnormalized :
  forall (I : Type) (h : list ((I -> R) * R * R)) (init : I -> R) (i : I),
    mav_value (mav_run (mav_init init false)
                 (map (fun e => MAdd (fst (fst e)) (snd (fst e)) (snd e)) h)) i
    = Some (later_decays h * init i + weighted_sum (fun v => v i) h)%R.
Proof. exact @mav_unnormalized. Qed.
Print Assumptions C13_unnormalized.

Example C13_example :
  let h := [(fun _ : unit => 2, 1, 1); (fun _ => 4, 1/2, 1/2)]%R in
  total_weight h <> 0%R /\
  (forall e, In e h -> 0 <= snd (fst e) /\ 0 <= snd e /\ 2 <= fst (fst e) tt <= 4)%R.
Proof.
  split; [cbn; lra|]. intros e [<-|[<-|[]]]; cbn; lra.
Qed.

(* ======================================================================= *)
(** ** C14 *)

(** [is_reset o] says that [o] is reset() or read_value_and_reset().  Every history is
    a (possibly empty) part ending in one of those, then accumulations. *)
Theorem C14_every_history_decomposes :
  forall (I : Type) (ops : list (acc_op I)),
    exists pre vs, ops = pre ++ map AAccumulate vs /\
      (pre = [] \/ exists pre' o, pre = pre' ++ [o] /\ is_reset o = true).
Proof. exact @acc_decompose. Qed.
Print Assumptions C14_every_history_decomposes.

Theorem C14_mean_since_reset :
  forall (I : Type) (pre : list (acc_op I)) (vs : list (I -> R)) (i : I),
    (pre = [] \/ exists pre' o, pre = pre' ++ [o] /\ is_reset o = true) ->
    acc_value (fst (acc_run acc_init (pre ++ map AAccumulate vs))) i =
    match vs with
    | [] => None
    | _ => Some (Rsum (map (fun v => v i) vs) / INR (List.length vs))%R
    end.
Proof. exact @acc_since_reset. Qed.
Print Assumptions C14_mean_since_reset.

Theorem C14_read_value_and_reset :
  forall (I : Type) (pre : list (acc_op I)) (vs : list (I -> R)),
    (pre = [] \/ exists pre' o, pre = pre' ++ [o] /\ is_reset o = true) ->
    let '(a, outs) := acc_run acc_init (pre ++ map AAccumulate vs ++ [AReadReset]) in
    a = acc_init /\
    exists out, last outs None = Some out /\
      forall i, out i = match vs with
                        | [] => None
                        | _ => Some (Rsum (map (fun v => v i) vs) / INR (List.length vs))%R
                        end.
Proof. exact @acc_read_reset. Qed.
Print Assumptions C14_read_value_and_reset.

Example C14_example :
  let ops := [AAccumulate (fun _ : unit => 3%R); AReset; AAccumulate (fun _ => 5%R)] in
  ops = [AAccumulate (fun _ : unit => 3%R); AReset] ++ map AAccumulate [fun _ => 5%R] /\
  exists pre' o, [AAccumulate (fun _ : unit => 3%R); AReset] = pre' ++ [o] /\ is_reset o = true.
Proof. split; [reflexivity|]. exists [AAccumulate (fun _ : unit => 3%R)], AReset. auto. Qed.

(* ======================================================================= *)
(** ** C15 *)

Theorem C15_valid_1d :
  forall (b n c f ci co s0 s1 s2 : nat) (pad : string),
    s1 > 0 -> f <= n + 1 -> spells_valid pad ->
    num_conv_locations (map Z.of_nat [b; n; c]) (map Z.of_nat [f; ci; co])
                       (Some (map Z.of_nat [s0; s1; s2])) (Some pad)
    = Ok (Z.of_nat (List.length (placements n f s1))).
Proof. exact conv1d_valid. Qed.
Print Assumptions C15_valid_1d.

Theorem C15_same_1d :
  forall (b n c f ci co s0 s1 s2 : nat) (pad : option string),
    s1 > 0 -> (forall p, pad = Some p -> ~ spells_valid p) ->
    num_conv_locations (map Z.of_nat [b; n; c]) (map Z.of_nat [f; ci; co])
                       (Some (map Z.of_nat [s0; s1; s2])) pad
    = Ok (Z.of_nat (List.length (stride_points n s1))).
Proof. exact conv1d_same. Qed.
Print Assumptions C15_same_1d.

Theorem C15_valid_2d :
  forall (b n1 n2 c f1 f2 ci co s0 s1 s2 s3 : nat) (pad : string),
    s1 > 0 -> s2 > 0 -> f1 <= n1 + 1 -> f2 <= n2 + 1 -> spells_valid pad ->
    num_conv_locations (map Z.of_nat [b; n1; n2; c]) (map Z.of_nat [f1; f2; ci; co])
                       (Some (map Z.of_nat [s0; s1; s2; s3])) (Some pad)
    = Ok (Z.of_nat (List.length (list_prod (placements n1 f1 s1) (placements n2 f2 s2)))).
Proof. exact conv2d_valid. Qed.
Print Assumptions C15_valid_2d.

Theorem C15_same_2d :
  forall (b n1 n2 c f1 f2 ci co s0 s1 s2 s3 : nat) (pad : option string),
    s1 > 0 -> s2 > 0 -> (forall p, pad = Some p -> ~ spells_valid p) ->
    num_conv_locations (map Z.of_nat [b; n1; n2; c]) (map Z.of_nat [f1; f2; ci; co])
                       (Some (map Z.of_nat [s0; s1; s2; s3])) pad
    = Ok (Z.of_nat (List.length (list_prod (stride_points n1 s1) (stride_points n2 s2)))).
Proof. exact conv2d_same. Qed.
Print Assumptions C15_same_2d.

(** Missing strides mean unit strides. *)
Theorem C15_default_strides :
  forall (sh fs : list Z) (pad : option string),
    num_conv_locations sh fs None pad =
    num_conv_locations sh fs
      (Some (if Nat.eqb (List.length sh) 4 then [1;1;1;1]%Z else [1;1;1]%Z)) pad.
Proof. exact conv_default_strides. Qed.
Print Assumptions C15_default_strides.

Theorem C15_malformed_rejected :
  forall (sh fs : list Z) (st : option (list Z)) (pad : option string),
    (List.length sh <> 3 /\ List.length sh <> 4) \/ List.length sh <> List.length fs ->
    num_conv_locations sh fs st pad = Raise ValueError.
Proof. exact conv_bad_rank. Qed.
Print Assumptions C15_malformed_rejected.

Example C15_example :
  num_conv_locations [8; 7; 5; 3]%Z [3; 2; 3; 16]%Z (Some [1; 2; 1; 1]%Z) (Some "VALID"%string)
    = Ok 12%Z /\ spells_valid "VaLID" /\ ~ spells_valid "SAME" /\ placements 7 3 2 = [0; 2; 4] /\
  num_conv_locations [8; 7; 3]%Z [3; 3; 16]%Z (Some [1; 2; 1]%Z) (Some "SAME"%string) = Ok 4%Z /\
  stride_points 7 2 = [0; 2; 4; 6].
Proof.
  split; [reflexivity|]. split.
  { do 5 eexists. split; [reflexivity|]. unfold letter. auto 10. }
  split; [|repeat split].
  intros (a & b & c & d & e & H & _). discriminate.
Qed.

(* ======================================================================= *)
(** ** C18 *)

Theorem C18_entries :
  forall f : filter4,
    f_in f <> 0 ->
    exists g, depthwise_to_conv2d f = Ok g /\
      f_h g = f_h f /\ f_w g = f_w f /\ f_in g = f_in f /\ f_out g = f_in f * f_out f /\
      forall a b c i m, c < f_in f -> i < f_in f -> m < f_out f ->
        f_at g a b c (i * f_out f + m) = if Nat.eqb c i then f_at f a b i m else 0%R.
Proof. exact depthwise_to_conv2d_spec. Qed.
Print Assumptions C18_entries.

Theorem C18_roundtrip :
  forall f : filter4,
    f_in f <> 0 ->
    exists g f', depthwise_to_conv2d f = Ok g /\ conv2d_to_depthwise g = Ok f' /\
                 filter_eq f' f.
Proof. exact depthwise_roundtrip. Qed.
Print Assumptions C18_roundtrip.

Theorem C18_roundtrip_back :
  forall (g : filter4) (m : nat),
    f_in g <> 0 -> f_out g = f_in g * m ->
    (forall a b c i d, c < f_in g -> i < f_in g -> d < m -> c <> i ->
       f_at g a b c (i * m + d) = 0%R) ->
    exists f g', conv2d_to_depthwise g = Ok f /\ depthwise_to_conv2d f = Ok g' /\
                 filter_eq g' g.
Proof. exact depthwise_roundtrip_back. Qed.
Print Assumptions C18_roundtrip_back.

Theorem C18_malformed_rejected :
  forall f : filter4,
    f_in f <> 0 -> f_out f mod f_in f <> 0 -> conv2d_to_depthwise f = Raise ValueError.
Proof. exact conv2d_to_depthwise_rejects. Qed.
Print Assumptions C18_malformed_rejected.

(** Both filters compute the same convolution. *)
Theorem C18_same_convolution :
  forall (f : filter4) (x : nat -> nat -> nat -> R) (i m : nat),
    i < f_in f -> m < f_out f ->
    exists g, depthwise_to_conv2d f = Ok g /\
      conv2d_at g x (i * f_out f + m) = depthwise_at f x i m.
Proof. exact depthwise_same_convolution. Qed.
Print Assumptions C18_same_convolution.

Example C18_example :
  let f := mkF4 1 1 2 2 (fun _ _ i m => INR (10 * i + m)) in
  f_in f <> 0 /\ (exists g, depthwise_to_conv2d f = Ok g /\ f_at g 0 0 1 3 = INR 11 /\
                            f_at g 0 0 0 3 = 0%R /\ f_out g = 4).
Proof. cbn. split; [lia|]. eexists. repeat split. Qed.
