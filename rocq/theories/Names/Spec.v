(** Vocabulary of the statements about names and variables. *)
From Coq Require Import String Ascii List Arith Bool QArith Reals Permutation.
From Verif.Base Require Import Py.
From Verif.Names Require Import Model.
Import ListNotations.
Open Scope string_scope.
Open Scope nat_scope.
Open Scope list_scope.

(* ------------------------------------------------------------------------ *)
(** * What a name shows *)

(** How a tensor appears in the name of a factor. *)
Definition word (w : world) (t : nat) : string := sanitize w (replace_seps (tname w t)).

Definition letter (c : ascii) : Prop :=
  let n := nat_of_ascii c in 65 <= n <= 90 \/ 97 <= n <= 122.
Definition starts_with_letter (s : string) : Prop :=
  exists c r, s = String c r /\ letter c.
Fixpoint free_of (c : ascii) (s : string) : Prop :=
  match s with EmptyString => True | String d s' => c <> d /\ free_of c s' end.

(** [p] is a prefix of [s]. *)
Definition begins (p s : string) : Prop := exists r, s = (p ++ r)%string.

(** The words of the tensors [ts] can be told apart inside a longer name: they start with a
    letter, contain no slash, none is "None", and no word followed by an underscore begins
    another word followed by an underscore. *)
Definition tell_apart (w : world) (ts : list nat) : Prop :=
  (forall t, In t ts ->
     starts_with_letter (word w t) /\ free_of "/" (word w t) /\ word w t <> "None") /\
  (forall t u, In t ts -> In u ts ->
     begins (word w t ++ "_") (word w u ++ "_") -> t = u).

(** The part of a factor's description that its name contains: the class (shared by some
    classes), the tensors, in the groups in which they are printed, and the printed
    settings. *)
Inductive arg :=
| ANone | AInt (n : nat) | AInts (l : list nat) | ABool (b : bool) | AStr (s : string)
| ATensor (t : nat).
Record shown := mkShown { sh_class : string; sh_data : list (list nat); sh_args : list arg }.

Definition tensors_of (o : obj) : list nat :=
  match o with OTensor t => [t] | OParts ts => ts end.
(** The tensors of several objects as one group. *)
Definition together (l : list obj) : list nat := concat (map tensors_of l).

Definition aints (l : option (list nat)) := match l with None => ANone | Some l => AInts l end.
Definition astr (s : option string) := match s with None => ANone | Some s => AStr s end.
Definition atensor (t : option nat) := match t with None => ANone | Some t => ATensor t end.
Definition auses (u : option nat) := match u with None => ANone | Some n => AInt n end.
Definition abatch (p : param) : arg :=
  match p with PInt n => AInt n | PObj (OTensor t) => ATensor t | _ => ANone end.

Definition shown_conv (cv : conv) : list arg :=
  [AInts (cv_filter cv); aints (cv_strides cv); AStr (cv_padding cv); aints (cv_dilation cv);
   astr (cv_format cv); ABool (cv_bias cv); atensor (cv_mask cv)].

Definition shown_of (f : factor) : shown :=
  match f with
  | NaiveFull grads b => mkShown "naive full" [together (concat grads)] [abatch b]
  | NaiveDiagonal grads b => mkShown "naive diagonal" [together grads] [abatch b]
  | DiagonalKronecker tensors _ | DiagonalMulti tensors _ _ =>
      mkShown "diagonal side of a layer" (map tensors_of (concat tensors)) []
  | FCDiagonal inputs grads _ =>
      mkShown "diagonal fully connected" (map tensors_of (inputs ++ concat grads)) []
  | ScaleShift full inputs grads bscale bshift has_shift =>
      mkShown "scale and shift" [together inputs; together (concat grads)]
        [AInts bscale; aints bshift; ABool has_shift; ABool full]
  | ConvDiagonal inputs grads _ =>
      mkShown "diagonal convolution" (map tensors_of (inputs ++ concat grads)) []
  | FCKronecker tensors bias =>
      mkShown "dense side of a layer" (map tensors_of (concat tensors)) [ABool bias]
  | ConvInput inputs cv | ConvInputMulti inputs cv _ =>
      mkShown "input side of a convolution" (map tensors_of inputs) (shown_conv cv)
  | ConvInputSUA inputs filter bias =>
      mkShown "uncorrelated input side of a convolution" (map tensors_of inputs)
        [AInts filter; ABool bias]
  | ConvOutput grads | ConvOutputMulti grads _ =>
      mkShown "output side of a convolution" (map tensors_of (concat grads)) []
  | FCMulti tensors uses bias _ =>
      mkShown "dense side of a layer used several times" (map tensors_of (concat tensors))
        [auses uses; ABool bias]
  end.

(** The tensors that occur in the name. *)
Definition arg_tensors (a : arg) : list nat := match a with ATensor t => [t] | _ => [] end.
Definition shown_tensors (f : factor) : list nat :=
  concat (sh_data (shown_of f)) ++ concat (map arg_tensors (sh_args (shown_of f))).

(** Strings such as "SAME" and "NHWC". *)
Definition plain_string (s : string) : Prop := free_of "_" s /\ free_of "/" s /\ s <> "None".
Definition plain_conv (cv : conv) : Prop :=
  cv_filter cv <> [] /\ plain_string (cv_padding cv) /\
  match cv_format cv with None => True | Some s => plain_string s end.

(** A factor that has data, given plain settings; the scale-and-shift and the naive factors are
    given tensors rather than partitioned tensors. *)
Definition plain_obj (o : obj) : Prop := match o with OTensor _ => True | OParts _ => False end.
Definition plain_batch (p : param) : Prop :=
  match p with PInt _ | PObj (OTensor _) => True | _ => False end.
Definition proper (f : factor) : Prop :=
  sh_data (shown_of f) <> [] /\ (forall g, In g (sh_data (shown_of f)) -> g <> []) /\
  match f with
  | NaiveFull grads b => Forall (Forall plain_obj) grads /\ grads <> [] /\ plain_batch b /\
      Forall (fun g => g <> []) grads
  | NaiveDiagonal grads b => Forall plain_obj grads /\ plain_batch b
  | ScaleShift _ inputs grads _ _ _ =>
      Forall plain_obj inputs /\ Forall (Forall plain_obj) grads /\
      Forall (fun g => g <> []) grads
  | ConvInput _ cv | ConvInputMulti _ cv _ => plain_conv cv
  | ConvInputSUA _ filter _ => filter <> []
  | _ => True
  end.

(* ------------------------------------------------------------------------ *)
(** * Variables *)

Definition names (st : list var) : list string := map v_name st.
(** A variable as a checkpoint sees it. *)
Definition saved (v : var) : string * list nat := (v_name v, v_shape v).

(** No variable of [st] lies in the scope. *)
Definition unused (scope : string) (st : list var) : Prop :=
  forall v, In v st -> ~ begins (scope ++ "/") (v_name v).

(** The two variables of the average exist, with the shape of the statistic. *)
Definition has_average (vw : string * string) (s : list nat) (st : list var) : Prop :=
  (exists i, In (mkVar (fst vw) s i) st) /\ In (mkVar (snd vw) [] Zeros) st.

(* ------------------------------------------------------------------------ *)
(** * The same registrations with other tensor objects *)

Definition re_obj (r : nat -> nat) (o : obj) : obj :=
  match o with OTensor t => OTensor (r t) | OParts ts => OParts (map r ts) end.
Fixpoint re_param (r : nat -> nat) (p : param) : param :=
  match p with
  | PObj o => PObj (re_obj r o)
  | PSeq l => PSeq (map (re_param r) l)
  | _ => p
  end.
Definition re_conv (r : nat -> nat) (cv : conv) : conv :=
  mkConv (cv_filter cv) (cv_strides cv) (cv_padding cv) (cv_dilation cv) (cv_format cv)
    (cv_extract cv) (cv_bias cv) (cv_sub_inputs cv) (cv_sub_patches cv)
    (option_map r (cv_mask cv)).
Definition re_factor (r : nat -> nat) (f : factor) : factor :=
  let ro := map (re_obj r) in
  let roo := map (map (re_obj r)) in
  match f with
  | NaiveFull g b => NaiveFull (roo g) (re_param r b)
  | NaiveDiagonal g b => NaiveDiagonal (ro g) (re_param r b)
  | DiagonalKronecker t b => DiagonalKronecker (roo t) b
  | DiagonalMulti t u b => DiagonalMulti (roo t) u b
  | FCDiagonal i g b => FCDiagonal (ro i) (roo g) b
  | ScaleShift a i g bs bh h => ScaleShift a (ro i) (roo g) bs bh h
  | ConvDiagonal i g cv => ConvDiagonal (ro i) (roo g) (re_conv r cv)
  | FCKronecker t b => FCKronecker (roo t) b
  | ConvInput i cv => ConvInput (ro i) (re_conv r cv)
  | ConvInputMulti i cv u => ConvInputMulti (ro i) (re_conv r cv) u
  | ConvInputSUA i f b => ConvInputSUA (ro i) f b
  | ConvOutput g => ConvOutput (roo g)
  | ConvOutputMulti g u => ConvOutputMulti (roo g) u
  | FCMulti t u b d => FCMulti (roo t) u b d
  end.
Definition re_id (r : nat -> nat) (p : idpart) : idpart :=
  match p with ITensor t => ITensor (r t) | _ => p end.
Definition re_regs (r : nat -> nat) (g : regs) : regs :=
  let ids := map (map (re_id r)) in
  mkRegs (map (fun p => (fst p, map (re_id r) (snd p))) (r_matpower g)) (ids (r_cholesky g))
    (ids (r_cholinv g)) (ids (r_opt1 g)) (ids (r_opt2 g)).
(** The graph [w'] has, at [r t], a tensor with the name, shape and depth of [t] in [w]. *)
Definition same_graph (r : nat -> nat) (w w' : world) : Prop :=
  (forall t, tname w' (r t) = tname w t) /\ (forall t, tshape w' (r t) = tshape w t) /\
  (forall t, thot w' (r t) = thot w t) /\
  (forall s, sanitize w' s = sanitize w s) /\ (forall q, repr_float w' q = repr_float w q).

(** Two orders of the same registrations. *)
Definition regs_reordered (a b : regs) : Prop :=
  Permutation (r_matpower a) (r_matpower b) /\
  Permutation (r_cholesky a) (r_cholesky b) /\
  Permutation (r_cholinv a) (r_cholinv b) /\
  Permutation (r_opt1 a) (r_opt1 b) /\
  Permutation (r_opt2 a) (r_opt2 b).
(** The same factors in another order, each with its registrations in another order. *)
Definition reordered (l m : list (factor * regs)) : Prop :=
  exists l', Permutation l l' /\
    Forall2 (fun x y => fst x = fst y /\ regs_reordered (snd x) (snd y)) l' m.

(** The variables for what is computed from the statistics of a factor, after the powers and
    dampings that were registered: none for diagonal factors; for the spatially uncorrelated
    convolution factor the damping and, unless the mean is taken to be zero, two more outside
    of the scope of the factor; for layers used several times those of the two options. *)
Definition power_tag (w : world) (p : Q * list idpart) : string :=
  (repr_float w (fst p) ++ "_" ++ damping_string w (snd p))%string.
Definition dense_names (w : world) (here : string) (r : regs) : list string :=
  map (fun p => slash here ("matpower_exp" ++ repr_float w (fst p) ++ "_damp"
                            ++ damping_string w (snd p))%string) (r_matpower r) ++
  map (fun id => slash here ("cholesky_damp" ++ damping_string w id)%string) (r_cholesky r) ++
  map (fun id => slash here ("cholesky_inverse_damp" ++ damping_string w id)%string) (r_cholinv r).
Definition sua_names (zero_mean : bool) (w : world) (scope here : string) (r : regs) : list string :=
  concat (map (fun p =>
    [slash here ("matpower_exp" ++ repr_float w (fst p) ++ "_damp" ++ damping_string w (snd p))%string;
     slash scope ("damping_var_" ++ power_tag w p)%string] ++
    if zero_mean then []
    else [slash scope ("cov_inv_mu_" ++ power_tag w p)%string;
          slash scope ("rank_one_update_scale_" ++ power_tag w p)%string]) (r_matpower r)).
Definition option_names (w : world) (here : string) (r : regs) : list string :=
  concat (map (fun id => [slash here ("Lmat_damp" ++ damping_string w id)%string;
                          slash here ("psi_damp" ++ damping_string w id)%string]) (r_opt1 r)) ++
  concat (map (fun id => [slash here ("Lmat_damp" ++ damping_string w id)%string;
                          slash here ("Kmat_damp" ++ damping_string w id)%string;
                          slash here ("mu_damp" ++ damping_string w id)%string]) (r_opt2 r)).
Definition diagonal_factor (f : factor) : bool :=
  match f with
  | NaiveDiagonal _ _ | DiagonalKronecker _ _ | DiagonalMulti _ _ _ | FCDiagonal _ _ _
  | ConvDiagonal _ _ _ | ScaleShift false _ _ _ _ _ => true
  | _ => false
  end.
Definition inverse_names (zero_mean : bool) (w : world) (scope here : string) (f : factor)
    (r : regs) : list string :=
  if diagonal_factor f then [] else
  match f with
  | ConvInputSUA _ _ _ => sua_names zero_mean w scope here r
  | FCMulti _ _ _ _ => dense_names w here r ++ option_names w here r
  | _ => dense_names w here r
  end.

(** The name and shapes of the factor exist; the uncorrelated factor is asked for inverses
    only. *)
Definition computable (w : world) (f : factor) (r : regs) : Prop :=
  (exists vs, var_scope w f = Ok vs) /\ (exists s, cov_shape w f = Ok s) /\
  match f with
  | ConvInputSUA _ _ _ => Forall (fun p => fst p == - 1)%Q (r_matpower r)
  | FCMulti _ _ _ _ => exists v, vec_shape w f = Ok v
  | _ => True
  end.

(* ------------------------------------------------------------------------ *)
(** * Layers and settings *)

Definition data_of (l : layer) : list (list nat) :=
  match l with
  | LNaiveFull grads _ => grads
  | LNaiveDiagonal grads _ => [grads]
  | LFCDiagonal i g _ | LConvDiagonal i g _ | LScaleShift _ i g _ _ _ | LFC i g _ _ _
  | LConv i g _ _ | LFCMulti i g _ _ _ _ | LConvMulti i g _ _ | LSeries i g _ _ => i :: g
  end.
Definition scale_and_shift (l : layer) : Prop :=
  match l with LScaleShift _ _ _ _ _ _ => True | _ => False end.

(** One call of set_global_constants: the arguments, None where it was left out. *)
Record call := mkCall {
  c_init_cov_zero : option bool; c_zero_debias : option bool; c_init_inv_zero : option bool;
  c_zero_mean : option bool; c_sub_inputs : option bool; c_sub_patches : option bool;
  c_strategy : option string }.
Definition do_call (k : consts) (c : call) : consts :=
  set_global_constants (c_init_cov_zero c) (c_zero_debias c) (c_init_inv_zero c) (c_zero_mean c)
    (c_sub_inputs c) (c_sub_patches c) (c_strategy c) k.
(** The constants after the calls, in order, from those of the imported module. *)
Definition after_calls (cs : list call) : consts := fold_left do_call cs imported.
(** The value given last, or the default. *)
Fixpoint last_given {A} (l : list (option A)) (default : A) : A :=
  match l with
  | [] => default
  | Some a :: l' => last_given l' a
  | None :: l' => last_given l' default
  end.

(* ------------------------------------------------------------------------ *)
(** * The sizes a layer needs *)

(** A batch of [n]-vectors, given as a matrix or, for an approximation that allows it, as the
    positions of the ones of one-hot vectors of depth [n]. *)
Definition rows_of (w : world) (one_hot_ok : bool) (n : nat) (t : nat) : Prop :=
  (thot w t = None /\ exists b, tshape w t = [b; n]) \/ (one_hot_ok = true /\ thot w t = Some n).
(** The same with an optional time axis. *)
Definition rows_of_series (w : world) (one_hot_ok : bool) (n : nat) (t : nat) : Prop :=
  (thot w t = None /\ exists b, tshape w t = [b; n] \/ exists k, tshape w t = [b; k; n]) \/
  (one_hot_ok = true /\ thot w t = Some n).
(** Feature maps with [n] channels. *)
Definition channels (w : world) (n : nat) (t : nat) : Prop :=
  exists b s, tshape w t = b :: s ++ [n].

(** A layer from [n] to [m] features or channels, with its data. *)
Definition from_to (w : world) (l : layer) (n m : nat) : Prop :=
  let data i g P Q := Forall P i /\ Forall (Forall Q) g in
  match l with
  | LFC i g _ din dout => data i g (rows_of w din n) (rows_of w dout m)
  | LFCDiagonal i g _ => data i g (rows_of w false n) (rows_of w false m)
  | LFCMulti i g _ _ din dout => data i g (rows_of_series w din n) (rows_of_series w dout m)
  | LSeries i g _ _ => data i g (rows_of_series w false n) (rows_of_series w false m)
  | LConv i g cv _ | LConvMulti i g cv _ =>
      data i g (channels w n) (channels w m) /\ exists k, cv_filter cv = k ++ [n; m]
  | LConvDiagonal i g cv =>
      data i g (channels w n) (channels w m) /\ exists h k, cv_filter cv = [h; k; n; m]
  | _ => False
  end.
(** The number of positions of a filter. *)
Definition positions (filter : list nat) : nat :=
  fold_right Nat.mul 1 (firstn (List.length filter - 2) filter).
(** One row of parameters per input feature (and filter position), and one for the bias. *)
Definition sizes (l : layer) (n m : nat) : list (list nat) :=
  let side (diagonal : bool) k := if diagonal then [k] else [k; k] in
  let bias (b : bool) k := if b then S k else k in
  match l with
  | LFC _ _ b din dout | LFCMulti _ _ _ b din dout => [side din (bias b n); side dout m]
  | LSeries _ _ _ b => [side false (bias b n); side false m]
  | LFCDiagonal _ _ b => [[bias b n; m]]
  | LConv _ _ cv true => [side false n; side false m]
  | LConv _ _ cv false | LConvMulti _ _ cv _ =>
      [side false (bias (cv_bias cv) (positions (cv_filter cv) * n)); side false m]
  | LConvDiagonal _ _ cv => [[bias (cv_bias cv) (positions (cv_filter cv) * n); m]]
  | _ => []
  end.
