(** Model of the naming and creation of the Fisher factors' variables
    (kfac/python/ops/fisher_factors.py, utils.MovingAverageVariable, the factor
    construction of fisher_blocks.py and the variable thunks of estimator.py), and of
    the module constants that control them.

    Tensors are natural numbers; their names, static shapes and [one_hot_depth]
    attributes are looked up in a [world].  Data types and devices are not modelled. *)
From Coq Require Import String Ascii List Arith Bool QArith Reals DecimalString.
From Verif.Base Require Import Py.
Import ListNotations.
Open Scope string_scope.
Open Scope nat_scope.
Open Scope list_scope.

(* ------------------------------------------------------------------------ *)
(** * Python values *)

(** A tf.Tensor, or a utils.PartitionedTensor over a list of them (utils.py:1035-1070). *)
Inductive obj := OTensor (t : nat) | OParts (ts : list nat).

(** The values that occur in the lists of parameters a name is built from.  Ints are
    non-negative: they are sizes, strides, dimensions and counts. *)
Inductive param :=
| PNone | PInt (n : nat) | PBool (b : bool) | PStr (s : string)
| PObj (o : obj) | PSeq (l : list param).

(** What the naming code reads of the graph and of the settings: [t.name], the static
    shape and [one_hot_depth] of a tensor, _GET_SANITIZED_NAME_FN (fisher_factors.py:122)
    and Python's [repr] of a float. *)
Record world := mkWorld {
  tname : nat -> string;
  tshape : nat -> list nat;
  thot : nat -> option nat;
  sanitize : string -> string;
  repr_float : Q -> string }.

(** Python's [str] of a bool and of an int. *)
Definition str_bool (b : bool) : string := if b then "True" else "False".
Definition str_int (n : nat) : string := NilEmpty.string_of_uint (Nat.to_uint n).

(** isinstance(p, int): true of ints and of bools. *)
Definition is_int (p : param) : bool :=
  match p with PInt _ | PBool _ => true | _ => false end.
(** [str(p)] for the values [is_int] accepts. *)
Definition str_of (p : param) : string :=
  match p with PInt n => str_int n | PBool b => str_bool b | _ => "" end.

(** [s.replace("/", "_").replace(":", "_")] (fisher_factors.py:321) *)
Definition under (c : ascii) : ascii :=
  if Ascii.eqb c "/" then "_"%char else if Ascii.eqb c ":" then "_"%char else c.
Fixpoint replace_seps (s : string) : string :=
  match s with EmptyString => EmptyString | String c s' => String (under c) (replace_seps s') end.

(** A loop that appends the results of a function that may raise. *)
Fixpoint mapm {A B} (f : A -> res B) (l : list A) : res (list B) :=
  match l with
  | [] => Ok []
  | a :: l' => do b <- f a ; do bs <- mapm f l' ; Ok (b :: bs)
  end.

(** scope_string_from_name (fisher_factors.py:316-322).  Reading [.name] of anything but a
    tensor raises AttributeError; PartitionedTensor has no such attribute (utils.py:1035-1123). *)
Fixpoint scope_string_from_name (w : world) (p : param) : res string :=
  match p with
  | PSeq l =>
      do ss <- (fix go (l : list param) : res (list string) :=
                  match l with
                  | [] => Ok []
                  | q :: l' => do s <- scope_string_from_name w q ;
                               do ss <- go l' ; Ok (s :: ss)
                  end) l ;
      Ok (String.concat "__" ss)
  | PObj (OTensor t) => Ok (sanitize w (replace_seps (tname w t)))
  | _ => Raise AttributeError
  end.

(** The body of the loop of scope_string_from_params (fisher_factors.py:295-312).  Its last
    branch, which raises ValueError, is not reached by the values of [param]. *)
Definition name_part (w : world) (p : param) : res string :=
  match p with
  | PNone => Ok "None"
  | PSeq l => if forallb is_int l then Ok (String.concat "-" (map str_of l))
              else scope_string_from_name w (PSeq l)
  | PStr s => Ok s
  | PInt _ | PBool _ => Ok (str_of p)
  | PObj (OTensor t) => scope_string_from_name w (PObj (OTensor t))
  | PObj (OParts ts) => scope_string_from_name w (PSeq (map (fun t => PObj (OTensor t)) ts))
  end.

(** scope_string_from_params (fisher_factors.py:272-313) *)
Definition scope_string_from_params (w : world) (ps : list param) : res string :=
  do ss <- mapm (name_part w) ps ; Ok (String.concat "_" ss).

(* ------------------------------------------------------------------------ *)
(** * Factors *)

(** The arguments of the convolution factors apart from the data
    (fisher_factors.py:1750-1767, 1525-1535). *)
Record conv := mkConv {
  cv_filter : list nat; cv_strides : option (list nat); cv_padding : string;
  cv_dilation : option (list nat); cv_format : option string;
  cv_extract : option string; cv_bias : bool;
  cv_sub_inputs : option bool; cv_sub_patches : option bool; cv_mask : option nat }.

(** A factor: its class and the arguments its constructor was given.  The data are lists over
    sources of lists over towers, or lists over towers.  [dt1] of FCMulti records whether
    register_cov_dt1 was called (fisher_factors.py:2650). *)
Inductive factor :=
| NaiveFull (grads : list (list obj)) (batch : param)
| NaiveDiagonal (grads : list obj) (batch : param)
| DiagonalKronecker (tensors : list (list obj)) (bias : bool)
| DiagonalMulti (tensors : list (list obj)) (uses : nat) (bias : bool)
| FCDiagonal (inputs : list obj) (grads : list (list obj)) (bias : bool)
| ScaleShift (full : bool) (inputs : list obj) (grads : list (list obj))
    (bscale : list nat) (bshift : option (list nat)) (has_shift : bool)
| ConvDiagonal (inputs : list obj) (grads : list (list obj)) (cv : conv)
| FCKronecker (tensors : list (list obj)) (bias : bool)
| ConvInput (inputs : list obj) (cv : conv)
| ConvInputMulti (inputs : list obj) (cv : conv) (uses : nat)
| ConvInputSUA (inputs : list obj) (filter : list nat) (bias : bool)
| ConvOutput (grads : list (list obj))
| ConvOutputMulti (grads : list (list obj)) (uses : nat)
| FCMulti (tensors : list (list obj)) (uses : option nat) (bias : bool) (dt1 : bool).

Definition pints (l : list nat) : param := PSeq (map PInt l).
Definition points (l : option (list nat)) : param :=
  match l with None => PNone | Some l => pints l end.
Definition pouses (u : option nat) : param :=
  match u with None => PNone | Some n => PInt n end.
Definition postr (s : option string) : param :=
  match s with None => PNone | Some s => PStr s end.
Definition potensor (t : option nat) : param :=
  match t with None => PNone | Some t => PObj (OTensor t) end.
Definition pobjs (l : list obj) : list param := map PObj l.
Definition pobjss (l : list (list obj)) : list param := map (fun o => PSeq (pobjs o)) l.

(** _var_scope of ConvInputKroneckerFactor, inherited by ConvInputMultiKF
    (fisher_factors.py:1813-1819). *)
Definition conv_input_params (inputs : list obj) (cv : conv) : list param :=
  pobjs inputs ++
  [pints (cv_filter cv); points (cv_strides cv); PStr (cv_padding cv); points (cv_dilation cv);
   postr (cv_format cv); PBool (cv_bias cv); potensor (cv_mask cv)].

(** The _var_scope property of each class, fisher_factors.py: 959-962, 1073-1076, 1156-1159
    (inherited by DiagonalMultiKF, 1230), 1313-1316, 1395-1399 ("full" and "diagonal" are
    passed by the two subclasses, 1482-1516), 1591-1594, 1703-1706, 1813-1819, 2020-2023,
    2437-2440 (inherited by ConvOutputMultiKF, 2480), 2541-2545.  nest.flatten of a tuple of
    tuples is their concatenation, and keeps PartitionedTensors. *)
Definition var_scope (w : world) (f : factor) : res string :=
  let named pre ps := do s <- scope_string_from_params w ps ; Ok (pre ++ s)%string in
  match f with
  | NaiveFull grads b => named "ff_naivefull_" [PSeq (pobjss grads); b]
  | NaiveDiagonal grads b => named "ff_naivediag_" [PSeq (pobjs grads); b]
  | DiagonalKronecker tensors _ | DiagonalMulti tensors _ _ =>
      named "ff_diag_kron_" (pobjs (concat tensors))
  | FCDiagonal inputs grads _ => named "ff_diagfc_" (pobjs inputs ++ pobjs (concat grads))
  | ScaleShift full inputs grads bscale bshift has_shift =>
      named "ff_scaleshift_"
        [PSeq (pobjs inputs); PSeq (pobjss grads); pints bscale; points bshift;
         PBool has_shift; PStr (if full then "full" else "diagonal")]
  | ConvDiagonal inputs grads _ => named "ff_convdiag_" (pobjs inputs ++ pobjs (concat grads))
  | FCKronecker tensors bias => named "ff_fckron_" (pobjs (concat tensors) ++ [PBool bias])
  | ConvInput inputs cv | ConvInputMulti inputs cv _ =>
      named "ff_convinkron_" (conv_input_params inputs cv)
  | ConvInputSUA inputs filter bias =>
      named "ff_convinsuakron_" (pobjs inputs ++ [pints filter; PBool bias])
  | ConvOutput grads | ConvOutputMulti grads _ =>
      named "ff_convoutkron_" (pobjs (concat grads))
  | FCMulti tensors uses bias _ =>
      named "ff_fc_multi_" (pobjs (concat tensors) ++ [pouses uses; PBool bias])
  end.

(* ------------------------------------------------------------------------ *)
(** * Shapes *)

(** The static shape of a tensor, and of a PartitionedTensor (utils.py:1072-1077): the batch
    dimensions are added up.  tensors[0] of an empty one raises IndexError (its constructor
    refuses that, 1050-1051). *)
Definition obj_shape (w : world) (o : obj) : res (list nat) :=
  match o with
  | OTensor t => Ok (tshape w t)
  | OParts [] => Raise IndexError
  | OParts (t :: ts) =>
      Ok (fold_right Nat.add 0 (map (fun u => nth 0 (tshape w u) 0) (t :: ts)) :: tl (tshape w t))
  end.
(** getattr(t, "one_hot_depth", None); utils.py:1086-1088. *)
Definition obj_hot (w : world) (o : obj) : option nat :=
  match o with
  | OTensor t => thot w t
  | OParts [] => None
  | OParts (t :: _) => thot w t
  end.

Definition b2n (b : bool) : nat := if b then 1 else 0.
(** [shape[i]] *)
Definition dim (i : nat) (s : list nat) : res nat :=
  match nth_error s i with Some n => Ok n | None => Raise IndexError end.
Definition head {A} (l : list A) : res A :=
  match l with a :: _ => Ok a | [] => Raise IndexError end.
Definition head2 {A} (l : list (list A)) : res A := do x <- head l ; head x.
Definition prod (l : list nat) : nat := fold_right Nat.mul 1 l.
Definition mem (i : nat) (l : list nat) : bool := existsb (Nat.eqb i) l.

(** The last dimension of a rank 2 or rank 3 tensor: fisher_factors.py:1259-1263 and
    2615-2619.  For other ranks [size] is unbound, an UnboundLocalError. *)
Definition multi_dim (s : list nat) : res nat :=
  match s with [_; n] => Ok n | [_; _; n] => Ok n | _ => Raise RuntimeError end.

(** np.prod over the dimensions 1, 2, ... that are not broadcast
    (fisher_factors.py:1403-1414). *)
Definition kept_size (s : list nat) (bdims : list nat) : nat :=
  prod (map snd (filter (fun p => negb (mem (fst p) bdims)) (tl (enumerate s)))).

(** The filter sizes without the last two entries, and the last but one
    (fisher_factors.py:1823-1825, 2009-2010).  A filter shape with fewer than two entries
    raises IndexError. *)
Definition conv_input_size (filter : list nat) : res nat :=
  match rev filter with
  | _ :: c :: spatial => Ok (prod (rev spatial) * c)
  | _ => Raise IndexError
  end.
Definition in_channels (filter : list nat) : res nat :=
  match rev filter with _ :: c :: _ => Ok c | _ => Raise IndexError end.

(** The _cov_shape property of each class, fisher_factors.py: 964-968, 1078-1080, 1161-1167,
    1256-1267, 1318-1322, 1401-1420, 1596-1602, 1708-1711, 1821-1826, 2025-2036, 2442-2445,
    2613-2620. *)
Definition cov_shape (w : world) (f : factor) : res (list nat) :=
  let square n := [n; n] in
  match f with
  | NaiveFull grads _ =>
      do g <- head grads ;
      do ss <- mapm (obj_shape w) g ;
      Ok (square (fold_right Nat.add 0 (map prod ss)))
  | NaiveDiagonal grads _ => do g <- head grads ; obj_shape w g
  | DiagonalKronecker tensors bias =>
      do o <- head2 tensors ;
      match obj_hot w o with
      | Some d => Ok [d + b2n bias]
      | None => do s <- obj_shape w o ; do n <- dim 1 s ; Ok [n + b2n bias]
      end
  | DiagonalMulti tensors _ bias =>
      do o <- head2 tensors ;
      match obj_hot w o with
      | Some d => Ok [d + b2n bias]
      | None => do s <- obj_shape w o ; do n <- multi_dim s ; Ok [n + b2n bias]
      end
  | FCDiagonal inputs grads bias =>
      do i <- head inputs ; do si <- obj_shape w i ; do n <- dim 1 si ;
      do g <- head2 grads ; do sg <- obj_shape w g ; do m <- dim 1 sg ;
      Ok [n + b2n bias; m]
  | ScaleShift full inputs grads bscale bshift has_shift =>
      do i <- head inputs ; do si <- obj_shape w i ;
      do extra <- (if has_shift then
                     do g <- head2 grads ; do sg <- obj_shape w g ;
                     match bshift with
                     | Some bd => Ok (kept_size sg bd)
                     | None => Raise TypeError
                     end
                   else Ok 0) ;
      let size := kept_size si bscale + extra in
      Ok (if full then square size else [size])
  | ConvDiagonal _ _ cv =>
      match cv_filter cv with
      | [h; k; i; o] => Ok [h * k * i + b2n (cv_bias cv); o]
      | _ => Raise ValueError
      end
  | FCKronecker tensors bias =>
      do o <- head2 tensors ; do s <- obj_shape w o ; do n <- dim 1 s ;
      Ok (square (n + b2n bias))
  | ConvInput _ cv | ConvInputMulti _ cv _ =>
      do n <- conv_input_size (cv_filter cv) ; Ok (square (n + b2n (cv_bias cv)))
  | ConvInputSUA _ filter _ => do c <- in_channels filter ; Ok (square c)
  | ConvOutput grads | ConvOutputMulti grads _ =>
      do o <- head2 grads ; do s <- obj_shape w o ;
      match rev s with n :: _ => Ok (square n) | [] => Raise IndexError end
  | FCMulti tensors _ bias _ =>
      do o <- head2 tensors ; do s <- obj_shape w o ; do n <- multi_dim s ;
      Ok (square (n + b2n bias))
  end.

(** _vec_shape of FullyConnectedMultiKF (fisher_factors.py:2625-2628). *)
Definition vec_shape (w : world) (f : factor) : res (list nat) :=
  match f with
  | FCMulti tensors _ bias _ =>
      do o <- head2 tensors ; do s <- obj_shape w o ; do n <- dim 1 s ; Ok [n + b2n bias]
  | _ => Raise AttributeError
  end.

(* ------------------------------------------------------------------------ *)
(** * Module constants (fisher_factors.py:38-207) *)

Inductive init := Zeros | Ones | Identity.

(** The constants that [set_global_constants] can change, as far as this area reads them, and
    the three initializers the module picks when it is imported. *)
Record consts := mkConsts {
  k_init_cov_zero : bool; k_zero_debias : bool; k_init_inv_zero : bool;
  k_zero_mean : bool; k_sub_inputs : bool; k_sub_patches : bool; k_strategy : string;
  k_inv_init : init; k_cov_init : init; k_diag_init : init }.

(** fisher_factors.py:192-207: executed once, on import. *)
Definition pick_initializers (ic ii : bool) : init * init * init :=
  ((if ii then Zeros else Identity), (if ic then Zeros else Identity),
   (if ic then Zeros else Ones)).

(** The module after it was imported (fisher_factors.py:38-118 and 192-207). *)
Definition imported : consts :=
  let '(i, c, d) := pick_initializers true true in
  mkConsts true true true false false false "separate" i c d.

Definition upd {A} (new : option A) (old : A) : A :=
  match new with Some a => a | None => old end.

(** set_global_constants (fisher_factors.py:127-189), the arguments modelled here.  The
    initializers are not among the globals it assigns. *)
Definition set_global_constants (ic zd ii zm si sp : option bool) (ts : option string)
    (k : consts) : consts :=
  mkConsts (upd ic (k_init_cov_zero k)) (upd zd (k_zero_debias k)) (upd ii (k_init_inv_zero k))
    (upd zm (k_zero_mean k)) (upd si (k_sub_inputs k)) (upd sp (k_sub_patches k))
    (upd ts (k_strategy k)) (k_inv_init k) (k_cov_init k) (k_diag_init k).

(** _cov_initializer (fisher_factors.py:528-531, 1012-1014).  The method resolution order of
    ScaleAndShiftDiagonalFactor (1500) is ScaleAndShiftFactor, DiagonalFactor, FisherFactor,
    so it uses DiagonalFactor's. *)
Definition cov_initializer (k : consts) (f : factor) : init :=
  match f with
  | NaiveDiagonal _ _ | DiagonalKronecker _ _ | DiagonalMulti _ _ _ | FCDiagonal _ _ _
  | ConvDiagonal _ _ _ | ScaleShift false _ _ _ _ _ => k_diag_init k
  | _ => k_cov_init k
  end.

(* ------------------------------------------------------------------------ *)
(** * Variables *)

Record var := mkVar { v_name : string; v_shape : list nat; v_init : init }.

Fixpoint nats_eqb (a b : list nat) : bool :=
  match a, b with
  | [], [] => true
  | x :: a', y :: b' => Nat.eqb x y && nats_eqb a' b'
  | _, _ => false
  end.

Definition lookup (n : string) (st : list var) : option var :=
  find (fun v => String.eqb (v_name v) n) st.

(** tf.get_variable: with [auto] (tf.AUTO_REUSE) an existing variable of the same shape is
    returned; otherwise a name that exists raises ValueError. *)
Definition get_variable (auto : bool) (n : string) (s : list nat) (i : init) (st : list var)
  : res (list var) :=
  match lookup n st with
  | None => Ok (st ++ [mkVar n s i])
  | Some v => if auto && nats_eqb (v_shape v) s then Ok st else Raise ValueError
  end.

Definition slash (a b : string) : string := (a ++ "/" ++ b)%string.

(** utils.MovingAverageVariable.__init__ (utils.py:1256-1289): two variables, in a scope
    that is always re-used. *)
Definition moving_average (scope : string) (s : list nat) (i : init) (st : list var)
  : res (list var) :=
  do st1 <- get_variable true (slash scope "var") s i st ;
  get_variable true (slash scope "total_weight") [] Zeros st1.

(** instantiate_cov_variables of FisherFactor (fisher_factors.py:533-542), with what
    ConvInputSUAKroneckerFactor (2069-2085) and FullyConnectedMultiKF (2652-2663) add, inside
    the scope of the estimator's thunk (estimator.py:586-593). *)
Definition instantiate_cov (k : consts) (w : world) (scope : string) (f : factor) (st : list var)
  : res (list var) :=
  do vs <- var_scope w f ;
  let here := slash scope vs in
  do s <- cov_shape w f ;
  do st1 <- moving_average (slash here "cov") s (cov_initializer k f) st ;
  match f with
  | ConvInputSUA _ filter _ =>
      if k_zero_mean k then Ok st1
      else do c <- in_channels filter ; moving_average (slash here "mu") [c; 1] Zeros st1
  | FCMulti _ _ _ true => moving_average (slash here "cov_dt1") s Zeros st1
  | _ => Ok st1
  end.

(** The loop over the cov variable thunks (estimator.py:565-566). *)
Fixpoint make_cov_vars (k : consts) (w : world) (scope : string) (fs : list factor)
    (st : list var) : res (list var) :=
  match fs with
  | [] => Ok st
  | f :: fs' => do st1 <- instantiate_cov k w scope f st ; make_cov_vars k w scope fs' st1
  end.

(** An element of a damping id (fisher_blocks.py:796-808, 580): a string, an int, a float or
    a tensor. *)
Inductive idpart := IStr (s : string) | IInt (n : nat) | IFloat (q : Q) | ITensor (t : nat).

(** scalar_or_tensor_to_string and list_to_string (fisher_factors.py:325-331); graph_func_to_string
    (340-342) applies the latter to the id. *)
Definition idpart_string (w : world) (p : idpart) : string :=
  match p with
  | IStr s => s
  | IInt n => str_int n
  | IFloat q => repr_float w q
  | ITensor t => sanitize w (replace_seps (tname w t))
  end.
Definition damping_string (w : world) (id : list idpart) : string :=
  String.concat "_" (map (idpart_string w) id).

(** What was registered with a factor: _matpower_registrations, _cholesky_registrations,
    _cholesky_inverse_registrations, _option1quants_registrations and
    _option2quants_registrations are Python sets (fisher_factors.py:676-679, 2525-2526); the
    lists are the orders in which the loops visit them. *)
Record regs := mkRegs {
  r_matpower : list (Q * list idpart); r_cholesky : list (list idpart);
  r_cholinv : list (list idpart); r_opt1 : list (list idpart); r_opt2 : list (list idpart) }.

Fixpoint foldm {A S} (f : A -> S -> res S) (l : list A) (s : S) : res S :=
  match l with
  | [] => Ok s
  | a :: l' => do s1 <- f a s ; foldm f l' s1
  end.

Definition matpower_name (w : world) (e : Q) (id : list idpart) : string :=
  ("matpower_exp" ++ repr_float w e ++ "_damp" ++ damping_string w id)%string.

(** DenseSquareMatrixFactor.instantiate_inv_variables (fisher_factors.py:764-808). *)
Definition dense_inv (k : consts) (w : world) (here : string) (s : list nat) (r : regs)
    (st : list var) : res (list var) :=
  do st1 <- foldm (fun p st =>
      get_variable false (slash here (matpower_name w (fst p) (snd p))) s (k_inv_init k) st)
      (r_matpower r) st ;
  do st2 <- foldm (fun id st =>
      get_variable false (slash here ("cholesky_damp" ++ damping_string w id)%string) s
        (k_inv_init k) st) (r_cholesky r) st1 ;
  foldm (fun id st =>
      get_variable false (slash here ("cholesky_inverse_damp" ++ damping_string w id)%string) s
        (k_inv_init k) st) (r_cholinv r) st2.

(** FullyConnectedMultiKF.instantiate_inv_variables after the call of the base class
    (fisher_factors.py:2677-2733); the second option also uses the name "Lmat_damp" (2709). *)
Definition multi_inv (k : consts) (w : world) (here : string) (s v : list nat) (r : regs)
    (st : list var) : res (list var) :=
  do st1 <- foldm (fun id st =>
      let d := damping_string w id in
      do st1 <- get_variable false (slash here ("Lmat_damp" ++ d)%string) s (k_inv_init k) st ;
      get_variable false (slash here ("psi_damp" ++ d)%string) v Ones st1) (r_opt1 r) st ;
  foldm (fun id st =>
      let d := damping_string w id in
      do st1 <- get_variable false (slash here ("Lmat_damp" ++ d)%string) s (k_inv_init k) st ;
      do st2 <- get_variable false (slash here ("Kmat_damp" ++ d)%string) s (k_inv_init k) st1 ;
      get_variable false (slash here ("mu_damp" ++ d)%string) v Ones st2) (r_opt2 r) st1.

(** ConvInputSUAKroneckerFactor.instantiate_inv_variables (fisher_factors.py:2292-2340): all
    but the matrix are made outside of the factor's own scope. *)
Definition sua_inv (k : consts) (w : world) (scope here : string) (filter : list nat) (r : regs)
    (st : list var) : res (list var) :=
  do c <- in_channels filter ;
  foldm (fun p st =>
      if negb (Qeq_bool (fst p) (- 1)) then Raise ValueError else
      let tag := (repr_float w (fst p) ++ "_" ++ damping_string w (snd p))%string in
      do st1 <- get_variable false (slash here (matpower_name w (fst p) (snd p))) [c; c]
                  (k_inv_init k) st ;
      do st2 <- get_variable false (slash scope ("damping_var_" ++ tag)%string) [] Zeros st1 ;
      if k_zero_mean k then Ok st2 else
      do st3 <- get_variable false (slash scope ("cov_inv_mu_" ++ tag)%string) [c; 1] Zeros st2 ;
      get_variable false (slash scope ("rank_one_update_scale_" ++ tag)%string) [] Zeros st3)
    (r_matpower r) st.

(** instantiate_inv_variables of each class; DiagonalFactor's makes none (1023-1024), and
    ScaleAndShiftFullFactor is a DenseSquareMatrixFactor (1482). *)
Definition instantiate_inv (k : consts) (w : world) (scope : string) (fr : factor * regs)
    (st : list var) : res (list var) :=
  let '(f, r) := fr in
  match f with
  | NaiveDiagonal _ _ | DiagonalKronecker _ _ | DiagonalMulti _ _ _ | FCDiagonal _ _ _
  | ConvDiagonal _ _ _ | ScaleShift false _ _ _ _ _ => Ok st
  | ConvInputSUA _ filter _ =>
      do vs <- var_scope w f ; sua_inv k w scope (slash scope vs) filter r st
  | FCMulti _ _ _ _ =>
      do vs <- var_scope w f ; do s <- cov_shape w f ;
      do st1 <- dense_inv k w (slash scope vs) s r st ;
      match r_opt1 r, r_opt2 r with
      | [], [] => Ok st1
      | _, _ => do v <- vec_shape w f ; multi_inv k w (slash scope vs) s v r st1
      end
  | _ => do vs <- var_scope w f ; do s <- cov_shape w f ;
         dense_inv k w (slash scope vs) s r st
  end.

(** make_vars_and_create_op_thunks (estimator.py:562-569): first all statistics, then all
    inverses. *)
Definition make_vars (k : consts) (w : world) (scope : string) (frs : list (factor * regs))
    (st : list var) : res (list var) :=
  do st1 <- make_cov_vars k w scope (map fst frs) st ;
  foldm (instantiate_inv k w scope) frs st1.

(* ------------------------------------------------------------------------ *)
(** * Blocks *)

(** A registered layer, as far as the factors it asks for are concerned.  The data are the
    inputs over towers and the gradients over sources and towers. *)
Inductive layer :=
| LNaiveFull (grads : list (list nat)) (batch : nat)
| LNaiveDiagonal (grads : list nat) (batch : nat)
| LFCDiagonal (inputs : list nat) (grads : list (list nat)) (bias : bool)
| LConvDiagonal (inputs : list nat) (grads : list (list nat)) (cv : conv)
| LScaleShift (full : bool) (inputs : list nat) (grads : list (list nat))
    (bscale : list nat) (bshift : option (list nat)) (has_shift : bool)
| LFC (inputs : list nat) (grads : list (list nat)) (bias din dout : bool)
| LConv (inputs : list nat) (grads : list (list nat)) (cv : conv) (sua : bool)
| LFCMulti (inputs : list nat) (grads : list (list nat)) (uses : nat) (bias din dout : bool)
| LConvMulti (inputs : list nat) (grads : list (list nat)) (cv : conv) (uses : nat)
| LSeries (inputs : list nat) (grads : list (list nat)) (uses : option nat) (bias : bool).

(** InputOutputMultiTower._process_data (fisher_blocks.py:460-512).  PartitionedTensor of an
    empty list raises ValueError (utils.py:1050-1051); its tensors are taken to agree. *)
Definition parts (ts : list nat) : res obj :=
  match ts with [] => Raise ValueError | _ => Ok (OParts ts) end.
Definition process_data (strategy : string) (inputs : list nat) (grads : list (list nat))
  : res (list obj * list (list obj)) :=
  if String.eqb strategy "concat" then
    do i <- parts inputs ;
    do gs <- mapm (fun g => do o <- parts g ; Ok [o]) grads ;
    Ok ([i], gs)
  else if String.eqb strategy "separate" then
    Ok (map OTensor inputs, map (map OTensor) grads)
  else Raise ValueError.

(** The optional arguments ConvKFCBasicMultiIndepFB leaves out (fisher_blocks.py:1616-1620);
    the tenth argument, num_uses, arrives as sub_sample_inputs (see Series/Model.v). *)
Definition conv_multi_args (cv : conv) (uses : nat) : conv :=
  mkConv (cv_filter cv) (cv_strides cv) (cv_padding cv) (cv_dilation cv) (cv_format cv)
    (cv_extract cv) (cv_bias cv) (Some (negb (Nat.eqb uses 0))) None None.

(** instantiate_factors of the blocks (fisher_blocks.py:339-343, 426-430, 573-578, 677-684,
    723-730, 763-770, 955-974, 1067-1085, 1522-1541, 1612-1623, 1692-1703).  For layers with
    several uses the data are those after their own _process_data, which ends in the same
    two formats (1312-1440). *)
Definition layer_factors (strategy : string) (l : layer) : res (list factor) :=
  match l with
  | LNaiveFull grads b => Ok [NaiveFull (map (map OTensor) grads) (PObj (OTensor b))]
  | LNaiveDiagonal grads b => Ok [NaiveDiagonal (map OTensor grads) (PObj (OTensor b))]
  | LFCDiagonal inputs grads bias =>
      do (i, g) <- process_data strategy inputs grads ; Ok [FCDiagonal i g bias]
  | LConvDiagonal inputs grads cv =>
      do (i, g) <- process_data strategy inputs grads ; Ok [ConvDiagonal i g cv]
  | LScaleShift full inputs grads bscale bshift has_shift =>
      do (i, g) <- process_data strategy inputs grads ;
      Ok [ScaleShift full i g bscale bshift has_shift]
  | LFC inputs grads bias din dout =>
      do (i, g) <- process_data strategy inputs grads ;
      Ok [(if din then DiagonalKronecker [i] bias else FCKronecker [i] bias);
          (if dout then DiagonalKronecker g false else FCKronecker g false)]
  | LConv inputs grads cv sua =>
      do (i, g) <- process_data strategy inputs grads ;
      Ok [(if sua then ConvInputSUA i (cv_filter cv) (cv_bias cv) else ConvInput i cv);
          ConvOutput g]
  | LFCMulti inputs grads uses bias din dout =>
      do (i, g) <- process_data strategy inputs grads ;
      Ok [(if din then DiagonalMulti [i] uses bias else FCMulti [i] (Some uses) bias false);
          (if dout then DiagonalMulti g uses false else FCMulti g (Some uses) false false)]
  | LConvMulti inputs grads cv uses =>
      do (i, g) <- process_data strategy inputs grads ;
      Ok [ConvInputMulti i (conv_multi_args cv uses) uses; ConvOutputMulti g uses]
  | LSeries inputs grads uses bias =>
      do (i, g) <- process_data strategy inputs grads ;
      Ok [FCMulti [i] uses bias true; FCMulti g uses false true]
  end.

(* ------------------------------------------------------------------------ *)
(** * The values of the statistics *)

(** One entry of each variable, by name. *)
Notation values := (string -> R).

(** The two variables of a factor's statistics. *)
Definition stat_vars (w : world) (scope : string) (f : factor) : res (string * string) :=
  do vs <- var_scope w f ;
  let here := slash (slash scope vs) "cov" in
  Ok (slash here "var", slash here "total_weight").

(** MovingAverageVariable.add_to_average (utils.py:1303-1324), for one entry of the average. *)
Definition add_to_average (vw : string * string) (x decay weight : R) (m : values) : values :=
  fun n => if String.eqb n (fst vw) then (decay * m (fst vw) + weight * x)%R
           else if String.eqb n (snd vw) then (decay * m (snd vw) + weight)%R
           else m n.

(** MovingAverageVariable.value (utils.py:1295-1300) *)
Definition value (k : consts) (vw : string * string) (m : values) : R :=
  if k_zero_debias k then (m (fst vw) / m (snd vw))%R else m (fst vw).
