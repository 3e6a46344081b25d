(** Model of the block-wise vector transformations of kfac/python/ops/estimator.py,
    of the four loss functions of kfac/python/ops/loss_functions.py, of
    kfac/python/ops/curvature_matrix_vector_products.py and of the gradient lists
    that estimator.py builds in each estimation mode.  Entries are real numbers
    (simplification: no rounding). *)
From Coq Require Import List Arith Bool Reals.
From Verif.Base Require Import Py.
Import ListNotations.
Open Scope list_scope.

(** [ [f(x) for x in l] ] where a call may raise; the first exception propagates. *)
Fixpoint mapM {A B : Type} (f : A -> res B) (l : list A) : res (list B) :=
  match l with
  | [] => Ok []
  | a :: l' => do b <- f a; do bs <- mapM f l'; Ok (b :: bs)
  end.

(* ------------------------------------------------------------------------ *)
(** * Block-wise transformations  (estimator.py:248-359) *)

(** Keys of [fisher_blocks]: a variable or a tuple of variables
    (layer_collection.py:401).  Variables are identified by a number. *)
Inductive bkey := KVar (v : nat) | KTup (vs : list nat).
(** What a block transforms: one vector, or a sequence of vectors. *)
Inductive bval (V : Type) := One (x : V) | Many (xs : list V).
Arguments One {V} x.
Arguments Many {V} xs.

(** The methods of a FisherBlock used here (fisher_blocks.py:191-237).  What they compute
    is arbitrary in this file; E is the type of exponents. *)
Record fblock (V E : Type) := mkFB {
  fb_matpower : bval V -> E -> res (bval V);
  fb_cholesky : bval V -> bool -> res (bval V);
  fb_cholesky_inverse : bval V -> bool -> res (bval V) }.
Arguments fb_matpower {V E} _ _ _.
Arguments fb_cholesky {V E} _ _ _.
Arguments fb_cholesky_inverse {V E} _ _ _.

(** The dict inside a SequenceDict (utils.py:169-189): newest binding first. *)
Fixpoint dget {X : Type} (d : list (nat * X)) (k : nat) : res X :=
  match d with
  | [] => Raise KeyError
  | (k', x) :: d' => if Nat.eqb k' k then Ok x else dget d' k
  end.

(** utils.py:175-179, for the two forms of key that occur here. *)
Definition vecs_get {V : Type} (d : list (nat * V)) (k : bkey) : res (bval V) :=
  match k with
  | KVar v => do x <- dget d v; Ok (One x)
  | KTup vs => do xs <- mapM (dget d) vs; Ok (Many xs)
  end.

(** utils.py:181-186.  A block may store whatever it returned under a single
    variable; [zip] truncates; iterating over one tensor is a TypeError. *)
Definition trans_set {V : Type} (d : list (nat * bval V)) (k : bkey) (r : bval V)
  : res (list (nat * bval V)) :=
  match k, r with
  | KVar v, _ => Ok ((v, r) :: d)
  | KTup vs, Many xs => Ok (rev (map (fun p => (fst p, One (snd p))) (zip vs xs)) ++ d)
  | KTup _, One _ => Raise TypeError
  end.

Fixpoint trans_fill {V : Type} (d : list (nat * bval V)) (l : list (bkey * bval V))
  : res (list (nat * bval V)) :=
  match l with
  | [] => Ok d
  | (k, r) :: l' => do d' <- trans_set d k r; trans_fill d' l'
  end.

(** estimator.py:248-279.  Simplification: the results of the thunks are taken in
    order; that both placement strategies return them in order, unchanged, is
    modelled in Sched/Model.v (place_transformation_thunks, map_gather). *)
Definition compute_transformation {V FB : Type} (blocks : list (bkey * FB))
    (vecs_and_vars : list (V * nat)) (transform : FB -> bval V -> res (bval V))
  : res (list (bval V * nat)) :=
  let vecs := rev (map (fun p => (snd p, fst p)) vecs_and_vars) in
  do results <- mapM (fun kb => do v <- vecs_get vecs (fst kb); transform (snd kb) v) blocks;
  do trans_vecs <- trans_fill [] (zip (map fst blocks) results);
  mapM (fun p => do y <- dget trans_vecs (snd p); Ok (y, snd p)) vecs_and_vars.

Section Entry.
Context {V E : Type} (minus_one one : E).
Notation blocks := (list (bkey * fblock V E)).

(** estimator.py:307-320 *)
Definition multiply_matpower (bs : blocks) (exp : E) (l : list (V * nat)) :=
  compute_transformation bs l (fun fb vec => fb_matpower fb vec exp).
(** estimator.py:281-292 *)
Definition multiply_inverse (bs : blocks) (l : list (V * nat)) := multiply_matpower bs minus_one l.
(** estimator.py:294-305 *)
Definition multiply (bs : blocks) (l : list (V * nat)) := multiply_matpower bs one l.
(** estimator.py:322-336 *)
Definition multiply_cholesky (bs : blocks) (l : list (V * nat)) (transpose : bool) :=
  compute_transformation bs l (fun fb vec => fb_cholesky fb vec transpose).
(** estimator.py:338-359 *)
Definition multiply_cholesky_inverse (bs : blocks) (l : list (V * nat)) (transpose : bool) :=
  compute_transformation bs l (fun fb vec => fb_cholesky_inverse fb vec transpose).
End Entry.

(* ------------------------------------------------------------------------ *)
(** * Two-dimensional tensors: a list of rows *)
Open Scope R_scope.
Notation row := (list R).
Notation tensor := (list row).

Definition map2 {A B C : Type} (f : A -> B -> C) (l : list A) (m : list B) : list C :=
  map (fun p => f (fst p) (snd p)) (zip l m).
(** tf.reduce_sum over the last axis *)
Definition rsum (l : row) : R := fold_right Rplus 0 l.
Definition dot (x y : row) : R := rsum (map2 Rmult x y).
Definition rscale (a : R) (x : row) : row := map (Rmult a) x.
Definition radd (x y : row) : row := map2 Rplus x y.
Definition tdot (x y : tensor) : R := rsum (map2 dot x y).
Definition tscale (a : R) (x : tensor) : tensor := map (rscale a) x.
Definition tadd (x y : tensor) : tensor := map2 radd x y.

(* ------------------------------------------------------------------------ *)
(** * Loss functions  (loss_functions.py) *)

(** The four classes, with the width of a row (static shape[1]) and their parameters:
    Categorical logits (558-642), MultiBernoulli logits (645-703), NormalMean mean and
    var (370-427), NormalMeanVariance mean and variance (430-555). *)
Inductive loss :=
| Categorical (n : nat) (logits : tensor)
| MultiBernoulli (n : nat) (logits : tensor)
| NormalMean (n : nat) (mean : tensor) (var : R)
| NormalMeanVariance (n : nat) (mean variance : tensor).

(** Values in the form of [loss.inputs]: a tensor or a pair of tensors. *)
Inductive lvec := V1 (t : tensor) | V2 (a b : tensor).

(** tfp.distributions.Categorical(logits).probs_parameter(): softmax of each row. *)
Definition softmax (r : row) : row := let s := rsum (map exp r) in map (fun x => exp x / s) r.
(** tfp.distributions.Bernoulli(logits).probs_parameter() *)
Definition sigmoid (x : R) : R := 1 / (1 + exp (- x)).

(** loss_functions.py:594-595 / 673-674 *)
Definition probs (l : loss) : tensor :=
  match l with
  | Categorical _ z => map softmax z
  | MultiBernoulli _ z => map (map sigmoid) z
  | _ => []
  end.

(** loss_functions.py:706-738, for dim = 1: the slice must have width 1; padding by a
    negative amount is rejected. *)
Definition insert_slice_in_zeros (slice : tensor) (dim_size position : nat) : res tensor :=
  if forallb (fun r => Nat.eqb (length r) 1) slice then
    if Nat.ltb position dim_size then
      Ok (map (fun r => repeat 0 position ++ r ++ repeat 0 (dim_size - position - 1)) slice)
    else Raise ValueError
  else Raise ValueError.

(** [tf.expand_dims(t[:, index], -1)]; an index outside the static shape is rejected. *)
Definition column (n : nat) (t : tensor) (index : nat) : res tensor :=
  if Nat.ltb index n then Ok (map (fun r => [nth index r 0]) t) else Raise ValueError.

(** loss_functions.py:605-608, 681-682, 398-399, 487-489 (factors 471-485).
    Simplification: shapes agree (no broadcasting); a tuple given to a one-input loss, or
    a single tensor where a tuple is unpacked, is a TypeError. *)
Definition multiply_fisher (l : loss) (v : lvec) : res lvec :=
  match l, v with
  | Categorical _ _, V1 v =>
      Ok (V1 (map2 (fun p x => map2 Rminus (map2 Rmult x p) (rscale (rsum (map2 Rmult x p)) p))
                   (probs l) v))
  | MultiBernoulli _ _, V1 v => Ok (V1 (map2 (map2 (fun p x => p * (1 - p) * x)) (probs l) v))
  | NormalMean _ _ var, V1 v => Ok (V1 (tscale (1 / var) v))
  | NormalMeanVariance _ _ s, V2 a b =>
      Ok (V2 (map2 (map2 (fun s x => 1 / s * x)) s a)
             (map2 (map2 (fun s x => 1 / (2 * (s * s)) * x)) s b))
  | _, _ => Raise TypeError
  end.

(** [tf.split(params, 2, axis=-1)] of a tensor of width 2n (loss_functions.py:464-465). *)
Definition split2 (n : nat) (t : tensor) : tensor * tensor :=
  (map (firstn n) t, map (skipn n) t).

(** loss_functions.py:610-614, 684-685, 401-402, 491-494 *)
Definition multiply_fisher_factor (l : loss) (v : lvec) : res lvec :=
  match l, v with
  | Categorical _ _, V1 v =>
      Ok (V1 (map2 (fun p x => let q := map sqrt p in
                 map2 Rminus (map2 Rmult q x) (rscale (rsum (map2 Rmult q x)) p))
              (probs l) v))
  | MultiBernoulli _ _, V1 v => Ok (V1 (map2 (map2 (fun p x => sqrt (p * (1 - p)) * x)) (probs l) v))
  | NormalMean _ _ var, V1 v => Ok (V1 (tscale (/ sqrt var) v))
  | NormalMeanVariance n _ s, V1 v =>
      let (a, b) := split2 n v in
      Ok (V2 (map2 (map2 (fun s x => 1 / sqrt s * x)) s a)
             (map2 (map2 (fun s x => 1 / (sqrt 2 * s) * x)) s b))
  | _, _ => Raise TypeError
  end.

(** loss_functions.py:616-620, 687-688, 404-405, 496-499 *)
Definition multiply_fisher_factor_transpose (l : loss) (v : lvec) : res lvec :=
  match l, v with
  | Categorical _ _, V1 v =>
      Ok (V1 (map2 (fun p x => let q := map sqrt p in
                 map2 Rminus (map2 Rmult q x) (rscale (rsum (map2 Rmult p x)) q))
              (probs l) v))
  | MultiBernoulli _ _, _ => multiply_fisher_factor l v
  | NormalMean _ _ _, _ => multiply_fisher_factor l v
  | NormalMeanVariance _ _ s, V2 a b =>
      Ok (V1 (map2 (@app R) (map2 (map2 (fun s x => 1 / sqrt s * x)) s a)
                            (map2 (map2 (fun s x => 1 / (sqrt 2 * s) * x)) s b)))
  | _, _ => Raise TypeError
  end.

(** loss_functions.py:622-630, 690-695, 407-413, 501-523; [len(index) == 1] is asserted. *)
Definition multiply_fisher_factor_replicated_one_hot (l : loss) (index : list nat) : res lvec :=
  match index with
  | [i] =>
      match l with
      | Categorical n _ =>
          let p := probs l in
          let q := map (map sqrt) p in
          do qs <- column n q i;
          do padded <- insert_slice_in_zeros qs n i;
          Ok (V1 (map2 (map2 Rminus) padded (map2 (fun p s => rscale (nth 0 s 0) p) p qs)))
      | MultiBernoulli n _ =>
          do ps <- column n (probs l) i;
          do t <- insert_slice_in_zeros (map (map (fun p => sqrt (p * (1 - p)))) ps) n i;
          Ok (V1 t)
      | NormalMean n m var =>
          let ones := map (fun _ => [1]) m in
          do t <- insert_slice_in_zeros (tscale (/ sqrt var) ones) n i;
          Ok (V1 t)
      | NormalMeanVariance n _ s =>
          if Nat.ltb i n then
            do c <- column n (map (map (fun s => 1 / sqrt s)) s) i;
            do t <- insert_slice_in_zeros c n i;
            Ok (V2 t (map (map (fun _ => 0)) t))
          else
            let j := (i - n)%nat in
            do c <- column n (map (map (fun s => 1 / (sqrt 2 * s))) s) j;
            do t <- insert_slice_in_zeros c n j;
            Ok (V2 (map (map (fun _ => 0)) t) t)
      end
  | _ => Raise AssertionError
  end.

(** The GGN methods: loss_functions.py:331-349 for the three natural-parameter losses,
    537-555 for NormalMeanVariance. *)
Definition natural (l : loss) : bool :=
  match l with NormalMeanVariance _ _ _ => false | _ => true end.
Definition multiply_ggn (l : loss) (v : lvec) : res lvec :=
  if natural l then multiply_fisher l v else Raise NotImplementedErr.
Definition multiply_ggn_factor (l : loss) (v : lvec) : res lvec :=
  if natural l then multiply_fisher_factor l v else Raise NotImplementedErr.
Definition multiply_ggn_factor_transpose (l : loss) (v : lvec) : res lvec :=
  if natural l then multiply_fisher_factor_transpose l v else Raise NotImplementedErr.
Definition multiply_ggn_factor_replicated_one_hot (l : loss) (i : list nat) : res lvec :=
  if natural l then multiply_fisher_factor_replicated_one_hot l i else Raise NotImplementedErr.

(** tfp.distributions.Categorical(logits).log_prob(k) for one row. *)
Definition cat_log_prob (r : row) (k : nat) : R := nth k r 0 - ln (rsum (map exp r)).
(** tfp.distributions.Bernoulli(logits).log_prob(k), k in {0, 1}. *)
Definition bern_log_prob (x : R) (k : nat) : R := INR k * x - ln (1 + exp x).
(** loss_functions.py:363-364: minus the sum of the log-probabilities of the targets
    (categorical targets: one index per row; Bernoulli targets: one bit per entry). *)
Definition evaluate_categorical (logits : tensor) (targets : list nat) : R :=
  - rsum (map2 cat_log_prob logits targets).
Definition evaluate_multi_bernoulli (logits : tensor) (targets : list (list nat)) : R :=
  - rsum (map2 (fun r ks => rsum (map2 bern_log_prob r ks)) logits targets).
(** tfp.distributions.Normal(loc, scale).log_prob(t), scale = sqrt(var). *)
Definition normal_log_prob (m var t : R) : R :=
  - (t - m) * (t - m) / (2 * var) - ln (sqrt var) - ln (2 * PI) / 2.
Definition evaluate_normal_mean (mean : tensor) (var : R) (targets : tensor) : R :=
  - rsum (map2 (fun r ts => rsum (map2 (fun m t => normal_log_prob m var t) r ts)) mean targets).
(** The same with a variance for every entry (loss_functions.py:460-463). *)
Definition evaluate_normal_mean_variance (mean variance targets : tensor) : R :=
  - rsum (map2 (fun ms ts => rsum (map2 (fun (p : R * R) t => normal_log_prob (fst p) (snd p) t) ms ts))
              (map2 (@zip R R) mean variance) targets).

(* ------------------------------------------------------------------------ *)
(** * Curvature matrix-vector products  (curvature_matrix_vector_products.py) *)

(** The computer: the registered losses with their coefficients, the sizes of the
    flattened [wrt_tensors], and the Jacobian at the current parameters, as one gradient
    (in the shape of wrt_tensors) for every scalar entry of every tensor of
    [_inputs_to_losses_flat].  The Jacobian is arbitrary. *)
Record computer := mkComp {
  c_losses : list (loss * R);
  c_wrt : list nat;
  c_jac : list (list (list tensor)) }.

Definition zeros (sizes : list nat) : tensor := map (repeat 0) sizes.

(** nest.pack_sequence_as(self._inputs_to_losses, flat): one tensor for most losses, two
    for NormalMeanVariance.  A wrong number of tensors is a ValueError. *)
Fixpoint pack (ls : list loss) (flat : list tensor) : res (list lvec) :=
  match ls with
  | [] => match flat with [] => Ok [] | _ => Raise ValueError end
  | NormalMeanVariance _ _ _ :: ls' =>
      match flat with
      | a :: b :: flat' => do vs <- pack ls' flat'; Ok (V2 a b :: vs)
      | _ => Raise ValueError
      end
  | _ :: ls' =>
      match flat with
      | a :: flat' => do vs <- pack ls' flat'; Ok (V1 a :: vs)
      | [] => Raise ValueError
      end
  end.
(** nest.flatten *)
Definition flatten (vs : list lvec) : list tensor :=
  concat (map (fun v => match v with V1 t => [t] | V2 a b => [a; b] end) vs).

(** curvature_matrix_vector_products.py:99-108.  utils.fwd_gradients (utils.py:485-515) is
    taken to return the directional derivative of every loss input along [vecs]. *)
Definition multiply_jacobian (c : computer) (vecs : tensor) : res (list lvec) :=
  pack (map fst (c_losses c)) (map (map (map (fun g => tdot g vecs))) (c_jac c)).

(** The weighted sum of gradients: sum over all entries of w * gradient. *)
Definition grad_row (z : tensor) (gs : list tensor) (ws : row) : tensor :=
  fold_right (fun p acc => tadd (tscale (snd p) (fst p)) acc) z (zip gs ws).
Definition grad_tensor (z : tensor) (gs : list (list tensor)) (w : tensor) : tensor :=
  fold_right (fun p acc => grad_row acc (fst p) (snd p)) z (zip gs w).
Definition grad_all (z : tensor) (gs : list (list (list tensor))) (ws : list tensor) : tensor :=
  fold_right (fun p acc => grad_tensor acc (fst p) (snd p)) z (zip gs ws).

(** curvature_matrix_vector_products.py:110-120: tf.gradients with grad_ys (which must
    have as many tensors as ys).  Simplification: a tensor that no loss depends on gets a
    zero gradient rather than None. *)
Definition multiply_jacobian_transpose (c : computer) (loss_vecs : list lvec) : res tensor :=
  let flat := flatten loss_vecs in
  if Nat.eqb (length flat) (length (c_jac c)) then Ok (grad_all (zeros (c_wrt c)) (c_jac c) flat)
  else Raise ValueError.

Inductive coeff_mode := Regular | Sqrt.

(** curvature_matrix_vector_products.py:122-133.  [val.dtype] on a tuple (the value that
    a NormalMeanVariance loss returns) is an AttributeError. *)
Definition multiply_across_losses (c : computer) (mult_func : loss -> lvec -> res lvec)
    (vecs : list lvec) (m : coeff_mode) : res (list lvec) :=
  mapM (fun p => let '((l, coeff), vec) := p in
    let multiplier := match m with Regular => coeff | Sqrt => sqrt coeff end in
    do val <- mult_func l vec;
    match val with
    | V1 t => Ok (V1 (tscale multiplier t))
    | V2 _ _ => Raise AttributeError
    end) (zip (c_losses c) vecs).

(** The two families of products. *)
Inductive mat := Fisher | GGN.
Definition loss_mult (k : mat) : loss -> lvec -> res lvec :=
  match k with Fisher => multiply_fisher | GGN => multiply_ggn end.
Definition loss_factor (k : mat) : loss -> lvec -> res lvec :=
  match k with Fisher => multiply_fisher_factor | GGN => multiply_ggn_factor end.
Definition loss_factor_transpose (k : mat) : loss -> lvec -> res lvec :=
  match k with
  | Fisher => multiply_fisher_factor_transpose
  | GGN => multiply_ggn_factor_transpose
  end.

(** curvature_matrix_vector_products.py:170-174 (Fisher) and 198-202 (GGN) *)
Definition multiply_curv (k : mat) (c : computer) (vecs : tensor) : res tensor :=
  do jv <- multiply_jacobian c vecs;
  do fjv <- multiply_across_losses c (loss_mult k) jv Regular;
  multiply_jacobian_transpose c fjv.
(** 176-179 and 204-207 *)
Definition multiply_curv_factor_transpose (k : mat) (c : computer) (vecs : tensor)
  : res (list lvec) :=
  do jv <- multiply_jacobian c vecs;
  multiply_across_losses c (loss_factor_transpose k) jv Sqrt.
(** 181-185 and 209-213 *)
Definition multiply_curv_factor (k : mat) (c : computer) (loss_inner_vecs : list lvec)
  : res tensor :=
  do bv <- multiply_across_losses c (loss_factor k) loss_inner_vecs Sqrt;
  multiply_jacobian_transpose c bv.

(* ------------------------------------------------------------------------ *)
(** * Gradient lists of the estimation modes  (estimator.py:649-724) *)

(** In these functions [c_wrt] and [c_jac] are relative to the tensors the gradients are
    taken with respect to. *)

(** estimator.py:649-657, mode "gradients": tf.gradients of
    [eval_losses(target_mode="sample", coeff_mode="sqrt")] (layer_collection.py:692-714).
    [g] is the gradient of each loss value with respect to its own inputs at the sampled
    targets. *)
Definition lscale (a : R) (v : lvec) : lvec :=
  match v with V1 t => V1 (tscale a t) | V2 t u => V2 (tscale a t) (tscale a u) end.
Definition grads_gradients (c : computer) (g : list lvec) : res tensor :=
  multiply_jacobian_transpose c (map2 (fun lc v => lscale (sqrt (snd lc)) v) (c_losses c) g).
(** estimator.py:659-667, mode "empirical": the same with the targets of the data and the
    coefficients themselves. *)
Definition grads_empirical (c : computer) (g : list lvec) : res tensor :=
  multiply_jacobian_transpose c (map2 (fun lc v => lscale (snd lc) v) (c_losses c) g).

(** estimator.py:669-697, mode "curvature_prop": [signs] are the random signs of each
    loss. *)
Definition grads_curvature_prop (k : mat) (c : computer) (signs : list lvec) : res tensor :=
  multiply_curv_factor k c signs.

(** fisher_factor_inner_static_shape[1:] (loss_functions.py:421-427, 532-535, 637-642,
    697-703): the width of one row of the inner vectors. *)
Definition inner_width (l : loss) : nat :=
  match l with
  | Categorical n _ | MultiBernoulli n _ | NormalMean n _ _ => n
  | NormalMeanVariance n _ _ => 2 * n
  end.

(** estimator.py:699-724, mode "exact": one gradient per loss and inner index.  The GGN
    branch reads the attribute [fisher_ggn_inner_static_shape], which no loss has.
    [jacs] gives, for each loss, its part of the Jacobian. *)
Definition exact_one (wrt : list nat) (lc : loss * R) (jac : list (list (list tensor))) (i : nat)
  : res tensor :=
  do value <- multiply_fisher_factor_replicated_one_hot (fst lc) [i];
  match value with
  | V1 t =>
      let flat := [tscale (sqrt (snd lc)) t] in
      if Nat.eqb (length jac) 1 then Ok (grad_all (zeros wrt) jac flat) else Raise ValueError
  | V2 _ _ => Raise AttributeError
  end.
Definition grads_exact (k : mat) (wrt : list nat)
    (ls : list ((loss * R) * list (list (list tensor)))) : res (list tensor) :=
  match k with
  | GGN => match ls with [] => Ok [] | _ => Raise AttributeError end
  | Fisher =>
      do gss <- mapM (fun p => mapM (exact_one wrt (fst p) (snd p)) (seq 0 (inner_width (fst (fst p))))) ls;
      Ok (concat gss)
  end.
