(** Vocabulary of the statements in Curv/Props.v: inner products, shapes, the Fisher
    matrices the documentation gives, expectations over model targets, derivatives. *)
From Coq Require Import List Arith Bool Reals Permutation.
From Coquelicot Require Coquelicot.
From Verif.Base Require Import Py.
From Verif.Curv Require Import Model.
Import ListNotations.
Open Scope list_scope.

(* ------------------------------------------------------------------------ *)
(** * Block-wise transformations *)

(** The variables of a block. *)
Definition vars (k : bkey) : list nat := match k with KVar v => [v] | KTup vs => vs end.
Definition all_vars {B} (blocks : list (bkey * B)) : list nat := concat (map (fun p => vars (fst p)) blocks).

(** The operations a caller can ask for, and what they ask of each block. *)
Inductive operation (E : Type) :=
| OpMultiply | OpInverse | OpPower (e : E) | OpCholesky (transpose : bool)
| OpCholeskyInverse (transpose : bool).
Arguments OpMultiply {E}.
Arguments OpInverse {E}.
Arguments OpPower {E} e.
Arguments OpCholesky {E} transpose.
Arguments OpCholeskyInverse {E} transpose.

Section Ops.
Context {V E : Type} (minus_one one : E).
Definition of_block (o : operation E) (fb : fblock V E) (x : bval V) : res (bval V) :=
  match o with
  | OpMultiply => fb_matpower fb x one
  | OpInverse => fb_matpower fb x minus_one
  | OpPower e => fb_matpower fb x e
  | OpCholesky t => fb_cholesky fb x t
  | OpCholeskyInverse t => fb_cholesky_inverse fb x t
  end.
(** The public entry points. *)
Definition call (o : operation E) (blocks : list (bkey * fblock V E)) (l : list (V * nat))
  : res (list (bval V * nat)) :=
  match o with
  | OpMultiply => multiply one blocks l
  | OpInverse => multiply_inverse minus_one blocks l
  | OpPower e => multiply_matpower blocks e l
  | OpCholesky t => multiply_cholesky blocks l t
  | OpCholeskyInverse t => multiply_cholesky_inverse blocks l t
  end.
End Ops.

(** [y] is what block [b] returns for variable [v] when its inputs are taken from [l]:
    the block sees the vectors of its own variables, in the order of its key. *)
Inductive block_result {V B} (f : B -> bval V -> res (bval V)) (l : list (V * nat))
  : bkey * B -> nat -> bval V -> Prop :=
| br_var v b x y : In (x, v) l -> f b (One x) = Ok y -> block_result f l (KVar v, b) v y
| br_tup vs b xs ys i v y :
    Forall2 (fun x w => In (x, w) l) xs vs -> f b (Many xs) = Ok (Many ys) ->
    nth_error vs i = Some v -> nth_error ys i = Some y ->
    block_result f l (KTup vs, b) v (One y).

(** A block operation that never raises and returns as many vectors as it is given. *)
Definition well_behaved {V B} (f : B -> bval V -> res (bval V)) (b : bkey * B) : Prop :=
  match fst b with
  | KVar _ => forall x, exists y, f (snd b) (One x) = Ok (One y)
  | KTup vs => forall xs, length xs = length vs ->
                 exists ys, f (snd b) (Many xs) = Ok (Many ys) /\ length ys = length vs
  end.

(* ------------------------------------------------------------------------ *)
(** * Shapes and inner products *)
Open Scope R_scope.

(** [b] rows of [n] entries. *)
Definition shaped (b n : nat) (t : tensor) : Prop :=
  length t = b /\ Forall (fun r => length r = n) t.

(** The number of rows of the loss, and the losses whose parameters make sense. *)
Definition batch (l : loss) : nat :=
  match l with
  | Categorical _ z | MultiBernoulli _ z => length z
  | NormalMean _ m _ | NormalMeanVariance _ m _ => length m
  end.
Definition wf_loss (l : loss) : Prop :=
  match l with
  | Categorical n z | MultiBernoulli n z => shaped (length z) n z
  | NormalMean n m var => shaped (length m) n m /\ 0 < var
  | NormalMeanVariance n m s =>
      shaped (length m) n m /\ shaped (length m) n s /\ Forall (Forall (fun x => 0 < x)) s
  end.

(** A value in the shape of the inputs of the loss, or of its inner vectors. *)
Definition input_like (l : loss) (v : lvec) : Prop :=
  match l, v with
  | NormalMeanVariance n _ _, V2 a b => shaped (batch l) n a /\ shaped (batch l) n b
  | NormalMeanVariance _ _ _, V1 _ => False
  | Categorical n _, V1 t | MultiBernoulli n _, V1 t | NormalMean n _ _, V1 t => shaped (batch l) n t
  | _, V2 _ _ => False
  end.
Definition inner_like (l : loss) (v : lvec) : Prop :=
  match v with
  | V1 t => shaped (batch l) (inner_width l) t
  | V2 _ _ => False
  end.

Definition ldot (u v : lvec) : R :=
  match u, v with
  | V1 a, V1 b => tdot a b
  | V2 a b, V2 c d => tdot a c + tdot b d
  | _, _ => 0
  end.

(** Every entry of row [r], read as a vector: for NormalMeanVariance the mean entries
    followed by the variance entries (the concatenation the documentation describes). *)
Definition row_of (v : lvec) (r : nat) : row :=
  match v with
  | V1 t => nth r t []
  | V2 a b => nth r a [] ++ nth r b []
  end.

(** Sum over indices below n. *)
Definition sum_n (n : nat) (f : nat -> R) : R := rsum (map f (seq 0 n)).
Definition delta (i j : nat) : R := if Nat.eqb i j then 1 else 0.

(** The Fisher matrix of row [r], as documented (loss_functions.py:563-572, 649-658,
    373-382, 433-446). *)
Definition documented_fisher (l : loss) (r i j : nat) : R :=
  match l with
  | Categorical _ z =>
      let p := softmax (nth r z []) in delta i j * nth i p 0 - nth i p 0 * nth j p 0
  | MultiBernoulli _ z =>
      let p := sigmoid (nth i (nth r z []) 0) in delta i j * (p * (1 - p))
  | NormalMean _ _ var => delta i j * (1 / var)
  | NormalMeanVariance n _ s =>
      delta i j * (if Nat.ltb i n then 1 / nth i (nth r s []) 0
                   else 1 / 2 * / (nth (i - n) (nth r s []) 0) ^ 2)
  end.

(** The tensor that has a 1 at index [i] of every row. *)
Definition one_hot (n i : nat) : row := map (fun j => delta i j) (seq 0 n).
Definition replicated_one_hot (b n i : nat) : tensor := repeat (one_hot n i) b.

(* ------------------------------------------------------------------------ *)
(** * Expectations *)

(** A distribution, given by the expectation of functions of its outcome. *)
Definition dist (A : Type) := (A -> R) -> R.
(** Outcome [k] with probability [ps[k]]. *)
Definition pick (ps : row) : dist nat := fun f => sum_n (length ps) (fun k => nth k ps 0 * f k).
(** Independent outcomes. *)
Fixpoint independent {A} (ds : list (dist A)) : dist (list A) :=
  match ds with
  | [] => fun f => f []
  | d :: ds' => fun f => d (fun a => independent ds' (fun l => f (a :: l)))
  end.

(** The targets the model itself predicts. *)
Definition categorical_targets (logits : tensor) : dist (list nat) :=
  independent (map (fun r => pick (softmax r)) logits).
Definition bernoulli_targets (logits : tensor) : dist (list (list nat)) :=
  independent (map (fun r => independent (map (fun x => pick [1 - sigmoid x; sigmoid x]) r)) logits).
(** The normal distribution: expectations are integrals over the real line (Coquelicot's
    improper Riemann integral) against the density. *)
Definition normal_density (mean var t : R) : R :=
  exp (- (t - mean) ^ 2 / (2 * var)) / sqrt (2 * PI * var).
Definition gaussian (mean var : R) : dist R := fun f =>
  @Coquelicot.RInt_gen.RInt_gen Coquelicot.Hierarchy.R_CompleteNormedModule
    (fun t => f t * normal_density mean var t)
    (Coquelicot.Hierarchy.Rbar_locally Coquelicot.Rbar.m_infty)
    (Coquelicot.Hierarchy.Rbar_locally Coquelicot.Rbar.p_infty).
Definition normal_targets (mean variance : tensor) : dist tensor :=
  independent (map2 (fun ms vs => independent (map2 gaussian ms vs)) mean variance).
Definition constant_like (x : R) (t : tensor) : tensor := map (map (fun _ => x)) t.
(** Independent fair signs, [b] rows of [n]. *)
Definition fair_sign : dist R := fun f => (f 1 + f (-1)) / 2.
Definition sign_rows (b n : nat) : dist tensor :=
  independent (repeat (independent (repeat fair_sign n)) b).

(* ------------------------------------------------------------------------ *)
(** * Derivatives *)

Definition entry (t : tensor) (r c : nat) : R := nth c (nth r t []) 0.
Fixpoint set_nth {A} (i : nat) (x : A) (l : list A) : list A :=
  match i, l with
  | _, [] => []
  | O, _ :: l' => x :: l'
  | S i', a :: l' => a :: set_nth i' x l'
  end.
Definition set_entry (t : tensor) (r c : nat) (x : R) : tensor :=
  set_nth r (set_nth c x (nth r t [])) t.

(** [g] holds the partial derivatives of [f] at [t]. *)
Definition is_gradient (f : tensor -> R) (t g : tensor) : Prop :=
  forall r c, (r < length t)%nat -> (c < length (nth r t []))%nat ->
    derivable_pt_lim (fun x => f (set_entry t r c x)) (entry t r c) (entry g r c).
(** [w] is the derivative of the tensor-valued [g] at [t] in direction [v]. *)
Definition is_directional (g : tensor -> tensor) (t v w : tensor) : Prop :=
  forall r c, (r < length t)%nat -> (c < length (nth r t []))%nat ->
    derivable_pt_lim (fun s => entry (g (tadd t (tscale s v))) r c) 0 (entry w r c).

(* ------------------------------------------------------------------------ *)
(** * Computers *)

(** Every loss has one input tensor, a non-negative coefficient, and a Jacobian whose
    shape agrees with the loss and with the variables. *)
Definition wrt_like (wrt : list nat) (v : tensor) : Prop := map (@length R) v = wrt.
Definition jac_like (wrt : list nat) (l : loss) (j : list (list tensor)) : Prop :=
  length j = batch l /\
  Forall (fun gs => length gs = inner_width l /\ Forall (wrt_like wrt) gs) j.
Definition one_input (l : loss) : Prop := natural l = true.
Definition wf_computer (c : computer) : Prop :=
  Forall (fun lc => wf_loss (fst lc) /\ one_input (fst lc) /\ 0 <= snd lc) (c_losses c) /\
  Forall2 (fun lc j => jac_like (c_wrt c) (fst lc) j) (c_losses c) (c_jac c).
(** The Jacobian of one loss input applied to [v]: the directional derivative of every
    entry. *)
Definition push (j : list (list tensor)) (v : tensor) : tensor := map (map (fun g => tdot g v)) j.
(** The directional derivatives along [v] of the inputs of one loss, from the Jacobians of
    these inputs: one Jacobian for most losses, that of the mean and that of the variance
    for NormalMeanVariance. *)
Definition own_inputs (l : loss) (js : list (list (list tensor))) (v : tensor) (x : lvec) : Prop :=
  if natural l then exists j, js = [j] /\ x = V1 (push j v)
  else exists mean variance, js = [mean; variance] /\ x = V2 (push mean v) (push variance v).
(** The part of the computer for loss [i], taken with coefficient 1. *)
Definition only (c : computer) (l : loss) (j : list (list tensor)) : computer :=
  mkComp [(l, 1)] (c_wrt c) [j].

(** Sums of one term per loss: of inner products, and of coefficient times vector. *)
Definition ldots (us vs : list lvec) : R := rsum (map2 ldot us vs).
Fixpoint combine_losses (wrt : list nat) (xs : list (R * tensor)) : tensor :=
  match xs with
  | [] => zeros wrt
  | (a, x) :: xs' => tadd (tscale a x) (combine_losses wrt xs')
  end.

(* ------------------------------------------------------------------------ *)
(** * Estimation modes *)

(** A tensor in the shape of the (single) input of the loss. *)
Definition like (l : loss) (t : tensor) : Prop := shaped (batch l) (inner_width l) t.
(** The independent random signs of every loss. *)
Definition random_signs (c : computer) : dist (list tensor) :=
  independent (map (fun lc => sign_rows (batch (fst lc)) (inner_width (fst lc))) (c_losses c)).
(** The distribution of the gradient of a loss, with respect to its input, at targets
    sampled from the model. *)
Inductive sampled_gradient : loss -> dist tensor -> Prop :=
| sg_categorical n z g : (0 < n)%nat ->
    (forall t, length t = length z ->
       is_gradient (fun z => evaluate_categorical z t) z (g t) /\ shaped (length z) n (g t)) ->
    sampled_gradient (Categorical n z) (fun f => categorical_targets z (fun t => f (g t)))
| sg_multi_bernoulli n z g :
    (forall t, Forall2 (fun (r : row) (ks : list nat) => length ks = length r) z t ->
       is_gradient (fun z => evaluate_multi_bernoulli z t) z (g t) /\ shaped (length z) n (g t)) ->
    sampled_gradient (MultiBernoulli n z) (fun f => bernoulli_targets z (fun t => f (g t)))
| sg_normal_mean n m var g :
    (forall t, shaped (length m) n t ->
       is_gradient (fun m => evaluate_normal_mean m var t) m (g t) /\ shaped (length m) n (g t)) ->
    sampled_gradient (NormalMean n m var)
      (fun f => normal_targets m (constant_like var m) (fun t => f (g t))).
(** The same for all inputs of the loss together, also for the loss in the mean and the
    variance. *)
Inductive sampled_gradients : loss -> dist lvec -> Prop :=
| sgs_one_input l d : sampled_gradient l d -> sampled_gradients l (fun f => d (fun s => f (V1 s)))
| sgs_normal_mean_variance n m s g1 g2 :
    (forall t, shaped (length m) n t ->
       (is_gradient (fun m => evaluate_normal_mean_variance m s t) m (g1 t) /\
        is_gradient (fun s => evaluate_normal_mean_variance m s t) s (g2 t)) /\
       shaped (length m) n (g1 t) /\ shaped (length m) n (g2 t)) ->
    sampled_gradients (NormalMeanVariance n m s) (fun f => normal_targets m s (fun t => f (V2 (g1 t) (g2 t)))).
(** One Jacobian for every input of the loss, of the right shape. *)
Definition input_width (l : loss) : nat :=
  match l with
  | Categorical n _ | MultiBernoulli n _ | NormalMean n _ _ | NormalMeanVariance n _ _ => n
  end.
Definition own_jacobians (wrt : list nat) (l : loss) (js : list (list (list tensor))) : Prop :=
  length js = (if natural l then 1 else 2)%nat /\
  Forall (fun j => length j = batch l /\
                   Forall (fun gs => length gs = input_width l /\ Forall (wrt_like wrt) gs) j) js.
(** The vector only meets row [r] of the batch: no other row of any loss input changes
    along it. *)
Definition meets_row (c : computer) (r : nat) (v : tensor) : Prop :=
  forall j r' g, In j (c_jac c) -> r' <> r -> In g (nth r' j []) -> tdot g v = 0.
(** The losses of the computer, each with its own part of the Jacobian. *)
Definition per_loss (c : computer) : list ((loss * R) * list (list (list tensor))) :=
  zip (c_losses c) (map (fun j => [j]) (c_jac c)).
