(** Model of the life cycle of FisherEstimator (kfac/python/ops/estimator.py), of the entry
    points of KfacOptimizer (kfac/python/ops/optimizer.py) and of the constructor of
    AsyncInvCovUpdateKfacOpt.  Tensors, variables, losses and factors are numbers. *)
From Coq Require Import String QArith Arith Bool List Reals.
From Verif.Base Require Import Py.
From Verif.Train Require Import Model.
From Verif.Replica Require Import Model.
From Verif.Sched Require Model.
From Verif.Curv Require Model.
Import ListNotations.
Open Scope list_scope.
Open Scope R_scope.

(** A Python list or a tuple. *)
Inductive pyseq := PList (l : list nat) | PTuple (l : list nat).
Definition items (s : pyseq) : list nat := match s with PList l | PTuple l => l end.
(** [l + s] for a list [l]: only lists can be added to lists. *)
Definition list_plus (l : list (list nat)) (s : pyseq) : res (list (list nat)) :=
  match s with PList m => Ok (l ++ map (fun v => [v]) m) | PTuple _ => Raise TypeError end.

Fixpoint mapM {A B : Type} (f : A -> res B) (l : list A) : res (list B) :=
  match l with
  | [] => Ok []
  | a :: l' => do b <- f a ; do bs <- mapM f l' ; Ok (b :: bs)
  end.

(* ------------------------------------------------------------------------ *)
(** * What the graph says about the losses *)

(** [g_dep l x]: the inputs of the loss [l] depend on the tensor [x] (targets and samples are
    treated as constants, loss_functions.py:55-62, 304-317).  [g_targets l]: the loss has targets.
    [g_inner l]: the number of entries of one row of its Fisher factor's inner vectors.
    [g_dim x]: the number of entries of [x].  The remaining fields are gradients with respect to a
    tensor: of the loss on a sample times the root of its coefficient, of the loss on its targets
    times its coefficient, and of its inputs weighted by the transformed random signs or by the
    transformed one-hot vector of an index.  Simplification: a loss has one input tensor; the
    losses with two are in Curv/Model.v. *)
Record graph := mkGraph {
  g_losses : list nat;
  g_dep : nat -> nat -> bool;
  g_targets : nat -> bool;
  g_inner : nat -> nat;
  g_dim : nat -> nat;
  g_sample : nat -> nat -> vec;
  g_data : nat -> nat -> vec;
  g_signs : nat -> nat -> vec;
  g_hot : nat -> nat -> nat -> vec }.

(** tf.add_n of tensors with [d] entries *)
Definition vsum (d : nat) (l : list vec) : vec := fold_right vadd (repeat 0 d) l.

(** tf.gradients: None for a tensor that none of the given losses depends on, otherwise the sum
    of the contributions of those that do. *)
Definition tf_gradients (g : graph) (contrib : nat -> nat -> vec) (ls xs : list nat)
  : list (option vec) :=
  map (fun x => match filter (fun l => g_dep g l x) ls with
                | [] => None
                | ds => Some (vsum (g_dim g x) (map (fun l => contrib l x) ds))
                end) xs.

(** nest.pack_sequence_as; a nested structure of tensors is the list of its tensors. *)
Fixpoint pack {A : Type} (tensors : list (list nat)) (flat : list A) : list (list A) :=
  match tensors with
  | [] => []
  | t :: r => firstn (length t) flat :: pack r (skipn (length t) flat)
  end.

(* ------------------------------------------------------------------------ *)
(** * Gradient lists  (estimator.py:649-724) *)

(** For each block (and variable) a list over gradients of its nested structure *)
Notation grads_lists := (list (list (list (option vec)))).

(** 649-667 and 690-697: one gradient per tensor. *)
Definition one_gradient (g : graph) (contrib : nat -> nat -> vec) (tensors : list (list nat))
  : grads_lists :=
  map (fun grad => [grad]) (pack tensors (tf_gradients g contrib (g_losses g) (concat tensors))).

(** 659-667: evaluating a loss without targets raises a bare Exception
    (loss_functions.py:62), here RuntimeError. *)
Definition get_empirical (g : graph) (tensors : list (list nat)) : res grads_lists :=
  if forallb (g_targets g) (g_losses g) then Ok (one_gradient g (g_data g) tensors)
  else Raise RuntimeError.

(** zip with a starred argument: nothing without rows. *)
Definition unzip_rows {A : Type} (width : nat) (rows : list (list (list A))) : list (list (list A)) :=
  match rows with
  | [] => []
  | _ => map (fun j => map (fun row => nth j row []) rows) (seq 0 width)
  end.

(** 699-724: one gradient per loss and index, of that loss alone.  The GGN branch reads an
    attribute that no loss has. *)
Definition get_exact (ggn : bool) (g : graph) (tensors : list (list nat)) : res grads_lists :=
  match g_losses g with
  | [] => Ok []
  | ls =>
      if ggn then Raise AttributeError
      else Ok (unzip_rows (length tensors)
             (concat (map (fun l => map (fun i =>
                 pack tensors (tf_gradients g (fun l' x => g_hot g l' i x) [l] (concat tensors)))
               (seq 0 (g_inner g l))) ls)))
  end.

(** The table of the constructor (estimator.py:156-163); a mode that is not in it raises
    KeyError, which 379-384 turn into ValueError. *)
Definition get_grads_lists (mode : string) (g : graph) (tensors : list (list nat))
  : res grads_lists :=
  if String.eqb mode "gradients" then Ok (one_gradient g (g_sample g) tensors)
  else if String.eqb mode "empirical" then get_empirical g tensors
  else if String.eqb mode "curvature_prop" || String.eqb mode "curvature_prop_GGN" then
    Ok (one_gradient g (g_signs g) tensors)
  else if String.eqb mode "exact" then get_exact false g tensors
  else if String.eqb mode "exact_GGN" then get_exact true g tensors
  else Raise ValueError.

(* ------------------------------------------------------------------------ *)
(** * Instantiating the factors  (estimator.py:361-418) *)

(** What happens: the blocks get their gradients, and possibly there are statistics of the
    variables; or ValueError with a message that names tensors; or another exception. *)
Inductive outcome :=
| Instantiated (grads : list (list (list vec))) (stats : option (list vec))
| Unconnected (named : list nat)
| Failed (e : exn).

Definition is_none {A : Type} (o : option A) : bool := match o with None => true | Some _ => false end.
Definition known {A : Type} (l : list (option A)) : list A :=
  concat (map (fun o => match o with None => [] | Some a => [a] end) l).

(** The mean over the batch of the sum of a variable's gradients (398-404); a variable's
    structure has one tensor.  Averaging over replicas (406-409) is [stats_on_replicas]. *)
Definition variable_stat (g : graph) (batch : nat) (v : nat) (grad_list : list (list vec)) : vec :=
  vscale (1 / INR batch) (vsum (g_dim g v) (map (fun s => hd [] s) grad_list)).

(** [blocks] are the tensors_to_compute_grads of the blocks; [stats] is compute_params_stats
    with the batch size. *)
Definition instantiate_factors (mode : string) (variables : pyseq) (stats : option nat)
    (g : graph) (blocks : list (list nat)) : outcome :=
  match (match stats with None => Ok blocks | Some _ => list_plus blocks variables end) with
  | Raise e => Failed e
  | Ok tensors =>
      match get_grads_lists mode g tensors with
      | Raise e => Failed e
      | Ok gls =>
          let flat := concat (map (@concat (option vec)) gls) in
          if existsb is_none flat then
            Unconnected (map fst (filter (fun p => is_none (snd p)) (zip (concat tensors) flat)))
          else
            let gls := map (map known) gls in
            let to_blocks := firstn (length blocks) gls in
            match stats with
            | None => Instantiated to_blocks None
            | Some batch =>
                match skipn (length blocks) gls with
                | [] => Failed IndexError
                | rest => Instantiated to_blocks
                            (Some (map (fun p => variable_stat g batch (fst p) (snd p))
                                     (zip (items variables) rest)))
                end
            end
      end
  end.

(** 406-409 on several replicas *)
Definition stats_on_replicas (k : rctx) (locals : list (list vec)) : list (list vec) :=
  all_average k locals.

(** The constructor's only check (186-188); [None] is compute_params_stats = False. *)
Definition make_estimator (compute_params_stats : bool) (batch_size : option nat) : res (option nat) :=
  if compute_params_stats then match batch_size with None => Raise ValueError | Some b => Ok (Some b) end
  else Ok None.

(* ------------------------------------------------------------------------ *)
(** * Entry points of the optimizer *)

(** optimizer.py:393: [var_list or tf.trainable_variables()], the latter being a list. *)
Definition opt_variables (var_list : option pyseq) (trainable : list nat) : pyseq :=
  match var_list with
  | None => PList trainable
  | Some s => match items s with [] => PList trainable | _ => s end
  end.

Definition mem (x : nat) (l : list nat) : bool := existsb (Nat.eqb x) l.
(** 548-551 *)
Definition check_var_list (registered l : list nat) : res unit :=
  if forallb (fun v => mem v registered) l && forallb (fun v => mem v l) registered then Ok tt
  else Raise ValueError.

(** tf.train.Optimizer.compute_gradients on the variables it is given or, if it is given none,
    on all trainable ones; then the loop over the gradients' shapes (629-631), where a missing
    gradient raises AttributeError.  [grad v] is the gradient of the loss, if it depends on [v].
    Simplification: one replica, and the shapes are known. *)
Definition compute_gradients (registered trainable : list nat) (grad : nat -> option vec)
    (var_list : option (list nat)) : res (list (vec * nat)) :=
  do vars <- match var_list with
             | None => Ok trainable
             | Some l => do _ <- check_var_list registered l ; Ok l
             end ;
  mapM (fun v => match grad v with None => Raise AttributeError | Some x => Ok (x, v) end) vars.

(** The part of apply_gradients that depends on which variables it is given: the preconditioned
    gradients (optimizer.py:1150-1190, estimator.py:248-292). *)
Definition precondition {FB : Type} (blocks : list (Curv.Model.bkey * FB))
    (transform : FB -> Curv.Model.bval vec -> res (Curv.Model.bval vec)) (gvs : list (vec * nat))
  : res (list (Curv.Model.bval vec * nat)) :=
  Curv.Model.compute_transformation blocks gvs transform.

(** compute_gradients followed by apply_gradients *)
Definition compute_and_apply {FB : Type} (blocks : list (Curv.Model.bkey * FB)) transform
    (registered trainable : list nat) grad var_list :=
  do gvs <- compute_gradients registered trainable grad var_list ;
  precondition blocks transform gvs.

(** minimize (563-596); the base class calls compute_gradients with the variables and then
    apply_gradients. *)
Definition minimize {FB : Type} (blocks : list (Curv.Model.bkey * FB)) transform
    (registered trainable : list nat) grad (var_list : option (list nat)) :=
  do vars <- match var_list with
             | None => Ok registered
             | Some l => do _ <- check_var_list registered l ; Ok l
             end ;
  compute_and_apply blocks transform registered trainable grad (Some vars).

(* ------------------------------------------------------------------------ *)
(** * The asynchronous optimizer's devices *)

(** AsyncInvCovUpdateKfacOpt.__init__ (kfac_utils/async_inv_cov_update_kfac_opt.py:49-78): the
    devices for the statistics and inverses that the estimator is constructed with.  They are
    parameters of the constructor and not handed on; [kwargs] are the remaining arguments, which
    can contain neither. *)
Definition async_devices {dev : Type} (cov_devices inv_devices : option (list dev))
  : option (list dev) * option (list dev) := (None, None).
(** The thunks that its apply_gradients runs (83-92). *)
Definition async_thunks {dev B : Type} (cov_devices inv_devices : option (list dev)) raw :=
  let '(c, i) := async_devices cov_devices inv_devices in
  @Sched.Model.round_robin_thunks dev B c i raw.

(* ------------------------------------------------------------------------ *)
(** * Running the thunks  (estimator.py:463-512, 604-647) *)

(** A factor's inverse variables (by number), and the factors whose covariances the damping
    functions it was registered with read: for a Kronecker block both of its factors
    (fisher_blocks.py:782-792), for the other blocks none. *)
Record tfactor := mkTF { tf_inverses : list nat; tf_reads : list nat }.
Inductive thunk := CovVar (i : nat) | CovUpdate (i : nat) | InvVar (i : nat) | InvUpdate (i : nat).
(** An op that was made: it updates the statistics of a factor, or some inverse variables *)
Inductive made := UpdatesCov (i : nat) | UpdatesInverses (vs : list nat).
(** The factors whose variables exist *)
Record tstate := mkTS { ts_cov : list nat; ts_inv : list nat }.

Definition no_factor : tfactor := mkTF [] [].
Definition has_inverses (f : tfactor) : bool := match tf_inverses f with [] => false | _ => true end.

(** fisher_factors.py: 533-542 (a second call violates the assertion), 590-602 (without variables
    [self._cov] is None), 764-808 (a second call asks for an existing variable), 810-880: the
    damping functions are called first and read covariances, then the ops for the variables that
    exist by now are made.  A factor without damping functions makes no ops. *)
Definition run_thunk (fs : list tfactor) (t : thunk) (s : tstate) : res (tstate * list made) :=
  match t with
  | CovVar i => if mem i (ts_cov s) then Raise AssertionError
                else Ok (mkTS (i :: ts_cov s) (ts_inv s), [])
  | CovUpdate i => if mem i (ts_cov s) then Ok (s, [UpdatesCov i]) else Raise AttributeError
  | InvVar i =>
      if mem i (ts_inv s) && has_inverses (nth i fs no_factor) then Raise ValueError
      else Ok (mkTS (ts_cov s) (i :: ts_inv s), [])
  | InvUpdate i =>
      let f := nth i fs no_factor in
      if has_inverses f then
        if forallb (fun j => mem j (ts_cov s)) (tf_reads f) then
          if mem i (ts_inv s) then
            if mem i (ts_cov s) then Ok (s, [UpdatesInverses (tf_inverses f)])
            else Raise AttributeError
          else Ok (s, [UpdatesInverses []])
        else Raise AttributeError
      else Ok (s, [UpdatesInverses []])
  end.

Fixpoint run_thunks (fs : list tfactor) (ts : list thunk) (s : tstate) : res (tstate * list made) :=
  match ts with
  | [] => Ok (s, [])
  | t :: r => do p <- run_thunk fs t s ;
              do q <- run_thunks fs r (fst p) ;
              Ok (fst q, (snd p ++ snd q)%list)
  end.

(* ------------------------------------------------------------------------ *)
(** * Matrix functions  (estimator.py:420-427) *)

(** Where a factor's powers come from: dense factors (fisher_factors.py:655-942), diagonal ones
    (999-1048), the SUA factor (1979-2406). *)
Inductive fkind := Dense | Diagonal | SUA.
(** Blocks: full, diagonal, Kronecker and series blocks (fisher_blocks.py: 283-314, 366-402,
    775-915, 1639-1842).  The numbers are the factors in the collection and the ids of the
    damping functions. *)
Inductive mblock :=
| MFull (f : nat) (d : nat)
| MDiag
| MKron (l : fkind) (fl dl : nat) (r : fkind) (fr dr : nat)
| MSeries (fl dl fr dr : nat).

(** Registrations with all factors: (factor, exponent, damping id), and (factor, damping id). *)
Record mregs := mkMR {
  m_pow : list (nat * Q * nat); m_chol : list (nat * nat); m_cholinv : list (nat * nat);
  m_quants : list (nat * nat) }.
Definition no_regs : mregs := mkMR [] [] [] [].
Definition add_pow f e d r := mkMR ((f, e, d) :: m_pow r) (m_chol r) (m_cholinv r) (m_quants r).
Definition add_chol f d r := mkMR (m_pow r) ((f, d) :: m_chol r) (m_cholinv r) (m_quants r).
Definition add_cholinv f d r := mkMR (m_pow r) (m_chol r) ((f, d) :: m_cholinv r) (m_quants r).
Definition add_quants f d r := mkMR (m_pow r) (m_chol r) (m_cholinv r) ((f, d) :: m_quants r).
Definition pair_in (p : nat * nat) (l : list (nat * nat)) : bool :=
  existsb (fun q => Nat.eqb (fst p) (fst q) && Nat.eqb (snd p) (snd q)) l.
Definition pow_in (f : nat) (e : Q) (d : nat) (l : list (nat * Q * nat)) : bool :=
  existsb (fun q => Nat.eqb f (fst (fst q)) && Qeq_bool e (snd (fst q)) && Nat.eqb d (snd q)) l.

(** register_matpower of the factors: 705-723, 1026-1027, 2135-2156 *)
Definition f_register_matpower (k : fkind) (f : nat) (e : Q) (d : nat) (r : mregs) : res mregs :=
  match k with
  | Dense => Ok (if Qeq_bool e 1 then r else add_pow f e d r)
  | Diagonal => Ok r
  | SUA => if Qeq_bool e 1 then Ok r
           else if Qeq_bool e (-1) then Ok (add_pow f e d r) else Raise ValueError
  end.
(** register_cholesky and register_cholesky_inverse: 725-755, 1029-1033; those of the SUA factor
    (2396-2402) take no damping function. *)
Definition f_register_cholesky (k : fkind) (f d : nat) (r : mregs) : res mregs :=
  match k with Dense => Ok (add_chol f d r) | Diagonal => Ok r | SUA => Raise TypeError end.
Definition f_register_cholesky_inverse (k : fkind) (f d : nat) (r : mregs) : res mregs :=
  match k with Dense => Ok (add_cholinv f d r) | Diagonal => Ok r | SUA => Raise TypeError end.

(** fisher_blocks.py: 286-293, 369-382, 818-828, 1707-1721 *)
Definition register_matpower (b : mblock) (e : Q) (r : mregs) : res mregs :=
  match b with
  | MFull f d => f_register_matpower Dense f e d r
  | MDiag => Ok r
  | MKron kl fl dl kr fr dr =>
      do r1 <- f_register_matpower kl fl e dl r ; f_register_matpower kr fr e dr r1
  | MSeries fl dl fr dr =>
      if Qeq_bool e (-1) then Ok (add_quants fr dr (add_quants fl dl r)) else Raise NotImplementedErr
  end.
Definition register_cholesky (b : mblock) (r : mregs) : res mregs :=
  match b with
  | MFull f d => f_register_cholesky Dense f d r
  | MDiag => Ok r
  | MKron kl fl dl kr fr dr => do r1 <- f_register_cholesky kl fl dl r ; f_register_cholesky kr fr dr r1
  | MSeries fl dl fr dr => do r1 <- f_register_cholesky Dense fl dl r ; f_register_cholesky Dense fr dr r1
  end.
Definition register_cholesky_inverse (b : mblock) (r : mregs) : res mregs :=
  match b with
  | MFull f d => f_register_cholesky_inverse Dense f d r
  | MDiag => Ok r
  | MKron kl fl dl kr fr dr =>
      do r1 <- f_register_cholesky_inverse kl fl dl r ; f_register_cholesky_inverse kr fr dr r1
  | MSeries fl dl fr dr =>
      do r1 <- f_register_cholesky_inverse Dense fl dl r ; f_register_cholesky_inverse Dense fr dr r1
  end.

Fixpoint foldM {A S : Type} (f : A -> S -> res S) (l : list A) (s : S) : res S :=
  match l with
  | [] => Ok s
  | a :: l' => do s1 <- f a s ; foldM f l' s1
  end.

(** estimator.py:420-427 *)
Definition register_matrix_functions (exps : list Q) (chol cholinv : bool) (bs : list mblock)
  : res mregs :=
  foldM (fun b r =>
      do r1 <- foldM (fun e r => register_matpower b e r) exps r ;
      do r2 <- (if chol then register_cholesky b r1 else Ok r1) ;
      if cholinv then register_cholesky_inverse b r2 else Ok r2) bs no_regs.

(** get_matpower (886-903, 1035-1042, 2173-2266), get_cholesky and get_cholesky_inverse (905-925,
    1044-1048, 2388-2394): whether there is an operator, once the variables were made for all that
    was registered. *)
Definition f_get_matpower (r : mregs) (k : fkind) (f : nat) (e : Q) (d : nat) : res unit :=
  match k with
  | Dense => if Qeq_bool e 1 then Ok tt else if pow_in f e d (m_pow r) then Ok tt else Raise KeyError
  | Diagonal => Ok tt
  | SUA => if Qeq_bool e 1 then Ok tt
           else if Qeq_bool e (-1) then if pow_in f e d (m_pow r) then Ok tt else Raise KeyError
           else Raise ValueError
  end.
Definition f_get_cholesky (r : mregs) (k : fkind) (f d : nat) : res unit :=
  match k with
  | Dense => if pair_in (f, d) (m_chol r) then Ok tt else Raise KeyError
  | Diagonal => Ok tt
  | SUA => Raise NotImplementedErr
  end.
Definition f_get_cholesky_inverse (r : mregs) (k : fkind) (f d : nat) : res unit :=
  match k with
  | Dense => if pair_in (f, d) (m_cholinv r) then Ok tt else Raise KeyError
  | Diagonal => Ok tt
  | SUA => Raise NotImplementedErr
  end.

(** multiply_matpower, multiply_cholesky and multiply_cholesky_inverse of a block, called by the
    estimator (307-359): whether they return.  The estimator passes [transpose] by name, which the
    methods of the series block do not take (fisher_blocks.py:1836-1842).  The quantities of the
    series block are looked up by damping id (fisher_factors.py:2630-2641). *)
Definition multiply_matpower (r : mregs) (b : mblock) (e : Q) : res unit :=
  match b with
  | MFull f d => f_get_matpower r Dense f e d
  | MDiag => Ok tt
  | MKron kl fl dl kr fr dr => do _ <- f_get_matpower r kl fl e dl ; f_get_matpower r kr fr e dr
  | MSeries fl dl fr dr =>
      if Qeq_bool e (-1) then
        if pair_in (fl, dl) (m_quants r) && pair_in (fr, dr) (m_quants r) then Ok tt else Raise KeyError
      else Raise NotImplementedErr
  end.
Definition multiply_cholesky (r : mregs) (b : mblock) : res unit :=
  match b with
  | MFull f d => f_get_cholesky r Dense f d
  | MDiag => Ok tt
  | MKron kl fl dl kr fr dr => do _ <- f_get_cholesky r kl fl dl ; f_get_cholesky r kr fr dr
  | MSeries _ _ _ _ => Raise TypeError
  end.
Definition multiply_cholesky_inverse (r : mregs) (b : mblock) : res unit :=
  match b with
  | MFull f d => f_get_cholesky_inverse r Dense f d
  | MDiag => Ok tt
  | MKron kl fl dl kr fr dr => do _ <- f_get_cholesky_inverse r kl fl dl ; f_get_cholesky_inverse r kr fr dr
  | MSeries _ _ _ _ => Raise TypeError
  end.
