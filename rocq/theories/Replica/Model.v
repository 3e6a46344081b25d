(** Model of training on several replicas: the communication helpers of
    kfac/python/ops/utils.py (35-190, 518-649) in every context they distinguish, and the steps
    of KfacOptimizer and PeriodicInvCovUpdateKfacOpt carried out by all replicas together.  What
    one replica computes from its own tensors is taken from Train/Model.v.

    A value that exists once per replica is a list with one element per replica.  The replicas
    go through the same ops in step, as a synchronous strategy makes them. *)
From Coq Require Import List Arith Bool Reals.
From Verif.Base Require Import Py.
From Verif.Tensors Require Import Model.
From Verif.Train Require Import Model.
Import ListNotations.
Open Scope list_scope.
Open Scope R_scope.

(* ------------------------------------------------------------------------ *)
(** * Contexts  (utils.py:518-586) *)

Inductive skind := Mirrored | TPUStrategy | OtherStrategy.

(** What the helpers ask TensorFlow and the module: the current tf.distribute strategy with its
    num_replicas_in_sync, whether there is a replica context (there is none in a cross-replica
    context), the TF-Replicator object of set_global_constants (utils.py:158-190) with its
    num_replicas_in_sync, and number_of_shards of the TPU context. *)
Record rctx := mkRctx {
  strategy : option (skind * nat);
  in_replica : bool;
  replicator : option nat;
  shards : option nat }.

Definition has_strategy (k : rctx) : bool := is_some (strategy k).
(** [tf.distribute.has_strategy() and tf.distribute.get_replica_context()] *)
Definition replica_context (k : rctx) : bool := has_strategy k && in_replica k.
Definition has_kind (k : rctx) (s : skind) : bool :=
  match strategy k, s with
  | Some (Mirrored, _), Mirrored | Some (TPUStrategy, _), TPUStrategy
  | Some (OtherStrategy, _), OtherStrategy => true
  | _, _ => false
  end.

(** 522-528 *)
Definition is_tpu_replicated (k : rctx) : bool :=
  (replica_context k && has_kind k TPUStrategy) || is_some (shards k).

(** num_replicas_in_sync of the strategy *)
Definition num_in_sync (k : rctx) : nat := match strategy k with Some (_, n) => n | None => 1 end.

(** 531-535 *)
Definition is_replicated (k : rctx) : bool :=
  if replica_context k then Nat.ltb 1 (num_in_sync k)
  else is_some (replicator k) || is_tpu_replicated k.

(** 538-558 *)
Definition get_num_replicas (k : rctx) : nat :=
  match replicator k, strategy k, shards k with
  | Some n, _, _ => n
  | None, Some (_, n), _ => n
  | None, None, Some (S n) => S n
  | None, None, _ => 1
  end.

(* ------------------------------------------------------------------------ *)
(** * Sums and averages  (utils.py:588-649) *)

(** A nested structure of tensors is the list of its tensors. *)
Notation structure := (list (list R)).

Definition map2 {A B C : Type} (f : A -> B -> C) (l : list A) (m : list B) : list C :=
  map (fun p => f (fst p) (snd p)) (zip l m).

(** What the reductions of TensorFlow compute: tf_replicator.all_sum, all_reduce with SUM and
    tpu_ops.cross_replica_sum; all_reduce with MEAN. *)
Fixpoint total (xs : list structure) : structure :=
  match xs with
  | [] => []
  | [x] => x
  | x :: xs' => map2 vadd x (total xs')
  end.
Definition mean (xs : list structure) : structure := sprod (/ INR (length xs)) (total xs).

(** 588-621 *)
Definition all_sum (k : rctx) (xs : list structure) : list structure :=
  if Nat.leb (get_num_replicas k) 1 then xs
  else if is_some (replicator k) then map (fun _ => total xs) xs
  else if replica_context k then map (fun _ => total xs) xs
  else if is_tpu_replicated k then map (fun _ => total xs) xs
  else xs.

(** 624-649 *)
Definition all_average (k : rctx) (xs : list structure) : list structure :=
  if Nat.leb (get_num_replicas k) 1 then xs
  else if replica_context k && negb (is_some (replicator k)) then map (fun _ => mean xs) xs
  else map (sprod (/ INR (get_num_replicas k))) (all_sum k xs).

(** The same for 0-D tensors, and for tensors that are functions from positions. *)
Definition all_average1 (k : rctx) (l : list R) : list R :=
  map (fun s => hd 0 (hd [] s)) (all_average k (map (fun x => [[x]]) l)).
Definition all_average_at {I : Type} (k : rctx) (fs : list (I -> R)) : list (I -> R) :=
  map (fun j i => nth j (all_average1 k (map (fun f => f i) fs)) 0) (seq 0 (length fs)).

(* ------------------------------------------------------------------------ *)
(** * smart_assign  (utils.py:38-88) *)

(** The values the copies of a variable are assigned when the replicas pass [xs]: in a replica
    context of a MirroredStrategy (and with the default force_sync) their mean, otherwise each
    copy gets what its replica passed. *)
Definition syncs (k : rctx) : bool := replica_context k && has_kind k Mirrored.
Definition sync (k : rctx) (xs : list structure) : list structure :=
  if syncs k then map (fun _ => mean xs) xs else xs.
Definition sync1 (k : rctx) (l : list R) : list R :=
  map (fun s => hd 0 (hd [] s)) (sync k (map (fun x => [[x]]) l)).
Definition sync_vec (k : rctx) (l : list vec) : list vec :=
  map (fun s => hd [] s) (sync k (map (fun x => [x]) l)).
Definition sync_at {I : Type} (k : rctx) (fs : list (I -> R)) : list (I -> R) :=
  map (fun j i => nth j (sync1 k (map (fun f => f i) fs)) 0) (seq 0 (length fs)).

(** The mean of numbers of which some are not finite. *)
Definition eadd (x y : ext) : ext :=
  match x, y with
  | Fin a, Fin b => Fin (a + b)
  | NaN, _ | _, NaN | PInf, NInf | NInf, PInf => NaN
  | PInf, _ | _, PInf => PInf
  | NInf, _ | _, NInf => NInf
  end.
Definition emean (l : list ext) : ext :=
  match fold_right eadd (Fin 0) l with Fin a => Fin (/ INR (length l) * a) | x => x end.
Definition sync_ext (k : rctx) (l : list ext) : list ext :=
  if syncs k then map (fun _ => emean l) l else l.

(* ------------------------------------------------------------------------ *)
(** * The optimizer's step  (optimizer.py:598-769, 859-1364) *)

Fixpoint mapm {A B : Type} (f : A -> res B) (l : list A) : res (list B) :=
  match l with
  | [] => Ok []
  | a :: l' => do b <- f a ; do bs <- mapm f l' ; Ok (b :: bs)
  end.

(** compute_gradients (598-636) after the base class has computed [local] on each replica *)
Definition average_gradients (k : rctx) (local : list pairs) : list pairs :=
  map2 (fun avg l => zip avg (map snd l)) (all_average k (map (map fst) local)) local.

(** 653-671 *)
Definition maybe_update_prev_loss_r (k : rctx) (c : cfg) (xs : list ctx) (ss : list st) : list st :=
  if c_adapt c then
    let losses := map2 (fun x s => if c_passed c then x_loss x else x_loss_fn x (s_params s)) xs ss in
    map2 (fun s v => if is_adaptation_time c s then set_prev_loss (Some v) s else s)
         ss (sync1 k (all_average1 k losses))
  else ss.

(** 1317-1364: the rule of Train/Model.v with the averaged loss, then the assignments. *)
Definition with_loss (l : R) : ctx := 
  mkCtx (fun v => v) (fun v => v) (fun v => v) l (fun _ => l) (fun _ => l).
Definition update_damping_r (k : rctx) (c : cfg) (xs : list ctx) (ss : list st) : list st :=
  let losses := all_average1 k (map2 (current_loss c) xs ss) in
  let new := map2 (fun s l => update_damping c (with_loss l) s) ss losses in
  map2 (fun s dr => set_damping (fst dr) (snd dr) s) ss
       (zip (sync1 k (map s_damping new)) (sync_ext k (map s_rho new))).

(** 673-702 *)
Definition maybe_pre_update_adapt_damping_r (k : rctx) (c : cfg) (xs : list ctx) (ss : list st)
  : list st :=
  if negb (c_adapt c) || negb (c_chief c) || c_immediate c then ss
  else map2 (fun s s' => if is_just_after_adaptation_time c s then s' else s)
            ss (update_damping_r k c xs ss).

(** 704-714 *)
Definition maybe_post_update_adapt_damping_r (k : rctx) (c : cfg) (xs : list ctx) (ss : list st)
  : list st :=
  if negb (c_immediate c) || negb (c_adapt c) then ss
  else map2 (fun s s' => if is_adaptation_time c s then s' else s) ss (update_damping_r k c xs ss).

(** 1290-1315: variable by variable (there are [m] of them), each replica's new velocity is
    assigned to the slot and the assigned value is returned. *)
Fixpoint update_velocities_r (k : rctx) (m : nat) (vels : list (nat -> vec)) (decays coeffs : list R)
    (ls : list pairs) : list (nat -> vec) * list pairs :=
  match m with
  | O => (vels, map (fun _ => []) ls)
  | S m' =>
      let heads := map (hd ([], O)) ls in
      let new := map2 (fun vh dc => vadd (vscale (fst dc) (fst vh (snd (snd vh))))
                                         (vscale (snd dc) (fst (snd vh))))
                      (zip vels heads) (zip decays coeffs) in
      let assigned := sync_vec k new in
      let vels' := map2 (fun vh a => upd (fst vh) (snd (snd vh)) a) (zip vels heads) assigned in
      let (vels'', outs) := update_velocities_r k m' vels' decays coeffs (map (@tl _) ls) in
      (vels'', map2 (fun ha out => (snd ha, snd (fst ha)) :: out) (zip heads assigned) outs)
  end.
Definition num_vars (ls : list pairs) : nat := length (hd [] ls).

(** 1133-1153 *)
Definition maybe_update_qmodel_change_r (k : rctx) (c : cfg) (thunks : list (res R)) (ss : list st)
  : res (list st) :=
  do qs <- mapm (fun st => if is_adaptation_time c (fst st) then snd st else Ok 0) (zip ss thunks) ;
  Ok (map2 (fun s v => if is_adaptation_time c s then set_qchange (Some v) s else s) ss (sync1 k qs)).

(** 965-966: the four entries of the matrix are averaged. *)
Definition average_matrices (k : rctx) (ms : list m22) : list m22 :=
  map (fun s => match s with
                | [[a]; [b]; [c]; [d]] => mkM a b c d
                | _ => mkM 0 0 0 0
                end)
      (all_average k (map (fun m => [[m00 m]; [m01 m]; [m10 m]; [m11 m]]) ms)).

(** 1175-1285 *)
Definition compute_raw_update_steps_r (k : rctx) (c : cfg) (xs : list ctx) (ss : list st)
    (gs : list pairs) : res (list pairs * list st) :=
  match c_mtype c with
  | Regular =>
      do pgs <- mapm (fun xg => maybe_clip c (snd xg) (x_precond (fst xg) (snd xg))) (zip xs gs) ;
      let (vels, raws) := update_velocities_r k (num_vars pgs) (map s_vel ss)
                            (map (fun _ => c_momentum c) ss) (map (fun _ => 1) ss) pgs in
      let ss1 := map2 set_vel vels ss in
      if c_adapt c && c_chief c then
        do ss2 <- maybe_update_qmodel_change_r k c
                    (map2 (fun xs rg => compute_approx_qmodel_change c (fst xs) (snd xs)
                                          (sprod_p (-1 * c_lr c) (fst rg)) (snd rg))
                          (zip xs ss1) (zip raws gs)) ss1 ;
        Ok (raws, ss2)
      else Ok (raws, ss1)
  | Adam =>
      let (vels, vs) := update_velocities_r k (num_vars gs) (map s_vel ss)
                          (map (fun _ => c_momentum c) ss) (map (fun _ => 1) ss) gs in
      let ss1 := map2 set_vel vels ss in
      do raws <- mapm (fun xv => maybe_clip c (snd xv) (x_precond (fst xv) (snd xv))) (zip xs vs) ;
      if c_adapt c && c_chief c then
        do ss2 <- maybe_update_qmodel_change_r k c
                    (map2 (fun rv g => do a <- ip_p (fst rv) (snd rv) ;
                                       do b <- ip_p (fst rv) g ;
                                       Ok (1/2 * c_lr c ^ 2 * a - c_lr c * b))
                          (zip raws vs) gs) ss1 ;
        Ok (raws, ss2)
      else Ok (raws, ss1)
  | Qmodel | QmodelFixedMu =>
      do qs <- mapm (fun xsg => get_qmodel_quantities c (fst (fst xsg)) (snd (fst xsg)) (snd xsg))
                    (zip (zip xs ss) gs) ;
      let ms := average_matrices k (map (fun q => fst (fst (snd q))) qs) in
      let fixed_mu := match c_mtype c with
                      | QmodelFixedMu => Some (c_momentum c)
                      | _ => None
                      end in
      let hs := map2 (fun sq m => compute_qmodel_hyperparams c (fst sq) m (snd (fst (snd (snd sq))))
                                    (snd (snd (snd sq))) fixed_mu) (zip ss qs) ms in
      let alphas := map (fun h => fst (fst h)) hs in
      let mus := map (fun h => snd (fst h)) hs in
      let ss1 := map2 (fun s v => set_qhyper (Some (fst (snd v))) (Some (snd (snd v)))
                                    (set_qchange (Some (fst v)) s)) ss
                      (zip (sync1 k (map snd hs))
                           (zip (sync1 k (map Ropp alphas)) (sync1 k mus))) in
      let (vels, raws) := update_velocities_r k (num_vars (map fst qs)) (map s_vel ss1) mus
                            (map Ropp alphas) (map fst qs) in
      Ok (raws, map2 set_vel vels ss1)
  end.

(** apply_gradients (716-769).  With a strategy the updates are divided by the number of
    replicas, and the base class, which sums them over the replicas, refuses to work in a
    cross-replica context; without one it applies each replica's own. *)
Definition apply_gradients_r (k : rctx) (c : cfg) (xs : list ctx) (ss : list st) (gs : list pairs)
  : res (list st) :=
  let ss1 := maybe_update_prev_loss_r k c xs ss in
  do rs <- compute_raw_update_steps_r k c xs ss1 gs ;
  let '(raws, ss2) := rs in
  let raws' := if c_use_wd c then map2 (fun s raw => add_weight_decay c s raw) ss2 raws else raws in
  do applied <-
    (if has_strategy k then
       if in_replica k then
         let divided := map (map (fun uv => (vscale (/ INR (num_in_sync k)) (fst uv), snd uv))) raws' in
         Ok (map (fun raw => zip (total (map (map fst) divided)) (map snd raw)) raws')
       else Raise RuntimeError
     else Ok raws') ;
  let ss3 := map2 (fun s raw => set_params (descend (c_lr c) (s_params s) raw) s) ss2 applied in
  let ss4 := maybe_post_update_adapt_damping_r k c xs ss3 in
  Ok (map (fun s => set_counter (s_counter s + 1) s) ss4).

(* ------------------------------------------------------------------------ *)
(** * PeriodicInvCovUpdateKfacOpt
      (kfac_utils/periodic_inv_cov_update_kfac_opt.py:83-216) *)

Section Periodic.
Variables (Batch : Type)  (* a mini-batch of one replica *)
          (I : Type).     (* positions in a covariance matrix *)

(** The environment of one replica.  [r_env]'s statistics are those before the average over
    replicas (fisher_factors.py:559-571); [r_finish] is what is still done to them afterwards
    (for ConvInputSUAKroneckerFactor 2105-2116, else nothing).  The inverse variables of all
    factors are a structure of tensors. *)
Record renv := mkRenv {
  r_env : env Batch I structure;
  r_finish : list (I -> R) -> list (I -> R) }.

(** One step's data: the batch and the previous batch of each replica, and which of the two
    unordered groups (207-209) runs first. *)
Record rinput := mkRin { ri_batches : list (Batch * Batch); ri_cov_first : bool }.

Notation pst := (pst I structure).

(** MovingAverageVariable.add_to_average (utils.py:1303-1324) of one factor on all replicas *)
Definition sync_mavs (k : rctx) (ms : list (mav I)) : list (mav I) :=
  map2 (fun m vw => mkMav (fst vw) (snd vw) (m_norm m)) ms
       (zip (sync_at k (map m_var ms)) (sync1 k (map m_weight ms))).

(** The new covariance variables of every replica.  The [j]-th factor's statistic is averaged
    over the replicas (fisher_factors.py:581) and added to each replica's copy.  [raw] is, per
    replica, the statistics of all factors. *)
Definition transpose {A : Type} (d : A) (m : nat) (l : list (list A)) : list (list A) :=
  map (fun j => map (fun r => nth j r d) l) (seq 0 m).
Definition cov_update_r (k : rctx) (e : renv) (decay : R) (raw : list (list (I -> R)))
    (covs : list (list (mav I))) : list (list (mav I)) :=
  let zero := fun _ : I => 0 in
  let n := length covs in
  let averaged := transpose zero n (map (all_average_at k) (transpose zero (length (hd [] raw)) raw)) in
  let new := map2 (fun stats cov => cov_update decay (r_finish e stats) cov) averaged covs in
  transpose (mav_init zero true) n
    (map (sync_mavs k) (transpose (mav_init zero true) (length (hd [] new)) new)).

(** smart_cond (utils.py:91-155): under a MirroredStrategy the conditional is carried out by
    merge_call, which runs the function that the first replica passed, and that replica's
    branch is then called for every replica.  So its tensors are the first replica's, while
    variables are still read and assigned copy by copy.  [smart_cond_tensors k xs] are the
    tensors the branches work on when replica r's closure holds the r-th of [xs]. *)
Definition smart_cond_tensors {A : Type} (k : rctx) (xs : list A) : list A :=
  if syncs k then match xs with [] => [] | x :: _ => map (fun _ => x) xs end else xs.

Definition loss_ctx_r (e : renv) (bs : Batch * Batch) (loss : R) (q : pst) (params0 : nat -> vec)
  : ctx :=
  loss_ctx (r_env e) (mkIn (fst bs) (snd bs) true) loss (o_cov q) (o_inv q) (s_damping (o_st q))
    params0.

(** The conditional covariance update (200-205); [params] are the parameters at the start *)
Definition cov_group_r (k : rctx) (p : pcfg) (e : renv) (i : rinput) (params : list (nat -> vec))
    (qs : list pst) : list pst :=
  let raw := map2 (fun th b => e_stats (r_env e) th (fst b)) params (ri_batches i) in
  let covs := cov_update_r k e (p_ema p) (smart_cond_tensors k raw) (map o_cov qs) in
  map2 (fun q cov => if Nat.eqb (Nat.modulo (s_counter (o_st q)) (p_cov_every p)) 0
                     then mkPst (o_st q) cov (o_inv q) (o_burnin q) else q) qs covs.

(** The contexts in which the replicas evaluate losses *)
Definition ctxs_r (e : renv) (i : rinput) (params : list (nat -> vec)) (qs : list pst) : list ctx :=
  map2 (fun bth q => loss_ctx_r e (fst bth) (e_loss (r_env e) (fst (fst bth)) (snd bth)) q (snd bth))
       (zip (ri_batches i) params) qs.

(** The damping update (207) *)
Definition damping_group_r (k : rctx) (p : pcfg) (e : renv) (i : rinput) (params : list (nat -> vec))
    (qs : list pst) : list pst :=
  map2 (fun q s => mkPst s (o_cov q) (o_inv q) (o_burnin q)) qs
       (maybe_pre_update_adapt_damping_r k (p_cfg p) (ctxs_r e i params qs) (map o_st qs)).

(** kfac_update_ops (177-216) *)
Definition kfac_update_ops_r (k : rctx) (p : pcfg) (e : renv) (i : rinput) (qs : list pst)
  : list pst :=
  let params := map (fun q => s_params (o_st q)) qs in
  let qs1 := if ri_cov_first i
             then damping_group_r k p e i params (cov_group_r k p e i params qs)
             else cov_group_r k p e i params (damping_group_r k p e i params qs) in
  let invs := sync k (map (fun q => e_invert (r_env e) (o_cov q) (s_damping (o_st q))) qs1) in
  map2 (fun n qi => if Nat.eqb (Nat.modulo n (p_invert_every p)) 0
                    then mkPst (o_st (fst qi)) (o_cov (fst qi)) (snd qi) (o_burnin (fst qi))
                    else fst qi)
       (map (fun q => s_counter (o_st q)) qs) (zip qs1 invs).

(** minimize's ordinary branch (152-168) and apply_gradients (170-175) *)
Definition full_step_r (k : rctx) (p : pcfg) (e : renv) (i : rinput) (qs : list pst)
  : res (list pst) :=
  let params := map (fun q => s_params (o_st q)) qs in
  let gs := average_gradients k
              (map2 (fun th b => e_grads (r_env e) th (fst b)) params (ri_batches i)) in
  let qs1 := kfac_update_ops_r k p e i qs in
  let xs := ctxs_r e i params qs1 in
  do ss <- apply_gradients_r k (p_cfg p) xs (map o_st qs1) gs ;
  Ok (map2 (fun q s => mkPst s (o_cov q) (o_inv q) (o_burnin q)) qs1 ss).

(** minimize's burn-in branch (143-150); this tf.cond is not a smart_cond. *)
Definition burnin_step_r (k : rctx) (e : renv) (i : rinput) (qs : list pst) : list pst :=
  let raw := map2 (fun q b => e_stats (r_env e) (s_params (o_st q)) (fst b)) qs (ri_batches i) in
  map2 (fun q cov => mkPst (o_st q) cov (o_inv q) (o_burnin q + 1)) qs
       (cov_update_r k e 1 raw (map o_cov qs)).

(** minimize (123-168).  All replicas are in the same branch. *)
Definition minimize_r (k : rctx) (p : pcfg) (e : renv) (qs : list pst) (i : rinput)
  : res (list pst) :=
  if Nat.eqb (p_burnin p) 0 then full_step_r k p e i qs
  else if forallb (fun q => Nat.ltb (o_burnin q) (p_burnin p)) qs
       then Ok (burnin_step_r k e i qs) else full_step_r k p e i qs.

(** The constructor (110-115) *)
Definition construct_r (k : rctx) (p : pcfg) : res unit :=
  if replica_context k && (has_kind k Mirrored && Nat.ltb 0 (p_burnin p))
  then Raise ValueError else Ok tt.

Fixpoint train_r (k : rctx) (p : pcfg) (e : renv) (qs : list pst) (is_ : list rinput)
  : res (list pst) :=
  match is_ with
  | [] => Ok qs
  | i :: is' => do qs' <- minimize_r k p e qs i ; train_r k p e qs' is'
  end.
End Periodic.
Arguments mkRenv {Batch I}. Arguments r_env {Batch I}. Arguments r_finish {Batch I}.
Arguments mkRin {Batch}. Arguments ri_batches {Batch}. Arguments ri_cov_first {Batch}.
Arguments sync_mavs {I}. Arguments cov_update_r {Batch I}. Arguments loss_ctx_r {Batch I}.
Arguments cov_group_r {Batch I}. Arguments ctxs_r {Batch I}. Arguments damping_group_r {Batch I}.
Arguments kfac_update_ops_r {Batch I}. Arguments full_step_r {Batch I}.
Arguments burnin_step_r {Batch I}. Arguments minimize_r {Batch I}. Arguments construct_r.
Arguments train_r {Batch I}.
