(** Model of the optimizer: kfac/python/ops/optimizer.py (constructor checks,
    raw updates, clipping, velocities, quadratic model, damping adaptation,
    apply_gradients) and
    kfac/python/ops/kfac_utils/periodic_inv_cov_update_kfac_opt.py.

    Reals stand for floats.  Ops are executed in the order their control and
    data dependencies impose; where two ops are unordered, the order is an input.
    One replica is modelled, so utils.all_average and the cross-replica part of
    utils.smart_assign are the identity (utils.py:38-88, 588-649). *)
From Coq Require Import String Ascii List Arith Bool Reals.
From Verif.Base Require Import Py.
From Verif.Tensors Require Import Model.
Import ListNotations.
Open Scope list_scope.
Open Scope R_scope.

(* ------------------------------------------------------------------------ *)
(** * Lists of tensors and of (tensor, variable) pairs  (utils.py:1133-1205) *)

(** A tensor is the list of its entries; a variable is identified by a number
    ([is] on Python objects).  Elementwise operations are used on tensors of the
    same shape only. *)
Notation vec := (list R).
Notation pairs := (list (vec * nat)).

Definition vscale (a : R) (v : vec) : vec := map (Rmult a) v.
Definition vadd (x y : vec) : vec := map (fun p => fst p + snd p) (zip x y).
Definition rsum (l : list R) : R := fold_right Rplus 0 l.
(** [tf.reduce_sum(x * y)] *)
Definition dot (x y : vec) : R := rsum (map (fun p => fst p * snd p) (zip x y)).

(** utils.py:1133-1137 (only as far as the shorter list) *)
Definition check_match (l1 l2 : pairs) : bool :=
  forallb (fun p => Nat.eqb (snd (fst p)) (snd (snd p))) (zip l1 l2).

(** utils.py:1140-1147 *)
Definition sprod (a : R) (l : list vec) : list vec := map (vscale a) l.
Definition sprod_p (a : R) (l : pairs) : pairs := map (fun p => (vscale a (fst p), snd p)) l.

(** utils.py:1162-1165: [tf.add_n] refuses an empty list. *)
Definition ip (l1 l2 : list vec) : res R :=
  match zip l1 l2 with
  | [] => Raise ValueError
  | ps => Ok (rsum (map (fun p => dot (fst p) (snd p)) ps))
  end.

(** utils.py:1168-1173 *)
Definition ip_p (l1 l2 : pairs) : res R :=
  if check_match l1 l2 then ip (map fst l1) (map fst l2) else Raise ValueError.

(** utils.py:1176-1205: unpacking the empty list raises as well. *)
Definition assert_variables_match (a b : pairs) : res unit :=
  do _ <- unzip_star a ;
  do _ <- unzip_star b ;
  if check_match a b then Ok tt else Raise ValueError.

(* ------------------------------------------------------------------------ *)
(** * Constructor checks  (optimizer.py:281-420) *)

(** The options that the checks look at.  A number option is [None] or a real;
    [a_train_batch] says whether a train_batch was passed; [a_place] is the
    placement strategy and [a_params_stats]/[a_has_batch_size] the estimator's
    own check (estimator.py:186-188). *)
Record args := mkArgs {
  a_momentum_type : string;
  a_momentum : option R;
  a_norm_constraint : option R;
  a_learning_rate : option R;
  a_rescale : option R;
  a_use_passed_loss : bool;
  a_train_batch : bool;
  a_adapt_damping : bool;
  a_place : option string;
  a_params_stats : bool;
  a_has_batch_size : bool
}.

Inductive mtype := Regular | Adam | Qmodel | QmodelFixedMu.

(** optimizer.py:287-292 *)
Definition momentum_types : list (string * mtype) :=
  [("regular"%string, Regular); ("adam"%string, Adam);
   ("qmodel"%string, Qmodel); ("qmodel_fixedmu"%string, QmodelFixedMu)].
Fixpoint lookup_mtype (s : string) (l : list (string * mtype)) : option mtype :=
  match l with
  | [] => None
  | (k, t) :: l' => if String.eqb s k then Some t else lookup_mtype s l'
  end.

Definition is_regular_or_adam (t : mtype) : bool :=
  match t with Regular | Adam => true | _ => false end.
Definition is_qmodel (t : mtype) : bool := match t with Qmodel => true | _ => false end.
(** [self._momentum_type.startswith("qmodel")] *)
Definition starts_qmodel (t : mtype) : bool :=
  match t with Qmodel | QmodelFixedMu => true | _ => false end.
Definition is_some {A} (o : option A) : bool :=
  match o with Some _ => true | None => false end.

(** The TensorFlow variables made by the constructor, in order. *)
Definition scalar_vars : list string :=
  ["rho"; "prev_loss"; "qmodel_learning_rate"; "qmodel_momentum"; "qmodel_change";
   "counter"]%string.

(** make_fisher_estimator and FisherEstimator.__init__, as far as they can raise
    (estimator.py:56-64, 186-188). *)
Definition make_fisher_estimator_check (a : args) : res unit :=
  let known := match a_place a with
               | None => true
               | Some s => String.eqb s "round_robin" || String.eqb s "replica_round_robin"
               end in
  if negb known then Raise ValueError
  else if a_params_stats a && negb (a_has_batch_size a) then Raise ValueError
  else Ok tt.

(** KfacOptimizer.__init__: the TensorFlow variables that exist afterwards, and
    either the momentum type with the learning rate handed to the base class, or
    the exception. *)
Definition construct (a : args) : list string * res (mtype * R) :=
  match lookup_mtype (lower (a_momentum_type a)) momentum_types with
  | None => ([], Raise ValueError)                                  (* 290-292 *)
  | Some t =>
      if negb (is_regular_or_adam t) && is_some (a_norm_constraint a)
      then ([], Raise ValueError)                                   (* 293-295 *)
      else if is_qmodel t && is_some (a_momentum a)
      then ([], Raise ValueError)                                   (* 296-298 *)
      else
        let v1 := if a_adapt_damping a then ["damping"%string] else [] in  (* 312-318 *)
        if negb (a_use_passed_loss a) && negb (a_train_batch a)
        then (v1, Raise ValueError)                                 (* 331-332 *)
        else
          let lr : res R :=                                         (* 345-360 *)
            if starts_qmodel t then
              if is_some (a_learning_rate a) then Raise ValueError
              else match a_rescale a with Some r => Ok r | None => Ok 1 end
            else
              match a_learning_rate a with
              | None => Raise ValueError
              | Some r => if is_some (a_rescale a) then Raise ValueError else Ok r
              end in
          match lr with
          | Raise e => (v1, Raise e)
          | Ok r =>
              let v2 := v1 ++ scalar_vars in                        (* 363-387 *)
              match make_fisher_estimator_check a with              (* 406-418 *)
              | Raise e => (v2, Raise e)
              | Ok _ => (v2, Ok (t, r))                             (* 420 *)
              end
          end
  end.

(* ------------------------------------------------------------------------ *)
(** * Configuration and state of the optimizer *)

Record cfg := mkCfg {
  c_mtype : mtype;
  c_lr : R;                      (* self._learning_rate *)
  c_momentum : R;                (* self._momentum; unused for Qmodel *)
  c_norm : option R;             (* norm_constraint *)
  c_use_wd : bool;               (* use_weight_decay *)
  c_wd : R;                      (* weight_decay_coeff *)
  c_rescale : option R;          (* qmodel_update_rescale *)
  c_batch_size : R;
  c_adapt : bool;                (* adapt_damping *)
  c_immediate : bool;            (* update_damping_immediately *)
  c_chief : bool;                (* is_chief *)
  c_passed : bool;               (* use_passed_loss *)
  c_decay : R;                   (* damping_adaptation_decay *)
  c_interval : nat;              (* damping_adaptation_interval *)
  c_min_damping : R;
  c_l2 : R;                      (* l2_reg *)
  c_dec : R;                     (* damping_decrease_rho_threshold *)
  c_inc : R;                     (* damping_increase_rho_threshold *)
  c_incl : bool                  (* _INCLUDE_DAMPING_IN_QMODEL_CHANGE *)
}.

(** optimizer.py:327-328 *)
Definition c_omega (c : cfg) : R := c_decay c ^ c_interval c.

(** A float that a division may have produced. *)
Inductive ext := Fin (r : R) | PInf | NInf | NaN.

(** The TensorFlow variables (optimizer.py:312-387 and the "velocity" slots,
    1303); [None] is the NaN they are initialised with. *)
Record st := mkSt {
  s_params : nat -> vec;
  s_vel : nat -> vec;
  s_damping : R;
  s_rho : ext;
  s_prev_loss : option R;
  s_qlr : option R;
  s_qmom : option R;
  s_qchange : option R;
  s_counter : nat
}.

Definition set_params p s := mkSt p (s_vel s) (s_damping s) (s_rho s) (s_prev_loss s) (s_qlr s) (s_qmom s) (s_qchange s) (s_counter s).
Definition set_vel v s := mkSt (s_params s) v (s_damping s) (s_rho s) (s_prev_loss s) (s_qlr s) (s_qmom s) (s_qchange s) (s_counter s).
Definition set_damping d r s := mkSt (s_params s) (s_vel s) d r (s_prev_loss s) (s_qlr s) (s_qmom s) (s_qchange s) (s_counter s).
Definition set_prev_loss l s := mkSt (s_params s) (s_vel s) (s_damping s) (s_rho s) l (s_qlr s) (s_qmom s) (s_qchange s) (s_counter s).
Definition set_qchange q s := mkSt (s_params s) (s_vel s) (s_damping s) (s_rho s) (s_prev_loss s) (s_qlr s) (s_qmom s) q (s_counter s).
Definition set_qhyper lr mu s := mkSt (s_params s) (s_vel s) (s_damping s) (s_rho s) (s_prev_loss s) lr mu (s_qchange s) (s_counter s).
Definition set_counter n s := mkSt (s_params s) (s_vel s) (s_damping s) (s_rho s) (s_prev_loss s) (s_qlr s) (s_qmom s) (s_qchange s) n.

(** What one training step gets from the rest of the library and the user:
    multiplication by the current (damped) approximate inverse and by the
    (damped) approximate curvature (estimator.py:281-303), multiplication by the
    transposed curvature factor (curvature_matrix_vector_products.py), the value
    of the loss tensor, and the loss functions evaluated on this and on the
    previous train batch at given parameters. *)
Record ctx := mkCtx {
  x_precond : pairs -> pairs;
  x_mult : pairs -> pairs;
  x_mft : list vec -> list vec;
  x_loss : R;
  x_loss_fn : (nat -> vec) -> R;
  x_prev_loss_fn : (nat -> vec) -> R
}.

Definition upd (f : nat -> vec) (k : nat) (v : vec) : nat -> vec :=
  fun j => if Nat.eqb j k then v else f j.

(* ------------------------------------------------------------------------ *)
(** * Damping adaptation  (optimizer.py:638-714, 1317-1364) *)

(** 638-645 *)
Definition is_adaptation_time (c : cfg) (s : st) : bool :=
  Nat.eqb (Nat.modulo (s_counter s + 1) (c_interval c)) 0.
(** 647-651 *)
Definition is_just_after_adaptation_time (c : cfg) (s : st) : bool :=
  Nat.eqb (Nat.modulo (s_counter s) (c_interval c)) 0 && negb (Nat.eqb (s_counter s) 0).

(** 653-671 *)
Definition maybe_update_prev_loss (c : cfg) (x : ctx) (s : st) : st :=
  if c_adapt c then
    if is_adaptation_time c s
    then set_prev_loss (Some (if c_passed c then x_loss x else x_loss_fn x (s_params s))) s
    else s
  else s.

(** IEEE division of finite numbers (the sign of a zero divisor is ignored). *)
Definition ediv (a b : R) : ext :=
  if Req_EM_T b 0 then
    (if Rlt_dec 0 a then PInf else if Rlt_dec a 0 then NInf else NaN)
  else Fin (a / b).
Definition egt (x : ext) (t : R) : bool :=
  match x with
  | Fin r => if Rlt_dec t r then true else false
  | PInf => true
  | _ => false
  end.
Definition elt (x : ext) (t : R) : bool :=
  match x with
  | Fin r => if Rlt_dec r t then true else false
  | NInf => true
  | _ => false
  end.
Definition rltb (a b : R) : bool := if Rlt_dec a b then true else false.

(** 1317-1321 *)
Definition current_loss (c : cfg) (x : ctx) (s : st) : R :=
  if c_immediate c then x_loss_fn x (s_params s) else x_prev_loss_fn x (s_params s).

(** 1326-1364.  A comparison with NaN is false. *)
Definition update_damping (c : cfg) (x : ctx) (s : st) : st :=
  let rho := match s_prev_loss s, s_qchange s with
             | Some l, Some q => ediv (current_loss c x s - l) q
             | _, _ => NaN
             end in
  let fell_against_model :=
    match s_prev_loss s, s_qchange s with
    | Some l, Some q => rltb (current_loss c x s - l) 0 && rltb 0 q
    | _, _ => false
    end in
  let should_decrease := fell_against_model || egt rho (c_dec c) in
  let should_increase := elt rho (c_inc c) in
  let new_damping := if should_decrease then s_damping s * c_omega c
                     else if should_increase then s_damping s / c_omega c
                     else s_damping s in
  set_damping (Rmax new_damping (c_min_damping c + c_l2 c)) rho s.

(** 673-702 *)
Definition maybe_pre_update_adapt_damping (c : cfg) (x : ctx) (s : st) : st :=
  if negb (c_adapt c) || negb (c_chief c) || c_immediate c then s
  else if is_just_after_adaptation_time c s then update_damping c x s else s.

(** 704-714 *)
Definition maybe_post_update_adapt_damping (c : cfg) (x : ctx) (s : st) : st :=
  if negb (c_immediate c) || negb (c_adapt c) then s
  else if is_adaptation_time c s then update_damping c x s else s.

(* ------------------------------------------------------------------------ *)
(** * Clipping and velocities  (optimizer.py:771-857, 1287-1315) *)

(** 771-781 *)
Definition add_weight_decay (c : cfg) (s : st) (l : pairs) : pairs :=
  map (fun p => (vadd (fst p) (vscale (c_wd c) (s_params s (snd p))), snd p)) l.

(** 805-835: [min(1, sqrt(constraint / sq_norm_up))].  A division by zero gives
    +inf in TensorFlow, hence 1.  Below zero TensorFlow gives NaN; the model's
    value there is never used by a theorem. *)
Definition update_clip_coeff (c : cfg) (nc : R) (g pg : pairs) : res R :=
  do sq_norm_grad <- ip_p g pg ;
  let sq_norm_up := sq_norm_grad * c_lr c ^ 2 in
  Ok (if Req_EM_T sq_norm_up 0 then 1 else Rmin 1 (sqrt (nc / sq_norm_up))).

(** 837-857 *)
Definition clip_updates (c : cfg) (nc : R) (g pg : pairs) : res pairs :=
  do coeff <- update_clip_coeff c nc g pg ;
  Ok (sprod_p coeff pg).

(** The guard around it (1201-1203, 1238-1240) *)
Definition maybe_clip (c : cfg) (g pg : pairs) : res pairs :=
  match c_norm c with
  | None => Ok pg
  | Some nc => clip_updates c nc g pg
  end.

(** 1290-1315: each pair updates its own slot; the new velocities are returned. *)
Fixpoint update_velocities (vel : nat -> vec) (decay coeff : R) (l : pairs)
  : (nat -> vec) * pairs :=
  match l with
  | [] => (vel, [])
  | (v, k) :: l' =>
      let nv := vadd (vscale decay (vel k)) (vscale coeff v) in
      let (vel', out) := update_velocities (upd vel k nv) decay coeff l' in
      (vel', (nv, k) :: out)
  end.

(* ------------------------------------------------------------------------ *)
(** * The quadratic model  (optimizer.py:859-1153, 1367-1394) *)

(** 859-885 *)
Definition compute_prev_updates (s : st) (vars : list nat) : pairs :=
  zip (sprod (-1) (map (s_vel s) vars)) vars.

(** A symmetric-by-construction 2x2 matrix and a column, as lists of lists. *)
Record m22 := mkM { m00 : R; m01 : R; m10 : R; m11 : R }.
Record v2 := mkV { v0 : R; v1 : R }.

(** 887-973 *)
Definition compute_qmodel (c : cfg) (x : ctx) (s : st) (raw prev g : pairs)
  : res (m22 * v2 * m22) :=
  do rv <- unzip_star raw ;
  do pv <- unzip_star prev ;
  do gv <- unzip_star g ;
  let '(raw_updates, prev_updates, grads) := (fst rv, fst pv, fst gv) in
  do _ <- assert_variables_match raw prev ;
  do _ <- assert_variables_match prev g ;
  let mft_updates := x_mft x raw_updates in
  let mft_prev := x_mft x prev_updates in
  let damping := s_damping s in
  do i11 <- ip raw_updates raw_updates ;
  do i21 <- ip prev_updates raw_updates ;
  do i22 <- ip prev_updates prev_updates ;
  let '(b11, b21, b22) := (damping * i11, damping * i21, damping * i22) in
  do f11 <- ip mft_updates mft_updates ;
  do f21 <- ip mft_prev mft_updates ;
  do f22 <- ip mft_prev mft_prev ;
  let n := c_batch_size c in
  let '(k11, k21, k22) := (f11 / n, f21 / n, f22 / n) in
  do c1 <- ip grads raw_updates ;
  do c2 <- ip grads prev_updates ;
  Ok (mkM (k11 + b11) (k21 + b21) (k21 + b21) (k22 + b22), mkV c1 c2,
      mkM b11 b21 b21 b22).

(** 1367-1386 *)
Definition two_by_two_solve (m : m22) (v : v2) : v2 :=
  let inv_det := 1 / (m00 m * m11 m - m01 m * m10 m) in
  mkV (m11 m * inv_det * v0 v + - m01 m * inv_det * v1 v)
      (- m10 m * inv_det * v0 v + m00 m * inv_det * v1 v).

(** 1389-1394 *)
Definition eval_quadratic_no_c (m : m22) (v : v2) : R :=
  1/2 * ((v0 v * m00 m + v1 v * m10 m) * v0 v + (v0 v * m01 m + v1 v * m11 m) * v1 v).
Definition eval_quadratic (m : m22) (c v : v2) : R :=
  eval_quadratic_no_c m v + (v0 c * v0 v + v1 c * v1 v).

Definition v2scale (a : R) (v : v2) : v2 := mkV (a * v0 v) (a * v1 v).

(** 975-977 *)
Definition sub_damping_coeff (c : cfg) (s : st) : R := 1 - c_l2 c / s_damping s.

(** 979-1104: (alpha, mu, qmodel_change) *)
Definition non_zero_prevupd_case (c : cfg) (s : st) (m : m22) (cc : v2) (b : m22)
    (fixed_mu : option R) : R * R * R :=
  match fixed_mu with
  | None =>
      let sol0 := v2scale (-1) (two_by_two_solve m cc) in
      let '(sol, q0) :=
        match c_rescale c with
        | None => (sol0, 1/2 * (v0 sol0 * v0 cc + v1 sol0 * v1 cc))
        | Some r => (v2scale r sol0, eval_quadratic m cc (v2scale r sol0))
        end in
      let q := if c_incl c then q0
               else q0 - sub_damping_coeff c s * eval_quadratic_no_c b sol in
      (v0 sol0, v1 sol0, q)
  | Some mu =>
      let alpha := -1 * (mu * m01 m + v0 cc) / m00 m in
      let sol := match c_rescale c with
                 | None => mkV alpha mu
                 | Some r => v2scale r (mkV alpha mu)
                 end in
      let q0 := eval_quadratic m cc sol in
      let q := if c_incl c then q0
               else q0 - sub_damping_coeff c s * eval_quadratic_no_c b sol in
      (alpha, mu, q)
  end.

Definition zero_prevupd_case (c : cfg) (s : st) (m : m22) (cc : v2) (b : m22)
    (fixed_mu : option R) : R * R * R :=
  let alpha := - v0 cc / m00 m in
  let mu := match fixed_mu with None => 0 | Some mu => mu end in
  let q :=
    match c_rescale c with
    | None =>
        let q0 := 1/2 * alpha * v0 cc in
        if c_incl c then q0
        else q0 - sub_damping_coeff c s * (1/2) * alpha ^ 2 * m00 b
    | Some r =>
        let sol := r * alpha in
        let q0 := 1/2 * m00 m * sol ^ 2 + v0 cc * sol in
        if c_incl c then q0
        else q0 - sub_damping_coeff c s * (1/2) * sol ^ 2 * m00 b
    end in
  (alpha, mu, q).

Definition compute_qmodel_hyperparams (c : cfg) (s : st) (m : m22) (cc : v2) (b : m22)
    (fixed_mu : option R) : R * R * R :=
  if Req_EM_T (v1 cc) 0
  then zero_prevupd_case c s m cc b fixed_mu
  else non_zero_prevupd_case c s m cc b fixed_mu.

(** 1106-1131 *)
Definition compute_approx_qmodel_change (c : cfg) (x : ctx) (s : st) (u g : pairs) : res R :=
  do uFu <- ip_p u (x_mult x u) ;
  let q0 := 1/2 * uFu in
  do q <- (if c_incl c then Ok q0
           else do uu <- ip_p u u ;
                Ok (q0 - sub_damping_coeff c s * (1/2) * s_damping s * uu)) ;
  do lin <- ip_p u g ;
  Ok (q + lin).

(** 1133-1153: the thunk is only evaluated when it is time to. *)
Definition maybe_update_qmodel_change (c : cfg) (thunk : res R) (s : st) : res st :=
  if is_adaptation_time c s
  then do q <- thunk ; Ok (set_qchange (Some q) s)
  else Ok s.

(** 1158-1173 *)
Definition get_qmodel_quantities (c : cfg) (x : ctx) (s : st) (g : pairs)
  : res (pairs * (m22 * v2 * m22)) :=
  let pg := x_precond x g in
  let prev := compute_prev_updates s (map snd g) in
  do mcb <- compute_qmodel c x s pg prev g ;
  Ok (pg, mcb).

(** 1175-1285: the raw updates and the state with the new velocities. *)
Definition compute_raw_update_steps (c : cfg) (x : ctx) (s : st) (g : pairs)
  : res (pairs * st) :=
  match c_mtype c with
  | Regular =>
      do pg <- maybe_clip c g (x_precond x g) ;
      let (vel, raw) := update_velocities (s_vel s) (c_momentum c) 1 pg in
      let s1 := set_vel vel s in
      if c_adapt c && c_chief c then
        do s2 <- maybe_update_qmodel_change c
                   (compute_approx_qmodel_change c x s1 (sprod_p (-1 * c_lr c) raw) g) s1 ;
        Ok (raw, s2)
      else Ok (raw, s1)
  | Adam =>
      let (vel, vels) := update_velocities (s_vel s) (c_momentum c) 1 g in
      let s1 := set_vel vel s in
      do raw <- maybe_clip c vels (x_precond x vels) ;
      if c_adapt c && c_chief c then
        do s2 <- maybe_update_qmodel_change c
                   (do a <- ip_p raw vels ;
                    do b <- ip_p raw g ;
                    Ok (1/2 * c_lr c ^ 2 * a - c_lr c * b)) s1 ;
        Ok (raw, s2)
      else Ok (raw, s1)
  | Qmodel | QmodelFixedMu =>
      do q <- get_qmodel_quantities c x s g ;
      let '(pg, (m, cc, b)) := q in
      let fixed_mu := match c_mtype c with
                      | QmodelFixedMu => Some (c_momentum c)
                      | _ => None
                      end in
      let '(alpha, mu, change) := compute_qmodel_hyperparams c s m cc b fixed_mu in
      let s1 := set_qhyper (Some (- alpha)) (Some mu) (set_qchange (Some change) s) in
      let (vel, raw) := update_velocities (s_vel s1) mu (- alpha) pg in
      Ok (raw, set_vel vel s1)
  end.

(* ------------------------------------------------------------------------ *)
(** * apply_gradients  (optimizer.py:716-769) *)

(** tf.train.GradientDescentOptimizer: [var -= learning_rate * update]. *)
Fixpoint descend (lr : R) (params : nat -> vec) (l : pairs) : nat -> vec :=
  match l with
  | [] => params
  | (u, k) :: l' => descend lr (upd params k (vadd (params k) (vscale (- lr) u))) l'
  end.

(** The division by the number of replicas (744-755) undoes the base class's sum
    over replicas; with the single modelled replica neither is there. *)
Definition apply_gradients (c : cfg) (x : ctx) (s : st) (g : pairs) : res st :=
  let s1 := maybe_update_prev_loss c x s in
  do rs <- compute_raw_update_steps c x s1 g ;
  let '(raw, s2) := rs in
  let raw' := if c_use_wd c then add_weight_decay c s2 raw else raw in
  let s3 := set_params (descend (c_lr c) (s_params s2) raw') s2 in
  let s4 := maybe_post_update_adapt_damping c x s3 in
  Ok (set_counter (s_counter s4 + 1) s4).

(** Any sequence of calls, each with its own context and gradients. *)
Fixpoint run_steps (c : cfg) (s : st) (l : list (ctx * pairs)) : res st :=
  match l with
  | [] => Ok s
  | (x, g) :: l' => do s' <- apply_gradients c x s g ; run_steps c s' l'
  end.

(* ------------------------------------------------------------------------ *)
(** * PeriodicInvCovUpdateKfacOpt
      (kfac_utils/periodic_inv_cov_update_kfac_opt.py:83-216) *)

Section Periodic.
Variables (Batch : Type)  (* a mini-batch *)
          (I : Type)      (* positions in a covariance matrix *)
          (Inv : Type).   (* the inverse variables of all factors *)

Record pcfg := mkP {
  p_cfg : cfg;
  p_invert_every : nat;
  p_cov_every : nat;
  p_burnin : nat;
  p_ema : R                     (* the estimator's cov_ema_decay *)
}.

(** Everything outside the optimizer that a step evaluates. *)
Record env := mkEnv {
  e_grads : (nat -> vec) -> Batch -> pairs;      (* compute_gradients *)
  e_loss : Batch -> (nat -> vec) -> R;           (* the user's loss_fn *)
  e_stats : (nat -> vec) -> Batch -> list (I -> R);
      (* per factor, _compute_total_new_cov (fisher_factors.py:559-583) *)
  e_invert : list (mav I) -> R -> Inv;           (* make_inverse_update_ops *)
  e_precond : Inv -> pairs -> pairs;
  e_mult : list (mav I) -> Inv -> R -> pairs -> pairs;
  e_mft : (nat -> vec) -> Batch -> list vec -> list vec
}.

Record pst := mkPst {
  o_st : st;
  o_cov : list (mav I);
  o_inv : Inv;
  o_burnin : nat
}.

(** All factors: cov update with the given decay and weight 1 (estimator.py:613-629,
    fisher_factors.py:585-601). *)
Definition cov_update (decay : R) (stats : list (I -> R)) (cov : list (mav I)) : list (mav I) :=
  map (fun p => mav_step (fst p) (MAdd (snd p) decay 1)) (zip cov stats).

(** One execution of the op: the mini-batch, the previous mini-batch
    (prev_train_batch), and which of the two unordered groups of 207-209 runs first. *)
Record input := mkIn { i_batch : Batch; i_prev : Batch; i_cov_first : bool }.

Definition loss_ctx (e : env) (i : input) (loss : R) (cov : list (mav I)) (inv : Inv)
    (damping : R) (params0 : nat -> vec) : ctx :=
  mkCtx (e_precond e inv) (e_mult e cov inv damping) (e_mft e params0 (i_batch i))
        loss (e_loss e (i_batch i)) (e_loss e (i_prev i)).

(** kfac_update_ops (177-216): covariances when the counter is a multiple of
    cov_update_every and, in either order, the damping; then, after both, the
    inverses when the counter is a multiple of invert_every. *)
Definition kfac_update_ops (p : pcfg) (e : env) (i : input) (s : pst) : pst :=
  let params := s_params (o_st s) in
  let n := s_counter (o_st s) in
  let do_cov (q : pst) :=
    if Nat.eqb (Nat.modulo (s_counter (o_st q)) (p_cov_every p)) 0
    then mkPst (o_st q) (cov_update (p_ema p) (e_stats e params (i_batch i)) (o_cov q))
               (o_inv q) (o_burnin q)
    else q in
  let do_damp (q : pst) :=
    let x := loss_ctx e i (e_loss e (i_batch i) params) (o_cov q) (o_inv q)
                      (s_damping (o_st q)) params in
    mkPst (maybe_pre_update_adapt_damping (p_cfg p) x (o_st q)) (o_cov q) (o_inv q)
          (o_burnin q) in
  let s1 := if i_cov_first i then do_damp (do_cov s) else do_cov (do_damp s) in
  if Nat.eqb (Nat.modulo n (p_invert_every p)) 0
  then mkPst (o_st s1) (o_cov s1) (e_invert e (o_cov s1) (s_damping (o_st s1))) (o_burnin s1)
  else s1.

(** minimize's ordinary branch: compute_gradients (optimizer.py:598-636), then
    apply_gradients (170-175). *)
Definition full_step (p : pcfg) (e : env) (i : input) (s : pst) : res pst :=
  let params := s_params (o_st s) in
  let loss := e_loss e (i_batch i) params in
  let g := e_grads e params (i_batch i) in
  let s1 := kfac_update_ops p e i s in
  let x := loss_ctx e i loss (o_cov s1) (o_inv s1) (s_damping (o_st s1)) params in
  do o <- apply_gradients (p_cfg p) x (o_st s1) g ;
  Ok (mkPst o (o_cov s1) (o_inv s1) (o_burnin s1)).

(** minimize's burn-in branch (142-149) *)
Definition burnin_step (e : env) (i : input) (s : pst) : pst :=
  mkPst (o_st s) (cov_update 1 (e_stats e (s_params (o_st s)) (i_batch i)) (o_cov s))
        (o_inv s) (o_burnin s + 1).

(** minimize (123-168), as executed once *)
Definition minimize (p : pcfg) (e : env) (s : pst) (i : input) : res pst :=
  if Nat.eqb (p_burnin p) 0 then full_step p e i s
  else if Nat.ltb (o_burnin s) (p_burnin p) then Ok (burnin_step e i s)
  else full_step p e i s.

(** The freshly initialised variables: [zeros_like] velocities, NaN scalars, zero
    counters (optimizer.py:363-387; 117-121 here), zero covariances that are
    normalised by their weight (fisher_factors.py:192-207, defaults), and inverse
    variables holding some initial content [inv0]. *)
Definition initial (params : nat -> vec) (damping : R) (factors : nat) (inv0 : Inv) : pst :=
  mkPst (mkSt params (fun k => map (fun _ => 0) (params k)) damping NaN None None None None 0)
        (repeat (mav_init (fun _ => 0) true) factors) inv0 0.
End Periodic.

Arguments mkEnv {Batch I Inv}. Arguments e_grads {Batch I Inv}. Arguments e_loss {Batch I Inv}.
Arguments e_stats {Batch I Inv}. Arguments e_invert {Batch I Inv}.
Arguments e_precond {Batch I Inv}. Arguments e_mult {Batch I Inv}. Arguments e_mft {Batch I Inv}.
Arguments mkPst {I Inv}. Arguments o_st {I Inv}. Arguments o_cov {I Inv}. Arguments o_inv {I Inv}.
Arguments o_burnin {I Inv}.
Arguments cov_update {I}. Arguments mkIn {Batch}. Arguments i_batch {Batch}.
Arguments i_prev {Batch}. Arguments i_cov_first {Batch}.
Arguments loss_ctx {Batch I Inv}. Arguments kfac_update_ops {Batch I Inv}.
Arguments full_step {Batch I Inv}. Arguments burnin_step {Batch I Inv}.
Arguments minimize {Batch I Inv}.
Arguments initial {I Inv}.

(** Constructor of the periodic class: an explicitly passed cov_ema_decay is raised
    to the power cov_update_every (95-96); otherwise KfacOptimizer's default is used
    (optimizer.py:57, default 0.95). *)
Definition effective_cov_ema_decay (passed : option R) (default : R) (cov_update_every : nat) : R :=
  match passed with
  | Some d => d ^ cov_update_every
  | None => default
  end.
