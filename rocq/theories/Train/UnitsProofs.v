(** Changing the unit of the loss: proofs for C120. *)
From Coq Require Import List Arith Bool Reals Lra Lia FunctionalExtensionality.
From Verif.Base Require Import Py.
From Verif.Tensors Require Import Model.
From Verif.Train Require Import Model Spec VecProofs UnitsSpec.
Import ListNotations.
Open Scope list_scope.
Open Scope R_scope.

Lemma vscale_one v : vscale 1 v = v.
Proof. induction v as [|a v IH]; cbn; [reflexivity|]. unfold vscale in IH. rewrite IH. f_equal. ring. Qed.

Lemma vscale_mul a b v : vscale a (vscale b v) = vscale (a * b) v.
Proof. unfold vscale. rewrite map_map. apply map_ext. intros r. ring. Qed.

Lemma vscale_vadd k x : forall y, vscale k (vadd x y) = vadd (vscale k x) (vscale k y).
Proof.
  induction x as [|a x IH]; intros [|b y]; try reflexivity.
  specialize (IH y). unfold vscale, vadd in *. cbn. rewrite IH. f_equal. ring.
Qed.

Lemma dot_scale_l k x : forall y, dot (vscale k x) y = k * dot x y.
Proof.
  induction x as [|a x IH]; intros [|b y]; unfold dot in *; cbn; try ring.
  specialize (IH y). unfold vscale, rsum in *. rewrite IH. ring.
Qed.

Lemma dot_scale_r k x y : dot x (vscale k y) = k * dot x y.
Proof. rewrite dot_comm, dot_scale_l, dot_comm. reflexivity. Qed.

Lemma zip_map_l {A B C} (f : A -> B) (x : list A) : forall (y : list C),
  zip (map f x) y = map (fun p => (f (fst p), snd p)) (zip x y).
Proof. induction x as [|a x IH]; intros [|b y]; cbn; try reflexivity. rewrite IH. reflexivity. Qed.

Lemma zip_map_r {A B C} (f : A -> B) (x : list C) : forall (y : list A),
  zip x (map f y) = map (fun p => (fst p, f (snd p))) (zip x y).
Proof. induction x as [|a x IH]; intros [|b y]; cbn; try reflexivity. rewrite IH. reflexivity. Qed.

Lemma rsum_map_scale {A} k (f g : A -> R) l : (forall a, f a = k * g a) ->
  rsum (map f l) = k * rsum (map g l).
Proof.
  intros H. induction l as [|a l IH]; unfold rsum in *; cbn [map fold_right]; [ring|].
  rewrite IH, H. ring.
Qed.

Lemma ip_scale_l k x y : ip (sprod k x) y = res_map (Rmult k) (ip x y).
Proof.
  unfold ip, sprod. rewrite zip_map_l. destruct (zip x y) as [|p l]; [reflexivity|].
  cbn [res_map]. change (map (fun q => (vscale k (fst q), snd q)) (p :: l))
    with ((vscale k (fst p), snd p) :: map (fun q : vec * vec => (vscale k (fst q), snd q)) l).
  cbv iota beta. cbn [res_map]. f_equal.
  change ((vscale k (fst p), snd p) :: map (fun q : vec * vec => (vscale k (fst q), snd q)) l)
    with (map (fun q : vec * vec => (vscale k (fst q), snd q)) (p :: l)).
  rewrite map_map. apply rsum_map_scale. intros q. cbn [fst snd]. apply dot_scale_l.
Qed.

Lemma ip_scale_r k x y : ip x (sprod k y) = res_map (Rmult k) (ip x y).
Proof.
  unfold ip, sprod. rewrite zip_map_r. destruct (zip x y) as [|p l]; [reflexivity|].
  cbn [res_map]. change (map (fun q => (fst q, vscale k (snd q))) (p :: l))
    with ((fst p, vscale k (snd p)) :: map (fun q : vec * vec => (fst q, vscale k (snd q))) l).
  cbv iota beta. cbn [res_map]. f_equal.
  change ((fst p, vscale k (snd p)) :: map (fun q : vec * vec => (fst q, vscale k (snd q))) l)
    with (map (fun q : vec * vec => (fst q, vscale k (snd q))) (p :: l)).
  rewrite map_map. apply rsum_map_scale. intros q. cbn [fst snd]. apply dot_scale_r.
Qed.

Lemma check_match_scale_l k x y : check_match (sprod_p k x) y = check_match x y.
Proof.
  unfold check_match, sprod_p. rewrite zip_map_l.
  induction (zip x y) as [|p l IH]; cbn; [reflexivity|]. rewrite IH. reflexivity.
Qed.

Lemma check_match_scale_r k x y : check_match x (sprod_p k y) = check_match x y.
Proof.
  unfold check_match, sprod_p. rewrite zip_map_r.
  induction (zip x y) as [|p l IH]; cbn; [reflexivity|]. rewrite IH. reflexivity.
Qed.

Lemma ip_p_scale_l k x y : ip_p (sprod_p k x) y = res_map (Rmult k) (ip_p x y).
Proof.
  unfold ip_p. rewrite check_match_scale_l, sprod_p_fst, ip_scale_l.
  destruct (check_match x y); reflexivity.
Qed.

Lemma ip_p_scale_r k x y : ip_p x (sprod_p k y) = res_map (Rmult k) (ip_p x y).
Proof.
  unfold ip_p. rewrite check_match_scale_r, sprod_p_fst, ip_scale_r.
  destruct (check_match x y); reflexivity.
Qed.

(* ------------------------------------------------------------------------ *)
Section Units.
Variable k : R.
Hypothesis K : 0 < k.

Lemma kinv r : k * r * / k = r.
Proof. field. lra. Qed.

Lemma kdiv a b : (k * a) / (k * b) = a / b.
Proof.
  unfold Rdiv. rewrite Rinv_mult. replace (k * a * (/ k * / b)) with (k * / k * (a * / b)) by ring.
  rewrite Rinv_r by lra. ring.
Qed.

Lemma kzero a : k * a = 0 -> a = 0.
Proof. intros H. destruct (Rmult_integral _ _ H); lra. Qed.

Lemma req_scale {A} a (x y : A) : (if Req_EM_T (k * a) 0 then x else y) = (if Req_EM_T a 0 then x else y).
Proof.
  destruct (Req_EM_T (k * a) 0) as [E|E]; destruct (Req_EM_T a 0) as [E'|E']; try reflexivity.
  - exfalso. apply E', kzero, E.
  - exfalso. apply E. rewrite E'. ring.
Qed.

Lemma rlt_scale_l {A} a (x y : A) : (if Rlt_dec 0 (k * a) then x else y) = (if Rlt_dec 0 a then x else y).
Proof.
  destruct (Rlt_dec 0 (k * a)) as [E|E]; destruct (Rlt_dec 0 a) as [E'|E']; try reflexivity.
  - exfalso. apply E'. apply (Rmult_lt_reg_l k); lra.
  - exfalso. apply E. apply Rmult_lt_0_compat; lra.
Qed.

Lemma rlt_scale_r {A} a (x y : A) : (if Rlt_dec (k * a) 0 then x else y) = (if Rlt_dec a 0 then x else y).
Proof.
  destruct (Rlt_dec (k * a) 0) as [E|E]; destruct (Rlt_dec a 0) as [E'|E']; try reflexivity.
  - exfalso. apply E'. apply (Rmult_lt_reg_l k); lra.
  - exfalso. apply E. rewrite <- (Rmult_0_r k). apply Rmult_lt_compat_l; lra.
Qed.

Lemma ediv_scale a b : ediv (k * a) (k * b) = ediv a b.
Proof.
  unfold ediv. rewrite req_scale, rlt_scale_l, rlt_scale_r, kdiv. reflexivity.
Qed.

Variable c : cfg.
Notation c' := (units_cfg k c).
Notation U := (units_state k c).

Lemma u_adaptation s : is_adaptation_time c' (U s) = is_adaptation_time c s.
Proof. reflexivity. Qed.
Lemma u_just_after s : is_just_after_adaptation_time c' (U s) = is_just_after_adaptation_time c s.
Proof. reflexivity. Qed.

Lemma u_set_prev l s : set_prev_loss (Some (k * l)) (U s) = U (set_prev_loss (Some l) s).
Proof. destruct s; reflexivity. Qed.
Lemma u_set_qchange q s : set_qchange (Some (k * q)) (U s) = U (set_qchange (Some q) s).
Proof. destruct s; reflexivity. Qed.

Lemma u_prev_loss x x' s : units_ctx k x x' ->
  maybe_update_prev_loss c' x' (U s) = U (maybe_update_prev_loss c x s).
Proof.
  intros (_ & _ & _ & L & LF & _). unfold maybe_update_prev_loss. rewrite u_adaptation.
  cbn [units_cfg c_adapt c_passed units_state s_params]. rewrite LF, L.
  destruct (c_adapt c); [|reflexivity]. destruct (is_adaptation_time c s); [|reflexivity].
  destruct (c_passed c); apply u_set_prev.
Qed.

Lemma u_update_damping x x' s : units_ctx k x x' ->
  update_damping c' x' (U s) = U (update_damping c x s).
Proof.
  intros (_ & _ & _ & L & LF & PF).
  assert (CL : current_loss c' x' (U s) = k * current_loss c x s).
  { unfold current_loss. cbn [units_cfg c_immediate units_state s_params]. rewrite LF, PF.
    destruct (c_immediate c); reflexivity. }
  unfold update_damping. rewrite CL. 
  change (s_prev_loss (U s)) with (option_map (Rmult k) (s_prev_loss s)).
  change (s_qchange (U s)) with (option_map (Rmult k) (s_qchange s)).
  change (s_damping (U s)) with (k * s_damping s).
  assert (RHO : match option_map (Rmult k) (s_prev_loss s) with
      | Some l => match option_map (Rmult k) (s_qchange s) with
                  | Some q => ediv (k * current_loss c x s - l) q | None => NaN end
      | None => NaN end = match s_prev_loss s with
      | Some l => match s_qchange s with
                  | Some q => ediv (current_loss c x s - l) q | None => NaN end
      | None => NaN end).
  { destruct (s_prev_loss s) as [l|]; [|reflexivity]. destruct (s_qchange s) as [q|]; [|reflexivity].
    cbn [option_map]. rewrite <- Rmult_minus_distr_l, ediv_scale. reflexivity. }
  assert (FELL : match option_map (Rmult k) (s_prev_loss s) with
      | Some l => match option_map (Rmult k) (s_qchange s) with
                  | Some q => rltb (k * current_loss c x s - l) 0 && rltb 0 q | None => false end
      | None => false end = match s_prev_loss s with
      | Some l => match s_qchange s with
                  | Some q => rltb (current_loss c x s - l) 0 && rltb 0 q | None => false end
      | None => false end).
  { destruct (s_prev_loss s) as [l|]; [|reflexivity]. destruct (s_qchange s) as [q|]; [|reflexivity].
    cbn [option_map]. rewrite <- Rmult_minus_distr_l. unfold rltb.
    rewrite rlt_scale_l, rlt_scale_r. reflexivity. }
  rewrite RHO, FELL. cbv zeta.
  change (c_omega c') with (c_omega c). change (c_dec c') with (c_dec c).
  change (c_inc c') with (c_inc c). change (c_min_damping c') with (k * c_min_damping c).
  change (c_l2 c') with (k * c_l2 c).
  match goal with |- context [egt ?r _] => set (rho := r) end.
  match goal with |- context [?f || egt _ _] => set (fell := f) end.
  assert (D : (if fell || egt rho (c_dec c) then k * s_damping s * c_omega c
               else if elt rho (c_inc c) then k * s_damping s / c_omega c else k * s_damping s)
            = k * (if fell || egt rho (c_dec c) then s_damping s * c_omega c
               else if elt rho (c_inc c) then s_damping s / c_omega c else s_damping s)).
  { destruct (fell || egt rho (c_dec c)); [ring|]. destruct (elt rho (c_inc c)); unfold Rdiv; ring. }
  rewrite D, <- Rmult_plus_distr_l, RmaxRmult by lra. destruct s; reflexivity.
Qed.

Lemma u_pre x x' s : units_ctx k x x' ->
  maybe_pre_update_adapt_damping c' x' (U s) = U (maybe_pre_update_adapt_damping c x s).
Proof.
  intros H. unfold maybe_pre_update_adapt_damping. rewrite u_just_after, (u_update_damping _ _ _ H).
  cbn [units_cfg c_adapt c_chief c_immediate].
  destruct (negb (c_adapt c) || negb (c_chief c) || c_immediate c); [reflexivity|].
  destruct (is_just_after_adaptation_time c s); reflexivity.
Qed.

Lemma u_post x x' s : units_ctx k x x' ->
  maybe_post_update_adapt_damping c' x' (U s) = U (maybe_post_update_adapt_damping c x s).
Proof.
  intros H. unfold maybe_post_update_adapt_damping. rewrite u_adaptation, (u_update_damping _ _ _ H).
  cbn [units_cfg c_adapt c_chief c_immediate].
  destruct (negb (c_immediate c) || negb (c_adapt c)); [reflexivity|].
  destruct (is_adaptation_time c s); reflexivity.
Qed.

Lemma u_clip g pg : maybe_clip c' (sprod_p k g) pg = maybe_clip c g pg.
Proof.
  unfold maybe_clip. cbn [units_cfg c_norm]. destruct (c_norm c) as [nc|]; [|reflexivity].
  cbn [option_map]. unfold clip_updates, update_clip_coeff. rewrite ip_p_scale_l.
  destruct (ip_p g pg) as [q|]; [|reflexivity]. cbn [res_map bind units_cfg c_lr].
  rewrite (Rmult_assoc k), req_scale, kdiv. reflexivity.
Qed.

Lemma vel_scale l : forall vel d,
  update_velocities (fun j => vscale k (vel j)) d 1 (sprod_p k l)
  = (fun j => vscale k (fst (update_velocities vel d 1 l) j), sprod_p k (snd (update_velocities vel d 1 l))).
Proof.
  induction l as [|[v j] l IH]; intros vel d; [reflexivity|].
  cbn [sprod_p map fst snd update_velocities].
  assert (NV : vadd (vscale d (vscale k (vel j))) (vscale 1 (vscale k v))
             = vscale k (vadd (vscale d (vel j)) (vscale 1 v))).
  { rewrite vscale_vadd, !vscale_mul. rewrite (Rmult_comm d), (Rmult_comm 1). reflexivity. }
  rewrite NV. set (nv := vadd (vscale d (vel j)) (vscale 1 v)).
  assert (UP : upd (fun j0 => vscale k (vel j0)) j (vscale k nv) = (fun j0 => vscale k (upd vel j nv j0))).
  { apply functional_extensionality. intros i. unfold upd. destruct (Nat.eqb i j); reflexivity. }
  rewrite UP. specialize (IH (upd vel j nv) d). unfold sprod_p in IH. rewrite IH.
  destruct (update_velocities (upd vel j nv) d 1 l) as [vel' out]. reflexivity.
Qed.

Lemma sub_damping s : sub_damping_coeff c' (U s) = sub_damping_coeff c s.
Proof. unfold sub_damping_coeff. cbn [units_cfg c_l2 units_state s_damping]. rewrite kdiv. reflexivity. Qed.

Lemma u_approx x x' s u g : units_ctx k x x' ->
  compute_approx_qmodel_change c' x' (U s) u (sprod_p k g)
  = res_map (Rmult k) (compute_approx_qmodel_change c x s u g).
Proof.
  intros (_ & M & _). unfold compute_approx_qmodel_change. rewrite M, !ip_p_scale_r, sub_damping.
  destruct (ip_p u (x_mult x u)) as [a|]; [|reflexivity]. cbn [res_map bind units_cfg c_incl].
  destruct (c_incl c); cbn [bind].
  - destruct (ip_p u g) as [l|]; [|reflexivity]. cbn [res_map bind]. f_equal. ring.
  - destruct (ip_p u u) as [q|]; [|reflexivity]. cbn [bind].
    destruct (ip_p u g) as [l|]; [|reflexivity]. cbn [res_map bind units_state s_damping]. f_equal. ring.
Qed.

Lemma u_maybe_qchange t s :
  maybe_update_qmodel_change c' (res_map (Rmult k) t) (U s)
  = res_map U (maybe_update_qmodel_change c t s).
Proof.
  unfold maybe_update_qmodel_change. rewrite u_adaptation.
  destruct (is_adaptation_time c s); [|reflexivity]. destruct t as [q|]; [|reflexivity].
  cbn [res_map bind]. rewrite u_set_qchange. reflexivity.
Qed.

Definition km (m : m22) : m22 := mkM (k * m00 m) (k * m01 m) (k * m10 m) (k * m11 m).
Definition kv (v : v2) : v2 := mkV (k * v0 v) (k * v1 v).

Lemma solve_scale m v : two_by_two_solve (km m) (kv v) = two_by_two_solve m v.
Proof.
  unfold two_by_two_solve. cbv zeta. cbn [km kv m00 m01 m10 m11 v0 v1].
  replace (k * m00 m * (k * m11 m) - k * m01 m * (k * m10 m))
    with (k * (k * (m00 m * m11 m - m01 m * m10 m))) by ring.
  set (D := m00 m * m11 m - m01 m * m10 m). unfold Rdiv. rewrite !Rinv_mult.
  set (i := / D). f_equal; field; lra.
Qed.

Lemma hyper_scale s m cc b mu :
  compute_qmodel_hyperparams c' (U s) (km m) (kv cc) (km b) mu
  = (fst (fst (compute_qmodel_hyperparams c s m cc b mu)),
     snd (fst (compute_qmodel_hyperparams c s m cc b mu)),
     k * snd (compute_qmodel_hyperparams c s m cc b mu)).
Proof.
  unfold compute_qmodel_hyperparams. cbn [kv v1]. rewrite req_scale.
  destruct (Req_EM_T (v1 cc) 0).
  - unfold zero_prevupd_case. rewrite sub_damping. cbn [kv km v0 m00 units_cfg c_rescale c_incl].
    replace (- (k * v0 cc)) with (k * - v0 cc) by ring. rewrite kdiv.
    destruct (c_rescale c); destruct (c_incl c); cbn [fst snd]; f_equal; ring.
  - unfold non_zero_prevupd_case. rewrite sub_damping, solve_scale.
    cbn [units_cfg c_rescale c_incl]. destruct mu as [mu|].
    + cbn [kv km v0 m00 m01]. 
      replace (-1 * (mu * (k * m01 m) + k * v0 cc)) with (k * (-1 * (mu * m01 m + v0 cc))) by ring.
      rewrite kdiv. unfold eval_quadratic, eval_quadratic_no_c.
      destruct (c_rescale c); destruct (c_incl c); cbn [fst snd km kv m00 m01 m10 m11 v0 v1 v2scale];
        f_equal; ring.
    + unfold eval_quadratic, eval_quadratic_no_c. cbv zeta.
      destruct (c_rescale c); destruct (c_incl c); cbn [fst snd km kv m00 m01 m10 m11 v0 v1 v2scale];
        f_equal; ring.
Qed.

Lemma unzip_scale g : unzip_star (sprod_p k g)
  = res_map (fun p => (sprod k (fst p), snd p)) (unzip_star g).
Proof.
  unfold unzip_star. destruct g as [|p g]; [reflexivity|].
  cbn [sprod_p sprod map res_map fst snd]. unfold sprod. rewrite !map_map. reflexivity.
Qed.

Lemma assert_scale a g : assert_variables_match a (sprod_p k g) = assert_variables_match a g.
Proof.
  unfold assert_variables_match. rewrite unzip_scale, check_match_scale_r.
  destruct (unzip_star a); [|reflexivity]. destruct (unzip_star g); reflexivity.
Qed.

Lemma u_qmodel x x' s raw prev g : units_ctx k x x' ->
  compute_qmodel c' x' (U s) raw prev (sprod_p k g)
  = res_map (fun q => (km (fst (fst q)), kv (snd (fst q)), km (snd q)))
            (compute_qmodel c x s raw prev g).
Proof.
  intros (_ & _ & M & _). unfold compute_qmodel. rewrite unzip_scale, assert_scale.
  destruct (unzip_star raw) as [rv|]; [|reflexivity]. destruct (unzip_star prev) as [pv|]; [|reflexivity].
  destruct (unzip_star g) as [gv|]; [|reflexivity]. cbn [bind res_map fst snd].
  destruct (assert_variables_match raw prev); [|reflexivity].
  destruct (assert_variables_match prev g); [|reflexivity]. cbn [bind].
  rewrite !M, !ip_scale_l, !ip_scale_r.
  destruct (ip (fst rv) (fst rv)) as [i11|]; [|reflexivity].
  destruct (ip (fst pv) (fst rv)) as [i21|]; [|reflexivity].
  destruct (ip (fst pv) (fst pv)) as [i22|]; [|reflexivity]. cbn [bind].
  destruct (ip (x_mft x (fst rv)) (x_mft x (fst rv))) as [f11|]; [|reflexivity].
  destruct (ip (x_mft x (fst pv)) (x_mft x (fst rv))) as [f21|]; [|reflexivity].
  destruct (ip (x_mft x (fst pv)) (x_mft x (fst pv))) as [f22|]; [|reflexivity]. cbn [bind res_map].
  destruct (ip (fst gv) (fst rv)) as [c1|]; [|reflexivity].
  destruct (ip (fst gv) (fst pv)) as [c2|]; [|reflexivity]. cbn [bind res_map fst snd].
  assert (SQ : forall f, sqrt k * (sqrt k * f) = k * f)
    by (intros f; rewrite <- Rmult_assoc, sqrt_sqrt by lra; reflexivity).
  rewrite !SQ. unfold km, kv. cbn [m00 m01 m10 m11 v0 v1 units_state s_damping units_cfg c_batch_size].
  unfold Rdiv.
  f_equal. f_equal; [f_equal; f_equal; ring|f_equal; ring].
Qed.

Lemma u_raw x x' s g : units_ctx k x x' ->
  compute_raw_update_steps c' x' (U s) (sprod_p k g)
  = res_map (fun rs => (fst rs, U (snd rs))) (compute_raw_update_steps c x s g).
Proof.
  intros H. pose proof H as (P & _). unfold compute_raw_update_steps.
  change (c_mtype c') with (c_mtype c). change (c_lr c') with (c_lr c).
  change (c_adapt c') with (c_adapt c). change (c_chief c') with (c_chief c).
  change (c_momentum c') with (c_momentum c).
  destruct (c_mtype c) eqn:T.
  - (* regular *)
    rewrite P, u_clip. destruct (maybe_clip c g (x_precond x g)) as [pg|]; [|reflexivity].
    cbn [bind]. replace (s_vel (U s)) with (s_vel s) by (unfold units_state; rewrite T; reflexivity).
    destruct (update_velocities (s_vel s) (c_momentum c) 1 pg) as [vel raw].
    replace (set_vel vel (U s)) with (U (set_vel vel s))
      by (unfold units_state, set_vel; rewrite T; reflexivity).
    destruct (c_adapt c && c_chief c); [|reflexivity].
    rewrite (u_approx _ _ _ _ _ H), u_maybe_qchange.
    destruct (maybe_update_qmodel_change c _ (set_vel vel s)); reflexivity.
  - (* adam *)
    replace (s_vel (U s)) with (fun j => vscale k (s_vel s j))
      by (unfold units_state; rewrite T; reflexivity).
    rewrite vel_scale.
    destruct (update_velocities (s_vel s) (c_momentum c) 1 g) as [vel vels]. cbn [fst snd].
    rewrite P, u_clip. destruct (maybe_clip c vels (x_precond x vels)) as [raw|]; [|reflexivity].
    cbn [bind].
    replace (set_vel (fun j => vscale k (vel j)) (U s)) with (U (set_vel vel s))
      by (unfold units_state, set_vel; rewrite T; reflexivity).
    destruct (c_adapt c && c_chief c); [|reflexivity].
    rewrite !ip_p_scale_r.
    replace (do a <- res_map (Rmult k) (ip_p raw vels); do b <- res_map (Rmult k) (ip_p raw g);
             Ok (1 / 2 * c_lr c ^ 2 * a - c_lr c * b))
      with (res_map (Rmult k) (do a <- ip_p raw vels; do b <- ip_p raw g;
             Ok (1 / 2 * c_lr c ^ 2 * a - c_lr c * b))).
    2:{ destruct (ip_p raw vels); [|reflexivity]. destruct (ip_p raw g); [|reflexivity].
        cbn [bind res_map]. f_equal. ring. }
    rewrite u_maybe_qchange.
    destruct (maybe_update_qmodel_change c _ (set_vel vel s)); reflexivity.
  - (* qmodel *)
    unfold get_qmodel_quantities. rewrite P, sprod_p_snd.
    replace (compute_prev_updates (U s) (map snd g)) with (compute_prev_updates s (map snd g))
      by (unfold compute_prev_updates, units_state; rewrite T; reflexivity).
    rewrite (u_qmodel _ _ _ _ _ _ H).
    destruct (compute_qmodel c x s (x_precond x g) (compute_prev_updates s (map snd g)) g)
      as [[[m cc] b]|]; [|reflexivity].
    cbn [res_map bind fst snd]. rewrite hyper_scale.
    destruct (compute_qmodel_hyperparams c s m cc b None) as [[alpha mu] change]. cbn [fst snd].
    rewrite u_set_qchange.
    set (s1 := set_qchange (Some change) s).
    replace (s_vel (set_qhyper (Some (- alpha)) (Some mu) (U s1)))
      with (s_vel (set_qhyper (Some (- alpha)) (Some mu) s1))
      by (unfold units_state, set_qhyper; rewrite T; reflexivity).
    destruct (update_velocities _ mu (- alpha) (x_precond x g)) as [vel raw].
    cbn [res_map fst snd]. f_equal. f_equal. unfold units_state. rewrite T. reflexivity.
  - unfold get_qmodel_quantities. rewrite P, sprod_p_snd.
    replace (compute_prev_updates (U s) (map snd g)) with (compute_prev_updates s (map snd g))
      by (unfold compute_prev_updates, units_state; rewrite T; reflexivity).
    rewrite (u_qmodel _ _ _ _ _ _ H).
    destruct (compute_qmodel c x s (x_precond x g) (compute_prev_updates s (map snd g)) g)
      as [[[m cc] b]|]; [|reflexivity].
    cbn [res_map bind fst snd]. rewrite hyper_scale.
    destruct (compute_qmodel_hyperparams c s m cc b (Some (c_momentum c))) as [[alpha mu] change].
    cbn [fst snd]. rewrite u_set_qchange.
    set (s1 := set_qchange (Some change) s).
    replace (s_vel (set_qhyper (Some (- alpha)) (Some mu) (U s1)))
      with (s_vel (set_qhyper (Some (- alpha)) (Some mu) s1))
      by (unfold units_state, set_qhyper; rewrite T; reflexivity).
    destruct (update_velocities _ mu (- alpha) (x_precond x g)) as [vel raw].
    cbn [res_map fst snd]. f_equal. f_equal. unfold units_state. rewrite T. reflexivity.
Qed.

Theorem units_step x x' s g : units_ctx k x x' ->
  apply_gradients c' x' (U s) (sprod_p k g) = res_map U (apply_gradients c x s g).
Proof.
  intros H. unfold apply_gradients. rewrite (u_prev_loss _ _ _ H), (u_raw _ _ _ _ H).
  destruct (compute_raw_update_steps c x (maybe_update_prev_loss c x s) g) as [[raw s2]|];
    [|reflexivity].
  cbn [res_map bind fst snd]. cbv zeta.
  change (c_use_wd c') with (c_use_wd c). change (c_lr c') with (c_lr c).
  change (add_weight_decay c' (U s2) raw) with (add_weight_decay c s2 raw).
  change (s_params (U s2)) with (s_params s2).
  set (raw' := if c_use_wd c then add_weight_decay c s2 raw else raw).
  change (set_params (descend (c_lr c) (s_params s2) raw') (U s2))
    with (U (set_params (descend (c_lr c) (s_params s2) raw') s2)).
  rewrite (u_post _ _ _ H). reflexivity.
Qed.

Theorem units_steps : forall l l' s,
  Forall2 (fun a b => units_ctx k (fst a) (fst b) /\ snd b = sprod_p k (snd a)) l l' ->
  run_steps c' (U s) l' = res_map U (run_steps c s l).
Proof.
  intros l l' s F. revert s. induction F as [|[x g] [x' g'] l l' [H G] F IH]; intros s; [reflexivity|].
  cbn [fst snd] in *. subst g'. cbn [run_steps]. rewrite (units_step _ _ _ _ H).
  destruct (apply_gradients c x s g) as [s1|]; [|reflexivity]. cbn [res_map bind]. apply IH.
Qed.
End Units.

(* ------------------------------------------------------------------------ *)
Section Run.
Variables (Batch I Inv : Type) (k : R) (ws : list R) (p : pcfg) (e e' : env Batch I Inv).
Hypothesis K : 0 < k.
Hypothesis E : units_env k ws e e'.
Notation p' := (units_pcfg k p).
Notation U := (units_state k (p_cfg p)).

Lemma cov_units decay stats cov : 
  cov_update decay (map (fun p => fun i => fst p * snd p i) (zip ws stats)) (units_cov ws cov)
  = units_cov (I := I) ws (cov_update decay stats cov).
Proof.
  clear E. unfold cov_update, units_cov. revert stats cov.
  induction ws as [|w l IH]; intros [|f stats] [|m cov]; try reflexivity.
  cbn [zip map fst snd]. rewrite IH. f_equal. cbn [mav_step m_var m_weight m_norm]. f_equal.
  apply functional_extensionality. intros i. ring.
Qed.

Record related (s s' : pst I Inv) : Prop := mkRelated {
  r_st : o_st s' = U (o_st s);
  r_cov : o_cov s' = units_cov ws (o_cov s);
  r_inv : s_counter (o_st s) = 0%nat \/ units_inv k ws e e' (o_inv s) (o_inv s');
  r_burnin : o_burnin s' = o_burnin s }.

Lemma units_loss_ctx i loss cov inv inv' damping params :
  units_inv k ws e e' inv inv' ->
  units_ctx k (loss_ctx e i loss cov inv damping params)
              (loss_ctx e' i (k * loss) (units_cov ws cov) inv' (k * damping) params).
Proof.
  intros [P M]. destruct E as (_ & L & _ & F & _).
  split; [exact P|]. split; [exact (M cov damping)|]. split; [exact (F params (i_batch i))|].
  split; [reflexivity|]. split; [exact (L (i_batch i))|exact (L (i_prev i))].
Qed.

(** The damping update reads the losses only. *)
Lemma pre_ext c x y s : x_loss_fn x = x_loss_fn y -> x_prev_loss_fn x = x_prev_loss_fn y ->
  maybe_pre_update_adapt_damping c x s = maybe_pre_update_adapt_damping c y s.
Proof.
  intros A B. unfold maybe_pre_update_adapt_damping, update_damping, current_loss.
  rewrite A, B. reflexivity.
Qed.

Lemma pre_units i s (cov cov' : list (mav I)) inv inv' d d' loss loss' params :
  maybe_pre_update_adapt_damping (units_cfg k (p_cfg p)) (loss_ctx e' i loss' cov' inv' d' params) (U s)
  = U (maybe_pre_update_adapt_damping (p_cfg p) (loss_ctx e i loss cov inv d params) s).
Proof.
  destruct E as (_ & L & _).
  set (lf := e_loss e (i_batch i)). set (pf := e_loss e (i_prev i)).
  set (x := mkCtx (fun g => g) (fun g => g) (fun u => u) 0 lf pf).
  set (x' := mkCtx (fun g => sprod_p (/ k) g) (fun g => sprod_p k g) (sprod (sqrt k)) (k * 0)
                   (e_loss e' (i_batch i)) (e_loss e' (i_prev i))).
  rewrite (pre_ext _ (loss_ctx e' i loss' cov' inv' d' params) x' _ eq_refl eq_refl),
          (pre_ext _ (loss_ctx e i loss cov inv d params) x _ eq_refl eq_refl).
  apply (u_pre k K). repeat split; cbn; intros; try apply L.
  unfold sprod_p. rewrite map_map. rewrite <- (map_id g) at 2. apply map_ext. intros [v j].
  cbn [fst snd]. rewrite vscale_mul, Rinv_l by lra. rewrite vscale_one. reflexivity.
Qed.

Lemma pre_counter c x s : s_counter (maybe_pre_update_adapt_damping c x s) = s_counter s.
Proof.
  unfold maybe_pre_update_adapt_damping.
  destruct (negb (c_adapt c) || negb (c_chief c) || c_immediate c); [reflexivity|].
  destruct (is_just_after_adaptation_time c s); reflexivity.
Qed.

Lemma pre_params c x s : s_params (maybe_pre_update_adapt_damping c x s) = s_params s.
Proof.
  unfold maybe_pre_update_adapt_damping.
  destruct (negb (c_adapt c) || negb (c_chief c) || c_immediate c); [reflexivity|].
  destruct (is_just_after_adaptation_time c s); reflexivity.
Qed.

(** Either order of the two unordered groups gives the same. *)
Lemma ops_form (q : pcfg) (f : env Batch I Inv) i s :
  let b := maybe_pre_update_adapt_damping (p_cfg q)
             (loss_ctx f i 0 (o_cov s) (o_inv s) 0 (s_params (o_st s))) (o_st s) in
  let cc := if Nat.eqb (Nat.modulo (s_counter (o_st s)) (p_cov_every q)) 0
            then cov_update (p_ema q) (e_stats f (s_params (o_st s)) (i_batch i)) (o_cov s)
            else o_cov s in
  kfac_update_ops q f i s
  = mkPst b cc (if Nat.eqb (Nat.modulo (s_counter (o_st s)) (p_invert_every q)) 0
                then e_invert f cc (s_damping b) else o_inv s) (o_burnin s).
Proof.
  destruct s as [a cov inv bn]. cbv zeta. unfold kfac_update_ops. cbv zeta.
  assert (B : forall l co d, maybe_pre_update_adapt_damping (p_cfg q) (loss_ctx f i l co inv d (s_params a)) a
     = maybe_pre_update_adapt_damping (p_cfg q) (loss_ctx f i 0 cov inv 0 (s_params a)) a)
    by (intros; apply pre_ext; reflexivity).
  cbn [o_st o_cov o_inv o_burnin].
  destruct (i_cov_first i).
  - destruct (Nat.eqb (Nat.modulo (s_counter a) (p_cov_every q)) 0);
      cbn [o_st o_cov o_inv o_burnin]; rewrite B;
      destruct (Nat.eqb (Nat.modulo (s_counter a) (p_invert_every q)) 0); reflexivity.
  - rewrite B, pre_counter.
    destruct (Nat.eqb (Nat.modulo (s_counter a) (p_cov_every q)) 0);
      cbn [o_st o_cov o_inv o_burnin];
      destruct (Nat.eqb (Nat.modulo (s_counter a) (p_invert_every q)) 0); reflexivity.
Qed.

Lemma units_kfac_ops i s s' : related s s' ->
  let t := kfac_update_ops p e i s in let t' := kfac_update_ops p' e' i s' in
  related t t' /\ units_inv k ws e e' (o_inv t) (o_inv t') /\
  s_params (o_st t) = s_params (o_st s).
Proof.
  intros R. destruct E as (_ & L & ST & _ & INV). cbv zeta.
  rewrite !ops_form. destruct s as [a cov inv bn], s' as [a' cov' inv' bn'].
  destruct R as [R1 R2 R3 R4]. cbn [o_st o_cov o_inv o_burnin] in *. subst a' cov' bn'.
  change (p_cov_every p') with (p_cov_every p). change (p_invert_every p') with (p_invert_every p).
  change (p_ema p') with (p_ema p). change (p_cfg p') with (units_cfg k (p_cfg p)).
  change (s_counter (U a)) with (s_counter a). change (s_params (U a)) with (s_params a).
  rewrite (pre_units i a cov (units_cov ws cov) inv inv' 0 0 0 0 (s_params a)).
  rewrite ST, cov_units.
  set (b := maybe_pre_update_adapt_damping (p_cfg p) _ a).
  assert (BC : s_counter b = s_counter a) by apply pre_counter.
  assert (BP : s_params b = s_params a) by apply pre_params.
  set (cc := if Nat.eqb (Nat.modulo (s_counter a) (p_cov_every p)) 0
             then cov_update (p_ema p) (e_stats e (s_params a) (i_batch i)) cov else cov).
  assert (CC : (if Nat.eqb (Nat.modulo (s_counter a) (p_cov_every p)) 0
      then units_cov ws (cov_update (p_ema p) (e_stats e (s_params a) (i_batch i)) cov)
      else units_cov ws cov) = units_cov ws cc)
    by (unfold cc; destruct (Nat.eqb (Nat.modulo (s_counter a) (p_cov_every p)) 0); reflexivity).
  rewrite CC. clear CC.
  set (iv := if Nat.eqb _ 0 then e_invert e cc (s_damping b) else inv).
  set (iv' := if Nat.eqb _ 0 then e_invert e' _ _ else inv').
  assert (IV : units_inv k ws e e' iv iv').
  { unfold iv, iv'. destruct (Nat.eqb (Nat.modulo (s_counter a) (p_invert_every p)) 0) eqn:Q.
    - apply INV.
    - destruct R3 as [Z|R3]; [|exact R3]. exfalso. rewrite Z in Q.
      destruct (p_invert_every p) as [|m]; [discriminate Q|].
      rewrite Nat.mod_0_l in Q by discriminate. discriminate Q. }
  cbn [o_st o_cov o_inv o_burnin]. split; [|split; [exact IV|exact BP]].
  split; cbn [o_st o_cov o_inv o_burnin]; try reflexivity. right. exact IV.
Qed.

Definition res_rel {A} (P : A -> A -> Prop) (r r' : res A) : Prop :=
  match r, r' with
  | Ok a, Ok a' => P a a'
  | Raise x, Raise x' => x = x'
  | _, _ => False
  end.

Lemma units_full i s s' : related s s' ->
  res_rel related (full_step p e i s) (full_step p' e' i s').
Proof.
  intros R. pose proof (units_kfac_ops i s s' R) as W. cbv zeta in W.
  destruct E as (G & L & _). unfold full_step.
  set (t := kfac_update_ops p e i s) in *. set (t' := kfac_update_ops p' e' i s') in *.
  destruct W as ([T1 T2 _ T4] & IV & PP). destruct R as [R1 _ _ _].
  rewrite R1. change (s_params (U (o_st s))) with (s_params (o_st s)).
  rewrite G, L, T1, T2.
  pose proof (units_step k K (p_cfg p) _ _ (o_st t) (e_grads e (s_params (o_st s)) (i_batch i))
    (units_loss_ctx i (e_loss e (i_batch i) (s_params (o_st s))) (o_cov t) _ _
       (s_damping (o_st t)) (s_params (o_st s)) IV)) as STEP.
  change (p_cfg p') with (units_cfg k (p_cfg p)).
  change (s_damping (U (o_st t))) with (k * s_damping (o_st t)). rewrite STEP.
  destruct (apply_gradients (p_cfg p) _ (o_st t) (e_grads e (s_params (o_st s)) (i_batch i))) as [o|x];
    [|reflexivity].
  cbn [res_map bind res_rel]. split; cbn; auto.
Qed.

Theorem units_minimize i s s' : related s s' ->
  res_rel related (minimize p e s i) (minimize p' e' s' i).
Proof.
  intros R. unfold minimize. change (p_burnin p') with (p_burnin p).
  destruct (Nat.eqb (p_burnin p) 0); [exact (units_full i s s' R)|].
  rewrite (r_burnin _ _ R).
  destruct (Nat.ltb (o_burnin s) (p_burnin p)); [|exact (units_full i s s' R)].
  cbn [res_rel]. destruct E as (_ & _ & ST & _). destruct R as [R1 R2 R3 R4]. unfold burnin_step.
  split; cbn [o_st o_cov o_inv o_burnin].
  - exact R1.
  - rewrite R1, R2, ST. apply cov_units.
  - exact R3.
  - rewrite R4. reflexivity.
Qed.

Lemma units_initial params0 d0 factors inv0 inv0' : length ws = factors ->
  related (initial params0 d0 factors inv0) (initial params0 (k * d0) factors inv0').
Proof.
  intros L. unfold initial. split; cbn [o_st o_cov o_inv o_burnin s_counter].
  - unfold units_state. cbn. f_equal. destruct (c_mtype (p_cfg p)); try reflexivity.
    apply functional_extensionality. intros j. unfold vscale. rewrite map_map. apply map_ext.
    intros. ring.
  - subst factors. clear E. induction ws as [|w l IH]; [reflexivity|]. cbn. unfold units_cov in IH.
    rewrite <- IH. f_equal. unfold mav_init. cbn. f_equal. apply functional_extensionality. intros. ring.
  - left. reflexivity.
  - reflexivity.
Qed.

Theorem units_run params0 d0 factors inv0 inv0' inputs states :
  length ws = factors ->
  is_run p e (initial params0 d0 factors inv0) inputs states ->
  exists states', is_run p' e' (initial params0 (k * d0) factors inv0') inputs states' /\
    forall t, related (states t) (states' t).
Proof.
  intros LW [S0 RUN].
  set (start := initial params0 (k * d0) factors inv0').
  set (states' := fix go (t : nat) : pst I Inv :=
      match t with
      | O => start
      | S t0 => match minimize p' e' (go t0) (inputs t0) with Ok s => s | Raise _ => go t0 end
      end).
  assert (ALL : forall t, related (states t) (states' t) /\
     minimize p' e' (states' t) (inputs t) = Ok (states' (S t))).
  { assert (STEP : forall t, related (states t) (states' t) ->
        minimize p' e' (states' t) (inputs t) = Ok (states' (S t)) /\ related (states (S t)) (states' (S t))).
    { intros t R. pose proof (units_minimize (inputs t) _ _ R) as M. rewrite RUN in M.
      cbn [states']. fold states'. change (states' (S t)) with
        (match minimize p' e' (states' t) (inputs t) with Ok s => s | Raise _ => states' t end).
      destruct (minimize p' e' (states' t) (inputs t)) as [s|]; [|destruct M]. split; [reflexivity|exact M]. }
    intros t. induction t as [|t [R _]].
    - assert (R : related (states 0%nat) (states' 0%nat)) by (rewrite S0; apply units_initial, LW).
      split; [exact R|exact (proj1 (STEP 0%nat R))].
    - destruct (STEP t R) as [_ R']. split; [exact R'|exact (proj1 (STEP (S t) R'))]. }
  exists states'. split; [split; [reflexivity|intros t; apply ALL]|intros t; apply ALL].
Qed.
End Run.
