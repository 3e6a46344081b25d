(** Steps of the quadratic-model modes on quadratic losses. *)
From Coq Require Import List Arith Bool Reals Lra Lia.
From Verif.Base Require Import Py.
From Verif.Tensors Require Import Model.
From Verif.Train Require Import Model Spec VecProofs CtorProofs StepProofs QmodelProofs
  MomentumProofs PeriodicProofs WitnessProofs QuadSpec.
Import ListNotations.
Open Scope list_scope.
Open Scope R_scope.

(* ------------------------------------------------------------------------ *)
(** * Variables without a gradient stay *)

Lemma descend_other lr l : forall params k, ~ In k (map snd l) -> descend lr params l k = params k.
Proof.
  induction l as [|[u j] l IH]; intros params k N; [reflexivity|].
  cbn [descend]. cbn [map snd] in N. rewrite IH by (intros H; apply N; right; exact H).
  apply upd_other. intros ->. apply N. left; reflexivity.
Qed.

Lemma update_velocities_vars decay coeff l : forall vel,
  map snd (snd (update_velocities vel decay coeff l)) = map snd l.
Proof.
  induction l as [|[v k] l IH]; intros vel; [reflexivity|].
  cbn [update_velocities]. specialize (IH (upd vel k (vadd (vscale decay (vel k)) (vscale coeff v)))).
  destruct (update_velocities _ decay coeff l) as [vel' out]. cbn [snd map] in *. rewrite IH. reflexivity.
Qed.

Lemma qmodel_frame c x s g s' :
  is_q c -> shape_preserving (x_precond x) -> apply_gradients c x s g = Ok s' ->
  forall k, ~ In k (map snd g) -> s_params s' k = s_params s k.
Proof.
  intros T P A k N.
  destruct (prev_loss_stage c x s) as [E1 _].
  unfold apply_gradients in A. cbv zeta in A. set (s1 := maybe_update_prev_loss c x s) in *.
  rewrite <- E1.
  destruct (compute_raw_update_steps c x s1 g) as [[raw s2]|ex] eqn:R; [|discriminate A].
  cbn [bind] in A.
  assert (X : map snd raw = map snd g /\ s_params s2 = s_params s1).
  { assert (Y : (do q0 <- get_qmodel_quantities c x s1 g ;
                 let '(pg, (m, cc, b)) := q0 in
                 let '(alpha0, mu0, change) := compute_qmodel_hyperparams c s1 m cc b (fixed_mu_of c) in
                 let s3 := set_qhyper (Some (- alpha0)) (Some mu0) (set_qchange (Some change) s1) in
                 let (vel, raw) := update_velocities (s_vel s3) mu0 (- alpha0) pg in
                 Ok (raw, set_vel vel s3)) = Ok (raw, s2)).
    { rewrite <- R. unfold compute_raw_update_steps, fixed_mu_of. destruct T as [T|T]; rewrite T; reflexivity. }
    unfold get_qmodel_quantities in Y.
    destruct (compute_qmodel c x s1 (x_precond x g) (compute_prev_updates s1 (map snd g)) g)
      as [[[m cc] b]|ex]; [|discriminate Y]. cbn [bind] in Y.
    destruct (compute_qmodel_hyperparams c s1 m cc b (fixed_mu_of c)) as [[al mu] q].
    pose proof (update_velocities_vars mu (- al) (x_precond x g)
      (s_vel (set_qhyper (Some (- al)) (Some mu) (set_qchange (Some q) s1)))) as V.
    cbv zeta in Y.
    destruct (update_velocities _ mu (- al) (x_precond x g)) as [vel raw'].
    injection Y as <- <-. cbn [snd] in V. rewrite V. split; [apply (P g)|reflexivity]. }
  destruct X as [X1 X2].
  injection A as <-. rewrite <- X2.
  assert (Q : forall st0, s_params (maybe_post_update_adapt_damping c x st0) = s_params st0).
  { intros st0. unfold maybe_post_update_adapt_damping.
    destruct (negb _ || negb _); [reflexivity|]. destruct (is_adaptation_time _ _); reflexivity. }
  cbn [s_params set_counter]. rewrite Q. cbn [s_params set_params]. apply descend_other.
  destruct (c_use_wd c); [|rewrite X1; exact N].
  unfold add_weight_decay. rewrite map_map. cbn [snd]. change (map (fun x0 => snd x0) raw) with (map snd raw).
  rewrite X1. exact N.
Qed.

(* ------------------------------------------------------------------------ *)
(** * One step *)

Lemma sq_pos y : y <> 0 -> 0 < y ^ 2.
Proof. intros N. replace (y ^ 2) with (Rsqr y) by (unfold Rsqr; ring). apply Rsqr_pos_lt, N. Qed.

Lemma min_at_one A X : (forall t, A + X <= t ^ 2 * A + t * X) -> X = - 2 * A.
Proof.
  intros H.
  assert (H1 := H 2). assert (H2 := H 0).
  destruct (Req_dec (2 * A + X) 0) as [Z|Z]; [lra|exfalso].
  assert (P : 0 < A) by lra.
  specialize (H (1 - (2 * A + X) / (2 * A))).
  set (y := 2 * A + X) in *.
  assert (E : (1 - y / (2 * A)) ^ 2 * A + (1 - y / (2 * A)) * X = A + X - y ^ 2 / (4 * A)).
  { unfold y. field. lra. }
  rewrite E in H.
  assert (0 < y ^ 2 / (4 * A)).
  { apply Rdiv_lt_0_compat; [|lra]. apply sq_pos, Z. }
  lra.
Qed.

Section Step.
Variables (c : cfg) (x : ctx) (s : st) (g : pairs).
Hypothesis M : c_mtype c = Qmodel.
Hypothesis W : well_shaped s g.
Hypothesis G : good_ctx x g.
Hypothesis LR : qmodel_lr c.
Hypothesis D0 : 0 < s_damping s.
Hypothesis WD : c_use_wd c = false.

Let gs := map fst g.
Let pg := map fst (x_precond x g).
Let prev := previous_update s (map snd g).
Let Q := quad (x_mft x) (c_batch_size c) (s_damping s) gs.
Let Qr := quad (x_mft x) (c_batch_size c) (reported_lambda c s) gs.
Let m := qm c x s g.
Let cc := qc x s g.

Hypothesis SV : solvable (x_mft x) (c_batch_size c) (s_damping s) gs pg prev.

(** The solution minimises the model on a set that contains the line of the
    preconditioned gradient and the multiples of the solution itself. *)
Lemma solved : exists s' al mu,
  apply_gradients c x s g = Ok s' /\
  (forall k, length (s_params s' k) = length (s_params s k)) /\
  displacement (map snd g) (s_params s) (s_params s') = comb (c_lr c * al) pg (c_lr c * mu) prev /\
  s_qchange s' = Some (Qr (displacement (map snd g) (s_params s) (s_params s'))) /\
  (forall t, Q (comb al pg mu prev) <= Q (comb (t * al) pg (t * mu) prev)) /\
  (forall a, Q (comb al pg mu prev) <= Q (comb a pg 0 prev)) /\
  0 < m00 m.
Proof.
  assert (Dn : s_damping s <> 0) by lra.
  assert (FM : fixed_mu_of c = None) by (unfold fixed_mu_of; rewrite M; reflexivity).
  destruct SV as [[Z P]|[NZ Cx]].
  - destruct (shortcut_value c x s g W G LR Dn (fixed_mu_of c) Z P) as [al [E Mn]].
    destruct (qmodel_step c x s g _ _ _ (or_introl M) W G E)
      as [s' [A [_ [_ [H3 [_ [_ [Lp [_ H4]]]]]]]]]. specialize (H4 WD).
    rewrite FM, Rmult_0_r in H4. exists s', al, 0. rewrite Rmult_0_r.
    split; [exact A|]. split; [exact Lp|]. split; [exact H4|].
    split; [rewrite H4; exact H3|]. split; [intros t; rewrite Rmult_0_r; apply Mn|].
    split; [exact Mn|]. unfold m; rewrite <- (pg_curv c x s g W G); exact P.
  - destruct (free_case c x s g W G LR Dn NZ Cx) as [al [mu [E [Mn _]]]].
    rewrite <- FM in E.
    destruct (qmodel_step c x s g _ _ _ (or_introl M) W G E)
      as [s' [A [_ [_ [H3 [_ [_ [Lp [_ H4]]]]]]]]]. specialize (H4 WD).
    exists s', al, mu. split; [exact A|]. split; [exact Lp|]. split; [exact H4|].
    split; [rewrite H4; exact H3|]. split; [intros t; apply Mn|]. split; [intros a; apply Mn|].
    pose proof (Cx 1 0 (or_introl R1_neq_R0)) as P. unfold m; rewrite <- (pg_curv c x s g W G); exact P.
Qed.

Lemma quad_step : exists s',
  apply_gradients c x s g = Ok s' /\
  (forall k, length (s_params s' k) = length (s_params s k)) /\
  (forall k, ~ In k (map snd g) -> s_params s' k = s_params s k) /\
  s_qchange s' = Some (Qr (displacement (map snd g) (s_params s) (s_params s'))) /\
  (reported_lambda c s <= s_damping s -> 0 <= c_lr c <= 2 ->
     Qr (displacement (map snd g) (s_params s) (s_params s')) <= 0 /\
     (0 < c_lr c < 2 -> inner gs pg <> 0 ->
        Qr (displacement (map snd g) (s_params s) (s_params s')) < 0)).
Proof.
  destruct solved as [s' [al [mu [A [Lp [Dp [Qc [Mt [Ma Ps]]]]]]]]].
  exists s'. split; [exact A|]. split; [exact Lp|].
  split; [apply (qmodel_frame c x s g s' (or_introl M) (proj1 G) A)|].
  split; [exact Qc|]. intros Hl Hr. rewrite Dp. clear Qc Dp Lp A.
  set (A2 := eval_quadratic_no_c m (mkV al mu)).
  set (X := v0 cc * al + v1 cc * mu).
  assert (Qs : forall t, Q (comb (t * al) pg (t * mu) prev) = t ^ 2 * A2 + t * X).
  { intros t. unfold Q, pg, prev, gs. rewrite (quad_span c x s g W G). apply (eval_scale c x s g). }
  assert (Q1 : Q (comb al pg mu prev) = A2 + X).
  { specialize (Qs 1). rewrite !Rmult_1_l in Qs. rewrite Qs. ring. }
  assert (EX : X = - 2 * A2).
  { apply min_at_one. intros t. rewrite <- Q1, <- Qs. apply Mt. }
  assert (Qa : forall a, Q (comb a pg 0 prev) = 1/2 * m00 m * a ^ 2 + inner gs pg * a).
  { intros a. unfold Q, pg, prev, gs. rewrite (quad_span c x s g W G). fold m.
    unfold eval_quadratic, eval_quadratic_no_c, qc. cbn [v0 v1]. fold gs. fold pg. field. }
  assert (Xn : X <= 0).
  { specialize (Ma 0). rewrite Q1, Qa in Ma. lra. }
  assert (Xs : inner gs pg <> 0 -> X < 0).
  { intros N. specialize (Ma (- inner gs pg / m00 m)). rewrite Q1, Qa in Ma.
    assert (E : 1 / 2 * m00 m * (- inner gs pg / m00 m) ^ 2 + inner gs pg * (- inner gs pg / m00 m)
            = - (inner gs pg ^ 2 / (2 * m00 m))) by (field; lra).
    rewrite E in Ma.
    assert (0 < inner gs pg ^ 2 / (2 * m00 m)).
    { apply Rdiv_lt_0_compat; [apply sq_pos, N|lra]. }
    lra. }
  set (r := c_lr c) in *. set (d := comb (r * al) pg (r * mu) prev).
  assert (Le : Qr d <= Q d).
  { unfold Qr, Q, quad. pose proof (inner_self_nonneg d). nra. }
  unfold d in *. rewrite Qs in Le.
  assert (F : r ^ 2 * A2 + r * X = r * (1 - r / 2) * X).
  { replace A2 with (- X / 2) by lra. field. }
  rewrite F in Le. split.
  - assert (0 <= r * (1 - r / 2)) by nra. nra.
  - intros Hr' N. specialize (Xs N).
    assert (0 < r * (1 - r / 2)) by nra. nra.
Qed.

Lemma exact_step loss :
  c_incl c = false -> c_l2 c <= s_damping s -> 0 <= c_lr c <= 2 ->
  quadratic_at loss (x_mft x) (c_batch_size c) (c_l2 c) (s_params s) g ->
  exists s', apply_gradients c x s g = Ok s' /\
    s_qchange s' = Some (loss (s_params s') - loss (s_params s)) /\
    loss (s_params s') <= loss (s_params s) /\
    (0 < c_lr c < 2 -> inner gs pg <> 0 -> loss (s_params s') < loss (s_params s)).
Proof.
  intros In Hl Hr Qd. destruct quad_step as [s' [A [Lp [Fr [Qc H]]]]].
  assert (RL : reported_lambda c s = c_l2 c) by (unfold reported_lambda; rewrite In; reflexivity).
  rewrite RL in *. destruct (H Hl Hr) as [H1 H2].
  unfold Qr in *. rewrite RL in *.
  pose proof (Qd (s_params s') Lp Fr) as E. unfold gs in *. rewrite <- E in *.
  exists s'. split; [exact A|]. split; [exact Qc|]. split; [lra|].
  intros L N. specialize (H2 L N). lra.
Qed.
End Step.

(* ------------------------------------------------------------------------ *)
(** * The singular system *)

Lemma parallel_singular c x s g t :
  well_shaped s g -> good_ctx x g ->
  previous_update s (map snd g) = comb t (map fst (x_precond x g)) 0 (map fst (x_precond x g)) ->
  m00 (qm c x s g) * m11 (qm c x s g) - m01 (qm c x s g) * m10 (qm c x s g) = 0.
Proof.
  intros W G E. pose proof (pg_shape x g G) as P. pose proof (J_shape x g G) as JS.
  set (pg := map fst (x_precond x g)) in *.
  destruct (JS pg pg P P) as [JP _].
  assert (PP : same_shape pg pg) by apply same_shape_refl.
  unfold qm. cbn [m00 m01 m10 m11]. fold pg. rewrite E.
  rewrite (proj2 (proj2 (proj2 G)) t pg 0 pg P P).
  set (K := x_mft x pg) in *.
  assert (KK : same_shape K K) by apply same_shape_refl.
  assert (B : forall u : list vec, same_shape u u ->
    inner (comb t u 0 u) u = t * inner u u /\ inner (comb t u 0 u) (comb t u 0 u) = t * t * inner u u).
  { intros u U. split.
    - rewrite inner_comb_l by assumption. ring.
    - rewrite inner_comb_l by (try assumption; apply same_shape_sym, comb_shape, U).
      rewrite inner_comb_r by assumption. ring. }
  destruct (B pg PP) as [B1 B2]. destruct (B K KK) as [B3 B4].
  rewrite B1, B2, B3, B4. unfold Rdiv. ring.
Qed.

(* ------------------------------------------------------------------------ *)
(** * Whole runs *)

Section Run.
Context {Batch I Inv : Type}.
Variables (p : pcfg) (e : env Batch I Inv).
Variables (params0 : nat -> vec) (d0 : R) (factors : nat) (inv0 : Inv).
Variables (inputs : nat -> input Batch) (states : nat -> pst I Inv).
Hypothesis RUN : is_run p e (initial params0 d0 factors inv0) inputs states.
Hypothesis GE : good_env e params0 factors.
Let c := p_cfg p.
Let b := p_burnin p.
Hypothesis M : c_mtype c = Qmodel.
Hypothesis LR : qmodel_lr c.
Hypothesis WD : c_use_wd c = false.
Hypothesis IN : c_incl c = false.
Hypothesis R2 : 0 <= c_lr c <= 2.
Hypothesis QE : quadratic_env e params0 (c_batch_size c) (c_l2 c).

Lemma used_damped n : s_damping (damped p e (inputs (b + n)%nat) (states (b + n)%nat))
  = damping_used c states (b + n).
Proof.
  unfold b. rewrite (damped_value p e params0 d0 factors inv0 inputs states RUN n).
  unfold damping_used, c. destruct (c_immediate (p_cfg p)); reflexivity.
Qed.

Lemma run_exact_step n :
  0 < damping_used c states (b + n) -> c_l2 c <= damping_used c states (b + n) ->
  solvable_step c e inputs states (b + n) ->
  s_qchange (o_st (states (S (b + n)))) = Some (own_change e inputs states (b + n)) /\
  own_change e inputs states (b + n) <= 0 /\
  (0 < c_lr c < 2 -> slope e inputs states (b + n) <> 0 -> own_change e inputs states (b + n) < 0).
Proof.
  intros D0 Dl SV.
  destruct (full_phase p e params0 d0 factors inv0 inputs states RUN n) as [_ [_ F]].
  fold b in F. destruct (full_step_inv p e _ _ _ F) as [A _].
  pose proof (states_shaped p e params0 d0 factors inv0 inputs states RUN GE (b + n)) as Sh.
  destruct (shaped_ctx p e params0 factors GE (inputs (b + n)%nat) _ (states (S (b + n))) Sh) as [W G].
  destruct (damped_frame p e (inputs (b + n)%nat) (states (b + n))) as [E1 [E2 _]].
  pose proof (QE (s_params (o_st (states (b + n)))) (i_batch (inputs (b + n)%nat)) (proj1 (proj2 Sh))) as Qd.
  rewrite <- used_damped in D0, Dl. unfold solvable_step in SV. cbv zeta in SV.
  rewrite <- used_damped in SV.
  set (x := step_ctx p e (inputs (b + n)%nat) (states (b + n)) (states (S (b + n)))) in *.
  set (s := damped p e (inputs (b + n)%nat) (states (b + n))) in *.
  set (g := e_grads e (s_params (o_st (states (b + n)))) (i_batch (inputs (b + n)%nat))) in *.
  assert (PU : previous_update (o_st (states (b + n))) (map snd g) = previous_update s (map snd g)).
  { unfold previous_update. rewrite E2. reflexivity. }
  rewrite PU in SV. rewrite <- E1 in Qd.
  destruct (exact_step c x s g M W G LR D0 WD SV (e_loss e (i_batch (inputs (b + n)%nat))) IN Dl R2 )
    as [s' [A' [Q [L Ls]]]].
  - rewrite E1 in Qd |- *. exact Qd.
  - unfold c in A'. rewrite A in A'. injection A' as <-. rewrite E1 in Q, L, Ls.
    split; [exact Q|]. unfold own_change. split; [lra|].
    intros Hr N. specialize (Ls Hr N). lra.
Qed.

Hypothesis AD : c_adapt c = true.
Hypothesis MODE : c_immediate c = true \/
  (c_immediate c = false /\ c_chief c = true /\
   forall t, i_prev (inputs (S t)) = i_batch (inputs t)).
Hypothesis HI : (1 <= c_interval c)%nat.
Hypothesis HW : 0 < c_decay c ^ c_interval c <= 1.
Hypothesis HD : 0 < d0.
Hypothesis HF : 0 <= c_min_damping c.
Hypothesis HL : c_l2 c <= d0.

Lemma used_bounds n : 0 < damping_used c states (b + n) /\ c_l2 c <= damping_used c states (b + n).
Proof.
  assert (B : let d := damping_used c states (b + n) in
     let k := (n / c_interval c)%nat in let f := c_min_damping c + c_l2 c in
     0 < d /\ d0 * c_omega c ^ k <= d <= Rmax d0 f / c_omega c ^ k /\ ((1 <= k)%nat -> f <= d)).
  { unfold damping_used. destruct MODE as [Im|[Im [Ch _]]]; rewrite Im.
    - apply (immediate_bounds p e params0 d0 factors inv0 inputs states RUN n); assumption.
    - apply (delayed_bounds p e params0 d0 factors inv0 inputs states RUN n); assumption. }
  cbv zeta in B. destruct B as [B1 [[B2 _] B3]]. split; [exact B1|].
  destruct (n / c_interval c)%nat as [|k].
  - cbn [pow] in B2. lra.
  - specialize (B3 ltac:(lia)). lra.
Qed.

Hypothesis SV : forall n, solvable_step c e inputs states (b + n).

Lemma run_exact n :
  s_qchange (o_st (states (S (b + n)))) = Some (own_change e inputs states (b + n)) /\
  own_change e inputs states (b + n) <= 0 /\
  (0 < c_lr c < 2 -> slope e inputs states (b + n) <> 0 -> own_change e inputs states (b + n) < 0).
Proof. destruct (used_bounds n) as [A B]. apply run_exact_step; [exact A|exact B|apply SV]. Qed.

Hypothesis HR : c_dec c < 1.
Hypothesis CH : forall n, Nat.modulo (S n) (c_interval c) = 0%nat ->
  own_change e inputs states (b + n) <> 0.

(** A step whose prediction is right lowers the damping. *)
Lemma ratio_one d dl d' : dl <> 0 -> lm_rule c d dl dl d' ->
  d' = Rmax (d * (c_decay c ^ c_interval c)) (c_min_damping c + c_l2 c).
Proof.
  intros N [H _]. apply H. right. left. split; [exact N|].
  unfold Rdiv. rewrite Rinv_r by exact N. lra.
Qed.

Hypothesis HLP : 0 <= c_l2 c.

Lemma floored_step k : Rmax (floored_decay c d0 k * (c_decay c ^ c_interval c))
    (c_min_damping c + c_l2 c) = floored_decay c d0 (S k).
Proof.
  unfold floored_decay. cbn [Nat.eqb]. set (w := c_decay c ^ c_interval c) in *.
  set (f := c_min_damping c + c_l2 c) in *.
  assert (F0 : 0 <= f) by (unfold f; lra).
  destruct k as [|k]; cbn [Nat.eqb].
  - cbn [pow]. rewrite Rmult_1_r. reflexivity.
  - replace (d0 * w ^ S (S k)) with (d0 * w ^ S k * w) by (cbn [pow]; ring).
    set (y := d0 * w ^ S k). unfold Rmax.
    repeat destruct (Rle_dec _ _); nra.
Qed.

Lemma run_floor n : damping_used c states (b + n) = floored_decay c d0 (n / c_interval c).
Proof.
  assert (S0 : s_damping (o_st (states b)) = d0).
  { destruct (burnin_phase p e params0 d0 factors inv0 inputs states RUN b (le_n _)) as [A _].
    rewrite A. reflexivity. }
  unfold damping_used. destruct MODE as [Im|[Im [Ch Pv]]]; rewrite Im.
  - induction n as [|n IH].
    + rewrite Nat.add_0_r, Nat.div_0_l by lia. exact S0.
    + pose proof (immediate_step p e params0 d0 factors inv0 inputs states RUN n AD Im) as St.
      cbv zeta in St. fold b c in St.
      rewrite (div_step p (c_interval c) n HI). rewrite Nat.add_succ_r.
      destruct (Nat.eqb_spec (Nat.modulo (S n) (c_interval c)) 0) as [Z|Z].
      * destruct (run_exact n) as [Qc _]. rewrite Qc in St.
        rewrite (ratio_one _ _ _ (CH n Z) St), IH, floored_step. f_equal. lia.
      * rewrite St, IH. f_equal. lia.
  - induction n as [|n IH].
    + rewrite Nat.add_0_r, Nat.div_0_l by lia.
      pose proof (delayed_step p e params0 d0 factors inv0 inputs states RUN 0 AD Im Ch HI Pv) as St.
      cbv zeta in St. fold b in St. rewrite Nat.add_0_r in St. rewrite St. exact S0.
    + pose proof (delayed_step p e params0 d0 factors inv0 inputs states RUN (S n) AD Im Ch HI Pv) as St.
      cbv zeta in St. fold b c in St.
      rewrite (div_step p (c_interval c) n HI). rewrite Nat.add_succ_r in *.
      destruct (Nat.eqb_spec (Nat.modulo (S n) (c_interval c)) 0) as [Z|Z].
      * destruct (run_exact n) as [Qc _]. rewrite Qc in St.
        replace (S (b + n) - 1)%nat with (b + n)%nat in St by lia.
        rewrite (ratio_one _ _ _ (CH n Z) St), IH, floored_step. f_equal. lia.
      * rewrite St, IH. f_equal. lia.
Qed.
End Run.
