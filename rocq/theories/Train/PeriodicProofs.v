(** Runs of the periodic optimizer. *)
From Coq Require Import List Arith Bool Reals Lra Lia.
From Verif.Base Require Import Py.
From Verif.Tensors Require Import Model.
From Verif.Train Require Import Model Spec VecProofs CtorProofs StepProofs QmodelProofs MomentumProofs.
Import ListNotations.
Open Scope list_scope.
Open Scope R_scope.

Section Run.
Context {Batch I Inv : Type}.
Variables (p : pcfg) (e : env Batch I Inv).

(* ------------------------------------------------------------------------ *)
(** * kfac_update_ops in closed form *)

Definition damped (i : input Batch) (s : pst I Inv) : st :=
  let c := p_cfg p in
  if negb (c_adapt c) || negb (c_chief c) || c_immediate c then o_st s
  else if is_just_after_adaptation_time c (o_st s)
       then update_damping c (loss_ctx e i (e_loss e (i_batch i) (s_params (o_st s)))
              (o_cov s) (o_inv s) (s_damping (o_st s)) (s_params (o_st s))) (o_st s)
       else o_st s.

Definition new_cov (i : input Batch) (s : pst I Inv) : list (mav I) :=
  if Nat.eqb (Nat.modulo (s_counter (o_st s)) (p_cov_every p)) 0
  then cov_update (p_ema p) (e_stats e (s_params (o_st s)) (i_batch i)) (o_cov s)
  else o_cov s.

Lemma update_damping_ctx c i l1 l2 cov1 cov2 inv d1 d2 q1 q2 s :
  update_damping c (loss_ctx e i l1 cov1 inv d1 q1) s
  = update_damping c (loss_ctx e i l2 cov2 inv d2 q2) s.
Proof. reflexivity. Qed.

Lemma damped_counter i s : s_counter (damped i s) = s_counter (o_st s).
Proof.
  unfold damped. destruct (negb _ || negb _ || _); [reflexivity|].
  destruct (is_just_after_adaptation_time _ _); reflexivity.
Qed.

Lemma kfac_update_ops_eq i s :
  kfac_update_ops p e i s =
  mkPst (damped i s) (new_cov i s)
    (if Nat.eqb (Nat.modulo (s_counter (o_st s)) (p_invert_every p)) 0
     then e_invert e (new_cov i s) (s_damping (damped i s)) else o_inv s)
    (o_burnin s).
Proof.
  unfold kfac_update_ops. cbv zeta.
  assert (D : forall cov inv bu, maybe_pre_update_adapt_damping (p_cfg p)
      (loss_ctx e i (e_loss e (i_batch i) (s_params (o_st s))) cov inv
         (s_damping (o_st s)) (s_params (o_st s))) (o_st (mkPst (o_st s) cov inv bu)) = damped i s).
  { intros. unfold maybe_pre_update_adapt_damping, damped. cbn [o_st].
    destruct (negb _ || negb _ || _); [reflexivity|].
    destruct (is_just_after_adaptation_time _ _); reflexivity. }
  destruct s as [o cov inv bu]. cbn [o_st o_cov o_inv o_burnin] in *.
  unfold new_cov. cbn [o_st o_cov o_inv o_burnin].
  pose proof (damped_counter i (mkPst o cov inv bu)) as DC. cbn [o_st] in DC.
  destruct (i_cov_first i).
  - destruct (Nat.eqb (Nat.modulo (s_counter o) (p_cov_every p)) 0);
      cbn [o_st o_cov o_inv o_burnin]; rewrite (D _ _ bu);
      destruct (Nat.eqb (Nat.modulo (s_counter o) (p_invert_every p)) 0); reflexivity.
  - rewrite (D _ _ bu), DC.
    destruct (Nat.eqb (Nat.modulo (s_counter o) (p_cov_every p)) 0);
      cbn [o_st o_cov o_inv o_burnin];
      destruct (Nat.eqb (Nat.modulo (s_counter o) (p_invert_every p)) 0); reflexivity.
Qed.

(** The context of the call that ends a full step. *)
Definition step_ctx (i : input Batch) (s s' : pst I Inv) : ctx :=
  loss_ctx e i (e_loss e (i_batch i) (s_params (o_st s))) (o_cov s') (o_inv s')
    (s_damping (damped i s)) (s_params (o_st s)).

Lemma full_step_inv i s s' : full_step p e i s = Ok s' ->
  apply_gradients (p_cfg p) (step_ctx i s s') (damped i s)
    (e_grads e (s_params (o_st s)) (i_batch i)) = Ok (o_st s') /\
  o_cov s' = new_cov i s /\
  o_inv s' = (if Nat.eqb (Nat.modulo (s_counter (o_st s)) (p_invert_every p)) 0
              then e_invert e (new_cov i s) (s_damping (damped i s)) else o_inv s) /\
  o_burnin s' = o_burnin s.
Proof.
  unfold full_step. rewrite kfac_update_ops_eq. cbn [o_st o_cov o_inv o_burnin].
  destruct (apply_gradients _ _ _ _) as [o|] eqn:A; [|intros H; discriminate H].
  cbn [bind]. intros H. injection H as <-. unfold step_ctx. cbn [o_st o_cov o_inv o_burnin].
  rewrite A. repeat split.
Qed.

Lemma damped_frame i s :
  s_params (damped i s) = s_params (o_st s) /\ s_vel (damped i s) = s_vel (o_st s) /\
  s_prev_loss (damped i s) = s_prev_loss (o_st s) /\ s_qchange (damped i s) = s_qchange (o_st s).
Proof.
  unfold damped. destruct (negb _ || negb _ || _); [repeat split|].
  destruct (is_just_after_adaptation_time _ _); repeat split.
Qed.

(* ------------------------------------------------------------------------ *)
(** * Existence of runs *)

Section Exists.
Variables (params0 : nat -> vec) (factors : nat).
Hypothesis GE : good_env e params0 factors.

Definition shaped (s : pst I Inv) : Prop :=
  (forall k, length (s_vel (o_st s) k) = length (params0 k)) /\
  (forall k, length (s_params (o_st s) k) = length (params0 k)) /\
  length (o_cov s) = factors.

Lemma cov_update_length d st cov : length st = length cov -> length (@cov_update I d st cov) = length cov.
Proof. intros H. unfold cov_update. rewrite map_length, zip_length; congruence. Qed.

Lemma shaped_ctx i s s' : shaped s ->
  well_shaped (damped i s) (e_grads e (s_params (o_st s)) (i_batch i)) /\
  good_ctx (step_ctx i s s') (e_grads e (s_params (o_st s)) (i_batch i)).
Proof.
  intros [V [P C]]. destruct GE as [G1 [G2 G3]].
  destruct (G1 (s_params (o_st s)) (i_batch i) P) as [N [F [J St]]].
  destruct (damped_frame i s) as [D1 [D2 _]]. split.
  - split; [exact N|]. rewrite D1, D2. split.
    + apply (fits_ext params0); [intros; symmetry; apply V|exact F].
    + intros k. rewrite V, P. reflexivity.
  - repeat split; try apply G2; try apply G3; apply J; assumption.
Qed.

Lemma minimize_total s i : shaped s -> exists s', minimize p e s i = Ok s' /\ shaped s'.
Proof.
  intros S. pose proof S as [V [P C]]. destruct GE as [G1 _].
  destruct (G1 (s_params (o_st s)) (i_batch i) P) as [_ [_ [_ St]]].
  assert (FS : exists s', full_step p e i s = Ok s' /\ shaped s').
  { unfold full_step. rewrite kfac_update_ops_eq. cbn [o_st o_cov o_inv o_burnin].
    set (s1 := mkPst (damped i s) (new_cov i s)
      (if Nat.eqb (Nat.modulo (s_counter (o_st s)) (p_invert_every p)) 0
       then e_invert e (new_cov i s) (s_damping (damped i s)) else o_inv s) (o_burnin s)).
    destruct (shaped_ctx i s s1 S) as [W G].
    destruct (step_total (p_cfg p) (step_ctx i s s1) (damped i s) _ W G) as [o [A [_ [Fv Fp]]]].
    change (loss_ctx e i (e_loss e (i_batch i) (s_params (o_st s))) (new_cov i s)
              (if Nat.eqb (Nat.modulo (s_counter (o_st s)) (p_invert_every p)) 0
               then e_invert e (new_cov i s) (s_damping (damped i s)) else o_inv s)
              (s_damping (damped i s)) (s_params (o_st s))) with (step_ctx i s s1).
    rewrite A. cbn [bind]. eexists. split; [reflexivity|].
    destruct (damped_frame i s) as [D1 [D2 _]].
    split; [|split]; cbn [o_st o_cov].
    - intros k. rewrite Fv, D2. apply V.
    - intros k. rewrite Fp, D1. apply P.
    - unfold new_cov. clear s1 W G A. destruct (Nat.eqb (Nat.modulo (s_counter (o_st s)) (p_cov_every p)) 0); [|exact C].
      rewrite cov_update_length; congruence. }
  unfold minimize. destruct (Nat.eqb (p_burnin p) 0); [exact FS|].
  destruct (Nat.ltb (o_burnin s) (p_burnin p)); [|exact FS].
  eexists. split; [reflexivity|]. unfold burnin_step. split; [|split]; cbn [o_st o_cov]; auto.
  rewrite cov_update_length; congruence.
Qed.

Fixpoint follow (inputs : nat -> input Batch) (s : pst I Inv) (t : nat) : pst I Inv :=
  match t with
  | O => s
  | S t' => match minimize p e (follow inputs s t') (inputs t') with Ok s' => s' | Raise _ => s end
  end.

Lemma follow_shaped inputs s t : shaped s -> shaped (follow inputs s t).
Proof.
  intros S. induction t as [|t IH]; [exact S|]. cbn [follow].
  destruct (minimize_total _ (inputs t) IH) as [s' [E S']]. rewrite E. exact S'.
Qed.

Lemma run_exists inputs s : shaped s -> exists states, is_run p e s inputs states.
Proof.
  intros S. exists (follow inputs s). split; [reflexivity|].
  intros t. destruct (minimize_total _ (inputs t) (follow_shaped inputs s t S)) as [s' [E _]].
  cbn [follow]. rewrite E. reflexivity.
Qed.
End Exists.

Lemma initial_shaped params0 d factors inv0 :
  shaped params0 factors (initial params0 d factors inv0).
Proof.
  split; [|split]; cbn.
  - intros k. apply map_length.
  - reflexivity.
  - apply repeat_length.
Qed.

(* ------------------------------------------------------------------------ *)
(** * Burn-in and counters *)

Variables (params0 : nat -> vec) (d0 : R) (factors : nat) (inv0 : Inv).
Variables (inputs : nat -> input Batch) (states : nat -> pst I Inv).
Let init := initial (I := I) params0 d0 factors inv0.
Hypothesis RUN : is_run p e init inputs states.
Let b := p_burnin p.

Lemma burnin_phase t : (t <= b)%nat ->
  o_st (states t) = o_st init /\ o_inv (states t) = inv0 /\ o_burnin (states t) = t.
Proof.
  destruct RUN as [R0 R]. induction t as [|t IH]; intros H.
  - rewrite R0. repeat split.
  - destruct (IH ltac:(lia)) as [A [B C]]. specialize (R t).
    unfold minimize in R. destruct (Nat.eqb_spec (p_burnin p) 0) as [Z|Z]; [unfold b in H; lia|].
    rewrite C in R. destruct (Nat.ltb_spec t (p_burnin p)) as [L|L]; [|unfold b in H; lia].
    injection R as <-. unfold burnin_step. cbn [o_st o_inv o_burnin].
    rewrite A, B, C, Nat.add_1_r. repeat split.
Qed.

Lemma full_phase n :
  o_burnin (states (b + n)) = b /\ s_counter (o_st (states (b + n))) = n /\
  full_step p e (inputs (b + n)%nat) (states (b + n)) = Ok (states (S (b + n))).
Proof.
  destruct RUN as [R0 R].
  assert (F : forall n, o_burnin (states (b + n)) = b ->
     full_step p e (inputs (b + n)%nat) (states (b + n)) = Ok (states (S (b + n)))).
  { intros m Hb. specialize (R (b + m)%nat). unfold minimize in R. rewrite Hb in R.
    change (p_burnin p) with b in R.
    rewrite Nat.ltb_irrefl in R. destruct (Nat.eqb b 0); exact R. }
  assert (K : o_burnin (states (b + n)) = b /\ s_counter (o_st (states (b + n))) = n).
  { induction n as [|n [B C]].
    - rewrite Nat.add_0_r. destruct (burnin_phase b (le_n _)) as [A [_ B]].
      rewrite A, B. split; reflexivity.
    - pose proof (full_step_inv _ _ _ (F n B)) as [A [_ [_ Bu]]].
      destruct (apply_damping _ _ _ _ _ A) as [Ct _].
      rewrite <- plus_n_Sm, Bu, Ct, damped_counter, C. split; [exact B|reflexivity]. }
  split; [apply K|]. split; [apply K|]. apply F, K.
Qed.

(* ------------------------------------------------------------------------ *)
(** * Covariances *)

Lemma nth_cov_update d st cov f : (f < length cov)%nat -> length st = length cov ->
  nth f (cov_update d st cov) (mav_init (fun _ => 0) true)
  = mav_step (nth f cov (mav_init (fun _ => 0) true)) (@MAdd I (nth f st (fun _ => 0)) d 1).
Proof.
  unfold cov_update. revert st f.
  induction cov as [|m cov IH]; intros [|v st] f Hf L; try discriminate L.
  - cbn in Hf; lia.
  - destruct f as [|f]; [reflexivity|]. cbn [zip map nth]. apply IH; [cbn in Hf; lia|].
    injection L as L. exact L.
Qed.

Section Cov.
Hypothesis GE : good_env e params0 factors.

Lemma states_shaped t : shaped params0 factors (states t).
Proof.
  destruct RUN as [R0 R]. induction t as [|t IH].
  - rewrite R0. apply initial_shaped.
  - destruct (minimize_total params0 factors GE _ (inputs t) IH) as [s' [E S]].
    rewrite (R t) in E. injection E as <-. exact S.
Qed.

Lemma stats_length t :
  length (e_stats e (s_params (o_st (states t))) (i_batch (inputs t))) = factors.
Proof.
  destruct GE as [G1 _]. destruct (states_shaped t) as [_ [P _]].
  apply (G1 _ (i_batch (inputs t)) P).
Qed.

Lemma cov_burnin f t : (f < factors)%nat -> (t <= b)%nat ->
  nth f (o_cov (states t)) (mav_init (fun _ => 0) true)
  = mav_run (mav_init (fun _ => 0) true)
      (map (fun i => MAdd (stat_at e inputs states f i) 1 1) (seq 0 t)).
Proof.
  intros Hf. destruct RUN as [R0 R]. induction t as [|t IH]; intros H.
  - rewrite R0. cbn [init initial o_cov]. cbn [seq map mav_run fold_left].
    rewrite nth_repeat. reflexivity.
  - destruct (burnin_phase t ltac:(lia)) as [A [B C]]. specialize (R t).
    unfold minimize in R. destruct (Nat.eqb_spec (p_burnin p) 0) as [Z|Z]; [unfold b in H; lia|].
    rewrite C in R. destruct (Nat.ltb_spec t (p_burnin p)) as [L|L]; [|unfold b in H; lia].
    injection R as E. rewrite <- E. unfold burnin_step. cbn [o_cov].
    destruct (states_shaped t) as [_ [_ Lc]].
    rewrite nth_cov_update; [|congruence|rewrite stats_length; congruence].
    rewrite IH by lia. rewrite seq_S, map_app. unfold mav_run. rewrite fold_left_app. reflexivity.
Qed.

Lemma multiples_S ce n : multiples_below ce (S n)
  = multiples_below ce n ++ (if Nat.eqb (Nat.modulo n ce) 0 then [n] else []).
Proof.
  unfold multiples_below. rewrite seq_S, filter_app. cbn [filter Nat.add]. reflexivity.
Qed.

Lemma cov_full f n : (f < factors)%nat ->
  nth f (o_cov (states (b + n))) (mav_init (fun _ => 0) true)
  = mav_run (mav_init (fun _ => 0) true)
      (map (fun i => MAdd (stat_at e inputs states f i) 1 1) (seq 0 b) ++
       map (fun i => MAdd (stat_at e inputs states f (b + i)) (p_ema p) 1)
           (multiples_below (p_cov_every p) n)).
Proof.
  intros Hf. induction n as [|n IH].
  - rewrite Nat.add_0_r, cov_burnin by auto. cbn [multiples_below seq filter map].
    rewrite app_nil_r. reflexivity.
  - destruct (full_phase n) as [_ [C F]].
    destruct (full_step_inv _ _ _ F) as [_ [Cv _]].
    rewrite <- plus_n_Sm, Cv. unfold new_cov. rewrite C, multiples_S.
    destruct (Nat.eqb (Nat.modulo n (p_cov_every p)) 0).
    + destruct (states_shaped (b + n)) as [_ [_ Lc]].
      rewrite nth_cov_update; [|congruence|rewrite stats_length; congruence].
      rewrite IH, map_app, app_assoc. unfold mav_run.
      rewrite (fold_left_app mav_step (_ ++ _)). reflexivity.
    + rewrite app_nil_r. exact IH.
Qed.

Lemma plain_average f t i : (f < factors)%nat -> (1 <= t <= b)%nat ->
  mav_value (nth f (o_cov (states t)) (mav_init (fun _ => 0) true)) i
  = Some (mean_to t (fun u => stat_at e inputs states f u i)).
Proof.
  intros Hf Ht. rewrite cov_burnin by (auto; lia).
  assert (K : forall n, m_norm (mav_run (mav_init (fun _ : I => 0) true)
                  (map (fun i => MAdd (stat_at e inputs states f i) 1 1) (seq 0 n))) = true /\
                m_weight (mav_run (mav_init (fun _ : I => 0) true)
                  (map (fun i => MAdd (stat_at e inputs states f i) 1 1) (seq 0 n))) = INR n /\
                m_var (mav_run (mav_init (fun _ : I => 0) true)
                  (map (fun i => MAdd (stat_at e inputs states f i) 1 1) (seq 0 n))) i
                = sum_to n (fun u => stat_at e inputs states f u i)).
  { induction n as [|n [K1 [K2 K3]]]; [repeat split|].
    rewrite seq_S, map_app. unfold mav_run in *. rewrite fold_left_app.
    cbn [map fold_left mav_step m_norm m_weight m_var Nat.add]. rewrite K1, K2, K3.
    split; [reflexivity|]. split; [rewrite S_INR; lra|]. cbn [sum_to]. lra. }
  destruct (K t) as [K1 [K2 K3]]. unfold mav_value. rewrite K1, K2, K3.
  destruct (Req_EM_T (INR t) 0) as [Z|Z]; [|reflexivity].
  exfalso. assert (0 < INR t) by (apply lt_0_INR; lia). lra.
Qed.
End Cov.

(* ------------------------------------------------------------------------ *)
(** * Inverses *)

(** The largest multiple of [ie] below [n]. *)
Lemma last_multiple_step ie n : (1 <= ie)%nat -> (1 <= n)%nat ->
  (ie * ((S n - 1) / ie))%nat
  = if Nat.eqb (Nat.modulo n ie) 0 then n else (ie * ((n - 1) / ie))%nat.
Proof.
  intros H Hn. replace (S n - 1)%nat with n by lia.
  pose proof (Nat.div_mod n ie ltac:(lia)) as D.
  destruct (Nat.eqb_spec (Nat.modulo n ie) 0) as [Z|Z]; [lia|].
  f_equal. pose proof (Nat.mod_upper_bound n ie ltac:(lia)).
  apply (Nat.div_unique (n - 1) ie (n / ie) (n mod ie - 1)); lia.
Qed.

Lemma inverse_full n : (1 <= p_invert_every p)%nat -> (1 <= n)%nat ->
  let m := (p_invert_every p * ((n - 1) / p_invert_every p))%nat in
  o_inv (states (b + n)) =
  e_invert e (o_cov (states (S (b + m)))) (s_damping (damped (inputs (b + m)%nat) (states (b + m)))).
Proof.
  intros Hi Hn. destruct n as [|n]; [lia|]. clear Hn. induction n as [|n IH].
  - cbv zeta. replace (1 - 1)%nat with 0%nat by lia. rewrite Nat.div_0_l, Nat.mul_0_r by lia.
    destruct (full_phase 0) as [_ [C F]].
    destruct (full_step_inv _ _ _ F) as [_ [Cv [Iv _]]].
    rewrite <- plus_n_Sm, Iv, C, Nat.mod_0_l by lia. cbn [Nat.eqb].
    rewrite Cv. reflexivity.
  - cbv zeta. rewrite last_multiple_step by lia.
    destruct (full_phase (S n)) as [_ [C F]].
    destruct (full_step_inv _ _ _ F) as [_ [Cv [Iv _]]].
    rewrite <- plus_n_Sm, Iv, C.
    destruct (Nat.eqb (Nat.modulo (S n) (p_invert_every p)) 0).
    + rewrite Cv. reflexivity.
    + rewrite IH. reflexivity.
Qed.

Lemma damped_value n :
  s_damping (damped (inputs (b + n)%nat) (states (b + n)))
  = if c_immediate (p_cfg p) then s_damping (o_st (states (b + n)))
    else s_damping (o_st (states (S (b + n)))).
Proof.
  destruct (full_phase n) as [_ [C F]]. destruct (full_step_inv _ _ _ F) as [A _].
  destruct (c_immediate (p_cfg p)) eqn:Im.
  - unfold damped. rewrite Im, orb_true_r. reflexivity.
  - destruct (apply_damping _ _ _ _ _ A) as [_ [_ D]]. rewrite Im in D. cbn [andb] in D.
    destruct D as [D _]. symmetry. exact D.
Qed.

Lemma inverse_schedule n : (1 <= p_invert_every p)%nat -> (1 <= n)%nat ->
  exists m d,
    (m < n /\ m mod p_invert_every p = 0 /\
     forall m', m < m' < n -> m' mod p_invert_every p <> 0)%nat /\
    d = s_damping (o_st (states (if c_immediate (p_cfg p) then b + m else S (b + m))%nat)) /\
    o_inv (states (b + n)) = e_invert e (o_cov (states (S (b + m)))) d.
Proof.
  intros Hi Hn. set (ie := p_invert_every p) in *.
  exists (ie * ((n - 1) / ie))%nat. eexists. split; [|split; [reflexivity|]].
  - pose proof (Nat.div_mod (n - 1) ie ltac:(lia)) as D.
    pose proof (Nat.mod_upper_bound (n - 1) ie ltac:(lia)) as B.
    split; [lia|]. split.
    + rewrite Nat.mul_comm. apply Nat.mod_mul. lia.
    + intros m' H Z. apply Nat.mod_divide in Z; [|lia]. destruct Z as [q Z].
      set (k := ((n - 1) / ie)%nat) in *. subst m'.
      assert (k < q)%nat by nia. assert (k + 1 <= q)%nat by lia. nia.
  - rewrite inverse_full by assumption. fold ie. f_equal. rewrite damped_value.
    destruct (c_immediate (p_cfg p)); reflexivity.
Qed.

Lemma step_uses_inverse n :
  let t := (b + n)%nat in
  exists x s,
    x_precond x = e_precond e (o_inv (states (S t))) /\
    s_params s = s_params (o_st (states t)) /\ s_vel s = s_vel (o_st (states t)) /\
    s_counter s = n /\
    apply_gradients (p_cfg p) x s (e_grads e (s_params (o_st (states t))) (i_batch (inputs t)))
    = Ok (o_st (states (S t))).
Proof.
  intros t. destruct (full_phase n) as [_ [C F]]. fold t in C, F.
  destruct (full_step_inv _ _ _ F) as [A _].
  exists (step_ctx (inputs t) (states t) (states (S t))), (damped (inputs t) (states t)).
  destruct (damped_frame (inputs t) (states t)) as [D1 [D2 _]].
  split; [reflexivity|]. split; [exact D1|]. split; [exact D2|].
  split; [rewrite damped_counter; exact C|exact A].
Qed.

Lemma burnin_only_cov (GE : good_env e params0 factors) t : (t <= b)%nat ->
  o_st (states t) = o_st (states 0%nat) /\ o_inv (states t) = inv0 /\
  ((1 <= t)%nat -> forall f i, (f < factors)%nat ->
     mav_value (nth f (o_cov (states t)) (mav_init (fun _ => 0) true)) i
     = Some (mean_to t (fun u => stat_at e inputs states f u i))).
Proof.
  intros H. destruct (burnin_phase t H) as [A [B _]].
  destruct RUN as [R0 _]. rewrite R0, A. split; [reflexivity|]. split; [exact B|].
  intros H1 f i Hf. apply plain_average; auto.
Qed.

(* ------------------------------------------------------------------------ *)
(** * Damping over a run *)

Let c := p_cfg p.
Let loss (t u : nat) : R := e_loss e (i_batch (inputs t)) (s_params (o_st (states u))).

Lemma immediate_step n : c_adapt c = true -> c_immediate c = true ->
  let t := (b + n)%nat in
  if Nat.eqb (Nat.modulo (S n) (c_interval c)) 0
  then match s_qchange (o_st (states (S t))) with
       | Some q => lm_rule c (s_damping (o_st (states t))) (loss t (S t) - loss t t) q
                     (s_damping (o_st (states (S t))))
       | None => s_damping (o_st (states (S t)))
                 = Rmax (s_damping (o_st (states t))) (c_min_damping c + c_l2 c)
       end
  else s_damping (o_st (states (S t))) = s_damping (o_st (states t)).
Proof.
  intros Ad Im t. destruct (full_phase n) as [_ [C F]].
  destruct (full_step_inv _ _ _ F) as [A _]. fold t in C, F, A.
  destruct (apply_damping _ _ _ _ _ A) as [_ [_ D]]. fold c in D.
  assert (DE : damped (inputs t) (states t) = o_st (states t)).
  { unfold damped. fold c. rewrite Im, orb_true_r. reflexivity. }
  rewrite DE, Ad, Im in D. cbn [andb] in D.
  unfold is_time in D. rewrite C, Nat.add_1_r in D.
  destruct (Nat.eqb (Nat.modulo (S n) (c_interval c)) 0); [|apply D].
  cbv zeta in D.
  assert (E : (if c_passed c
               then x_loss (step_ctx (inputs t) (states t) (states (S t)))
               else x_loss_fn (step_ctx (inputs t) (states t) (states (S t)))
                      (s_params (o_st (states t)))) = loss t t).
  { destruct (c_passed c); reflexivity. }
  rewrite E in D. exact D.
Qed.

Lemma prev_loss_at n : c_adapt c = true -> (Nat.modulo (S n) (c_interval c) = 0)%nat ->
  s_prev_loss (o_st (states (S (b + n)))) = Some (loss (b + n) (b + n)).
Proof.
  intros Ad Ti. destruct (full_phase n) as [_ [C F]].
  destruct (full_step_inv _ _ _ F) as [A _].
  destruct (apply_damping _ _ _ _ _ A) as [_ [D _]]. fold c in D.
  rewrite Ad in D. unfold is_time in D. rewrite damped_counter, C, Nat.add_1_r, Ti in D.
  cbn [Nat.eqb andb] in D. rewrite D. destruct (damped_frame (inputs (b + n)%nat) (states (b + n))) as [P _].
  rewrite P. unfold step_ctx, loss_ctx. cbn [x_loss x_loss_fn]. destruct (c_passed c); reflexivity.
Qed.

Lemma delayed_step n : c_adapt c = true -> c_immediate c = false -> c_chief c = true ->
  (1 <= c_interval c)%nat ->
  (forall t, i_prev (inputs (S t)) = i_batch (inputs t)) ->
  let t := (b + n)%nat in
  match n with
  | O => s_damping (o_st (states (S t))) = s_damping (o_st (states t))
  | S _ =>
      if Nat.eqb (Nat.modulo n (c_interval c)) 0
      then match s_qchange (o_st (states t)) with
           | Some q => lm_rule c (s_damping (o_st (states t)))
                         (loss (t - 1) t - loss (t - 1) (t - 1)) q
                         (s_damping (o_st (states (S t))))
           | None => s_damping (o_st (states (S t)))
                     = Rmax (s_damping (o_st (states t))) (c_min_damping c + c_l2 c)
           end
      else s_damping (o_st (states (S t))) = s_damping (o_st (states t))
  end.
Proof.
  intros Ad Im Ch Hi Hp t.
  pose proof (damped_value n) as DV. fold c t in DV. rewrite Im in DV. rewrite <- DV.
  destruct (full_phase n) as [_ [C _]]. fold t in C.
  unfold damped. fold c. rewrite Ad, Im, Ch. cbn [negb orb].
  unfold is_just_after_adaptation_time. rewrite C.
  destruct n as [|n].
  - rewrite Nat.eqb_refl, andb_false_r. reflexivity.
  - cbn [Nat.eqb negb]. rewrite andb_true_r.
    destruct (Nat.eqb_spec (Nat.modulo (S n) (c_interval c)) 0) as [Z|Z]; [|reflexivity].
    assert (T1 : t = S (b + n)) by (unfold t; lia).
    assert (T0 : (t - 1)%nat = (b + n)%nat) by lia.
    pose proof (prev_loss_at n Ad Z) as PL. rewrite <- T1 in PL.
    destruct (s_qchange (o_st (states t))) as [q|] eqn:Q.
    + match goal with |- context[update_damping c ?y _] =>
        pose proof (update_damping_rule c y (o_st (states t)) _ q PL Q) as U end.
      assert (E : current_loss c (loss_ctx e (inputs t)
          (e_loss e (i_batch (inputs t)) (s_params (o_st (states t)))) (o_cov (states t))
          (o_inv (states t)) (s_damping (o_st (states t))) (s_params (o_st (states t))))
          (o_st (states t)) = loss (t - 1) t).
      { unfold current_loss. rewrite Im. cbn [loss_ctx x_prev_loss_fn]. unfold loss.
        rewrite T0. assert (Hpt : i_prev (inputs t) = i_batch (inputs (b + n)%nat))
          by (rewrite T1; apply Hp). rewrite Hpt. reflexivity. }
      rewrite E in U. rewrite T0 in U |- *. exact U.
    + apply update_damping_nan. right. exact Q.
Qed.

(** In delayed mode on a worker that is not chief, and without adapt_damping, the
    damping never changes. *)
Lemma no_adaptation n : c_adapt c = false \/ (c_immediate c = false /\ c_chief c = false) ->
  s_damping (o_st (states (b + n))) = d0.
Proof.
  intros H. induction n as [|n IH].
  - rewrite Nat.add_0_r. destruct (burnin_phase b (le_n _)) as [A _]. rewrite A. reflexivity.
  - destruct (full_phase n) as [_ [_ F]]. destruct (full_step_inv _ _ _ F) as [A _].
    destruct (apply_damping _ _ _ _ _ A) as [_ [_ D]]. fold c in D.
    assert (DE : damped (inputs (b + n)%nat) (states (b + n)) = o_st (states (b + n))).
    { unfold damped. fold c. destruct H as [H|[H1 H2]]; rewrite ?H, ?H2, ?orb_true_r; reflexivity. }
    rewrite DE in D. rewrite <- plus_n_Sm.
    assert (E : c_immediate c && c_adapt c && is_time c (o_st (states (b + n))) = false).
    { destruct H as [H|[H1 _]]; rewrite ?H, ?H1, ?andb_false_r; reflexivity. }
    rewrite E in D. destruct D as [D _]. rewrite D. exact IH.
Qed.

(* ------------------------------------------------------------------------ *)
(** * Bounds over a run *)

Lemma div_step T n : (1 <= T)%nat ->
  (S n / T = n / T + if Nat.eqb (Nat.modulo (S n) T) 0 then 1 else 0)%nat.
Proof.
  intros H. pose proof (Nat.div_mod n T ltac:(lia)) as D.
  pose proof (Nat.mod_upper_bound n T ltac:(lia)) as B.
  pose proof (Nat.div_mod (S n) T ltac:(lia)) as D'.
  pose proof (Nat.mod_upper_bound (S n) T ltac:(lia)) as B'.
  destruct (Nat.eqb_spec (Nat.modulo (S n) T) 0) as [Z|Z].
  - symmetry. apply (Nat.div_unique (S n) T (n / T + 1) 0); [lia|].
    assert (Nat.modulo n T = T - 1)%nat; [|lia].
    destruct (Nat.eq_dec (n mod T) (T - 1)); [assumption|exfalso].
    assert (S n mod T = n mod T + 1)%nat; [|lia].
    symmetry. apply (Nat.mod_unique (S n) T (n / T)); lia.
  - rewrite Nat.add_0_r. symmetry.
    assert (n mod T <> T - 1)%nat.
    { intros E. apply Z. symmetry. apply (Nat.mod_unique (S n) T (n / T + 1) 0); lia. }
    apply (Nat.div_unique (S n) T (n / T) (n mod T + 1)); lia.
Qed.

(** One adaptation keeps the bounds. *)
Lemma bounds_step w f d k d' :
  0 < w <= 1 -> 0 < d0 ->
  (0 < d /\ d0 * w ^ k <= d <= Rmax d0 f / w ^ k /\ ((1 <= k)%nat -> f <= d)) ->
  f <= d' -> d * w <= d' -> d' <= Rmax d f / w -> 0 < d' ->
  0 < d' /\ d0 * w ^ (S k) <= d' <= Rmax d0 f / w ^ (S k) /\ ((1 <= S k)%nat -> f <= d').
Proof.
  intros W D [P [[L U] _]] A B Cc E.
  assert (Wk : 0 < w ^ k) by (apply pow_lt; lra).
  assert (Wk1 : w ^ k <= 1).
  { rewrite <- (pow1 k). apply pow_incr. lra. }
  split; [exact E|]. split; [|auto].
  cbn [pow]. split.
  - assert (d0 * (w * w ^ k) = d0 * w ^ k * w) by ring. rewrite H. nra.
  - eapply Rle_trans; [exact Cc|].
    assert (G : Rmax d f <= Rmax d0 f / w ^ k).
    { apply Rmax_lub; [exact U|].
      assert (f <= Rmax d0 f) by apply Rmax_r.
      assert (0 < Rmax d0 f) by (apply (Rlt_le_trans _ d0); [lra|apply Rmax_l]).
      assert (Rmax d0 f <= Rmax d0 f / w ^ k).
      { unfold Rdiv. assert (1 <= / w ^ k) by (rewrite <- Rinv_1; apply Rinv_le_contravar; lra). nra. }
      lra. }
    unfold Rdiv in *. rewrite Rinv_mult.
    replace (Rmax d0 f * (/ w * / w ^ k)) with (Rmax d0 f * / w ^ k * / w) by ring.
    apply Rmult_le_compat_r; [|exact G]. apply Rlt_le, Rinv_0_lt_compat. lra.
Qed.

Lemma immediate_bounds n : c_adapt c = true -> c_immediate c = true -> (1 <= c_interval c)%nat ->
  0 < c_omega c <= 1 -> 0 < d0 ->
  let d := s_damping (o_st (states (b + n))) in
  let k := (n / c_interval c)%nat in
  let f := c_min_damping c + c_l2 c in
  0 < d /\ d0 * c_omega c ^ k <= d <= Rmax d0 f / c_omega c ^ k /\ ((1 <= k)%nat -> f <= d).
Proof.
  intros Ad Im Hi Wo D. induction n as [|n IH]; cbv zeta in *.
  - rewrite Nat.add_0_r, Nat.div_0_l by lia.
    destruct (burnin_phase b (le_n _)) as [A _]. rewrite A. cbn [init initial o_st s_damping pow].
    split; [exact D|]. split; [|lia]. split; [lra|].
    unfold Rdiv. rewrite Rinv_1, Rmult_1_r. apply Rmax_l.
  - destruct (full_phase n) as [_ [C F]]. destruct (full_step_inv _ _ _ F) as [A _].
    assert (DE : damped (inputs (b + n)%nat) (states (b + n)) = o_st (states (b + n))).
    { unfold damped. fold c. rewrite Im, orb_true_r. reflexivity. }
    rewrite DE in A. destruct IH as [P IH].
    pose proof (apply_damping_bounds _ _ _ _ _ A Wo P) as B. fold c in B.
    rewrite Ad, Im in B. cbn [andb] in B. unfold is_time in B. rewrite C, Nat.add_1_r in B.
    rewrite <- plus_n_Sm, div_step by exact Hi.
    destruct (Nat.eqb (Nat.modulo (S n) (c_interval c)) 0).
    + destruct B as [B1 [B2 [B3 B4]]]. rewrite Nat.add_1_r.
      apply (bounds_step _ _ (s_damping (o_st (states (b + n))))); auto.
    + rewrite Nat.add_0_r, B. split; [exact P|exact IH].
Qed.

Lemma delayed_bounds n : c_adapt c = true -> c_immediate c = false -> c_chief c = true ->
  (1 <= c_interval c)%nat -> 0 < c_omega c <= 1 -> 0 < d0 ->
  let d := s_damping (o_st (states (S (b + n)))) in
  let k := (n / c_interval c)%nat in
  let f := c_min_damping c + c_l2 c in
  0 < d /\ d0 * c_omega c ^ k <= d <= Rmax d0 f / c_omega c ^ k /\ ((1 <= k)%nat -> f <= d).
Proof.
  intros Ad Im Ch Hi Wo D.
  assert (ST : forall n, let s := states (b + n) in
     s_damping (o_st (states (S (b + n)))) =
     if Nat.eqb (Nat.modulo n (c_interval c)) 0 && negb (Nat.eqb n 0)
     then s_damping (update_damping c (loss_ctx e (inputs (b + n)%nat)
              (e_loss e (i_batch (inputs (b + n)%nat)) (s_params (o_st s)))
              (o_cov s) (o_inv s) (s_damping (o_st s)) (s_params (o_st s))) (o_st s))
     else s_damping (o_st s)).
  { intros m s. pose proof (damped_value m) as DV. fold c in DV. rewrite Im in DV.
    rewrite <- DV. unfold damped. fold c. rewrite Ad, Im, Ch. cbn [negb orb].
    unfold is_just_after_adaptation_time. destruct (full_phase m) as [_ [C _]].
    fold s. unfold s at 1 2. rewrite C. destruct (_ && _); reflexivity. }
  induction n as [|n IH]; cbv zeta in *.
  - rewrite ST, Nat.eqb_refl, andb_false_r, Nat.add_0_r, Nat.div_0_l by lia.
    destruct (burnin_phase b (le_n _)) as [A _]. rewrite A. cbn [init initial o_st s_damping pow].
    split; [exact D|]. split; [|lia]. split; [lra|].
    unfold Rdiv. rewrite Rinv_1, Rmult_1_r. apply Rmax_l.
  - rewrite ST. replace (b + S n)%nat with (S (b + n)) by lia.
    cbn [Nat.eqb negb]. rewrite andb_true_r, div_step by exact Hi.
    destruct IH as [P IH].
    destruct (Nat.eqb (Nat.modulo (S n) (c_interval c)) 0).
    + rewrite Nat.add_1_r.
      match goal with |- context[update_damping c ?y ?z] =>
        pose proof (update_damping_bounds c y z Wo P) as B end.
      cbv zeta in B. destruct B as [B1 [B2 [B3 B4]]].
      apply (bounds_step _ _ (s_damping (o_st (states (S (b + n)))))); auto.
    + rewrite Nat.add_0_r. split; [exact P|exact IH].
Qed.
End Run.
