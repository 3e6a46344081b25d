(** C02, the meaning of cov_ema_decay: in the periodic optimizer a decay that is passed counts per
    iteration, whatever the interval of the covariance updates, the default counts per update. *)
From Coq Require Import String List Arith Bool Reals Lra Lia.
From Verif.Base Require Import Py.
From Verif.Tensors Require Import Model.
From Verif.Train Require Import Model Spec WitnessProofs Props.
Import ListNotations.
Open Scope list_scope.
Open Scope R_scope.

Lemma multiples_run k m r : (1 <= k)%nat -> (r < k)%nat ->
  multiples_below k (k * m + 1 + r) = map (fun j => (k * j)%nat) (seq 0 (S m)).
Proof.
  intros K Hr. unfold multiples_below.
  assert (A : forall l len, (0 < l mod k)%nat -> (l mod k + len <= k)%nat ->
            filter (fun i => Nat.eqb (i mod k) 0) (seq l len) = []).
  { intros l len. revert l. induction len as [|len IH]; intros l H1 H2; [reflexivity|]. cbn [seq filter].
    destruct (Nat.eqb_spec (l mod k) 0); [lia|].
    destruct len as [|len]; [reflexivity|].
    assert (E : (S l mod k = S (l mod k))%nat).
    { symmetry. apply Nat.mod_unique with (q := (l / k)%nat); [lia|]. pose proof (Nat.div_mod l k). lia. }
    apply IH; rewrite E; lia. }
  assert (B : forall m, (k * m mod k = 0)%nat) by (intro; rewrite Nat.mul_comm; apply Nat.mod_mul; lia).
  assert (C : forall m r, (r < k)%nat -> filter (fun i => Nat.eqb (i mod k) 0) (seq (k * m) (1 + r)) = [(k * m)%nat]).
  { intros m' r' H. cbn [Nat.add seq filter]. rewrite B. cbn [Nat.eqb]. f_equal.
    destruct r' as [|r']; [reflexivity|].
    assert (E : (S (k * m') mod k = 1)%nat).
    { symmetry. apply Nat.mod_unique with (q := m'); lia. }
    apply A; rewrite E; lia. }
  replace (k * m + 1 + r)%nat with (k * m + (1 + r))%nat by lia.
  rewrite seq_app, filter_app, Nat.add_0_l, C by exact Hr.
  rewrite seq_S, map_app. f_equal.
  clear Hr r. induction m as [|m IH]; [now rewrite Nat.mul_0_r|].
  replace (k * S m)%nat with (k * m + (1 + (k - 1)))%nat by lia.
  rewrite seq_app, filter_app, Nat.add_0_l, C, IH, seq_S, map_app by lia. reflexivity.
Qed.

Section Weights.
Context {I : Type}.
Lemma burnin_run (x : nat -> I -> R) i b :
  let r := mav_run (mav_init (fun _ => 0) true) (map (fun t => MAdd (x t) 1 1) (seq 0 b)) in
  m_norm r = true /\ m_var r i = sum_to b (fun t => x t i) /\ m_weight r = INR b.
Proof.
  induction b as [|b (N & V & W)]; [repeat split|].
  cbn zeta in *. rewrite seq_S, map_app. unfold mav_run in *. rewrite fold_left_app.
  cbn [map fold_left mav_step m_norm m_weight m_var Nat.add]. rewrite N, V, W.
  split; [reflexivity|]. split; [cbn [sum_to]; lra|rewrite S_INR; lra].
Qed.
Lemma sum_to_ext n f g : (forall j, (j < n)%nat -> f j = g j) -> sum_to n f = sum_to n g.
Proof. induction n as [|n IH]; intros H; cbn; [reflexivity|]. rewrite IH, (H n) by auto with arith. reflexivity. Qed.
Lemma sum_to_mul n f a : sum_to n (fun j => a * f j) = a * sum_to n f.
Proof. induction n as [|n IH]; cbn; [lra|]. rewrite IH. lra. Qed.
Lemma decayed_run (y : nat -> I -> R) (q : R) i (a : mav I) m :
  let r := mav_run a (map (fun j => MAdd (y j) q 1) (seq 0 m)) in
  m_norm r = m_norm a /\
  m_var r i = q ^ m * m_var a i + sum_to m (fun j => q ^ (m - 1 - j) * y j i) /\
  m_weight r = q ^ m * m_weight a + sum_to m (fun j => q ^ (m - 1 - j)).
Proof.
  induction m as [|m (N & V & W)]; [cbn; repeat split; lra|].
  cbn zeta in *. rewrite seq_S, map_app. unfold mav_run in *. rewrite fold_left_app.
  cbn [map fold_left mav_step m_norm m_weight m_var Nat.add]. rewrite N, V, W.
  split; [reflexivity|]. cbn [sum_to pow].
  replace (S m - 1 - m)%nat with 0%nat by lia. cbn [pow].
  assert (E : forall j, (j < m)%nat -> q ^ (S m - 1 - j) = q * q ^ (m - 1 - j)).
  { intros j J. replace (S m - 1 - j)%nat with (S (m - 1 - j)) by lia. reflexivity. }
  split.
  - rewrite (sum_to_ext m (fun j => q ^ (S m - 1 - j) * y j i) (fun j => q * (q ^ (m - 1 - j) * y j i)))
      by (intros j J; rewrite E by exact J; lra).
    rewrite sum_to_mul. lra.
  - rewrite (sum_to_ext m (fun j => q ^ (S m - 1 - j)) (fun j => q * q ^ (m - 1 - j))) by exact E.
    rewrite sum_to_mul. lra.
Qed.
End Weights.

Lemma sum_to_pos n f : (forall j, 0 < f j) -> 0 < sum_to (S n) f.
Proof. intros H. induction n as [|n IH]; [cbn; specialize (H 0%nat); lra|]. cbn [sum_to] in *. specialize (H (S n)). lra. Qed.

(** The value of every factor, after [k * m + 1 + r] executions that follow the burn-in ([k] is
    cov_update_every and [r < k]), is the weighted mean of the statistics it has read; the weight of
    those of the update [j] is the estimator's decay to the number of updates since then. *)
Lemma decay_value :
  forall (Batch I Inv : Type) (p : pcfg) (e : env Batch I Inv) params0 d0 factors inv0 inputs states f m r i,
    good_env e params0 factors -> is_run p e (initial params0 d0 factors inv0) inputs states -> (f < factors)%nat ->
    (1 <= p_cov_every p)%nat -> (r < p_cov_every p)%nat -> 0 < p_ema p ->
    mav_value (nth f (o_cov (states (p_burnin p + (p_cov_every p * m + 1 + r))%nat)) (mav_init (fun _ => 0) true)) i
    = Some ((p_ema p ^ S m * sum_to (p_burnin p) (fun t => stat_at e inputs states f t i) +
             sum_to (S m) (fun j => p_ema p ^ (m - j) * stat_at e inputs states f (p_burnin p + p_cov_every p * j) i)) /
            (p_ema p ^ S m * INR (p_burnin p) + sum_to (S m) (fun j => p_ema p ^ (m - j)))).
Proof.
  intros Batch I Inv p e params0 d0 factors inv0 inputs states f m r i GE RUN Hf K Hr Q.
  destruct (C02_covariance_schedule _ _ _ p e params0 d0 factors inv0 inputs states f
              (p_cov_every p * m + 1 + r) GE RUN Hf) as [_ ->].
  rewrite multiples_run, map_map by assumption.
  unfold mav_run. rewrite fold_left_app.
  fold (mav_run (mav_init (fun _ : I => 0) true) (map (fun i => MAdd (stat_at e inputs states f i) 1 1) (seq 0 (p_burnin p)))).
  destruct (burnin_run (fun t => stat_at e inputs states f t) i (p_burnin p)) as (N & V & W).
  set (a := mav_run _ _) in *. cbn zeta in *.
  fold (mav_run a (map (fun x => MAdd (stat_at e inputs states f (p_burnin p + p_cov_every p * x)) (p_ema p) 1) (seq 0 (S m)))).
  destruct (decayed_run (fun x => stat_at e inputs states f (p_burnin p + p_cov_every p * x)) (p_ema p) i a (S m))
    as (N' & V' & W').
  unfold mav_value. rewrite N', N, V', W', V, W.
  replace (S m - 1)%nat with m by lia.
  destruct (Req_EM_T _ 0) as [Z|Z]; [|reflexivity]. exfalso.
  assert (0 < sum_to (S m) (fun j => p_ema p ^ (m - j))) by (apply sum_to_pos; intro; apply pow_lt, Q).
  assert (0 <= p_ema p ^ S m * INR (p_burnin p)) by (apply Rmult_le_pos; [left; apply pow_lt, Q|apply pos_INR]).
  lra.
Qed.

(** A decay [d] that is passed counts per iteration: whatever the interval, statistics that were
    read [t] iterations before the last update have the weight [d ^ t], and those of the burn-in
    count as read one interval before the first. *)
Theorem C02_passed_decay_per_iteration :
  forall (Batch I Inv : Type) (p : pcfg) (e : env Batch I Inv) params0 d0 factors inv0 inputs states f m r i d default,
    let k := p_cov_every p in let b := p_burnin p in
    good_env e params0 factors -> is_run p e (initial params0 d0 factors inv0) inputs states -> (f < factors)%nat ->
    (1 <= k)%nat -> (r < k)%nat -> 0 < d -> p_ema p = effective_cov_ema_decay (Some d) default k ->
    mav_value (nth f (o_cov (states (b + (k * m + 1 + r))%nat)) (mav_init (fun _ => 0) true)) i
    = Some ((sum_to b (fun t => d ^ (k * m + k) * stat_at e inputs states f t i) +
             sum_to (S m) (fun j => d ^ (k * m - k * j) * stat_at e inputs states f (b + k * j) i)) /
            (sum_to b (fun _ => d ^ (k * m + k)) + sum_to (S m) (fun j => d ^ (k * m - k * j)))).
Proof.
  intros Batch I Inv p e params0 d0 factors inv0 inputs states f m r i d default k b GE RUN Hf K Hr D E.
  assert (P : 0 < p_ema p) by (rewrite E; apply pow_lt, D).
  unfold k, b. rewrite (decay_value _ _ _ p e params0 d0 factors inv0 inputs states f m r i GE RUN Hf K Hr P).
  rewrite E. cbn [effective_cov_ema_decay]. fold k b.
  assert (X : forall n, (d ^ k) ^ n = d ^ (k * n)) by (intro n; symmetry; apply pow_mult).
  rewrite !X, sum_to_mul.
  replace (k * S m)%nat with (k * m + k)%nat by lia.
  assert (Y : forall n c, sum_to n (fun _ => c) = c * INR n).
  { induction n as [|n IH]; intro c; [cbn; lra|]. cbn [sum_to]. rewrite IH, S_INR. lra. }
  rewrite Y. f_equal. f_equal; f_equal; apply sum_to_ext; intros j _; rewrite X, Nat.mul_sub_distr_l; reflexivity.
Qed.
Print Assumptions C02_passed_decay_per_iteration.

(** The default counts per covariance update: the weight depends on the number of updates since
    then, so the same default forgets [k] times more slowly, per iteration, with the interval [k]. *)
Theorem C02_default_decay_per_update :
  forall (Batch I Inv : Type) (p : pcfg) (e : env Batch I Inv) params0 d0 factors inv0 inputs states f m r i default,
    let k := p_cov_every p in let b := p_burnin p in
    good_env e params0 factors -> is_run p e (initial params0 d0 factors inv0) inputs states -> (f < factors)%nat ->
    (1 <= k)%nat -> (r < k)%nat -> 0 < default -> p_ema p = effective_cov_ema_decay None default k ->
    mav_value (nth f (o_cov (states (b + (k * m + 1 + r))%nat)) (mav_init (fun _ => 0) true)) i
    = Some ((default ^ S m * sum_to b (fun t => stat_at e inputs states f t i) +
             sum_to (S m) (fun j => default ^ (m - j) * stat_at e inputs states f (b + k * j) i)) /
            (default ^ S m * INR b + sum_to (S m) (fun j => default ^ (m - j)))).
Proof.
  intros Batch I Inv p e params0 d0 factors inv0 inputs states f m r i default k b GE RUN Hf K Hr D E.
  cbn [effective_cov_ema_decay] in E. rewrite <- E. apply (decay_value _ _ _ p e params0 d0 factors inv0); auto. rewrite E. exact D.
Qed.
Print Assumptions C02_default_decay_per_update.

(** The example of C02 has the interval 2; some [d] gives its decay. *)
Example C02_decay_example :
  good_env w_env w_params 1 /\ (1 < p_cov_every (w_pcfg false))%nat /\
  (exists states, is_run (w_pcfg false) w_env (initial w_params 1 1 0) w_inputs states) /\
  (exists d, 0 < d /\ p_ema (w_pcfg false) = effective_cov_ema_decay (Some d) (95/100) (p_cov_every (w_pcfg false))).
Proof.
  split; [apply w_good|]. split; [cbn; lia|]. split; [apply w_run|].
  exists (sqrt (p_ema (w_pcfg false))). assert (0 < p_ema (w_pcfg false)) by (cbn; lra).
  split; [now apply sqrt_lt_R0|]. cbn [effective_cov_ema_decay p_cov_every w_pcfg]. cbn [pow].
  rewrite Rmult_1_r. symmetry. apply sqrt_sqrt. lra.
Qed.
