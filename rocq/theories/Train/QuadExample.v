(** A run that meets the hypotheses of C117: least squares with two parameters,
    one training example per mini-batch, in turn. *)
From Coq Require Import List Arith Bool Reals Lra Lia.
From Verif.Base Require Import Py.
From Verif.Tensors Require Import Model.
From Verif.Train Require Import Model Spec VecProofs CtorProofs StepProofs QmodelProofs
  MomentumProofs PeriodicProofs WitnessProofs QuadSpec QuadProofs.
Import ListNotations.
Open Scope list_scope.
Open Scope R_scope.

Definition ls_coord (b : nat) : nat := if Nat.even b then 0 else 1.
Definition ls_pick (b : nat) (r : R) : vec := if Nat.even b then [r; 0] else [0; r].
Definition ls_env : env nat unit unit :=
  mkEnv (fun params b => [(ls_pick b (coord (ls_coord b) (params 0%nat)), 0%nat)])
        (fun b params => 1/2 * coord (ls_coord b) (params 0%nat) ^ 2)
        (fun _ _ => [fun _ => 1])
        (fun _ _ => tt) (fun _ l => l) (fun _ _ _ l => l)
        (fun _ b u => match u with [v] => [[coord (ls_coord b) v]] | _ => [[0]] end).
Definition ls_params : nat -> vec := fun _ => [3; -2].
Definition ls_cfg (immediate : bool) : cfg :=
  mkCfg Qmodel 1 0 None false 0 None 1 true immediate true true (19/20) 5 (1/100) 0 (3/4) (1/4) false.
Definition ls_pcfg (immediate : bool) : pcfg := mkP (ls_cfg immediate) 10 2 3 (19/20).
Definition ls_inputs (t : nat) : input nat := mkIn t (t - 1)%nat (Nat.even t).

Lemma ls_two (v : vec) : length v = 2%nat -> exists a b, v = [a; b].
Proof.
  destruct v as [|a [|b [|? ?]]]; intros H; try discriminate H. exists a, b. reflexivity.
Qed.

Lemma ls_good : good_env ls_env ls_params 1.
Proof.
  split; [|split].
  - intros params b H. split; [discriminate|]. split; [|split; [|reflexivity]].
    + split; [cbn; constructor; [intros []|constructor]|].
      intros v k [E|[]]. injection E as <- <-. unfold ls_pick. destruct (Nat.even b); reflexivity.
    + cbn [ls_env e_mft e_grads map fst].
      assert (L : length (ls_pick b (coord (ls_coord b) (params 0%nat))) = 2%nat)
        by (unfold ls_pick; destruct (Nat.even b); reflexivity).
      assert (T : forall u, same_shape u [ls_pick b (coord (ls_coord b) (params 0%nat))] ->
                  exists p q, u = [[p; q]]).
      { intros u S. unfold same_shape in S. cbn [map] in S. rewrite L in S.
        destruct u as [|v [|? ?]]; try discriminate S. injection S as S.
        destruct (ls_two v S) as [p [q ->]]. exists p, q. reflexivity. }
      split.
      * intros u S. destruct (T u S) as [p [q ->]]. split; [reflexivity|discriminate].
      * intros a u b' v S1 S2. destruct (T u S1) as [p [q ->]]. destruct (T v S2) as [p' [q' ->]].
        unfold comb, ls_coord. cbn [zip map fst snd]. destruct (Nat.even b); reflexivity.
  - intros inv l. split; reflexivity.
  - intros cov inv d l. split; reflexivity.
Qed.

Lemma ls_quadratic : quadratic_env ls_env ls_params 1 0.
Proof.
  intros params b L p' Lp _.
  destruct (ls_two (params 0%nat) (L 0%nat)) as [p [q E]].
  destruct (ls_two (p' 0%nat)) as [p1 [q1 E1]]; [rewrite Lp; apply L|].
  cbn [ls_env e_loss e_mft e_grads map fst snd]. unfold displacement, quad, ls_coord, ls_pick.
  cbn [map]. rewrite E, E1. cbn [zip map fst snd]. unfold inner, coord.
  destruct (Nat.even b); cbn [length sum_to nth]; field.
Qed.

Lemma ls_mode im : c_immediate (ls_cfg im) = true \/
  (c_immediate (ls_cfg im) = false /\ c_chief (ls_cfg im) = true /\
   forall t, i_prev (ls_inputs (S t)) = i_batch (ls_inputs t)).
Proof.
  destruct im; [left; reflexivity|right]. split; [reflexivity|]. split; [reflexivity|].
  intros t. cbn. lia.
Qed.

Section Run.
Variables (im : bool) (states : nat -> pst unit unit).
Hypothesis RUN : is_run (ls_pcfg im) ls_env (initial ls_params (1/2) 1 tt) ls_inputs states.

(** Both residuals stay away from zero, and the velocity is zero where the next
    gradient is not. *)
Definition ls_inv (n : nat) : Prop :=
  exists a b u w,
    s_params (o_st (states (3 + n)%nat)) 0%nat = [a; b] /\ a <> 0 /\ b <> 0 /\
    s_vel (o_st (states (3 + n)%nat)) 0%nat = [u; w] /\
    (if Nat.even (3 + n) then u = 0 else w = 0).

Lemma ls_used n : 0 < damping_used (ls_cfg im) states (3 + n).
Proof.
  apply (used_bounds (ls_pcfg im) ls_env ls_params (1/2) 1 tt ls_inputs states RUN); cbn; try lra;
    try reflexivity; try lia.
  destruct im; [left; reflexivity|right]. split; [reflexivity|]. split; [reflexivity|]. intros t. lia.
Qed.

Lemma ls_solvable_of n : ls_inv n -> solvable_step (ls_cfg im) ls_env ls_inputs states (3 + n).
Proof.
  intros [a [b [u [w [P [Na [Nb [V Z]]]]]]]]. unfold solvable_step. cbv zeta.
  pose proof (ls_used n) as L. set (lam := damping_used (ls_cfg im) states (3 + n)) in *.
  left. cbn [ls_env e_grads e_precond e_mft map fst snd].
  change (i_batch (ls_inputs (3 + n))) with (3 + n)%nat.
  unfold ls_pick, ls_coord, previous_update. cbn [map]. rewrite P, V.
  destruct (Nat.even (3 + n)).
  - subst u. unfold curvature, comb, inner, coord. cbn. split; [ring|]. 
    assert (0 < a * a) by nra. replace (_ + _) with (a * a * (1 + lam)) by (cbn; field). nra.
  - subst w. unfold curvature, comb, inner, coord. cbn. split; [ring|].
    assert (0 < b * b) by nra. replace (_ + _) with (b * b * (1 + lam)) by (cbn; field). nra.
Qed.

Lemma ls_next n : ls_inv n -> ls_inv (S n).
Proof.
  intros H. pose proof (ls_solvable_of n H) as SV.
  destruct H as [a [b [u [w [P [Na [Nb [V Z]]]]]]]].
  destruct (full_phase (ls_pcfg im) ls_env ls_params (1/2) 1 tt ls_inputs states RUN n) as [_ [_ F]].
  change (p_burnin (ls_pcfg im)) with 3%nat in F.
  destruct (full_step_inv (ls_pcfg im) ls_env _ _ _ F) as [A _].
  pose proof (states_shaped (ls_pcfg im) ls_env ls_params (1/2) 1 tt ls_inputs states RUN ls_good (3 + n)) as Sh.
  destruct (shaped_ctx (ls_pcfg im) ls_env ls_params 1 ls_good (ls_inputs (3 + n)%nat) _
              (states (S (3 + n))) Sh) as [W G].
  destruct (damped_frame (ls_pcfg im) ls_env (ls_inputs (3 + n)%nat) (states (3 + n)%nat)) as [E1 [E2 _]].
  pose proof (used_damped (ls_pcfg im) ls_env ls_params (1/2) 1 tt ls_inputs states RUN n) as U.
  change (p_burnin (ls_pcfg im)) with 3%nat in U. change (p_cfg (ls_pcfg im)) with (ls_cfg im) in *.
  pose proof (ls_used n) as L. unfold solvable_step in SV. cbv zeta in SV. rewrite <- U in *.
  set (x := step_ctx (ls_pcfg im) ls_env (ls_inputs (3 + n)%nat) (states (3 + n)%nat) (states (S (3 + n)))) in *.
  set (s := damped (ls_pcfg im) ls_env (ls_inputs (3 + n)%nat) (states (3 + n)%nat)) in *.
  set (g := e_grads ls_env (s_params (o_st (states (3 + n)%nat))) (i_batch (ls_inputs (3 + n)%nat))) in *.
  set (lam := s_damping s) in *.
  assert (Gv : g = [(ls_pick (3 + n) (if Nat.even (3 + n) then a else b), 0%nat)]).
  { unfold g. cbn [ls_env e_grads]. change (i_batch (ls_inputs (3 + n))) with (3 + n)%nat.
    rewrite P. unfold ls_coord. destruct (Nat.even (3 + n)); reflexivity. }
  assert (Pv : previous_update s (map snd g) = [[-1 * u; -1 * w]]).
  { rewrite Gv. unfold previous_update. cbn [map snd]. rewrite E2, V. reflexivity. }
  assert (Pg : x_precond x g = g) by reflexivity.
  set (r := if Nat.even (3 + n) then a else b) in *.
  assert (Nr : r <> 0) by (unfold r; destruct (Nat.even (3 + n)); assumption).
  assert (C0 : v0 (qc x s g) = r * r /\ v1 (qc x s g) = 0).
  { unfold qc. rewrite Pg, Pv, Gv. cbn [v0 v1 map fst]. unfold ls_pick, inner, coord.
    destruct (Nat.even (3 + n)); subst; cbn; split; ring. }
  assert (C1 : m00 (qm (ls_cfg im) x s g) = r * r * (1 + lam)).
  { unfold qm. rewrite Pg, Gv. cbn [m00 map fst].
    change (x_mft x) with (fun v : list vec => match v with [v0] => [[coord (ls_coord (3 + n)) v0]] | _ => [[0]] end).
    cbv beta iota. change (c_batch_size (ls_cfg im)) with 1. fold lam.
    unfold ls_pick, inner, coord, ls_coord. destruct (Nat.even (3 + n)); cbn; field. }
  destruct C0 as [C0 C0'].
  assert (R2 : 0 < r * r) by nra.
  assert (HC : exists q, compute_qmodel_hyperparams (ls_cfg im) s (qm (ls_cfg im) x s g) (qc x s g) (qb x s g)
            (fixed_mu_of (ls_cfg im)) = (- (1 / (1 + lam)), 0, q)).
  { unfold compute_qmodel_hyperparams. rewrite C0'. destruct (Req_EM_T 0 0) as [_|N]; [|exfalso; apply N; reflexivity].
    unfold zero_prevupd_case. eexists. cbn [fixed_mu_of ls_cfg c_mtype].
    rewrite C0, C1. replace (- (r * r) / (r * r * (1 + lam))) with (- (1 / (1 + lam))).
    - reflexivity.
    - field. split; [lra|exact Nr]. }
  destruct HC as [q HC].
  destruct (qmodel_step (ls_cfg im) x s g _ _ _ (or_introl eq_refl) W G HC)
    as [s' [A' [_ [_ [_ [_ [Lv [Lp [Vs Dp]]]]]]]]].
  specialize (Dp eq_refl).
  assert (Es : s' = o_st (states (S (3 + n)))) by congruence. subst s'.
  rewrite Pg, Pv in Dp. change (c_lr (ls_cfg im)) with 1 in Dp.
  set (s1 := o_st (states (S (3 + n)))) in *.
  destruct (ls_two (s_params s1 0%nat)) as [a' [b' P1]]; [rewrite Lp, E1, P; reflexivity|].
  destruct (ls_two (s_vel s1 0%nat)) as [u' [w' V1]]; [rewrite Lv, E2, V; reflexivity|].
  assert (In0 : In 0%nat (map snd g)) by (rewrite Gv; left; reflexivity).
  pose proof (Vs 0%nat 0%nat In0) as V0'. pose proof (Vs 0%nat 1%nat In0) as V1'.
  rewrite Pg, Gv in V0', V1'. rewrite V1, E2, V in V0', V1'. cbn [entry_of Nat.eqb] in V0', V1'.
  rewrite Gv in Dp. cbn [map fst snd] in Dp. unfold displacement in Dp. cbn [map] in Dp.
  rewrite E1, P, P1 in Dp. unfold comb in Dp.
  exists a', b', u', w'. unfold ls_inv. replace (3 + S n)%nat with (S (3 + n)) by lia. fold s1.
  rewrite Nat.even_succ, <- Nat.negb_even.
  assert (K : forall y, y <> 0 -> y - 1 / (1 + lam) * y <> 0).
  { intros y Ny. replace (y - 1 / (1 + lam) * y) with (y * (lam / (1 + lam))) by (field; lra).
    apply Rmult_integral_contrapositive_currified; [exact Ny|].
    assert (0 < lam / (1 + lam)) by (apply Rdiv_lt_0_compat; lra). lra. }
  set (k := 1 / (1 + lam)) in *. clearbody k.
  unfold r, ls_pick in *. destruct (Nat.even (3 + n)); cbn [negb]; cbn [zip map fst snd] in Dp;
    injection Dp as D1 D2; (split; [exact P1|]).
  - subst u. split; [|split; [|split; [exact V1|]]].
    + replace a' with (a - k * a) by (replace a' with (a + (a' - a)) by ring; rewrite D1; ring). apply K, Na.
    + replace b' with b by lra. exact Nb.
    + unfold coord in V1'. cbn in V1'. lra.
  - subst w. split; [|split; [|split; [exact V1|]]].
    + replace a' with a by lra. exact Na.
    + replace b' with (b - k * b) by (replace b' with (b + (b' - b)) by ring; rewrite D2; ring). apply K, Nb.
    + unfold coord in V0'. cbn in V0'. lra.
Qed.

Lemma ls_always n : ls_inv n.
Proof.
  induction n as [|n IH]; [|apply ls_next, IH].
  destruct (burnin_phase (ls_pcfg im) ls_env ls_params (1/2) 1 tt ls_inputs states RUN 3 (le_n _)) as [A _].
  exists 3, (-2), 0, 0. unfold ls_inv. cbn [Nat.add]. rewrite A. cbn.
  split; [reflexivity|]. split; [lra|]. split; [lra|]. split; reflexivity.
Qed.

Lemma ls_solvable n : solvable_step (ls_cfg im) ls_env ls_inputs states (3 + n).
Proof. apply ls_solvable_of, ls_always. Qed.
End Run.

Lemma ls_slope im states : is_run (ls_pcfg im) ls_env (initial ls_params (1/2) 1 tt) ls_inputs states ->
  forall n, slope ls_env ls_inputs states (3 + n) <> 0.
Proof.
  intros RUN n. destruct (ls_always im states RUN n) as [a [b [u [w [P [Na [Nb _]]]]]]].
  unfold slope. cbn [ls_env e_grads e_precond map fst snd].
  change (i_batch (ls_inputs (3 + n))) with (3 + n)%nat. rewrite P.
  unfold ls_pick, ls_coord. destruct (Nat.even (3 + n)); unfold inner, coord; cbn; nra.
Qed.

(* ------------------------------------------------------------------------ *)
(** * One scalar parameter *)

Definition sc_cfg : cfg :=
  mkCfg Qmodel 1 0 None false 0 None 1 false false true true (19/20) 5 0 0 (3/4) (1/4) false.
Definition sc_ctx : ctx := mkCtx (fun l => l) (fun l => l) (fun u => u) 0 (fun _ => 0) (fun _ => 0).
Definition sc_st : st := mkSt (fun _ => [1]) (fun _ => [0]) 1 NaN None None None None 0.
Definition sc_loss (p : nat -> vec) : R := 1/2 * coord 0 (p 0%nat) ^ 2.

Lemma one_inv (u v : list vec) r : same_shape u [[r]] -> exists a, u = [[a]].
Proof.
  unfold same_shape. cbn. destruct u as [|[|a [|? ?]] [|? ?]]; intros H; try discriminate H.
  exists a. reflexivity.
Qed.

Lemma sc_good r : good_ctx sc_ctx [([r], 0%nat)].
Proof.
  split; [apply shape_id|]. split; [apply shape_id|].
  cbn [sc_ctx x_mft map fst]. split.
  - intros u S. split; [exact S|]. intros ->. discriminate S.
  - reflexivity.
Qed.

Lemma sc_quadratic s r : s_params s 0%nat = [r] ->
  quadratic_at sc_loss (x_mft sc_ctx) (c_batch_size sc_cfg) (c_l2 sc_cfg) (s_params s) [([r], 0%nat)].
Proof.
  intros E p' L _. cbn [map fst snd sc_ctx x_mft sc_cfg c_batch_size c_l2].
  specialize (L 0%nat). rewrite E in L.
  unfold sc_loss, displacement, quad. cbn [map]. rewrite E.
  destruct (p' 0%nat) as [|q [|? ?]]; try discriminate L.
  unfold inner, coord. cbn. field.
Qed.

Lemma sc_step : exists s1,
  apply_gradients sc_cfg sc_ctx sc_st [([1], 0%nat)] = Ok s1 /\
  s_params s1 0%nat = [1/2] /\ s_vel s1 0%nat = [1/2] /\
  (forall k, length (s_vel s1 k) = 1%nat) /\ (forall k, length (s_params s1 k) = 1%nat).
Proof.
  set (g := [([1], 0%nat)] : pairs).
  assert (W : well_shaped sc_st g).
  { split; [discriminate|]. split; [|intros; reflexivity].
    split; [cbn; constructor; [intros []|constructor]|].
    intros v k [E|[]]. injection E as <- <-. reflexivity. }
  assert (HC : exists q, compute_qmodel_hyperparams sc_cfg sc_st (qm sc_cfg sc_ctx sc_st g)
      (qc sc_ctx sc_st g) (qb sc_ctx sc_st g) (fixed_mu_of sc_cfg) = (- (1 / 2), 0, q)).
  { unfold compute_qmodel_hyperparams.
    assert (Z : v1 (qc sc_ctx sc_st g) = 0) by (unfold qc, inner, coord; cbn; ring).
    rewrite Z. destruct (Req_EM_T 0 0) as [_|N]; [|exfalso; apply N; reflexivity].
    unfold zero_prevupd_case. eexists. cbn [fixed_mu_of sc_cfg c_mtype].
    assert (C0 : v0 (qc sc_ctx sc_st g) = 1) by (unfold qc, inner, coord; cbn; ring).
    assert (C1 : m00 (qm sc_cfg sc_ctx sc_st g) = 2) by (unfold qm, inner, coord; cbn; field).
    rewrite C0, C1. replace (- (1) / 2) with (- (1 / 2)) by field. reflexivity. }
  destruct HC as [q HC].
  destruct (qmodel_step sc_cfg sc_ctx sc_st g _ _ _ (or_introl eq_refl) W (sc_good 1) HC)
    as [s1 [A [_ [_ [_ [_ [Lv [Lp [Vs Dp]]]]]]]]].
  specialize (Dp eq_refl). exists s1. split; [exact A|].
  specialize (Vs 0%nat 0%nat (or_introl eq_refl)).
  pose proof (Lv 0%nat) as L1. pose proof (Lp 0%nat) as L2. cbn in L1, L2.
  split; [|split; [|split; [exact Lv|exact Lp]]].
  - unfold displacement in Dp. cbn [g map snd fst sc_st s_params] in Dp.
    destruct (s_params s1 0%nat) as [|a [|? ?]]; try discriminate L2.
    cbn in Dp. injection Dp as Dp. f_equal. lra.
  - destruct (s_vel s1 0%nat) as [|a [|? ?]]; try discriminate L1.
    cbn in Vs. unfold coord in Vs. cbn in Vs. f_equal. lra.
Qed.

(** The second step of a model with one scalar parameter. *)
Lemma one_parameter_singular : exists c x s g1 s1 g2 loss,
  c_mtype c = Qmodel /\ qmodel_lr c /\ c_use_wd c = false /\ c_incl c = false /\
  0 < s_damping s /\ (forall k j, coord j (s_vel s k) = 0) /\
  well_shaped s g1 /\ good_ctx x g1 /\
  quadratic_at loss (x_mft x) (c_batch_size c) (c_l2 c) (s_params s) g1 /\
  apply_gradients c x s g1 = Ok s1 /\
  well_shaped s1 g2 /\ good_ctx x g2 /\
  quadratic_at loss (x_mft x) (c_batch_size c) (c_l2 c) (s_params s1) g2 /\
  0 < inner (map fst g2) (map fst (x_precond x g2)) /\
  inner (map fst g2) (previous_update s1 (map snd g2)) <> 0 /\
  exists m cc b,
    compute_qmodel c x s1 (x_precond x g2) (compute_prev_updates s1 (map snd g2)) g2 = Ok (m, cc, b) /\
    m00 m * m11 m - m01 m * m10 m = 0.
Proof.
  destruct sc_step as [s1 [A [P [V [Lv Lp]]]]].
  assert (W1 : well_shaped s1 [([1/2], 0%nat)]).
  { split; [discriminate|]. split; [|intros; rewrite Lv, Lp; reflexivity].
    split; [cbn; constructor; [intros []|constructor]|].
    intros v k [E|[]]. injection E as <- <-. rewrite Lv. reflexivity. }
  exists sc_cfg, sc_ctx, sc_st, [([1], 0%nat)], s1, [([1/2], 0%nat)], sc_loss.
  split; [reflexivity|]. split; [reflexivity|]. split; [reflexivity|]. split; [reflexivity|].
  split; [cbn; lra|]. split; [intros k [|[|j]]; reflexivity|].
  split; [|split; [apply sc_good|split; [apply sc_quadratic; reflexivity|split; [exact A|]]]].
  { split; [discriminate|]. split; [|intros; reflexivity].
    split; [cbn; constructor; [intros []|constructor]|].
    intros v k [E|[]]. injection E as <- <-. reflexivity. }
  split; [exact W1|]. split; [apply sc_good|]. split; [apply sc_quadratic, P|].
  split; [unfold inner, coord; cbn; lra|].
  split; [unfold previous_update; cbn [map snd]; rewrite V; unfold inner, coord; cbn; lra|].
  do 3 eexists. split; [apply compute_qmodel_ok; [exact W1|apply sc_good]|].
  apply (parallel_singular _ _ _ _ (-1)); [exact W1|apply sc_good|].
  unfold previous_update. cbn [map snd fst]. rewrite V. unfold comb. cbn. do 2 f_equal. lra.
Qed.

Lemma parallel_unsolvable c x s g t :
  well_shaped s g -> good_ctx x g ->
  previous_update s (map snd g) = comb t (map fst (x_precond x g)) 0 (map fst (x_precond x g)) ->
  exists m cc b,
    compute_qmodel c x s (x_precond x g) (compute_prev_updates s (map snd g)) g = Ok (m, cc, b) /\
    m00 m * m11 m - m01 m * m10 m = 0.
Proof.
  intros W G E. do 3 eexists. split; [apply compute_qmodel_ok; assumption|].
  apply (parallel_singular _ _ _ _ t); assumption.
Qed.
