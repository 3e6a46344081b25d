From Coq Require Import String List Arith Bool Reals Lra Lia.
From Verif.Base Require Import Py.
From Verif.Tensors Require Import Model.
From Verif.Train Require Import Model Spec DescentSpec VecProofs CtorProofs StepProofs QmodelProofs
  MomentumProofs PeriodicProofs WitnessProofs.
Import ListNotations.
Open Scope list_scope.
Open Scope R_scope.

(** The step when nothing is carried over: a positive multiple of the preconditioned gradient. *)
Definition scaled_by (t : R) (x : list vec) : list vec := map (map (Rmult t)) x.

Lemma scaled_sprod t x : scaled_by t x = sprod t x.
Proof. reflexivity. Qed.

Lemma nth_sprod t x i j : coord j (nth i (sprod t x) []) = t * coord j (nth i x []).
Proof.
  revert i. induction x as [|u x IH]; intros [|i]; cbn [sprod map nth].
  - unfold coord. destruct j; simpl; lra.
  - unfold coord. destruct j; simpl; lra.
  - apply coord_vscale.
  - apply IH.
Qed.

Lemma velocity_is_gradient (vel : nat -> vec) g :
  fits vel g -> (forall k j, In k (map snd g) -> coord j (vel k) = entry_of k j g) ->
  map (fun k => (vel k, k)) (map snd g) = g.
Proof.
  intros [D L] H. rewrite map_map. rewrite <- (map_id g) at 2. apply map_ext_in.
  intros [v k] I. cbn [snd]. f_equal. apply coord_ext; [symmetry; apply L, I|].
  intros j. rewrite H by (apply (in_map snd _ _ I)).
  clear H L. induction g as [|[w k'] g IH]; [destruct I|].
  cbn [map snd] in D. inversion D as [|? ? N D']; subst. cbn [entry_of].
  destruct I as [E|I].
  - injection E as -> ->. rewrite Nat.eqb_refl. reflexivity.
  - destruct (Nat.eqb_spec k' k) as [->|_]; [exfalso; apply N, (in_map snd _ _ I)|]. apply IH; assumption.
Qed.

Lemma direction_scaled c g pg : (forall nc, c_norm c = Some nc -> 0 < nc) ->
  0 <= inner (map fst g) (map fst pg) ->
  exists f, 0 < f <= 1 /\ forall k j, entry_of k j (direction c g pg) = f * entry_of k j pg.
Proof.
  intros N Q. unfold direction. destruct (c_norm c) as [nc|].
  - exists (clip_factor nc (c_lr c) (inner (map fst g) (map fst pg))). split.
    + apply clip_factor_spec; [apply N; reflexivity|exact Q].
    + intros k j. rewrite map_pair_sprod. apply entry_of_sprod.
  - exists 1. split; [lra|]. intros. lra.
Qed.

Lemma fresh_step c x s g :
  c_mtype c = Regular \/ c_mtype c = Adam -> c_use_wd c = false -> nothing_carried c s g ->
  well_shaped s g -> shape_preserving (x_precond x) -> shape_preserving (x_mult x) ->
  (forall nc, c_norm c = Some nc -> 0 < nc) ->
  0 <= inner (map fst g) (map fst (x_precond x g)) ->
  exists s' f, apply_gradients c x s g = Ok s' /\ 0 < f <= 1 /\
    (forall k, length (s_params s' k) = length (s_params s k)) /\
    (forall k, ~ In k (map snd g) -> s_params s' k = s_params s k) /\
    displacement (map snd g) (s_params s) (s_params s')
    = scaled_by (- (c_lr c * f)) (map fst (x_precond x g)).
Proof.
  intros T U Z W P M N Q.
  assert (Hz : forall k j, In k (map snd g) -> c_momentum c * coord j (s_vel s k) = 0).
  { intros k j I. destruct Z as [->|Z]; [lra|]. rewrite (Z k I). lra. }
  destruct (direction_scaled c g (x_precond x g) N Q) as [f [F E]].
  assert (X : exists s', apply_gradients c x s g = Ok s' /\
     (forall k, length (s_params s' k) = length (s_params s k)) /\
     (forall k, ~ In k (map snd g) -> s_params s' k = s_params s k) /\
     forall k j, In k (map snd g) ->
       coord j (s_params s' k) = coord j (s_params s k) - c_lr c * (f * entry_of k j (x_precond x g))).
  { destruct T as [T|T].
    - destruct (regular_step c x s g T W P M) as [s' [A [_ [_ [Lp [Fr H]]]]]].
      exists s'. split; [exact A|]. split; [exact Lp|]. split; [intros k I; apply (Fr k I)|].
      intros k j I. destruct (H k j I) as [H1 H2]. rewrite H2, H1, U, E, Hz by exact I. ring.
    - destruct (adam_step c x s g T W P) as [s' [A [_ [Lv [Lp [Fr H]]]]]].
      exists s'. split; [exact A|]. split; [exact Lp|]. split; [intros k I; apply (Fr k I)|].
      assert (V : velocity_pairs s' (map snd g) = g).
      { unfold velocity_pairs. apply velocity_is_gradient.
        - apply (fits_ext (s_vel s)); [intros; symmetry; apply Lv|apply W].
        - intros k j I. destruct (H k j I) as [H1 _]. rewrite H1, Hz by exact I. lra. }
      intros k j I. destruct (H k j I) as [_ H2]. rewrite V in H2. rewrite H2, U, E. ring. }
  destruct X as [s' [A [Lp [Fr H]]]]. exists s', f. split; [exact A|]. split; [exact F|].
  split; [exact Lp|]. split; [exact Fr|].
  destruct (P g) as [P1 P2]. destruct W as [_ [Fg L]].
  rewrite scaled_sprod. apply displacement_eq.
  - eapply same_shape_trans; [|apply same_shape_sym, sprod_shape].
    eapply same_shape_trans; [apply fits_shape; apply (fits_ext (s_vel s)); [exact L|exact Fg]|].
    apply same_shape_sym, P2.
  - exact Lp.
  - intros i k Hi j. assert (I : In k (map snd g)) by (eapply nth_error_In, Hi).
    rewrite H by exact I. rewrite nth_sprod.
    rewrite (entry_of_nth (x_precond x g)) with (i := i).
    + ring.
    + rewrite P1. apply Fg.
    + rewrite P1. exact Hi.
Qed.

Lemma fresh_descent c x s g :
  c_mtype c = Regular \/ c_mtype c = Adam -> c_use_wd c = false -> nothing_carried c s g ->
  well_shaped s g -> shape_preserving (x_precond x) -> shape_preserving (x_mult x) ->
  (forall nc, c_norm c = Some nc -> 0 < nc) -> 0 < c_lr c ->
  0 < inner (map fst g) (map fst (x_precond x g)) ->
  exists s', apply_gradients c x s g = Ok s' /\
    inner (map fst g) (displacement (map snd g) (s_params s) (s_params s')) < 0.
Proof.
  intros T U Z W P M N L Q.
  destruct (fresh_step c x s g T U Z W P M N) as [s' [f [A [F [_ [_ D]]]]]]; [lra|].
  exists s'. split; [exact A|]. rewrite D, scaled_sprod.
  rewrite inner_sprod_r by (apply same_shape_sym, (P g)).
  assert (0 < c_lr c * f) by (apply Rmult_lt_0_compat; lra). nra.
Qed.

Lemma small_steps x s g loss :
  well_shaped s g -> shape_preserving (x_precond x) -> shape_preserving (x_mult x) ->
  0 < inner (map fst g) (map fst (x_precond x g)) ->
  is_gradient_of loss (s_params s) g ->
  exists lr0, 0 < lr0 /\ forall c,
    c_mtype c = Regular \/ c_mtype c = Adam -> c_use_wd c = false -> nothing_carried c s g ->
    (forall nc, c_norm c = Some nc -> 0 < nc) -> 0 < c_lr c < lr0 ->
    exists s', apply_gradients c x s g = Ok s' /\ loss (s_params s') < loss (s_params s).
Proof.
  intros W P M Q G.
  set (pg := map fst (x_precond x g)) in *. set (gs := map fst g) in *.
  set (q := inner gs pg) in *. set (r := sqrt (inner pg pg)).
  assert (R0 : 0 <= r) by apply sqrt_pos.
  assert (E0 : 0 < q / (2 * (r + 1))) by (apply Rdiv_lt_0_compat; lra).
  destruct (G _ E0) as [delta [D0 H]].
  exists (delta / (r + 1)). split; [apply Rdiv_lt_0_compat; lra|].
  intros c T U Z N L.
  destruct (fresh_step c x s g T U Z W P M N) as [s' [f [A [F [Lp [Fr D]]]]]]; [fold gs pg; fold q; lra|].
  exists s'. split; [exact A|]. specialize (H (s_params s') Lp Fr). cbv zeta in H.
  rewrite D, scaled_sprod in H. fold gs pg in H. fold pg in D.
  set (t := c_lr c * f) in *.
  assert (T0 : 0 < t) by (apply Rmult_lt_0_compat; lra).
  assert (T1 : t <= c_lr c) by (unfold t; nra).
  assert (Sg : same_shape gs pg) by (apply same_shape_sym, (P g)).
  rewrite (inner_sprod_r (- t) gs pg Sg) in H. fold q in H.
  assert (Nn : inner (sprod (- t) pg) (sprod (- t) pg) = t ^ 2 * inner pg pg).
  { rewrite inner_sprod_l, inner_sprod_r by apply same_shape_refl. ring. }
  assert (Sq : sqrt (inner (sprod (- t) pg) (sprod (- t) pg)) = t * r).
  { rewrite Nn, sqrt_mult by (first [apply inner_self_nonneg | nra]).
    unfold r. f_equal. replace (t ^ 2) with (t * t) by ring. apply sqrt_square. lra. }
  rewrite Sq in H.
  assert (Dl : t * r < delta).
  { assert (c_lr c * (r + 1) < delta).
    { destruct L as [_ L]. apply (Rmult_lt_compat_r (r + 1)) in L; [|lra].
      replace (delta / (r + 1) * (r + 1)) with delta in L by (field; lra). exact L. }
    nra. }
  specialize (H Dl).
  assert (B : q / (2 * (r + 1)) * (t * r) <= t * q / 2).
  { replace (q / (2 * (r + 1)) * (t * r)) with (t * q / 2 * (r / (r + 1))) by (field; lra).
    assert (0 <= r / (r + 1) <= 1).
    { split.
      - apply Rmult_le_pos; [lra|]. left. apply Rinv_0_lt_compat. lra.
      - apply (Rmult_le_reg_r (r + 1)); [lra|]. replace (r / (r + 1) * (r + 1)) with r by (field; lra). lra. }
    assert (0 < t * q / 2) by (apply Rmult_lt_0_compat; [apply Rmult_lt_0_compat; lra|lra]). nra. }
  assert (Tq : 0 < t * q) by (apply Rmult_lt_0_compat; lra).
  set (a := loss (s_params s') - loss (s_params s) - - t * q) in *.
  pose proof (Rle_abs a). unfold a in *. lra.
Qed.

(** qmodel mode: both branches. *)
Lemma qmodel_descent c x s g :
  c_mtype c = Qmodel -> c_use_wd c = false -> qmodel_lr c -> 0 < c_lr c -> s_damping s <> 0 ->
  well_shaped s g -> good_ctx x g ->
  (forall a u, a <> 0 \/ u <> 0 ->
     0 < curvature (x_mft x) (c_batch_size c) (s_damping s)
           (comb a (map fst (x_precond x g)) u (previous_update s (map snd g)))) ->
  exists s', apply_gradients c x s g = Ok s' /\
    let d := displacement (map snd g) (s_params s) (s_params s') in
    inner (map fst g) d <= 0 /\
    (inner (map fst g) (map fst (x_precond x g)) <> 0 -> inner (map fst g) d < 0).
Proof.
  intros T U LR L D W G Cx.
  set (gs := map fst g) in *. set (pg := map fst (x_precond x g)) in *.
  set (prev := previous_update s (map snd g)) in *.
  set (Q := quad (x_mft x) (c_batch_size c) (s_damping s) gs) in *.
  set (Cv := curvature (x_mft x) (c_batch_size c) (s_damping s)) in *.
  assert (Sp : same_shape pg gs) by exact (proj2 (proj1 G g)).
  assert (Sv : same_shape prev gs) by (apply prev_shape; exact (proj1 (proj2 W))).
  assert (Spv : same_shape pg prev) by (eapply same_shape_trans; [exact Sp|apply same_shape_sym, Sv]).
  assert (Qe : forall a u, Q (comb a pg u prev)
                = 1/2 * Cv (comb a pg u prev) + (a * inner gs pg + u * inner gs prev)).
  { intros a u. unfold Q, quad, Cv, curvature. rewrite (inner_comb_r a pg u prev gs Spv Sp). reflexivity. }
  assert (Cn : forall a u, 0 <= Cv (comb a pg u prev)).
  { intros a u. destruct (Req_dec a 0) as [Ha|Ha], (Req_dec u 0) as [Hu|Hu];
      try (left; apply Cx; tauto).
    subst a u. unfold Cv. pose proof (curvature_span c x s g W G 0 0) as K. fold pg prev in K. rewrite K.
    unfold eval_quadratic_no_c. cbn [v0 v1]. lra. }
  assert (Cs : forall t, Cv (comb t pg 0 prev) = t ^ 2 * Cv (comb 1 pg 0 prev)).
  { intros t. unfold Cv. pose proof (curvature_span c x s g W G t 0) as K1.
    pose proof (curvature_span c x s g W G 1 0) as K2. fold pg prev in K1, K2. rewrite K1, K2.
    unfold eval_quadratic_no_c. cbn [v0 v1]. field. }
  (* any minimiser over at least the multiples of the preconditioned gradient goes downhill *)
  assert (Key : forall al mu, (forall a, Q (comb al pg mu prev) <= Q (comb a pg 0 prev)) ->
     al * inner gs pg + mu * inner gs prev <= 0 /\
     (inner gs pg <> 0 -> al * inner gs pg + mu * inner gs prev < 0)).
  { intros al mu Mn. set (K := Cv (comb 1 pg 0 prev)) in *.
    assert (K0 : 0 < K) by (apply Cx; left; lra).
    split.
    - pose proof (Mn 0) as H0. rewrite !Qe, Cs in H0. pose proof (Cn al mu). lra.
    - intros NZ. pose proof (Mn (- inner gs pg / K)) as H0. rewrite !Qe, Cs in H0.
      pose proof (Cn al mu) as C1. fold K in H0. set (p := inner gs pg) in *.
      assert (E : 1/2 * ((- p / K) ^ 2 * K) + (- p / K * p + 0 * inner gs prev) = - (p ^ 2 / (2 * K)))
        by (field; lra).
      rewrite E in H0.
      assert (0 < p ^ 2 / (2 * K)) by (apply Rdiv_lt_0_compat; nra). lra. }
  assert (FM : fixed_mu_of c = None) by (unfold fixed_mu_of; rewrite T; reflexivity).
  destruct (Req_EM_T (inner gs prev) 0) as [Z|NZ].
  - destruct (shortcut_value c x s g W G LR D (fixed_mu_of c) Z) as [al [E Mn]].
    { apply Cx. left. lra. }
    destruct (qmodel_step c x s g _ _ _ (or_introl T) W G E)
      as [s' [A [_ [_ [_ [_ [_ [_ [_ H]]]]]]]]].
    exists s'. split; [exact A|]. cbv zeta. rewrite (H U), FM. fold pg prev.
    rewrite (inner_comb_r _ pg _ prev gs Spv Sp).
    destruct (Key al 0 Mn) as [K1 K2].
    replace (c_lr c * al * inner gs pg + c_lr c * 0 * inner gs prev)
      with (c_lr c * (al * inner gs pg + 0 * inner gs prev)) by ring.
    split; [nra|]. intros N. specialize (K2 N). nra.
  - destruct (free_case c x s g W G LR D NZ Cx) as [al [mu [E [Mn _]]]].
    rewrite <- FM in E. destruct (qmodel_step c x s g _ _ _ (or_introl T) W G E)
      as [s' [A [_ [_ [_ [_ [_ [_ [_ H]]]]]]]]].
    exists s'. split; [exact A|]. cbv zeta. rewrite (H U). fold pg prev.
    rewrite (inner_comb_r _ pg _ prev gs Spv Sp).
    destruct (Key al mu (fun a => Mn a 0)) as [K1 K2].
    replace (c_lr c * al * inner gs pg + c_lr c * mu * inner gs prev)
      with (c_lr c * (al * inner gs pg + mu * inner gs prev)) by ring.
    split; [nra|]. intros N. specialize (K2 N). nra.
Qed.

(* ------------------------------------------------------------------------ *)
(** * Steps that go uphill *)

Definition m_cfg : cfg :=
  mkCfg Regular 1 (9/10) None false 0 None 1 false false true true (19/20) 5 0 0 (3/4) (1/4) false.

Lemma momentum_uphill : exists c x s g1 g2 s1 s2,
  c_mtype c = Regular /\ c_use_wd c = false /\ c_norm c = None /\ 0 < c_lr c /\
  (forall k j, coord j (s_vel s k) = 0) /\ well_shaped s g1 /\ well_shaped s1 g2 /\
  shape_preserving (x_precond x) /\ (forall l, x_precond x l = l) /\
  apply_gradients c x s g1 = Ok s1 /\ apply_gradients c x s1 g2 = Ok s2 /\
  0 < inner (map fst g2) (map fst (x_precond x g2)) /\
  0 < inner (map fst g2) (displacement (map snd g2) (s_params s1) (s_params s2)).
Proof.
  exists m_cfg, o_ctx, o_state, [([1], 0%nat)], [([-1/10], 0%nat)]. do 2 eexists.
  split; [reflexivity|]. split; [reflexivity|]. split; [reflexivity|]. split; [cbn; lra|].
  split; [intros k [|[|j]]; reflexivity|]. split; [apply o_shaped|].
  assert (W : forall s, (s_vel s 0%nat = [] -> False) -> length (s_vel s 0%nat) = 1%nat ->
     (forall k, length (s_vel s k) = length (s_params s k)) -> well_shaped s [([-1/10], 0%nat)]).
  { intros s _ L1 L2. split; [discriminate|]. split; [|exact L2]. split.
    - cbn. constructor; [intros []|constructor].
    - intros v k [H|[]]. injection H as <- <-. symmetry. exact L1. }
  split; [|split; [apply shape_id|]; split; [reflexivity|];
           split; [reflexivity|]; split; [reflexivity|]; split].
  - apply W; [discriminate|reflexivity|]. intros [|k]; reflexivity.
  - unfold inner, coord. cbn. lra.
  - unfold displacement, inner, coord. cbn. lra.
Qed.

Lemma weight_decay_uphill : exists c x s g s',
  c_mtype c = Regular /\ c_use_wd c = true /\ 0 < c_wd c /\ c_momentum c = 0 /\ c_norm c = None /\
  0 < c_lr c /\ (forall k j, coord j (s_vel s k) = 0) /\ well_shaped s g /\
  shape_preserving (x_precond x) /\ (forall l, x_precond x l = l) /\
  apply_gradients c x s g = Ok s' /\
  0 < inner (map fst g) (map fst (x_precond x g)) /\
  0 < inner (map fst g) (displacement (map snd g) (s_params s) (s_params s')).
Proof.
  exists (o_cfg Regular None true true), o_ctx, o_state, [([-1/2], 0%nat)]. eexists.
  split; [reflexivity|]. split; [reflexivity|]. split; [cbn; lra|]. split; [reflexivity|].
  split; [reflexivity|]. split; [cbn; lra|].
  split; [intros k [|[|j]]; reflexivity|]. split; [apply o_shaped|].
  split; [apply shape_id|]. split; [reflexivity|]. split; [reflexivity|]. split.
  - unfold inner, coord. cbn. lra.
  - unfold displacement, inner, coord. cbn. lra.
Qed.

Lemma q_good' a b : good_ctx q_ctx [([a; b], 0%nat)].
Proof. destruct q_good as [P [M [S H]]]. split; [exact P|]. split; [exact M|]. split; [exact S|exact H]. Qed.

Lemma q_shaped' s a b : length (s_vel s 0%nat) = 2%nat ->
  (forall k, length (s_vel s k) = length (s_params s k)) -> well_shaped s [([a; b], 0%nat)].
Proof.
  intros L1 L2. split; [discriminate|]. split; [|exact L2]. split.
  - cbn. constructor; [intros []|constructor].
  - intros v k [H|[]]. injection H as <- <-. symmetry. exact L1.
Qed.

Lemma fixed_uphill : exists c x s g1 g2 s1 s2,
  c_mtype c = QmodelFixedMu /\ c_use_wd c = false /\ qmodel_lr c /\ 0 < c_lr c /\ 0 <= c_momentum c < 1 /\
  s_damping s = 1 /\ (forall k j, coord j (s_vel s k) = 0) /\
  well_shaped s g1 /\ good_ctx x g1 /\ well_shaped s1 g2 /\ good_ctx x g2 /\
  (forall l, x_precond x l = l) /\
  (forall u, same_shape u (map fst g2) -> 0 <= curvature (x_mft x) (c_batch_size c) (s_damping s1) u) /\
  apply_gradients c x s g1 = Ok s1 /\ apply_gradients c x s1 g2 = Ok s2 /\
  0 < inner (map fst g2) (map fst (x_precond x g2)) /\
  0 < inner (map fst g2) (displacement (map snd g2) (s_params s1) (s_params s2)).
Proof.
  set (g1 := [([-6/5; 12/5], 0%nat)]). set (c := q_cfg QmodelFixedMu).
  set (s := q_st [0; 0]).
  assert (W : well_shaped s g1) by (apply q_shaped'; reflexivity).
  assert (G : good_ctx q_ctx g1) by apply q_good'.
  assert (D : s_damping s <> 0) by (cbn; lra).
  destruct (shortcut_value c q_ctx s g1 W G eq_refl D (fixed_mu_of c)) as [al [E Mn]].
  { unfold inner, previous_update, coord. cbn. ring. }
  { unfold curvature, inner, previous_update, coord. cbn. lra. }
  assert (A : al = -5/6).
  { specialize (Mn (-5/6)). unfold quad, inner, previous_update, coord in Mn. cbn in Mn.
    assert ((al + 5/6) * (al + 5/6) <= 0) by lra. nra. }
  destruct (qmodel_step c q_ctx s g1 _ _ _ (or_intror eq_refl) W G E)
    as [s1 [Ap [_ [_ [_ [_ [Lv [Lp [Hv _]]]]]]]]].
  assert (V : s_vel s1 0%nat = [-1; 2]).
  { apply coord_ext; [rewrite Lv; reflexivity|]. intros j. rewrite Hv by (left; reflexivity).
    subst al. unfold coord. destruct j as [|[|[|j]]]; cbn; lra. }
  assert (Dm : s_damping s1 = 1).
  { destruct (apply_damping c q_ctx s g1 s1 Ap) as [_ [_ H]]. cbn in H. apply H. }
  assert (W1 : well_shaped s1 q_g).
  { apply q_shaped'; [rewrite V; reflexivity|]. intros k. rewrite Lv, Lp. reflexivity. }
  assert (P : previous_update s1 [0%nat] = [[1; -2]]).
  { unfold previous_update. cbn [map]. rewrite V. cbn. do 2 f_equal; [lra|f_equal; lra]. }
  assert (C1 : 0 < curvature (x_mft q_ctx) (c_batch_size c) (s_damping s1) (map fst (x_precond q_ctx q_g))).
  { rewrite Dm. unfold curvature, inner, coord. cbn. lra. }
  assert (NZ : inner (map fst q_g) (previous_update s1 (map snd q_g)) <> 0).
  { cbn [q_g map snd]. rewrite P. unfold inner, coord. cbn. lra. }
  destruct (qmodel_fixed c q_ctx s1 q_g W1 q_good eq_refl ltac:(rewrite Dm; lra) eq_refl eq_refl NZ C1)
    as [s2 [a2 [Ap2 [_ [_ [Mn2 [H2 _]]]]]]].
  cbn [q_g map snd] in H2, Mn2. rewrite P in H2, Mn2. rewrite Dm in Mn2.
  assert (A2 : a2 = -1/2).
  { specialize (Mn2 (-1/2)). unfold quad, inner, coord in Mn2. cbn in Mn2.
    assert ((a2 + 1/2) * (a2 + 1/2) <= 0) by lra. nra. }
  exists c, q_ctx, s, g1, q_g, s1, s2.
  split; [reflexivity|]. split; [reflexivity|]. split; [reflexivity|]. split; [cbn; lra|].
  split; [cbn; lra|]. split; [reflexivity|]. split; [intros k [|[|[|j]]]; reflexivity|].
  split; [exact W|]. split; [exact G|]. split; [exact W1|]. split; [exact q_good|].
  split; [reflexivity|]. split.
  { intros u Hu. destruct (two_inv u Hu) as [u0 [u1 ->]]. rewrite Dm.
    unfold curvature, inner, coord. cbn. nra. }
  split; [exact Ap|]. split; [exact Ap2|]. split.
  - unfold inner, coord. cbn. lra.
  - cbn [q_g map snd]. rewrite H2. subst a2. unfold inner, coord. cbn. lra.
Qed.
