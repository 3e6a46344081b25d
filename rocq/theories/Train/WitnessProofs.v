(** Combined statements, counterexamples and concrete instances for Train/Props.v. *)
From Coq Require Import String List Arith Bool Reals Lra Lia.
From Verif.Base Require Import Py.
From Verif.Tensors Require Import Model.
From Verif.Train Require Import Model Spec VecProofs CtorProofs StepProofs QmodelProofs MomentumProofs
  PeriodicProofs.
Import ListNotations.
Open Scope list_scope.
Open Scope R_scope.

(* ------------------------------------------------------------------------ *)
(** * C31 *)

Lemma entry_of_scaled f k j l :
  entry_of k j (map (fun p : vec * nat => (map (Rmult f) (fst p), snd p)) l) = f * entry_of k j l.
Proof.
  induction l as [|[v k'] l IH]; cbn [map entry_of fst snd]; [ring|].
  destruct (Nat.eqb k' k); [|exact IH]. unfold coord.
  rewrite <- (Rmult_0_r f) at 1. rewrite map_nth. reflexivity.
Qed.

Lemma regular_clip c x s g nc :
  c_mtype c = Regular -> c_norm c = Some nc -> 0 < nc ->
  well_shaped s g -> shape_preserving (x_precond x) -> shape_preserving (x_mult x) ->
  0 <= inner (map fst g) (map fst (x_precond x g)) ->
  exists s' f, apply_gradients c x s g = Ok s' /\
    0 < f <= 1 /\
    c_lr c ^ 2 * f ^ 2 * inner (map fst g) (map fst (x_precond x g)) <= nc /\
    (c_lr c ^ 2 * inner (map fst g) (map fst (x_precond x g)) <= nc -> f = 1) /\
    (forall k j, In k (map snd g) ->
       coord j (s_vel s' k) = c_momentum c * coord j (s_vel s k) + f * entry_of k j (x_precond x g)).
Proof.
  intros M N P W A B Q. destruct (regular_step c x s g M W A B) as [s' [E [_ [_ [_ [_ H]]]]]].
  destruct (clip_factor_spec nc (c_lr c) _ P Q) as [F1 [F2 [F3 _]]].
  exists s'. eexists. split; [exact E|]. split; [exact F1|]. split; [exact F2|].
  split; [exact F3|]. intros k j K. destruct (H k j K) as [Hv _]. rewrite Hv.
  unfold direction. rewrite N, entry_of_scaled. reflexivity.
Qed.

Lemma adam_clip c x s g nc :
  c_mtype c = Adam -> c_norm c = Some nc -> 0 < nc -> c_use_wd c = false ->
  well_shaped s g -> shape_preserving (x_precond x) ->
  (forall l, 0 <= inner (map fst l) (map fst (x_precond x l))) ->
  exists s' f, apply_gradients c x s g = Ok s' /\
    let v := velocity_pairs s' (map snd g) in
    0 < f <= 1 /\
    c_lr c ^ 2 * f ^ 2 * inner (map fst v) (map fst (x_precond x v)) <= nc /\
    (c_lr c ^ 2 * inner (map fst v) (map fst (x_precond x v)) <= nc -> f = 1) /\
    (forall k j, In k (map snd g) ->
       coord j (s_params s' k) = coord j (s_params s k) - c_lr c * (f * entry_of k j (x_precond x v))).
Proof.
  intros M N P U W A Q. destruct (adam_step c x s g M W A) as [s' [E [_ [_ [_ [_ H]]]]]].
  destruct (clip_factor_spec nc (c_lr c) _ P (Q (velocity_pairs s' (map snd g)))) as [F1 [F2 [F3 _]]].
  exists s'. eexists. split; [exact E|]. cbv zeta. split; [exact F1|]. split; [exact F2|].
  split; [exact F3|]. intros k j K. destruct (H k j K) as [_ Hp]. rewrite Hp, U.
  unfold direction. rewrite N, entry_of_scaled. ring.
Qed.

(* ------------------------------------------------------------------------ *)
(** * C34, C35: combined with the step *)

Lemma comb_one l : forall l', same_shape l' l -> comb 1 l 0 l' = l.
Proof.
  unfold same_shape, comb.
  induction l as [|v l IH]; intros [|w l'] Sh; try discriminate Sh; [reflexivity|].
  cbn [map zip]. injection Sh as L Sh. f_equal; [|apply IH; exact Sh].
  cbn [fst snd]. clear -L. revert w L. induction v as [|r v IH]; intros [|r' w] L;
    try discriminate L; [reflexivity|]. cbn [map zip fst snd]. f_equal; [ring|].
  apply IH. injection L as L. exact L.
Qed.

Section Q.
Variables (c : cfg) (x : ctx) (s : st) (g : pairs).
Let gs := map fst g.
Let pg := map fst (x_precond x g).
Let prev := previous_update s (map snd g).
Let Q := quad (x_mft x) (c_batch_size c) (s_damping s) gs.
Let Qr := quad (x_mft x) (c_batch_size c) (reported_lambda c s) gs.
Let Cv := curvature (x_mft x) (c_batch_size c) (s_damping s).

Hypothesis W : well_shaped s g.
Hypothesis G : good_ctx x g.
Hypothesis LR : qmodel_lr c.
Hypothesis D0 : s_damping s <> 0.
Hypothesis WD : c_use_wd c = false.

Lemma qmodel_free :
  c_mtype c = Qmodel -> inner gs prev <> 0 ->
  (forall a u, a <> 0 \/ u <> 0 -> 0 < Cv (comb a pg u prev)) ->
  exists s' alpha mu, apply_gradients c x s g = Ok s' /\
    s_qlr s' = Some (- alpha) /\ s_qmom s' = Some mu /\
    (forall a u, Q (comb alpha pg mu prev) <= Q (comb a pg u prev)) /\
    displacement (map snd g) (s_params s) (s_params s')
      = comb (c_lr c * alpha) pg (c_lr c * mu) prev /\
    s_qchange s' = Some (Qr (displacement (map snd g) (s_params s) (s_params s'))) /\
    (0 <= c_lr c <= 2 -> 0 < s_damping s -> c_l2 c <= s_damping s ->
     Qr (displacement (map snd g) (s_params s) (s_params s')) <= 0).
Proof.
  intros M I C. destruct (free_case c x s g W G LR D0 I C) as [al [mu [E [Mn Ng]]]].
  assert (FM : fixed_mu_of c = None) by (unfold fixed_mu_of; rewrite M; reflexivity).
  rewrite <- FM in E.
  destruct (qmodel_step c x s g _ _ _ (or_introl M) W G E)
    as [s' [A [H1 [H2 [H3 [_ [_ [_ [_ H4]]]]]]]]]. specialize (H4 WD).
  exists s', al, mu. split; [exact A|]. split; [exact H1|]. split; [exact H2|].
  split; [exact Mn|]. split; [exact H4|]. rewrite H4. split; [exact H3|exact Ng].
Qed.

Lemma qmodel_fixed :
  c_mtype c = QmodelFixedMu -> inner gs prev <> 0 -> 0 < Cv pg ->
  exists s' alpha, apply_gradients c x s g = Ok s' /\
    s_qlr s' = Some (- alpha) /\ s_qmom s' = Some (c_momentum c) /\
    (forall a, Q (comb alpha pg (c_momentum c) prev) <= Q (comb a pg (c_momentum c) prev)) /\
    displacement (map snd g) (s_params s) (s_params s')
      = comb (c_lr c * alpha) pg (c_lr c * c_momentum c) prev /\
    s_qchange s' = Some (Qr (displacement (map snd g) (s_params s) (s_params s'))).
Proof.
  intros M I C.
  assert (C1 : 0 < Cv (comb 1 pg 0 prev)).
  { replace (comb 1 pg 0 prev) with pg; [exact C|]. symmetry.
    assert (Sh : same_shape prev pg).
    { exact (eq_trans (prev_shape' s g W) (eq_sym (pg_shape x g G))). }
    apply comb_one. exact Sh. }
  destruct (fixed_case c x s g W G LR D0 (c_momentum c) I C1) as [al [E Mn]].
  assert (FM : fixed_mu_of c = Some (c_momentum c)) by (unfold fixed_mu_of; rewrite M; reflexivity).
  rewrite <- FM in E.
  destruct (qmodel_step c x s g _ _ _ (or_intror M) W G E)
    as [s' [A [H1 [H2 [H3 [_ [_ [_ [_ H4]]]]]]]]]. specialize (H4 WD).
  exists s', al. split; [exact A|]. split; [exact H1|]. split; [exact H2|].
  split; [exact Mn|]. split; [exact H4|]. rewrite H4. exact H3.
Qed.

(** With zero velocities (in particular on the first step). *)
Lemma qmodel_zero_prev :
  is_q c -> 0 < Cv (comb 1 pg 0 prev) ->
  (forall k, In k (map snd g) -> forall j, coord j (s_vel s k) = 0) ->
  exists s' alpha, apply_gradients c x s g = Ok s' /\
    s_qlr s' = Some (- alpha) /\
    (forall a u v, Q (comb alpha pg v prev) <= Q (comb a pg u prev)) /\
    displacement (map snd g) (s_params s) (s_params s') = comb (c_lr c * alpha) pg 0 prev /\
    s_qchange s' = Some (Qr (displacement (map snd g) (s_params s) (s_params s'))).
Proof.
  intros M C Z.
  destruct (shortcut_value c x s g W G LR D0 (fixed_mu_of c)
              (prev_zero_orth s g W Z) C) as [al [E Mn]].
  destruct (qmodel_step c x s g _ _ _ M W G E)
    as [s' [A [H1 [H2 [H3 [_ [_ [_ [_ H4]]]]]]]]]. specialize (H4 WD).
  exists s', al. split; [exact A|]. split; [exact H1|]. split.
  - intros a u v. fold gs pg prev Q in Mn. unfold pg, prev.
    rewrite (comb_zero x s g W G al v 0 Z), (comb_zero x s g W G a u 0 Z). apply Mn.
  - rewrite (comb_zero x s g W G _ _ 0 Z) in H4. split; [exact H4|]. rewrite H4. exact H3.
Qed.

(** In qmodel mode the prediction is the model value of the applied step on both
    branches. *)
Lemma qmodel_free_predicts :
  c_mtype c = Qmodel ->
  (forall a u, a <> 0 \/ u <> 0 -> 0 < Cv (comb a pg u prev)) ->
  exists s', apply_gradients c x s g = Ok s' /\
    s_qchange s' = Some (Qr (displacement (map snd g) (s_params s) (s_params s'))).
Proof.
  intros M C. destruct (Req_dec (inner gs prev) 0) as [Z|Z].
  - destruct (shortcut_value c x s g W G LR D0 (fixed_mu_of c) Z (C 1 0 ltac:(left; lra)))
      as [al [E Mn]].
    assert (FM : fixed_mu_of c = None) by (unfold fixed_mu_of; rewrite M; reflexivity).
    destruct (qmodel_step c x s g _ _ _ (or_introl M) W G E)
      as [s' [A [H1 [H2 [H3 [_ [_ [_ [_ H4]]]]]]]]]. specialize (H4 WD).
    exists s'. split; [exact A|]. rewrite H4, FM, Rmult_0_r. exact H3.
  - destruct (qmodel_free M Z C) as [s' [al [mu [A [_ [_ [_ [_ [H _]]]]]]]]].
    exists s'. split; [exact A|exact H].
Qed.
End Q.

(* ------------------------------------------------------------------------ *)
(** * Counterexample to C34 / C35 *)

Definition q_mft (u : list vec) : list vec :=
  match u with [[a; b]] => [[a + b]] | _ => [[0]] end.
Definition q_ctx : ctx :=
  mkCtx (fun l => l) (fun l => l) q_mft 0 (fun _ => 0) (fun _ => 0).
Definition q_cfg (t : mtype) : cfg :=
  mkCfg t 1 (9/10) None false 0 None 1 false false true true (19/20) 5 0 0 (3/4) (1/4) false.
Definition q_st (v : vec) : st :=
  mkSt (fun _ => [0; 0]) (fun _ => v) 1 NaN None None None None 0.
Definition q_g : pairs := [([1; 0], 0%nat)].

Lemma shape_id : shape_preserving (fun l => l).
Proof. intros l. split; reflexivity. Qed.

Lemma two_inv (u : list vec) : same_shape u [[1; 0]] -> exists a b, u = [[a; b]].
Proof.
  unfold same_shape. cbn. destruct u as [|[|a [|b [|? ?]]] [|? ?]]; intros H; try discriminate H.
  exists a, b. reflexivity.
Qed.

Lemma q_good : good_ctx q_ctx q_g.
Proof.
  split; [apply shape_id|]. split; [apply shape_id|].
  cbn [q_ctx x_mft q_g map fst]. split.
  - intros u H. destruct (two_inv u H) as [a [b ->]]. split; [reflexivity|discriminate].
  - intros a u b v Hu Hv. destruct (two_inv u Hu) as [u0 [u1 ->]].
    destruct (two_inv v Hv) as [w0 [w1 ->]]. cbn. do 2 f_equal. ring.
Qed.

Lemma q_shaped v0 v1 : well_shaped (q_st [v0; v1]) q_g.
Proof.
  split; [discriminate|]. split; [|reflexivity]. split.
  - cbn. constructor; [intros []|constructor].
  - intros v k [H|[]]. injection H as <- <-. reflexivity.
Qed.

Lemma q_curv v0 v1 : v1 <> 0 -> forall a u, a <> 0 \/ u <> 0 ->
  0 < curvature q_mft 1 1 (comb a [[1; 0]] u (previous_update (q_st [v0; v1]) [0%nat])).
Proof.
  intros H a u K. unfold curvature, inner, previous_update, coord. cbn.
  match goal with |- 0 < ?e => replace e with
    ((a - u * v0 - u * v1) ^ 2 + ((a - u * v0) ^ 2 + (u * v1) ^ 2)) by field end.
  destruct (Req_dec u 0) as [->|U].
  - assert (a <> 0) by tauto. nra.
  - assert (0 < (u * v1) ^ 2).
    { replace ((u * v1) ^ 2) with (Rsqr (u * v1)) by (unfold Rsqr; ring).
      apply Rlt_0_sqr. apply Rmult_integral_contrapositive_currified; assumption. }
    pose proof (pow2_ge_0 (a - u * v0 - u * v1)). pose proof (pow2_ge_0 (a - u * v0)). lra.
Qed.

Lemma q_shortcut fm : exists alpha,
  compute_qmodel_hyperparams (q_cfg fm) (q_st [0; -1]) (qm (q_cfg fm) q_ctx (q_st [0; -1]) q_g)
    (qc q_ctx (q_st [0; -1]) q_g) (qb q_ctx (q_st [0; -1]) q_g) (fixed_mu_of (q_cfg fm))
  = (alpha, match fixed_mu_of (q_cfg fm) with None => 0 | Some mu => mu end,
     quad q_mft 1 0 [[1; 0]]
       (comb (1 * alpha) [[1; 0]] 0 (previous_update (q_st [0; -1]) [0%nat]))) /\
  alpha = - 1/2.
Proof.
  assert (D : s_damping (q_st [0; -1]) <> 0) by (cbn; lra).
  assert (Lr : qmodel_lr (q_cfg fm)) by reflexivity.
  destruct (shortcut_value (q_cfg fm) q_ctx (q_st [0; -1]) q_g (q_shaped _ _) q_good Lr D
              (fixed_mu_of (q_cfg fm))) as [al [E Mn]].
  - unfold inner, previous_update, coord. cbn. ring.
  - apply (q_curv 0 (-1)); [lra|left; lra].
  - exists al. split; [exact E|]. specialize (Mn (-1/2)).
    unfold quad, inner, previous_update, coord in Mn. cbn in Mn.
    assert ((al + 1/2) * (al + 1/2) <= 0) by lra. nra.
Qed.

(** The step sizes of qmodel mode are not optimal, although the model is strictly
    convex on the span. *)
Lemma q_not_optimal : exists c x s g s',
  c_mtype c = Qmodel /\ c_use_wd c = false /\ qmodel_lr c /\ 0 < s_damping s /\
  well_shaped s g /\ good_ctx x g /\
  (forall a u, a <> 0 \/ u <> 0 -> 0 < curvature (x_mft x) (c_batch_size c) (s_damping s)
      (comb a (map fst (x_precond x g)) u (previous_update s (map snd g)))) /\
  apply_gradients c x s g = Ok s' /\
  exists a u,
    quad (x_mft x) (c_batch_size c) (s_damping s) (map fst g)
      (comb a (map fst (x_precond x g)) u (previous_update s (map snd g)))
    < quad (x_mft x) (c_batch_size c) (s_damping s) (map fst g)
        (displacement (map snd g) (s_params s) (s_params s')).
Proof.
  destruct (q_shortcut Qmodel) as [al [E A]].
  destruct (qmodel_step (q_cfg Qmodel) q_ctx (q_st [0; -1]) q_g _ _ _ (or_introl eq_refl)
              (q_shaped _ _) q_good E) as [s' [Ap [_ [_ [_ [_ [_ [_ [_ H4]]]]]]]]].
  exists (q_cfg Qmodel), q_ctx, (q_st [0; -1]), q_g, s'.
  split; [reflexivity|]. split; [reflexivity|]. split; [reflexivity|]. split; [cbn; lra|].
  split; [apply q_shaped|]. split; [apply q_good|].
  split; [intros a u K; apply (q_curv 0 (-1)); [lra|exact K]|].
  split; [exact Ap|]. exists (-2/3), (1/3).
  rewrite (H4 eq_refl). subst al. unfold quad, inner, previous_update, coord. cbn. lra.
Qed.

(** In qmodel_fixedmu mode the predicted change is not the model value of the
    applied step, and the step size does not minimise along the gradient. *)
Lemma q_wrong_prediction : exists c x s g s' q,
  c_mtype c = QmodelFixedMu /\ c_use_wd c = false /\ qmodel_lr c /\ 0 < s_damping s /\
  well_shaped s g /\ good_ctx x g /\
  (forall a u, a <> 0 \/ u <> 0 -> 0 < curvature (x_mft x) (c_batch_size c) (s_damping s)
      (comb a (map fst (x_precond x g)) u (previous_update s (map snd g)))) /\
  apply_gradients c x s g = Ok s' /\ s_qchange s' = Some q /\
  q <> quad (x_mft x) (c_batch_size c) (reported_lambda c s) (map fst g)
         (displacement (map snd g) (s_params s) (s_params s')) /\
  exists a,
    quad (x_mft x) (c_batch_size c) (s_damping s) (map fst g)
      (comb a (map fst (x_precond x g)) (c_momentum c) (previous_update s (map snd g)))
    < quad (x_mft x) (c_batch_size c) (s_damping s) (map fst g)
        (displacement (map snd g) (s_params s) (s_params s')).
Proof.
  destruct (q_shortcut QmodelFixedMu) as [al [E A]].
  destruct (qmodel_step (q_cfg QmodelFixedMu) q_ctx (q_st [0; -1]) q_g _ _ _ (or_intror eq_refl)
              (q_shaped _ _) q_good E) as [s' [Ap [_ [_ [H3 [_ [_ [_ [_ H4]]]]]]]]].
  exists (q_cfg QmodelFixedMu), q_ctx, (q_st [0; -1]), q_g, s'. eexists.
  split; [reflexivity|]. split; [reflexivity|]. split; [reflexivity|]. split; [cbn; lra|].
  split; [apply q_shaped|]. split; [apply q_good|].
  split; [intros a u K; apply (q_curv 0 (-1)); [lra|exact K]|].
  split; [exact Ap|]. split; [exact H3|].
  rewrite (H4 eq_refl). subst al. split.
  - unfold quad, inner, previous_update, coord, reported_lambda. cbn. lra.
  - exists (-19/20). unfold quad, inner, previous_update, coord. cbn. lra.
Qed.

(** Hypotheses of the positive theorems are satisfiable: gradient and previous
    update not orthogonal. *)
Lemma q_instance :
  well_shaped (q_st [1; -1]) q_g /\ good_ctx q_ctx q_g /\
  inner (map fst q_g) (previous_update (q_st [1; -1]) (map snd q_g)) <> 0 /\
  (forall a u, a <> 0 \/ u <> 0 -> 0 < curvature (x_mft q_ctx) 1 1
      (comb a (map fst (x_precond q_ctx q_g)) u (previous_update (q_st [1; -1]) (map snd q_g)))).
Proof.
  split; [apply q_shaped|]. split; [apply q_good|]. split.
  - unfold inner, previous_update, coord. cbn. lra.
  - intros a u K. apply (q_curv 1 (-1)); [lra|exact K].
Qed.

(* ------------------------------------------------------------------------ *)
(** * C33: predictions *)

Lemma adam_prediction c x s g s' :
  c_mtype c = Adam -> well_shaped s g -> good_ctx x g -> c_use_wd c = false ->
  c_norm c = None -> c_incl c = true ->
  (forall a l, x_mult x (map (fun p => (map (Rmult a) (fst p), snd p)) (x_precond x l))
               = map (fun p => (map (Rmult a) (fst p), snd p)) l) ->
  c_adapt c = true -> c_chief c = true -> Nat.modulo (S (s_counter s)) (c_interval c) = 0%nat ->
  apply_gradients c x s g = Ok s' ->
  s_qchange s' = Some (approx_quad (x_mult x) (removed_damping c s) (map snd g) (map fst g)
                         (displacement (map snd g) (s_params s) (s_params s'))).
Proof.
  intros M W G WD N Inc Inv Ad Ch Ti E.
  destruct (prev_loss_stage c x s) as [P1 [P2 [P3 [_ [_ [P6 _]]]]]].
  set (s1 := maybe_update_prev_loss c x s) in *.
  assert (W1 : well_shaped s1 g) by (apply (well_shaped_frame s); assumption).
  destruct G as [GP [GM GJ]].
  pose proof (adam_raw c x s1 g M W1 GP) as A. cbv zeta in A.
  assert (Ti' : is_time c s1 = true).
  { unfold is_time. rewrite P6, Nat.add_1_r, Ti. reflexivity. }
  rewrite Ad, Ch, Ti' in A. cbn [andb] in A.
  destruct (apply_of_raw c x s g _ _ A) as [s'' [E' [Hp [Hv [_ [Hq _]]]]]].
  rewrite E in E'. injection E' as <-. rewrite WD in Hp.
  rewrite Hq. cbn [set_qchange s_qchange]. f_equal.
  set (r := update_velocities (s_vel s1) (c_momentum c) 1 g) in *.
  assert (Dir : direction c (snd r) (x_precond x (snd r)) = x_precond x (snd r)).
  { unfold direction. rewrite N. reflexivity. }
  rewrite Dir in *.
  set (pv := x_precond x (snd r)) in *.
  destruct W1 as [Ne [Ft Ln]].
  destruct (update_velocities_spec (c_momentum c) 1 g (s_vel s1) Ft) as [R1 [R2 [R3 _]]].
  fold r in R1, R2, R3.
  destruct (GP (snd r)) as [PV1 PV2]. fold pv in PV1, PV2.
  assert (Fp : fits (s_params s) pv).
  { apply (fits_same _ g); [congruence| |].
    - unfold same_shape in *. congruence.
    - apply (fits_ext (s_vel s1)); [|exact Ft]. intros k. rewrite Ln, P1. reflexivity. }
  assert (Disp : displacement (map snd g) (s_params s) (s_params s')
                 = sprod (- c_lr c) (map fst pv)).
  { cbn [set_qchange set_vel s_params] in Hp. rewrite Hp, P1.
    destruct (descend_spec (c_lr c) pv (s_params s) Fp) as [D1 [D2 D3]].
    replace (map snd g) with (map snd pv) by congruence.
    apply displacement_eq; [| |].
    - exact (eq_trans (fits_shape _ _ Fp) (eq_sym (sprod_shape (- c_lr c) (map fst pv)))).
    - exact D1.
    - intros i k Hi j. rewrite D3 by (eapply nth_error_In; exact Hi).
      rewrite (entry_of_nth pv (proj1 Fp) i k Hi j).
      assert (Nv : nth i (sprod (- c_lr c) (map fst pv)) [] = vscale (- c_lr c) (nth i (map fst pv) [])).
      { exact (map_nth (vscale (- c_lr c)) (map fst pv) [] i). }
      rewrite Nv, coord_vscale. ring. }
  rewrite Disp. unfold approx_quad, removed_damping. rewrite Inc.
  assert (Zip : zip (sprod (- c_lr c) (map fst pv)) (map snd g)
                = map (fun p : vec * nat => (map (Rmult (- c_lr c)) (fst p), snd p)) pv).
  { replace (map snd g) with (map snd pv) by congruence. clear. unfold sprod.
    induction pv as [|[v k] l IH]; [reflexivity|]. cbn [map zip fst snd]. f_equal. exact IH. }
  rewrite Zip. pose proof (Inv (- c_lr c) (snd r)) as MI. fold pv in MI. rewrite MI.
  rewrite map_map. cbn [fst].
  assert (MM : map (fun p : vec * nat => map (Rmult (- c_lr c)) (fst p)) (snd r)
               = sprod (- c_lr c) (map fst (snd r))).
  { unfold sprod. rewrite map_map. reflexivity. }
  rewrite MM.
  assert (Sh1 : same_shape (map fst pv) (map fst (snd r))) by exact PV2.
  assert (Sh2 : same_shape (map fst pv) (map fst g)) by (unfold same_shape in *; congruence).
  rewrite !inner_sprod_l, (inner_sprod_r _ _ _ Sh1). field.
Qed.

(** One variable with one entry, identity preconditioner and curvature. *)
Definition o_ctx : ctx :=
  mkCtx (fun l => l) (fun l => l) (fun u => u) 0 (fun _ => 0) (fun _ => 0).
Definition o_cfg (t : mtype) (norm : option R) (wd : bool) (incl : bool) : cfg :=
  mkCfg t 1 0 norm wd 1 None 1 true false true true (19/20) 1 0 0 (3/4) (1/4) incl.
Definition o_state : st :=
  mkSt (fun _ => [1]) (fun _ => [0]) 1 NaN None None None None 0.

Lemma o_good g0 : good_ctx o_ctx [([g0], 0%nat)].
Proof.
  split; [apply shape_id|]. split; [apply shape_id|]. split.
  - intros u H. split; [exact H|]. destruct u; [discriminate H|discriminate].
  - reflexivity.
Qed.
Lemma o_shaped g0 : well_shaped o_state [([g0], 0%nat)].
Proof.
  split; [discriminate|]. split; [|reflexivity]. split.
  - cbn. constructor; [intros []|constructor].
  - intros v k [H|[]]. injection H as <- <-. reflexivity.
Qed.

(** The prediction leaves the weight decay out. *)
Lemma prediction_weight_decay : exists c x s g s' q,
  c_mtype c = Regular /\ c_adapt c = true /\ c_chief c = true /\
  Nat.modulo (S (s_counter s)) (c_interval c) = 0%nat /\ 0 < s_damping s /\
  well_shaped s g /\ good_ctx x g /\
  apply_gradients c x s g = Ok s' /\ s_qchange s' = Some q /\
  q <> approx_quad (x_mult x) (removed_damping c s) (map snd g) (map fst g)
         (displacement (map snd g) (s_params s) (s_params s')).
Proof.
  exists (o_cfg Regular None true true), o_ctx, o_state, [([1], 0%nat)]. do 2 eexists.
  repeat (split; [first [reflexivity | exact (Rlt_0_1) | apply o_shaped | apply o_good]|]).
  unfold approx_quad, removed_damping, displacement, inner, coord. cbn. lra.
Qed.

(** With adam momentum the prediction ignores the clipping. *)
Lemma prediction_clipped_adam : exists c x s g s' q,
  c_mtype c = Adam /\ c_use_wd c = false /\ c_incl c = true /\ c_adapt c = true /\ c_chief c = true /\
  Nat.modulo (S (s_counter s)) (c_interval c) = 0%nat /\ 0 < s_damping s /\
  well_shaped s g /\ good_ctx x g /\
  (forall a l, x_mult x (map (fun p => (map (Rmult a) (fst p), snd p)) (x_precond x l))
               = map (fun p => (map (Rmult a) (fst p), snd p)) l) /\
  apply_gradients c x s g = Ok s' /\ s_qchange s' = Some q /\
  q <> approx_quad (x_mult x) (removed_damping c s) (map snd g) (map fst g)
         (displacement (map snd g) (s_params s) (s_params s')).
Proof.
  set (c := o_cfg Adam (Some 1) false true). set (g := [([2], 0%nat)] : pairs).
  destruct (step_total c o_ctx o_state g (o_shaped 2) (o_good 2)) as [s' [E _]].
  assert (W1 : well_shaped (maybe_update_prev_loss c o_ctx o_state) g).
  { destruct (prev_loss_stage c o_ctx o_state) as [P1 [P2 _]].
    apply (well_shaped_frame o_state); [exact P1|exact P2|apply o_shaped]. }
  pose proof (adam_raw c o_ctx _ g eq_refl W1 shape_id) as A. cbv zeta in A.
  assert (Dir : direction c (snd (update_velocities
              (s_vel (maybe_update_prev_loss c o_ctx o_state)) (c_momentum c) 1 g))
            (x_precond o_ctx (snd (update_velocities
              (s_vel (maybe_update_prev_loss c o_ctx o_state)) (c_momentum c) 1 g)))
            = [([1], 0%nat)]).
  { cbn. unfold direction, clip_factor, inner, coord. cbn.
    destruct (Req_EM_T _ _) as [Z|Z]; [exfalso; lra|].
    match goal with |- context[sqrt ?e] => replace e with ((1/2) * (1/2)) by field end.
    rewrite sqrt_square by lra. rewrite Rmin_right by lra.
    do 3 f_equal. lra. }
  rewrite Dir in A.
  destruct (apply_of_raw c o_ctx o_state g _ _ A) as [s'' [E' [Hp [_ [_ [Hq _]]]]]].
  rewrite E in E'. injection E' as <-.
  exists c, o_ctx, o_state, g, s'. eexists.
  do 5 (split; [reflexivity|]). split; [reflexivity|]. split; [exact Rlt_0_1|].
  split; [apply o_shaped|]. split; [apply o_good|]. split; [reflexivity|].
  split; [exact E|]. split; [exact Hq|].
  rewrite Hp. unfold approx_quad, removed_damping, displacement, inner, coord. cbn. lra.
Qed.

(** With adam momentum the prediction contains the damping, although the documented
    default leaves it out. *)
Lemma prediction_default_adam : exists c x s g s' q,
  c_mtype c = Adam /\ c_use_wd c = false /\ c_norm c = None /\ c_incl c = false /\
  c_adapt c = true /\ c_chief c = true /\
  Nat.modulo (S (s_counter s)) (c_interval c) = 0%nat /\ 0 < s_damping s /\
  well_shaped s g /\ good_ctx x g /\
  (forall a l, x_mult x (map (fun p => (map (Rmult a) (fst p), snd p)) (x_precond x l))
               = map (fun p => (map (Rmult a) (fst p), snd p)) l) /\
  apply_gradients c x s g = Ok s' /\ s_qchange s' = Some q /\
  q <> approx_quad (x_mult x) (removed_damping c s) (map snd g) (map fst g)
         (displacement (map snd g) (s_params s) (s_params s')).
Proof.
  exists (o_cfg Adam None false false), o_ctx, o_state, [([2], 0%nat)]. do 2 eexists.
  do 7 (split; [reflexivity|]). split; [exact Rlt_0_1|].
  split; [apply o_shaped|]. split; [apply o_good|]. split; [reflexivity|].
  split; [reflexivity|]. split; [reflexivity|].
  unfold approx_quad, removed_damping, displacement, inner, coord. cbn. lra.
Qed.

(* ------------------------------------------------------------------------ *)
(** * C29 *)

Lemma vars_before_check : exists a vs,
  a_momentum_type a = "regular"%string /\ legal_estimator a /\
  construct a = (vs, Raise ValueError) /\ vs <> [].
Proof.
  exists (mkArgs "regular" (Some 0) None None None true false true None false false). eexists.
  split; [reflexivity|]. split; [split; [left; reflexivity|discriminate]|].
  split; [reflexivity|discriminate].
Qed.

(* ------------------------------------------------------------------------ *)
(** * A concrete training problem: loss (w - b)^2 / 2 of one weight, batches of one
      number, one factor that records the squared gradient *)

Definition w_grad (params : nat -> vec) (b : R) : R := coord 0 (params 0%nat) - b.
Definition w_env : env R unit R :=
  mkEnv (fun params b => [([w_grad params b], 0%nat)])
        (fun b params => 1/2 * w_grad params b ^ 2)
        (fun params b => [fun _ => w_grad params b ^ 2])
        (fun covs d => match covs with
                       | m :: _ => match mav_value m tt with Some v => 1 / (v + d) | None => 0 end
                       | [] => 0
                       end)
        (fun inv l => sprod_p inv l)
        (fun covs _ d l =>
           sprod_p (match covs with
                    | m :: _ => match mav_value m tt with Some v => v + d | None => d end
                    | [] => d
                    end) l)
        (fun _ _ u => u).
Definition w_params : nat -> vec := fun _ => [3].
Definition w_cfg (immediate : bool) : cfg :=
  mkCfg Regular (1/10) (9/10) None false 0 None 1 true immediate true true (19/20) 5 (1/100) 0
        (3/4) (1/4) false.
Definition w_pcfg (immediate : bool) : pcfg := mkP (w_cfg immediate) 10 2 4 (19/20).
Definition w_inputs (t : nat) : input R := mkIn (INR t) (INR (t - 1)) (Nat.even t).

Lemma sprod_p_preserves a : shape_preserving (sprod_p a).
Proof.
  intros l. split; [apply sprod_p_snd|]. rewrite sprod_p_fst. apply sprod_shape.
Qed.

Lemma w_good : good_env w_env w_params 1.
Proof.
  split; [|split].
  - intros params b H. split; [discriminate|]. split; [|split; [|reflexivity]].
    + split; [cbn; constructor; [intros []|constructor]|].
      intros v k [E|[]]. injection E as <- <-. reflexivity.
    + split; [|reflexivity]. intros u S. split; [exact S|]. destruct u; [discriminate S|discriminate].
  - intros inv. apply sprod_p_preserves.
  - intros cov inv d. apply sprod_p_preserves.
Qed.

Lemma w_run imm : exists states,
  is_run (w_pcfg imm) w_env (initial w_params 1 1 0) w_inputs states.
Proof. apply (run_exists _ _ w_params 1 w_good). apply initial_shaped. Qed.

Lemma w_burnin : exists states,
  is_run (w_pcfg true) w_env (initial w_params 1 1 0) w_inputs states /\
  (1 <= 3 <= p_burnin (w_pcfg true))%nat /\
  mav_value (nth 0 (o_cov (states 3%nat)) (mav_init (fun _ => 0) true)) tt
  = Some ((3 ^ 2 + 2 ^ 2 + 1 ^ 2) / 3).
Proof.
  destruct (w_run true) as [states R]. exists states. split; [exact R|].
  split; [cbn; lia|].
  rewrite (plain_average _ _ _ _ _ _ _ _ R w_good 0%nat 3%nat tt); [|lia|cbn; lia].
  assert (P : forall t, (t <= 4)%nat -> o_st (states t) = o_st (initial (I := unit) w_params 1 1 0)).
  { intros t Ht. apply (burnin_phase _ _ _ _ _ _ _ _ R t). exact Ht. }
  f_equal. unfold mean_to. cbn [sum_to]. unfold stat_at. rewrite !P by lia.
  unfold w_env, w_grad, w_inputs, w_params, coord.
  cbn [e_stats nth initial o_st s_params i_batch]. simpl INR. field.
Qed.

Lemma ctor_accepts a :
  ((exists vs t r, construct a = (vs, Ok (t, r))) <-> legal a /\ legal_estimator a) /\
  (forall vs t r, construct a = (vs, Ok (t, r)) ->
     ((lower (a_momentum_type a) = "regular"%string /\ t = Regular) \/
      (lower (a_momentum_type a) = "adam"%string /\ t = Adam) \/
      (lower (a_momentum_type a) = "qmodel"%string /\ t = Qmodel) \/
      (lower (a_momentum_type a) = "qmodel_fixedmu"%string /\ t = QmodelFixedMu)) /\
     (forall lr, a_learning_rate a = Some lr -> r = lr) /\
     (a_learning_rate a = None -> r = match a_rescale a with Some q => q | None => 1 end)).
Proof.
  split; [split|].
  - intros [vs [t [r E]]]. apply construct_ok in E. tauto.
  - intros [L Le]. destruct (legal_construct a L Le) as [t [E _]].
    eexists. exists t. eexists. exact E.
  - intros vs t r E. apply construct_ok in E. destruct E as [_ [_ [E [-> _]]]].
    split; [apply lookup_mtype_spec, E|]. unfold base_lr.
    split; [intros lr ->; reflexivity|intros ->; reflexivity].
Qed.

Lemma ctor_rejects a : ~ (legal a /\ legal_estimator a) ->
  exists vs, construct a = (vs, Raise ValueError).
Proof.
  intros N. destruct (construct a) as [vs [[t r]|e]] eqn:E.
  - exfalso. apply N. apply construct_ok in E. tauto.
  - exists vs. rewrite (construct_raises a vs e E). reflexivity.
Qed.

Lemma regular_step_short c x s g :
  c_mtype c = Regular -> well_shaped s g -> shape_preserving (x_precond x) ->
  shape_preserving (x_mult x) ->
  exists s', apply_gradients c x s g = Ok s' /\
  (forall k, ~ In k (map snd g) -> s_vel s' k = s_vel s k /\ s_params s' k = s_params s k) /\
  (forall k j, In k (map snd g) ->
     coord j (s_vel s' k) = c_momentum c * coord j (s_vel s k)
                            + entry_of k j (direction c g (x_precond x g)) /\
     coord j (s_params s' k) = coord j (s_params s k)
       - c_lr c * (coord j (s_vel s' k)
                   + if c_use_wd c then c_wd c * coord j (s_params s k) else 0)).
Proof.
  intros M W A B. destruct (regular_step c x s g M W A B) as [s' [E [_ [_ [_ H]]]]].
  exists s'. split; assumption.
Qed.

Lemma regular_step_plain c x s g :
  c_mtype c = Regular -> c_momentum c = 0 -> c_use_wd c = false ->
  well_shaped s g -> shape_preserving (x_precond x) -> shape_preserving (x_mult x) ->
  exists s', apply_gradients c x s g = Ok s' /\
  forall k j, In k (map snd g) ->
    coord j (s_params s' k) = coord j (s_params s k)
      - c_lr c * entry_of k j (direction c g (x_precond x g)).
Proof.
  intros M Z WD W A B. destruct (regular_step c x s g M W A B) as [s' [E [_ [_ [_ [_ H]]]]]].
  exists s'. split; [exact E|]. intros k j K. destruct (H k j K) as [H1 H2].
  rewrite H2, H1, Z, WD. ring.
Qed.

Lemma adam_step_short c x s g :
  c_mtype c = Adam -> well_shaped s g -> shape_preserving (x_precond x) ->
  exists s', apply_gradients c x s g = Ok s' /\
  (forall k, ~ In k (map snd g) -> s_vel s' k = s_vel s k /\ s_params s' k = s_params s k) /\
  (forall k j, In k (map snd g) ->
     coord j (s_vel s' k) = c_momentum c * coord j (s_vel s k) + entry_of k j g /\
     coord j (s_params s' k) = coord j (s_params s k)
       - c_lr c * (entry_of k j (direction c (velocity_pairs s' (map snd g))
                                   (x_precond x (velocity_pairs s' (map snd g))))
                   + if c_use_wd c then c_wd c * coord j (s_params s k) else 0)).
Proof.
  intros M W A. destruct (adam_step c x s g M W A) as [s' [E [_ [_ [_ H]]]]].
  exists s'. split; assumption.
Qed.

Lemma regular_prediction_mod c x s g s' :
  c_mtype c = Regular -> well_shaped s g -> good_ctx x g -> c_use_wd c = false ->
  c_adapt c = true -> c_chief c = true ->
  Nat.modulo (S (s_counter s)) (c_interval c) = 0%nat -> s_damping s <> 0 ->
  apply_gradients c x s g = Ok s' ->
  s_qchange s' = Some (approx_quad (x_mult x) (removed_damping c s) (map snd g) (map fst g)
                         (displacement (map snd g) (s_params s) (s_params s'))).
Proof.
  intros M W G WD Ad Ch Ti. apply regular_prediction; auto.
  unfold is_time. rewrite Nat.add_1_r, Ti. reflexivity.
Qed.
