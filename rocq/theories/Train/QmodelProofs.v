(** The quadratic-model modes. *)
From Coq Require Import List Arith Bool Reals Lra Lia.
From Verif.Base Require Import Py.
From Verif.Train Require Import Model Spec VecProofs CtorProofs StepProofs.
Import ListNotations.
Open Scope list_scope.
Open Scope R_scope.

(* ------------------------------------------------------------------------ *)
(** * Plumbing *)

Lemma prev_snd s vars : map snd (compute_prev_updates s vars) = vars.
Proof.
  unfold compute_prev_updates, sprod. rewrite map_map.
  induction vars as [|k vars IH]; [reflexivity|]. cbn [map zip snd]. rewrite IH. reflexivity.
Qed.
Lemma prev_fst s vars : map fst (compute_prev_updates s vars) = previous_update s vars.
Proof.
  unfold compute_prev_updates, sprod, previous_update. rewrite map_map.
  induction vars as [|k vars IH]; [reflexivity|]. cbn [map zip fst]. rewrite IH. reflexivity.
Qed.

Lemma fits_shape f l : fits f l -> same_shape (map f (map snd l)) (map fst l).
Proof.
  intros [_ H]. unfold same_shape. rewrite !map_map. apply map_ext_in.
  intros [v k] I. cbn [fst snd]. symmetry. apply H, I.
Qed.
Lemma prev_shape s g : fits (s_vel s) g ->
  same_shape (previous_update s (map snd g)) (map fst g).
Proof.
  intros F. eapply same_shape_trans; [|apply (fits_shape _ _ F)].
  unfold previous_update, same_shape. rewrite !map_map. apply map_ext.
  intros k. apply map_length.
Qed.

Section Step.
Variables (c : cfg) (x : ctx) (s : st) (g : pairs).
Hypothesis W : well_shaped s g.
Hypothesis G : good_ctx x g.

Let gs := map fst g.
Let pg := map fst (x_precond x g).
Let prev := previous_update s (map snd g).
Let J := x_mft x.
Let n := c_batch_size c.
Let lam := s_damping s.

Lemma gs_nonempty : gs <> [].
Proof. destruct W as [N _]. unfold gs. destruct g; [congruence|discriminate]. Qed.
Lemma pg_shape : same_shape pg gs.
Proof. exact (proj2 (proj1 G g)). Qed.
Lemma prev_shape' : same_shape prev gs.
Proof. apply prev_shape. exact (proj1 (proj2 W)). Qed.
Lemma shape_nonempty u : same_shape u gs -> u <> [].
Proof. intros S ->. apply gs_nonempty. destruct gs; [reflexivity|discriminate S]. Qed.
Lemma J_shape u v : same_shape u gs -> same_shape v gs -> same_shape (J u) (J v) /\ J u <> [].
Proof.
  intros U V. destruct G as [_ [_ [L _]]].
  destruct (L u U) as [A B]. destruct (L v V) as [C _].
  split; [eapply same_shape_trans; [exact A|apply same_shape_sym, C]|exact B].
Qed.

Definition qm : m22 :=
  mkM (inner (J pg) (J pg) / n + lam * inner pg pg)
      (inner (J prev) (J pg) / n + lam * inner prev pg)
      (inner (J prev) (J pg) / n + lam * inner prev pg)
      (inner (J prev) (J prev) / n + lam * inner prev prev).
Definition qc : v2 := mkV (inner gs pg) (inner gs prev).
Definition qb : m22 :=
  mkM (lam * inner pg pg) (lam * inner prev pg) (lam * inner prev pg) (lam * inner prev prev).

Lemma compute_qmodel_ok :
  compute_qmodel c x s (x_precond x g) (compute_prev_updates s (map snd g)) g = Ok (qm, qc, qb).
Proof.
  pose proof pg_shape as P. pose proof prev_shape' as V.
  pose proof (proj1 (proj1 G g)) as PV.
  pose proof (shape_nonempty _ P) as NP. pose proof (shape_nonempty _ V) as NV.
  pose proof gs_nonempty as NG.
  unfold compute_qmodel.
  assert (U : forall l : pairs, l <> [] -> unzip_star l = Ok (map fst l, map snd l)).
  { intros [|a l] N; [congruence|reflexivity]. }
  rewrite !U; try (intros E0; apply (f_equal (map fst)) in E0; rewrite ?prev_fst in E0;
                   cbn [map] in E0; contradiction).
  cbn [bind fst snd].
  unfold assert_variables_match.
  rewrite !U; try (intros E0; apply (f_equal (map fst)) in E0; rewrite ?prev_fst in E0;
                   cbn [map] in E0; contradiction).
  cbn [bind]. rewrite !check_match_same by (rewrite prev_snd; congruence).
  cbn [bind]. rewrite prev_fst. fold prev. fold pg. fold gs.
  assert (PP : same_shape pg pg) by apply same_shape_refl.
  assert (VV : same_shape prev prev) by apply same_shape_refl.
  assert (VP : same_shape prev pg) by (eapply same_shape_trans; [exact V|apply same_shape_sym, P]).
  rewrite (ip_inner pg pg PP NP), (ip_inner prev pg VP NV), (ip_inner prev prev VV NV). cbn [bind].
  fold J.
  destruct (J_shape pg pg P P) as [S1 N1]. destruct (J_shape prev pg V P) as [S2 N2].
  destruct (J_shape prev prev V V) as [S3 _].
  rewrite (ip_inner _ _ S1 N1), (ip_inner _ _ S2 N2), (ip_inner _ _ S3 N2). cbn [bind].
  rewrite (ip_inner gs pg (same_shape_sym _ _ P) NG), (ip_inner gs prev (same_shape_sym _ _ V) NG).
  reflexivity.
Qed.

(** The 2x2 model is the model of the loss on the span. *)
Lemma quad_span a b :
  quad J n lam gs (comb a pg b prev) = eval_quadratic qm qc (mkV a b).
Proof.
  pose proof pg_shape as P. pose proof prev_shape' as V.
  assert (PV : same_shape pg prev) by (eapply same_shape_trans; [exact P|apply same_shape_sym, V]).
  assert (VP : same_shape prev pg) by (apply same_shape_sym, PV).
  destruct (J_shape pg prev P V) as [JPV _].
  destruct (J_shape pg pg P P) as [JPP _]. destruct (J_shape prev prev V V) as [JVV _].
  pose proof (proj2 (proj2 (proj2 G)) a pg b prev P V) as Lin. fold J in Lin.
  unfold quad. rewrite Lin.
  rewrite (inner_comb_l a (J pg) b (J prev) (comb a (J pg) b (J prev)));
    [|exact JPV|apply same_shape_sym, comb_shape, JPV].
  rewrite !(inner_comb_r a (J pg) b (J prev)); auto using same_shape_refl.
  rewrite (inner_comm (J pg) (J prev) JPV).
  rewrite (inner_comb_l a pg b prev (comb a pg b prev));
    [|exact PV|apply same_shape_sym, comb_shape, PV].
  rewrite !(inner_comb_r a pg b prev); auto using same_shape_refl.
  rewrite (inner_comm pg prev PV).
  unfold eval_quadratic, eval_quadratic_no_c, qm, qc. cbn [m00 m01 m10 m11 v0 v1].
  unfold Rdiv. ring.
Qed.

Lemma curvature_span a b :
  curvature J n lam (comb a pg b prev) = 2 * eval_quadratic_no_c qm (mkV a b).
Proof.
  pose proof (quad_span a b) as Q. unfold quad, eval_quadratic in Q. unfold curvature.
  rewrite (inner_comb_r a pg b prev gs) in Q.
  - unfold qc in Q. cbn [v0 v1] in Q. lra.
  - eapply same_shape_trans; [apply pg_shape|apply same_shape_sym, prev_shape'].
  - apply pg_shape.
Qed.

Lemma norm_span a b :
  lam * inner (comb a pg b prev) (comb a pg b prev) = 2 * eval_quadratic_no_c qb (mkV a b).
Proof.
  pose proof pg_shape as P. pose proof prev_shape' as V.
  assert (PV : same_shape pg prev) by (eapply same_shape_trans; [exact P|apply same_shape_sym, V]).
  rewrite (inner_comb_l a pg b prev (comb a pg b prev));
    [|exact PV|apply same_shape_sym, comb_shape, PV].
  rewrite !(inner_comb_r a pg b prev); auto using same_shape_refl, same_shape_sym.
  rewrite (inner_comm pg prev PV).
  unfold eval_quadratic_no_c, qb. cbn [m00 m01 m10 m11 v0 v1]. field.
Qed.

(** Removing the damping part leaves the model with the l2 part. *)
Lemma reported_span a b :
  s_damping s <> 0 ->
  quad J n (reported_lambda c s) gs (comb a pg b prev)
  = (if c_incl c then eval_quadratic qm qc (mkV a b)
     else eval_quadratic qm qc (mkV a b)
          - sub_damping_coeff c s * eval_quadratic_no_c qb (mkV a b)).
Proof.
  intros D. pose proof (quad_span a b) as Q. unfold reported_lambda.
  destruct (c_incl c); [exact Q|]. rewrite <- Q.
  pose proof (norm_span a b) as N. unfold sub_damping_coeff, quad in *. fold lam in D |- *.
  set (I := inner (comb a pg b prev) (comb a pg b prev)) in *.
  replace (eval_quadratic_no_c qb {| v0 := a; v1 := b |}) with (1 / 2 * (lam * I)) by lra.
  generalize (inner (J (comb a pg b prev)) (J (comb a pg b prev)) / n). intros K.
  field. exact D.
Qed.
End Step.

(* ------------------------------------------------------------------------ *)
(** * Two-dimensional optimisation *)

Lemma min_2x2 m cc : m01 m = m10 m -> 0 < m00 m -> 0 < m00 m * m11 m - m01 m * m10 m ->
  let sol := v2scale (-1) (two_by_two_solve m cc) in
  (forall a b, eval_quadratic m cc sol <= eval_quadratic m cc (mkV a b)) /\
  eval_quadratic m cc sol = 1/2 * (v0 sol * v0 cc + v1 sol * v1 cc) /\
  eval_quadratic m cc sol <= 0.
Proof.
  intros S P D sol.
  set (al := v0 sol). set (mu := v1 sol).
  assert (E1 : m00 m * al + m01 m * mu = - v0 cc).
  { unfold al, mu, sol, v2scale, two_by_two_solve. cbn [v0 v1]. rewrite <- S in *. field. lra. }
  assert (E2 : m01 m * al + m11 m * mu = - v1 cc).
  { unfold al, mu, sol, v2scale, two_by_two_solve. cbn [v0 v1]. rewrite <- S in *. field. lra. }
  assert (Sd : sol = mkV al mu) by reflexivity.
  assert (K : forall a b, eval_quadratic m cc (mkV a b) - eval_quadratic m cc (mkV al mu)
                          = eval_quadratic_no_c m (mkV (a - al) (b - mu))).
  { intros a b. unfold eval_quadratic, eval_quadratic_no_c. cbn [v0 v1]. rewrite <- S.
    replace (v0 cc) with (- (m00 m * al + m01 m * mu)) by lra.
    replace (v1 cc) with (- (m01 m * al + m11 m * mu)) by lra. field. }
  assert (PSD : forall u v, 0 <= eval_quadratic_no_c m (mkV u v)).
  { intros u v. unfold eval_quadratic_no_c. cbn [v0 v1]. rewrite <- S in *.
    assert (H : m00 m * (m00 m * u * u + 2 * m01 m * u * v + m11 m * v * v)
            = (m00 m * u + m01 m * v) ^ 2 + (m00 m * m11 m - m01 m * m01 m) * v ^ 2) by ring.
    assert (0 <= m00 m * (m00 m * u * u + 2 * m01 m * u * v + m11 m * v * v)).
    { rewrite H. apply Rplus_le_le_0_compat; [apply pow2_ge_0|].
      apply Rmult_le_pos; [lra|apply pow2_ge_0]. }
    assert (0 <= m00 m * u * u + 2 * m01 m * u * v + m11 m * v * v) by nra.
    lra. }
  rewrite Sd. split; [|split].
  - intros a b. pose proof (PSD (a - al) (b - mu)). rewrite <- K in H. lra.
  - unfold eval_quadratic, eval_quadratic_no_c. cbn [v0 v1]. rewrite <- S.
    replace (v0 cc) with (- (m00 m * al + m01 m * mu)) by lra.
    replace (v1 cc) with (- (m01 m * al + m11 m * mu)) by lra. field.
  - pose proof (PSD (0 - al) (0 - mu)) as H. rewrite <- K in H.
    unfold eval_quadratic, eval_quadratic_no_c in *. cbn [v0 v1] in *. lra.
Qed.

Lemma min_1d m cc mu : m01 m = m10 m -> 0 < m00 m ->
  let al := -1 * (mu * m01 m + v0 cc) / m00 m in
  forall a, eval_quadratic m cc (mkV al mu) <= eval_quadratic m cc (mkV a mu).
Proof.
  intros S P al a.
  assert (E : m00 m * al = - (mu * m01 m + v0 cc)) by (unfold al; field; lra).
  assert (K : eval_quadratic m cc (mkV a mu) - eval_quadratic m cc (mkV al mu)
              = 1/2 * m00 m * (a - al) ^ 2).
  { unfold eval_quadratic, eval_quadratic_no_c. cbn [v0 v1]. rewrite <- S.
    replace (v0 cc) with (- (m00 m * al) - mu * m01 m) by lra. field. }
  assert (0 <= 1/2 * m00 m * (a - al) ^ 2).
  { apply Rmult_le_pos; [lra|apply pow2_ge_0]. }
  lra.
Qed.

(** Strict convexity on the span, in terms of the entries. *)
Lemma convex_entries m : m01 m = m10 m ->
  (forall a b, a <> 0 \/ b <> 0 -> 0 < eval_quadratic_no_c m (mkV a b)) ->
  0 < m00 m /\ 0 < m00 m * m11 m - m01 m * m10 m.
Proof.
  intros S H.
  assert (P : 0 < m00 m).
  { specialize (H 1 0 (or_introl R1_neq_R0)). unfold eval_quadratic_no_c in H. cbn [v0 v1] in H. lra. }
  split; [exact P|].
  assert (N : - m01 m <> 0 \/ m00 m <> 0) by (right; lra).
  specialize (H (- m01 m) (m00 m) N). unfold eval_quadratic_no_c in H. cbn [v0 v1] in H.
  rewrite <- S in *.
  assert (E : (- m01 m * m00 m + m00 m * m01 m) * - m01 m + (- m01 m * m01 m + m00 m * m11 m) * m00 m
          = m00 m * (m00 m * m11 m - m01 m * m01 m)) by ring.
  rewrite E in H. nra.
Qed.

(* ------------------------------------------------------------------------ *)
(** * A whole step *)

Definition is_q (c : cfg) : Prop := c_mtype c = Qmodel \/ c_mtype c = QmodelFixedMu.
Definition fixed_mu_of (c : cfg) : option R :=
  match c_mtype c with QmodelFixedMu => Some (c_momentum c) | _ => None end.

Lemma coord_ext (u v : vec) : length u = length v -> (forall j, coord j u = coord j v) -> u = v.
Proof.
  intros L H. apply (nth_ext u v 0 0 L). intros i _. apply H.
Qed.

Lemma displacement_eq vars p p' : forall X,
  same_shape (map p vars) X -> (forall k, length (p' k) = length (p k)) ->
  (forall i k, nth_error vars i = Some k -> forall j,
     coord j (p' k) = coord j (p k) + coord j (nth i X [])) ->
  displacement vars p p' = X.
Proof.
  unfold displacement.
  induction vars as [|k vars IH]; intros [|v X] S L H; try discriminate S; [reflexivity|].
  cbn [map] in S. apply same_shape_cons in S. destruct S as [S1 S2].
  cbn [map]. f_equal.
  - apply coord_ext.
    + rewrite map_length, zip_length by (rewrite L; reflexivity). exact S1.
    + intros j. specialize (H 0%nat k eq_refl j). cbn [nth] in H.
      assert (E : coord j (map (fun q : R * R => snd q - fst q) (zip (p k) (p' k)))
              = coord j (p' k) - coord j (p k)).
      { specialize (L k). clear - L. revert L. generalize (p k), (p' k). intros u. unfold coord.
        revert j. induction u as [|a u IH]; intros j [|b w] L; try discriminate L.
        - destruct j; simpl; lra.
        - injection L as L. destruct j; simpl; [reflexivity|]. apply IH, L. }
      rewrite E. lra.
  - apply IH; auto. intros i k' Hi j. apply (H (S i) k' Hi j).
Qed.

Lemma entry_of_nth l : NoDup (map snd l) -> forall i k, nth_error (map snd l) i = Some k ->
  forall j, entry_of k j l = coord j (nth i (map fst l) []).
Proof.
  induction l as [|[v k0] l IH]; intros D i k H j.
  - destruct i; discriminate H.
  - cbn [map snd] in D, H. inversion D as [|? ? N D']; subst.
    destruct i as [|i]; cbn [nth_error] in H.
    + injection H as ->. cbn [entry_of map fst nth]. rewrite Nat.eqb_refl. reflexivity.
    + cbn [entry_of map fst nth]. destruct (Nat.eqb_spec k0 k) as [->|Ne].
      * exfalso. apply N. eapply nth_error_In, H.
      * apply IH; assumption.
Qed.

Lemma qmodel_step c x s g alpha mu q :
  is_q c -> well_shaped s g -> good_ctx x g ->
  compute_qmodel_hyperparams c s (qm c x s g) (qc x s g) (qb x s g) (fixed_mu_of c) = (alpha, mu, q) ->
  exists s', apply_gradients c x s g = Ok s' /\
    s_qlr s' = Some (- alpha) /\ s_qmom s' = Some mu /\ s_qchange s' = Some q /\
    s_counter s' = S (s_counter s) /\
    (forall k, length (s_vel s' k) = length (s_vel s k)) /\
    (forall k, length (s_params s' k) = length (s_params s k)) /\
    (forall k j, In k (map snd g) ->
      coord j (s_vel s' k) = mu * coord j (s_vel s k) - alpha * entry_of k j (x_precond x g)) /\
    (c_use_wd c = false ->
      displacement (map snd g) (s_params s) (s_params s')
      = comb (c_lr c * alpha) (map fst (x_precond x g))
             (c_lr c * mu) (previous_update s (map snd g))).
Proof.
  intros T W G H.
  destruct (prev_loss_stage c x s) as [E1 [E2 [E3 [E4 [E5 [E6 E7]]]]]].
  set (s1 := maybe_update_prev_loss c x s) in *.
  pose proof (well_shaped_frame s s1 g E1 E2 W) as W1.
  assert (H1 : compute_qmodel_hyperparams c s1 (qm c x s1 g) (qc x s1 g) (qb x s1 g) (fixed_mu_of c)
               = (alpha, mu, q)).
  { rewrite <- H. unfold compute_qmodel_hyperparams, zero_prevupd_case, non_zero_prevupd_case,
      sub_damping_coeff, qm, qc, qb, previous_update. rewrite E2, E3. reflexivity. }
  pose proof (compute_qmodel_ok c x s1 g W1 G) as Q.
  destruct W as [N [F L]]. destruct (proj1 G g) as [P1 P2].
  set (pgp := x_precond x g) in *.
  assert (Fd : fits (s_vel s1) pgp).
  { apply (fits_same _ g); [assumption|assumption|rewrite E2; exact F]. }
  pose proof (update_velocities_spec mu (- alpha) pgp (s_vel s1) Fd) as U. cbv zeta in U.
  set (r := update_velocities (s_vel s1) mu (- alpha) pgp) in *.
  destruct U as [U1 [U2 [U3 [U4 [U5 U6]]]]].
  set (s2 := set_vel (fst r) (set_qhyper (Some (- alpha)) (Some mu) (set_qchange (Some q) s1))).
  assert (R : compute_raw_update_steps c x s1 g = Ok (snd r, s2)).
  { unfold compute_raw_update_steps.
    assert (X : (do q0 <- get_qmodel_quantities c x s1 g ;
                 let '(pg, (m, cc, b)) := q0 in
                 let '(alpha0, mu0, change) := compute_qmodel_hyperparams c s1 m cc b (fixed_mu_of c) in
                 let s3 := set_qhyper (Some (- alpha0)) (Some mu0) (set_qchange (Some change) s1) in
                 let (vel, raw) := update_velocities (s_vel s3) mu0 (- alpha0) pg in
                 Ok (raw, set_vel vel s3)) = Ok (snd r, s2)).
    { unfold get_qmodel_quantities. fold pgp. rewrite Q. cbn [bind]. rewrite H1. cbn [s_vel set_qhyper set_qchange].
      fold r. unfold s2. destruct r as [vel raw]. reflexivity. }
    unfold fixed_mu_of in X. destruct T as [T|T]; rewrite T in *; exact X. }
  destruct (apply_of_raw c x s g _ _ R) as [s' [A [A1 [A2 [A3 [A4 [A5 A6]]]]]]].
  exists s'. split; [exact A|].
  assert (QL : s_qlr s' = Some (- alpha) /\ s_qmom s' = Some mu).
  { unfold apply_gradients in A. fold s1 in A. rewrite R in A. cbn [bind] in A.
    injection A as <-. unfold maybe_post_update_adapt_damping.
    destruct (negb _ || negb _); [split; reflexivity|].
    destruct (is_adaptation_time _ _); split; reflexivity. }
  assert (Fr : fits (s_params s2) (snd r)).
  { cbn [s_params s2 set_vel set_qhyper set_qchange]. rewrite E1. apply (fits_ext (s_vel s)); [exact L|].
    apply (fits_same _ g); [congruence| |exact F].
    eapply same_shape_trans; eauto. }
  pose proof (apply_params c s2 (snd r) Fr) as Qp. cbv zeta in Qp. rewrite <- A1 in Qp.
  destruct Qp as [Q1 [Q2 Q3]].
  change (s_params s2) with (s_params s1) in *. rewrite E1, U1, P1 in *.
  change (s_vel s2) with (fst r) in A2.
  split; [apply QL|]. split; [apply QL|].
  split; [rewrite A4; reflexivity|].
  split; [rewrite A5; change (s_counter s2) with (s_counter s1); rewrite E6; reflexivity|].
  split; [intros k; rewrite A2, U3, E2; reflexivity|].
  split; [exact Q1|].
  split.
  - intros k j I. rewrite A2, U5 by exact I. rewrite E2. lra.
  - intros WD.
    assert (SP : same_shape (map fst pgp) (previous_update s (map snd g))).
    { eapply same_shape_trans; [exact P2|]. apply same_shape_sym, prev_shape, F. }
    apply displacement_eq.
    + eapply same_shape_trans; [|apply same_shape_sym, comb_shape, SP].
      eapply same_shape_trans; [apply fits_shape; apply (fits_ext (s_vel s)); [exact L|exact F]|].
      apply same_shape_sym, P2.
    + exact Q1.
    + intros i k Hi j.
      assert (I : In k (map snd g)) by (eapply nth_error_In, Hi).
      rewrite (Q3 k j I), WD, U6 by exact I. rewrite U5 by exact I. rewrite E2.
      assert (Hi' : nth_error (map snd pgp) i = Some k) by (rewrite P1; exact Hi).
      assert (Dp : NoDup (map snd pgp)) by (rewrite P1; apply F).
      rewrite (entry_of_nth pgp Dp i k Hi' j).
      (* the i-th tensor of the combination *)
      assert (E : forall (X Y : list vec) i, same_shape X Y -> (i < length X)%nat -> forall a b,
                 coord j (nth i (comb a X b Y) []) = a * coord j (nth i X []) + b * coord j (nth i Y [])).
      { clear. unfold comb. induction X as [|u X IH]; intros [|v Y] i S Hl a b; try discriminate S;
          [simpl in Hl; lia|].
        apply same_shape_cons in S. destruct S as [S1 S2].
        destruct i as [|i]; cbn [zip map nth fst snd].
        - apply coord_comb, S1.
        - apply IH; [exact S2|simpl in Hl; lia]. }
      assert (Li : (i < length (map fst pgp))%nat).
      { rewrite map_length, <- (map_length snd), P1. apply nth_error_Some. congruence. }
      rewrite (E _ _ i SP Li).
      assert (Np : nth i (previous_update s (map snd g)) [] = map (Rmult (-1)) (s_vel s k)).
      { unfold previous_update.
        rewrite (nth_indep _ [] (map (Rmult (-1)) (s_vel s k)))
          by (rewrite map_length; apply nth_error_Some; congruence).
        rewrite (map_nth (fun k => map (Rmult (-1)) (s_vel s k))).
        rewrite (nth_error_nth _ _ _ Hi). reflexivity. }
      rewrite Np. change (map (Rmult (-1)) (s_vel s k)) with (vscale (-1) (s_vel s k)).
      rewrite coord_vscale. lra.
Qed.

(** The damping of the model is the one before the step. *)
Lemma comb_scale r a x b y : same_shape x y ->
  comb (r * a) x (r * b) y = comb r (comb a x b y) 0 (comb a x b y).
Proof.
  unfold comb. revert y. induction x as [|u x IH]; intros [|v y] S; try discriminate S; [reflexivity|].
  apply same_shape_cons in S. destruct S as [S1 S2]. cbn [zip map fst snd]. f_equal; [|apply IH, S2].
  clear - S1. revert v S1. induction u as [|p u IH]; intros [|q v] S1; try discriminate S1; [reflexivity|].
  injection S1 as S1. cbn [zip map fst snd]. f_equal; [ring|apply IH, S1].
Qed.

(* ------------------------------------------------------------------------ *)
(** * Optimality and predictions *)

Section Optimal.
Variables (c : cfg) (x : ctx) (s : st) (g : pairs).
Hypothesis W : well_shaped s g.
Hypothesis G : good_ctx x g.
Hypothesis LR : qmodel_lr c.
Hypothesis D0 : s_damping s <> 0.

Let gs := map fst g.
Let pg := map fst (x_precond x g).
Let prev := previous_update s (map snd g).
Let Q := quad (x_mft x) (c_batch_size c) (s_damping s) gs.
Let Qr := quad (x_mft x) (c_batch_size c) (reported_lambda c s) gs.
Let Cv := curvature (x_mft x) (c_batch_size c) (s_damping s).
Let m := qm c x s g.
Let cc := qc x s g.
Let b := qb x s g.

Lemma rescale_lr : match c_rescale c with Some r => c_lr c = r | None => c_lr c = 1 end.
Proof. unfold qmodel_lr in LR. destruct (c_rescale c); exact LR. Qed.

Lemma eval_scale r a u :
  eval_quadratic m cc (mkV (r * a) (r * u))
  = r ^ 2 * eval_quadratic_no_c m (mkV a u) + r * (v0 cc * a + v1 cc * u).
Proof. unfold eval_quadratic, eval_quadratic_no_c. cbn [v0 v1]. field. Qed.

Lemma m_sym : m01 m = m10 m. Proof. reflexivity. Qed.

(** Both parameters free. *)
Lemma free_case :
  inner gs prev <> 0 ->
  (forall a u, a <> 0 \/ u <> 0 -> 0 < Cv (comb a pg u prev)) ->
  exists alpha mu,
    compute_qmodel_hyperparams c s m cc b None
    = (alpha, mu, Qr (comb (c_lr c * alpha) pg (c_lr c * mu) prev)) /\
    (forall a u, Q (comb alpha pg mu prev) <= Q (comb a pg u prev)) /\
    (0 <= c_lr c <= 2 -> 0 < s_damping s -> c_l2 c <= s_damping s ->
     Qr (comb (c_lr c * alpha) pg (c_lr c * mu) prev) <= 0).
Proof.
  intros NZ Cx.
  assert (CE : 0 < m00 m /\ 0 < m00 m * m11 m - m01 m * m10 m).
  { apply convex_entries; [apply m_sym|]. intros a u H. specialize (Cx a u H).
    unfold Cv, pg, prev in Cx. rewrite (curvature_span c x s g W G) in Cx. fold m in Cx. lra. }
  destruct CE as [P Dt].
  destruct (min_2x2 m cc m_sym P Dt) as [M1 [M2 M3]].
  set (sol := v2scale (-1) (two_by_two_solve m cc)) in *.
  exists (v0 sol), (v1 sol).
  assert (E : sol = mkV (v0 sol) (v1 sol)) by reflexivity.
  assert (R : compute_qmodel_hyperparams c s m cc b None
    = (v0 sol, v1 sol, Qr (comb (c_lr c * v0 sol) pg (c_lr c * v1 sol) prev))).
  { unfold compute_qmodel_hyperparams.
    destruct (Req_EM_T (v1 cc) 0) as [Z|_]; [exfalso; apply NZ; exact Z|].
    unfold non_zero_prevupd_case. fold sol. unfold Qr, pg, prev, gs.
    rewrite (reported_span c x s g W G _ _ D0). fold m cc b.
    pose proof rescale_lr as RL.
    destruct (c_rescale c) as [r|]; rewrite RL.
    - reflexivity.
    - rewrite !Rmult_1_l, <- E, <- M2. reflexivity. }
  split; [exact R|]. split.
  - intros a u. unfold Q, pg, prev, gs. rewrite !(quad_span c x s g W G). fold m cc.
    rewrite <- E. apply M1.
  - intros Hr Dp Hl. unfold Qr, pg, prev, gs.
    rewrite (reported_span c x s g W G _ _ D0). fold m cc b.
    rewrite eval_scale.
    assert (Ev : eval_quadratic m cc sol
                 = eval_quadratic_no_c m (mkV (v0 sol) (v1 sol))
                   + (v0 cc * v0 sol + v1 cc * v1 sol)) by reflexivity.
    set (X := v0 cc * v0 sol + v1 cc * v1 sol) in *.
    assert (Hx : eval_quadratic_no_c m (mkV (v0 sol) (v1 sol)) = - X / 2) by (unfold X in *; lra).
    assert (Xn : X <= 0) by (rewrite M2 in M3; unfold X; lra).
    rewrite Hx. set (r := c_lr c) in *.
    assert (Hm : r ^ 2 * (- X / 2) + r * X <= 0).
    { replace (r ^ 2 * (- X / 2) + r * X) with (r * (1 - r / 2) * X) by field.
      assert (0 <= r * (1 - r / 2)) by nra. nra. }
    destruct (c_incl c); [exact Hm|].
    assert (0 <= eval_quadratic_no_c b (mkV (r * v0 sol) (r * v1 sol))).
    { pose proof (norm_span x s g W G (r * v0 sol) (r * v1 sol)) as Nn. fold b in Nn.
      pose proof (inner_self_nonneg (comb (r * v0 sol) (map fst (x_precond x g)) (r * v1 sol)
                    (previous_update s (map snd g)))). nra. }
    assert (0 <= sub_damping_coeff c s).
    { unfold sub_damping_coeff. assert (c_l2 c / s_damping s <= 1).
      { apply (Rmult_le_reg_r (s_damping s)); [exact Dp|]. unfold Rdiv.
        rewrite Rmult_assoc, Rinv_l by lra. lra. } lra. }
    nra.
Qed.

Lemma pg_curv : Cv (comb 1 pg 0 prev) = m00 m.
Proof.
  unfold Cv, pg, prev. rewrite (curvature_span c x s g W G). fold m.
  unfold eval_quadratic_no_c. cbn [v0 v1]. field.
Qed.

(** Fixed mu. *)
Lemma fixed_case mu :
  inner gs prev <> 0 -> 0 < Cv (comb 1 pg 0 prev) ->
  exists alpha,
    compute_qmodel_hyperparams c s m cc b (Some mu)
    = (alpha, mu, Qr (comb (c_lr c * alpha) pg (c_lr c * mu) prev)) /\
    (forall a, Q (comb alpha pg mu prev) <= Q (comb a pg mu prev)).
Proof.
  intros NZ P. rewrite pg_curv in P.
  set (alpha := -1 * (mu * m01 m + v0 cc) / m00 m). exists alpha. split.
  - unfold compute_qmodel_hyperparams.
    destruct (Req_EM_T (v1 cc) 0) as [Z|_]; [exfalso; apply NZ; exact Z|].
    unfold non_zero_prevupd_case. fold alpha. unfold Qr, pg, prev, gs.
    rewrite (reported_span c x s g W G _ _ D0). fold m cc b.
    pose proof rescale_lr as RL. destruct (c_rescale c) as [r|]; rewrite RL.
    + reflexivity.
    + rewrite !Rmult_1_l. reflexivity.
  - intros a. unfold Q, pg, prev, gs. rewrite !(quad_span c x s g W G). fold m cc.
    apply min_1d; [apply m_sym|exact P].
Qed.

(** The shortcut: what it computes. *)
Lemma shortcut_value fm :
  inner gs prev = 0 -> 0 < Cv (comb 1 pg 0 prev) ->
  exists alpha,
    compute_qmodel_hyperparams c s m cc b fm
    = (alpha, match fm with None => 0 | Some mu => mu end,
       Qr (comb (c_lr c * alpha) pg 0 prev)) /\
    (forall a, Q (comb alpha pg 0 prev) <= Q (comb a pg 0 prev)).
Proof.
  intros Z P. rewrite pg_curv in P.
  set (alpha := - v0 cc / m00 m). exists alpha. split.
  - unfold compute_qmodel_hyperparams.
    destruct (Req_EM_T (v1 cc) 0) as [_|NZ]; [|exfalso; apply NZ; exact Z].
    unfold zero_prevupd_case. fold alpha. unfold Qr, pg, prev, gs.
    rewrite (reported_span c x s g W G _ _ D0). fold m cc b.
    assert (E : m00 m * alpha = - v0 cc) by (unfold alpha; field; lra).
    f_equal.
    assert (Eb : forall y, eval_quadratic_no_c b (mkV y 0) = 1/2 * y ^ 2 * m00 b).
    { intros. unfold eval_quadratic_no_c. cbn [v0 v1]. field. }
    assert (Em : forall y, eval_quadratic m cc (mkV y 0) = 1/2 * m00 m * y ^ 2 + v0 cc * y).
    { intros. unfold eval_quadratic, eval_quadratic_no_c. cbn [v0 v1]. field. }
    rewrite Eb, Em.
    pose proof rescale_lr as RL. destruct (c_rescale c) as [r|]; rewrite RL.
    + destruct (c_incl c); [reflexivity|ring].
    + rewrite !Rmult_1_l.
      replace (1 / 2 * m00 m * alpha ^ 2 + v0 cc * alpha) with (1 / 2 * alpha * v0 cc).
      * destruct (c_incl c); [reflexivity|ring].
      * replace (v0 cc) with (- (m00 m * alpha)) by lra. field.
  - intros a. unfold Q, pg, prev, gs. rewrite !(quad_span c x s g W G). fold m cc.
    pose proof (min_1d m cc 0 m_sym P a) as H. cbv zeta in H.
    replace (-1 * (0 * m01 m + v0 cc) / m00 m) with alpha in H by (unfold alpha; field; lra).
    exact H.
Qed.

(** With a zero previous update the second coefficient is irrelevant. *)
Lemma comb_zero a u v : (forall k, In k (map snd g) -> forall j, coord j (s_vel s k) = 0) ->
  comb a pg u prev = comb a pg v prev.
Proof.
  intros Z. unfold prev, previous_update.
  pose proof (pg_shape x g G) as S0.
  pose proof (fits_shape _ _ (proj1 (proj2 W))) as S1.
  assert (S : same_shape pg (map (s_vel s) (map snd g))).
  { eapply same_shape_trans; [exact S0|apply same_shape_sym, S1]. }
  clear - S Z. revert S Z. generalize pg. generalize (map snd g). clear. unfold comb.
  induction l as [|k l IH]; intros [|w X] S Z; try discriminate S; [reflexivity|].
  cbn [map] in S. apply same_shape_cons in S. destruct S as [S1 S2].
  cbn [map zip]. f_equal; [|apply IH; [exact S2|intros; apply Z; right; assumption]].
  cbn [fst snd].
  assert (L : length w = length (map (Rmult (-1)) (s_vel s k))) by (rewrite map_length; exact S1).
  apply coord_ext; [rewrite !map_length; reflexivity|].
  intros j. rewrite !coord_comb by exact L.
  change (map (Rmult (-1)) (s_vel s k)) with (vscale (-1) (s_vel s k)).
  rewrite coord_vscale, (Z k (or_introl eq_refl)). lra.
Qed.

Lemma prev_zero_orth : (forall k, In k (map snd g) -> forall j, coord j (s_vel s k) = 0) ->
  inner gs prev = 0.
Proof.
  intros Z. rewrite inner_comm by (apply same_shape_sym, prev_shape, (proj1 (proj2 W))).
  apply inner_zero_l. intros u I j. unfold prev, previous_update in I.
  apply in_map_iff in I. destruct I as [k [<- I]].
  change (map (Rmult (-1)) (s_vel s k)) with (vscale (-1) (s_vel s k)).
  rewrite coord_vscale, (Z k I). lra.
Qed.
End Optimal.
