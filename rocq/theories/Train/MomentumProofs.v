(** Histories of steps, and what a step predicts. *)
From Coq Require Import List Arith Bool Reals Lra Lia.
From Verif.Base Require Import Py.
From Verif.Train Require Import Model Spec VecProofs CtorProofs StepProofs QmodelProofs.
Import ListNotations.
Open Scope list_scope.
Open Scope R_scope.

(* ------------------------------------------------------------------------ *)
(** * Geometric sums *)

Lemma decayed_nil mu v : decayed mu v [] = v.
Proof. unfold decayed. simpl. lra. Qed.

Lemma decayed_cons mu v u us : decayed mu v (u :: us) = decayed mu (mu * v + u) us.
Proof.
  unfold decayed. cbn [length]. rewrite sum_to_shift. cbn [nth].
  replace (S (length us) - 1 - 0)%nat with (length us) by lia.
  rewrite (sum_to_ext (length us) _ (fun i => mu ^ (length us - 1 - i) * nth i us 0)).
  - cbn [pow]. ring.
  - intros i Hi. f_equal. f_equal. lia.
Qed.

Lemma well_shaped_next s s' g :
  (forall k, length (s_vel s' k) = length (s_vel s k)) ->
  (forall k, length (s_params s' k) = length (s_params s k)) ->
  well_shaped s g -> well_shaped s' g.
Proof.
  intros V P [N [F L]]. split; [exact N|]. split.
  - apply (fits_ext (s_vel s)); [intros; symmetry; apply V|exact F].
  - intros k. rewrite V, P. apply L.
Qed.

Lemma good_history_next s s' x g h :
  (forall k, length (s_vel s' k) = length (s_vel s k)) ->
  (forall k, length (s_params s' k) = length (s_params s k)) ->
  good_history s ((x, g) :: h) -> good_history s' h.
Proof.
  intros V P H x' g' I. destruct (H x' g' (or_intror I)) as [A B]. split; [|exact B].
  eapply well_shaped_next; eauto.
Qed.

Lemma regular_history c h : c_mtype c = Regular -> forall s, good_history s h ->
  exists s', run_steps c s h = Ok s' /\ s_counter s' = (s_counter s + length h)%nat /\
  forall k j, (forall x g, In (x, g) h -> In k (map snd g)) ->
    coord j (s_vel s' k) = decayed (c_momentum c) (coord j (s_vel s k)) (coords k j (dirs_of c h)) /\
    (c_use_wd c = false ->
     coord j (s_params s' k) = coord j (s_params s k) - c_lr c *
       sum_to (length h) (fun i => decayed (c_momentum c) (coord j (s_vel s k))
                                     (firstn (S i) (coords k j (dirs_of c h))))).
Proof.
  intros T. induction h as [|[x g] h IH]; intros s H.
  - exists s. split; [reflexivity|]. split; [cbn; lia|]. intros k j _. cbn [coords dirs_of map].
    rewrite decayed_nil. split; [reflexivity|]. intros _. cbn. lra.
  - destruct (H x g (or_introl eq_refl)) as [W [P [M J]]].
    destruct (regular_step c x s g T W P M) as [s1 [E [C [V [Q [_ S]]]]]].
    destruct (IH s1 (good_history_next s s1 x g h V Q H)) as [s' [E' [C' F]]].
    exists s'. split; [cbn [run_steps]; rewrite E; exact E'|].
    split; [rewrite C', C; cbn [length]; lia|].
    intros k j I.
    destruct (S k j (I x g (or_introl eq_refl))) as [S1 S2].
    destruct (F k j (fun x' g' i => I x' g' (or_intror i))) as [F1 F2].
    cbn [dirs_of map coords fst snd]. fold (dirs_of c h). fold (coords k j (dirs_of c h)).
    split.
    + rewrite F1, S1, decayed_cons. reflexivity.
    + intros WD. rewrite (F2 WD), S2, WD. cbn [length]. rewrite sum_to_shift.
      cbn [firstn]. rewrite decayed_cons, decayed_nil, <- S1.
      rewrite (sum_to_ext (length h) (fun i => decayed (c_momentum c) (coord j (s_vel s k))
                 (entry_of k j (direction c g (x_precond x g)) ::
                  match coords k j (dirs_of c h) with [] => [] | a :: l => a :: firstn i l end))
               (fun i => decayed (c_momentum c) (coord j (s_vel s1 k))
                    (firstn (Datatypes.S i) (coords k j (dirs_of c h))))).
      * change (fun i => decayed (c_momentum c) (coord j (s_vel s1 k))
                   match coords k j (dirs_of c h) with [] => [] | a :: l => a :: firstn i l end)
          with (fun i => decayed (c_momentum c) (coord j (s_vel s1 k))
                    (firstn (Datatypes.S i) (coords k j (dirs_of c h)))). lra.
      * intros i _. rewrite decayed_cons, <- S1. reflexivity.
Qed.

Lemma adam_history c h : c_mtype c = Adam -> forall s, good_history s h ->
  exists s', run_steps c s h = Ok s' /\ s_counter s' = (s_counter s + length h)%nat /\
  forall k j, (forall x g, In (x, g) h -> In k (map snd g)) ->
    coord j (s_vel s' k) = decayed (c_momentum c) (coord j (s_vel s k)) (coords k j (map snd h)).
Proof.
  intros T. induction h as [|[x g] h IH]; intros s H.
  - exists s. split; [reflexivity|]. split; [cbn; lia|]. intros k j _. cbn [coords map].
    rewrite decayed_nil. reflexivity.
  - destruct (H x g (or_introl eq_refl)) as [W [P [M J]]].
    destruct (adam_step c x s g T W P) as [s1 [E [C [V [Q [_ S]]]]]].
    destruct (IH s1 (good_history_next s s1 x g h V Q H)) as [s' [E' [C' F]]].
    exists s'. split; [cbn [run_steps]; rewrite E; exact E'|].
    split; [rewrite C', C; cbn [length]; lia|].
    intros k j I.
    destruct (S k j (I x g (or_introl eq_refl))) as [S1 S2].
    rewrite (F k j (fun x' g' i => I x' g' (or_intror i))).
    cbn [map coords fst snd]. rewrite decayed_cons, <- S1. reflexivity.
Qed.

(* ------------------------------------------------------------------------ *)
(** * Any mode: a well-formed call succeeds *)

Definition frame_ok (s s' : st) : Prop :=
  s_counter s' = S (s_counter s) /\
  (forall k, length (s_vel s' k) = length (s_vel s k)) /\
  (forall k, length (s_params s' k) = length (s_params s k)).

Lemma step_total c x s g : well_shaped s g -> good_ctx x g ->
  exists s', apply_gradients c x s g = Ok s' /\ frame_ok s s'.
Proof.
  intros W G. destruct (c_mtype c) eqn:T.
  - destruct (regular_step c x s g T W (proj1 G) (proj1 (proj2 G))) as [s' [E [C [V [P _]]]]].
    exists s'. repeat split; assumption.
  - destruct (adam_step c x s g T W (proj1 G)) as [s' [E [C [V [P _]]]]].
    exists s'. repeat split; assumption.
  - destruct (compute_qmodel_hyperparams c s (qm c x s g) (qc x s g) (qb x s g) (fixed_mu_of c))
      as [[al mu] q] eqn:H.
    destruct (qmodel_step c x s g al mu q (or_introl T) W G H) as [s' [E [_ [_ [_ [C [V [P _]]]]]]]].
    exists s'. repeat split; assumption.
  - destruct (compute_qmodel_hyperparams c s (qm c x s g) (qc x s g) (qb x s g) (fixed_mu_of c))
      as [[al mu] q] eqn:H.
    destruct (qmodel_step c x s g al mu q (or_intror T) W G H) as [s' [E [_ [_ [_ [C [V [P _]]]]]]]].
    exists s'. repeat split; assumption.
Qed.

(* ------------------------------------------------------------------------ *)
(** * Damping, losses and predictions of one call *)

(** In any mode the raw updates keep damping, recorded loss and counter. *)
Lemma raw_frame c x s g raw s2 : compute_raw_update_steps c x s g = Ok (raw, s2) ->
  s_params s2 = s_params s /\ s_damping s2 = s_damping s /\ s_rho s2 = s_rho s /\
  s_prev_loss s2 = s_prev_loss s /\ s_counter s2 = s_counter s.
Proof.
  unfold compute_raw_update_steps. intros H.
  destruct (c_mtype c).
  - destruct (maybe_clip c g (x_precond x g)) as [pg|]; [cbn [bind] in H|discriminate H].
    destruct (update_velocities _ _ _ _) as [vel r]. destruct (c_adapt c && c_chief c).
    + unfold maybe_update_qmodel_change in H. destruct (is_adaptation_time _ _).
      * destruct (compute_approx_qmodel_change _ _ _ _ _); [|discriminate H].
        cbn [bind] in H. injection H as <- <-. repeat split.
      * cbn [bind] in H. injection H as <- <-. repeat split.
    + injection H as <- <-. repeat split.
  - destruct (update_velocities _ _ _ _) as [vel r].
    destruct (maybe_clip c r (x_precond x r)) as [pg|]; [cbn [bind] in H|discriminate H].
    destruct (c_adapt c && c_chief c).
    + unfold maybe_update_qmodel_change in H. destruct (is_adaptation_time _ _).
      * destruct (ip_p pg r); [|discriminate H]. destruct (ip_p pg g); [|discriminate H].
        cbn [bind] in H. injection H as <- <-. repeat split.
      * cbn [bind] in H. injection H as <- <-. repeat split.
    + injection H as <- <-. repeat split.
  - destruct (get_qmodel_quantities c x s g) as [[pg [[m cc] b]]|]; [cbn [bind] in H|discriminate H].
    destruct (compute_qmodel_hyperparams _ _ _ _ _ _) as [[al mu] q].
    destruct (update_velocities _ _ _ _) as [vel r]. injection H as <- <-. repeat split.
  - destruct (get_qmodel_quantities c x s g) as [[pg [[m cc] b]]|]; [cbn [bind] in H|discriminate H].
    destruct (compute_qmodel_hyperparams _ _ _ _ _ _) as [[al mu] q].
    destruct (update_velocities _ _ _ _) as [vel r]. injection H as <- <-. repeat split.
Qed.

Lemma apply_inv c x s g s' : apply_gradients c x s g = Ok s' ->
  exists raw s2, compute_raw_update_steps c x (maybe_update_prev_loss c x s) g = Ok (raw, s2).
Proof.
  unfold apply_gradients.
  destruct (compute_raw_update_steps c x (maybe_update_prev_loss c x s) g) as [[raw s2]|] eqn:R;
    [|intros H; discriminate H]. intros _. exists raw, s2. reflexivity.
Qed.

(** Damping and recorded loss after a call. *)
Lemma apply_damping c x s g s' :
  apply_gradients c x s g = Ok s' ->
  s_counter s' = S (s_counter s) /\
  s_prev_loss s' = (if c_adapt c && is_time c s
                    then Some (if c_passed c then x_loss x else x_loss_fn x (s_params s))
                    else s_prev_loss s) /\
  (if c_immediate c && c_adapt c && is_time c s
   then let before := if c_passed c then x_loss x else x_loss_fn x (s_params s) in
        match s_qchange s' with
        | Some q => lm_rule c (s_damping s) (x_loss_fn x (s_params s') - before) q (s_damping s')
        | None => s_damping s' = Rmax (s_damping s) (c_min_damping c + c_l2 c)
        end
   else s_damping s' = s_damping s /\ s_rho s' = s_rho s).
Proof.
  intros H. destruct (apply_inv c x s g s' H) as [raw [s2 R]].
  destruct (apply_of_raw c x s g raw s2 R) as [s'' [A [A1 [A2 [A3 [A4 [A5 A6]]]]]]].
  rewrite H in A. injection A as <-.
  destruct (prev_loss_stage c x s) as [E1 [E2 [E3 [E4 [E5 [E6 E7]]]]]].
  destruct (raw_frame c x _ g raw s2 R) as [F1 [F2 [F3 [F4 F5]]]].
  split; [rewrite A5, F5, E6; reflexivity|].
  split; [rewrite A3, F4, E7; reflexivity|].
  assert (IT : is_time c s2 = is_time c s) by (unfold is_time; rewrite F5, E6; reflexivity).
  rewrite IT in A6.
  destruct (c_immediate c) eqn:Im; cbn [andb] in *; [|rewrite F2, F3, E3, E4 in A6; exact A6].
  destruct (c_adapt c) eqn:Ad; cbn [andb] in *; [|rewrite F2, F3, E3, E4 in A6; exact A6].
  destruct (is_time c s) eqn:Ti; cbn [andb] in *; [|rewrite F2, F3, E3, E4 in A6; exact A6].
  destruct A6 as [A6 _]. cbv zeta.
  set (s3 := set_params (s_params s') s2) in *.
  assert (L3 : s_prev_loss s3 = Some (if c_passed c then x_loss x else x_loss_fn x (s_params s))).
  { cbn [s3 s_prev_loss set_params]. rewrite F4, E7. reflexivity. }
  destruct (s_qchange s') as [q|] eqn:Qs.
  - pose proof (update_damping_rule c x s3 _ q L3) as U.
    rewrite A6. assert (D3 : s_damping s = s_damping s3) by (cbn; rewrite F2, E3; reflexivity).
    rewrite D3.
    assert (CL : x_loss_fn x (s_params s') = current_loss c x s3)
      by (unfold current_loss; rewrite Im; reflexivity).
    rewrite CL. apply U. cbn. rewrite <- A4. reflexivity.
  - rewrite A6, update_damping_nan.
    + cbn. rewrite F2, E3. reflexivity.
    + right. cbn. rewrite <- A4. reflexivity.
Qed.

(** Bounds on the damping after a call. *)
Lemma apply_damping_bounds c x s g s' :
  apply_gradients c x s g = Ok s' -> 0 < c_omega c <= 1 -> 0 < s_damping s ->
  if c_immediate c && c_adapt c && is_time c s
  then c_min_damping c + c_l2 c <= s_damping s' /\ s_damping s * c_omega c <= s_damping s' /\
       s_damping s' <= Rmax (s_damping s) (c_min_damping c + c_l2 c) / c_omega c /\ 0 < s_damping s'
  else s_damping s' = s_damping s.
Proof.
  intros H Wo Dp. destruct (apply_inv c x s g s' H) as [raw [s2 R]].
  destruct (apply_of_raw c x s g raw s2 R) as [s'' [A [A1 [A2 [A3 [A4 [A5 A6]]]]]]].
  rewrite H in A. injection A as <-.
  destruct (prev_loss_stage c x s) as [E1 [E2 [E3 [E4 [E5 [E6 E7]]]]]].
  destruct (raw_frame c x _ g raw s2 R) as [F1 [F2 [F3 [F4 F5]]]].
  assert (IT : is_time c s2 = is_time c s) by (unfold is_time; rewrite F5, E6; reflexivity).
  rewrite IT in A6.
  destruct (c_immediate c && c_adapt c && is_time c s).
  - destruct A6 as [A6 _].
    assert (D3 : s_damping (set_params (s_params s') s2) = s_damping s)
      by (cbn; rewrite F2, E3; reflexivity).
    pose proof (update_damping_bounds c x (set_params (s_params s') s2) Wo) as B.
    rewrite D3 in B. specialize (B Dp). cbv zeta in B. rewrite <- A6 in B. exact B.
  - destruct A6 as [A6 _]. rewrite A6, F2, E3. reflexivity.
Qed.

(** Regular mode, no weight decay: the recorded prediction is the approximate
    model's value at the displacement of the parameters. *)
Lemma regular_prediction c x s g s' :
  c_mtype c = Regular -> well_shaped s g -> good_ctx x g -> c_use_wd c = false ->
  c_adapt c = true -> c_chief c = true -> is_time c s = true -> s_damping s <> 0 ->
  apply_gradients c x s g = Ok s' ->
  s_qchange s' = Some (approx_quad (x_mult x) (removed_damping c s) (map snd g) (map fst g)
                         (displacement (map snd g) (s_params s) (s_params s'))).
Proof.
  intros T W [P [M _]] WD Ad Ch Ti D0 H.
  destruct (regular_step c x s g T W P M) as [s'' [E [_ [V [Lp [_ S]]]]]].
  rewrite H in E. injection E as <-.
  destruct (prev_loss_stage c x s) as [E1 [E2 [E3 [E4 [E5 [E6 E7]]]]]].
  pose proof (well_shaped_frame s _ g E1 E2 W) as W1.
  pose proof (regular_raw c x _ g T W1 P M) as R. cbv zeta in R.
  assert (T1 : is_time c (maybe_update_prev_loss c x s) = true)
    by (unfold is_time in *; rewrite E6; exact Ti).
  rewrite Ad, Ch, T1 in R. cbn [andb] in R. rewrite E2, E3 in R.
  destruct (apply_of_raw c x s g _ _ R) as [s'' [A [A1 [A2 [A3 [A4 [A5 A6]]]]]]].
  rewrite H in A. injection A as <-. clear A6.
  destruct W as [N [F L]]. destruct (P g) as [P1 P2].
  destruct (direction_shape c g (x_precond x g)) as [D1 D2].
  set (dir := direction c g (x_precond x g)) in *.
  assert (Fd : fits (s_vel s) dir).
  { apply (fits_same _ g); [congruence|eapply same_shape_trans; eauto|exact F]. }
  pose proof (update_velocities_spec (c_momentum c) 1 dir (s_vel s) Fd) as U. cbv zeta in U.
  pose proof (velocities_out (c_momentum c) 1 dir (s_vel s) (proj1 Fd)) as VO.
  set (r := update_velocities (s_vel s) (c_momentum c) 1 dir) in *.
  destruct U as [U1 [U2 [U3 [U4 [U5 U6]]]]].
  assert (SN : map snd (snd r) = map snd g) by congruence.
  assert (SS : same_shape (map fst (snd r)) (map fst g)).
  { eapply same_shape_trans; [exact U2|]. eapply same_shape_trans; eauto. }
  assert (DE : displacement (map snd g) (s_params s) (s_params s')
               = map fst (sprod_p (-1 * c_lr c) (snd r))).
  { rewrite sprod_p_fst. apply displacement_eq.
    - eapply same_shape_trans; [apply fits_shape, (fits_ext (s_vel s) _ _ L F)|].
      apply same_shape_sym. eapply same_shape_trans; [apply sprod_shape|exact SS].
    - exact Lp.
    - intros i k Hi j. assert (I : In k (map snd g)) by (eapply nth_error_In, Hi).
      destruct (S k j I) as [_ S2]. rewrite S2, WD.
      cbn [s_vel set_vel set_qchange] in A2. rewrite A2.
      assert (Hi' : nth_error (map snd (snd r)) i = Some k) by (rewrite SN; exact Hi).
      assert (Nd : NoDup (map snd (snd r))) by (rewrite SN; apply F).
      assert (Ir : In k (map snd dir)) by (rewrite <- U1, SN; exact I).
      rewrite <- (U6 k j Ir), (entry_of_nth (snd r) Nd i k Hi' j).
      unfold sprod.
      replace (nth i (map (vscale (-1 * c_lr c)) (map fst (snd r))) [])
        with (vscale (-1 * c_lr c) (nth i (map fst (snd r)) []))
        by (symmetry; apply (map_nth (vscale (-1 * c_lr c)) _ [])).
      rewrite coord_vscale. lra. }
  rewrite A4. cbn [s_qchange set_qchange]. f_equal.
  assert (Z : zip (map fst (sprod_p (-1 * c_lr c) (snd r))) (map snd g)
              = sprod_p (-1 * c_lr c) (snd r)).
  { rewrite <- SN, <- (sprod_p_snd (-1 * c_lr c) (snd r)).
    generalize (sprod_p (-1 * c_lr c) (snd r)). clear. intros p.
    induction p as [|[a b] p IH]; [reflexivity|]. cbn [map fst snd zip]. rewrite IH. reflexivity. }
  unfold approx_change, approx_quad, removed_damping. rewrite DE, Z.
  destruct (c_incl c).
  - lra.
  - set (u := map fst (sprod_p (-1 * c_lr c) (snd r))). field. exact D0.
Qed.
