(** Property theorems C123 (the optimizer's part): without damping the coordinates in which the
    parameters of a layer are expressed do not matter at all. *)
From Coq Require Import List Arith Bool Reals Lra Lia FunctionalExtensionality.
From Verif.Base Require Import Py.
From Verif.Tensors Require Import Model.
From Verif.Train Require Import Model Spec VecProofs RotateSpec RotateProofs RotateProps AffineSpec AffineProofs.
Import ListNotations.
Open Scope list_scope.
Open Scope R_scope.

(** Invertible matrices, one for each variable, with their inverse transposes for the gradients,
    give such coordinates. *)
Theorem C123_coordinates : forall n Q T,
  (forall j, dual_matrices (n j) (Q j) (T j)) -> dual (in_coordinates n Q) (in_coordinates n T).
Proof. exact coordinates_dual. Qed.
Print Assumptions C123_coordinates.

(** One call of apply_gradients, for every momentum type, with or without clipping and weight
    decay: the new parameters and velocities are those of the other coordinates, everything else
    that the call leaves behind is the same (so the learning rate and the momentum chosen with
    the quadratic model are); or it raises the same exception. *)
Theorem C123_step : forall P D c x x' s s' g g',
  dual P D -> affine_ctx P D x x' -> affine_state c P D s s' -> same_pairs D g g' ->
  undamped c (s_damping s) ->
  res_rel (affine_state c P D) (apply_gradients c x s g) (apply_gradients c x' s' g').
Proof. exact (fun P D c x x' s s' g g' DU => a_step P D c DU x x' s s' g g'). Qed.
Print Assumptions C123_step.

(** Any sequence of calls. *)
Theorem C123_steps : forall P D c s s' l l',
  dual P D -> affine_state c P D s s' -> undamped c (s_damping s) ->
  Forall2 (fun a b => affine_ctx P D (fst a) (fst b) /\ same_pairs D (snd a) (snd b)) l l' ->
  res_rel (affine_state c P D) (run_steps c s l) (run_steps c s' l').
Proof. exact (fun P D c s s' l l' DU => a_steps P D c DU l l' s s'). Qed.
Print Assumptions C123_steps.

(** Training with the periodic optimizer, without damping: as long as the covariances can be
    inverted, the parameters are the same, in the other coordinates, after any number of
    executions.  The initial contents of the inverses do not matter. *)
Theorem C123_training :
  forall (Batch I Inv : Type) P D Ls (good : list (mav I) -> Prop) (p : pcfg) (e e' : env Batch I Inv)
         params0 params0' factors inv0 inv0' inputs states,
  dual P D -> affine_env P D Ls good 0 e e' -> length Ls = factors -> c_adapt (p_cfg p) = false ->
  (forall j, P j (params0 j) (params0' j)) ->
  (forall j, D j (vscale 0 (params0 j)) (vscale 0 (params0' j))) ->
  is_run p e (initial params0 0 factors inv0) inputs states ->
  (forall t, good (o_cov (states (S t)))) ->
  (exists states', is_run p e' (initial params0' 0 factors inv0') inputs states') /\
  forall states', is_run p e' (initial params0' 0 factors inv0') inputs states' -> forall t,
    affine_state (p_cfg p) P D (o_st (states t)) (o_st (states' t)) /\
    o_cov (states' t) = moved_cov Ls (o_cov (states t)).
Proof.
  intros Batch I Inv P D Ls good p e e' params0 params0' factors inv0 inv0' inputs states DU E LW A V Z RUN GOOD.
  assert (U : undamped (p_cfg p) 0) by (split; [exact A|destruct (c_mtype (p_cfg p)); exact Logic.I || reflexivity]).
  destruct (affine_run Batch I Inv P D Ls good 0 p e e' DU E U params0 params0' factors inv0 inv0' inputs states
              LW V (fun _ => Z) RUN GOOD) as (st' & R' & REL).
  split; [exists st'; exact R'|]. intros states' RUN' t.
  assert (Q : states' t = st' t).
  { clear REL. destruct RUN' as [A1 B1], R' as [A2 B2].
    induction t as [|t IH]; [rewrite A1, A2; reflexivity|].
    assert (Q : Ok (states' (S t)) = Ok (st' (S t))) by (rewrite <- B1, <- B2, IH; reflexivity).
    injection Q as Q. exact Q. }
  rewrite Q. destruct (REL t) as [R1 _ R2 _ _]. split; assumption.
Qed.
Print Assumptions C123_training.

(** The hypotheses are met, where lengths are not preserved: the example of C121_lengths_matter,
    one parameter and the same model with a parameter twice as large, but without damping. *)
Definition twice (_ : nat) (v v' : vec) : Prop := v' = vscale 2 v.
Definition half (_ : nat) (g g' : vec) : Prop := g' = vscale (1/2) g.
Definition nonzero_cov (cov : list (mav unit)) : Prop :=
  match cov with m :: _ => m_var m tt <> 0 | [] => False end.
Lemma vscale_vscale a b (v : vec) : vscale a (vscale b v) = vscale (a * b) v.
Proof. unfold vscale. rewrite map_map. apply map_ext. intros. ring. Qed.
Lemma vscale_vadd a (v w : vec) : vscale a (vadd v w) = vadd (vscale a v) (vscale a w).
Proof.
  revert w. unfold vscale, vadd. induction v as [|x v IH]; intros [|y w]; try reflexivity.
  cbn [zip map fst snd]. rewrite IH. f_equal. ring.
Qed.
Lemma twice_half : dual twice half.
Proof.
  unfold twice, half. split; [|split; [|split; [|split]]].
  - intros j a v v' ->. rewrite !vscale_vscale. f_equal. ring.
  - intros j v v' w w' -> ->. symmetry. apply vscale_vadd.
  - intros j a v v' ->. rewrite !vscale_vscale. f_equal. ring.
  - intros j v v' w w' -> ->. symmetry. apply vscale_vadd.
  - intros j v v' g g' -> ->. rewrite dot_scale_right, dot_comm, dot_scale_right, dot_comm. lra.
Qed.
Example C123_training_met :
  affine_env twice half [fun f i => / 4 * f i] nonzero_cov 0 (scaled_env 1) (scaled_env (1/2)) /\
  exists s s',
    minimize plain_pcfg (scaled_env 1) (initial (fun _ => [1]) 0 1 0) (mkIn 0%nat 0%nat true) = Ok s /\
    minimize plain_pcfg (scaled_env (1/2)) (initial (fun _ => [2]) 0 1 0) (mkIn 0%nat 0%nat true) = Ok s' /\
    nonzero_cov (o_cov s).
Proof.
  split.
  - split; [|split; [|split; [|split]]].
    + constructor; [|constructor]. intros a b f g. apply functional_extensionality. intros. ring.
    + intros p p' b H. cbn [scaled_env e_grads]. constructor; [|constructor]. cbn [fst snd]. split; [reflexivity|].
      rewrite (H 0%nat). unfold half. rewrite !vscale_vscale. f_equal. lra.
    + intros p p' b H. cbn [scaled_env e_stats zip map fst snd]. f_equal. apply functional_extensionality. intros _.
      rewrite (H 0%nat). unfold coord. destruct (p 0%nat) as [|z l]; cbn; field.
    + intros p p' b u u' H U. cbn [scaled_env e_mft]. clear H. unfold sprod.
      induction U as [|q q' u u' [_ V] U IH]; [reflexivity|]. cbn [map] in *. rewrite IH. f_equal.
      rewrite V, vscale_vscale. f_equal. lra.
    + intros cov G g g' H. cbn [scaled_env e_precond e_invert]. destruct cov as [|m cov]; [destruct G|].
      cbn [moved_cov zip map fst snd m_var] in *. cbn [nonzero_cov] in G.
      induction H as [|q q' g g' [V1 V2] H IH]; [constructor|]. constructor; [|exact IH]. cbn [fst snd].
      split; [exact V1|]. unfold twice. rewrite V2, !vscale_vscale. f_equal. field. exact G.
  - eexists. eexists. split; [reflexivity|]. split; [reflexivity|].
    cbn. unfold coord. cbn [nth]. lra.
Qed.
