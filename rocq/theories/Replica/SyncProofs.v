(** Replicas that start with the same variables keep holding the same variables. *)
From Coq Require Import List Arith Bool Reals Lia Lra FunctionalExtensionality.
From Verif.Base Require Import Py.
From Verif.Tensors Require Import Model.
From Verif.Train Require Import Model.
From Verif.Replica Require Import Model Spec CommProofs StepProofs TrainProofs EquivProofs.
Import ListNotations.
Open Scope list_scope.
Open Scope R_scope.

Definition uniform {A} (n : nat) (r : res (list A)) : Prop :=
  forall l, r = Ok l -> exists a, l = repeat a n.

Section Sync.
Variables (k : rctx) (n : nat).
Hypothesis Hk : replicated k n.
Let Hn : (1 <= n)%nat := replicated_pos k n Hk.

Lemma raw_qmodel_sync c xs x s g :
  agree n xs x -> c_mtype c = Qmodel \/ c_mtype c = QmodelFixedMu ->
  (exists r, compute_raw_update_steps_r k c xs (repeat s n) (repeat g n) = each2 n r).
Proof.
  intros Ha Ht. pose proof (ag_length _ _ _ Ha) as Hl.
  destruct (mapm (fun y => get_qmodel_quantities c y s g) xs) as [qs|e] eqn:E.
  - destruct (mapm_ok _ _ _ E) as [Hlq Hq].
    assert (Hne : qs <> []) by (pose proof Hn; destruct qs; [simpl in Hlq; lia|discriminate]).
    destruct qs as [|q0 qs']; [now destruct Hne|].
    eexists. apply (qmodel_after k n Hk c xs s g (q0 :: qs') (fst q0) (snd (fst (snd q0))) (snd (snd q0)) Ht Hl E).
    intros q Hin. destruct (Hq q Hin) as (y & Hy & Ey).
    destruct (Hq q0 (or_introl eq_refl)) as (y0 & Hy0 & Ey0).
    apply (qmodel_same c y y0 s g q q0); auto.
    now rewrite (ag_precond _ _ _ Ha y Hy), (ag_precond _ _ _ Ha y0 Hy0).
  - exists (Raise e). unfold compute_raw_update_steps_r.
    destruct Ht as [Ht|Ht]; rewrite Ht;
      (rewrite (zip_repeat_r xs s n), zip_repeat_r, !mapm_map by (rewrite ?map_length; exact Hl);
       cbn [fst snd]; rewrite E; reflexivity).
Qed.

Lemma apply_sync c xs x s g :
  agree n xs x -> exists r, apply_gradients_r k c xs (repeat s n) (repeat g n) = on_each n r.
Proof.
  intro Ha.
  assert (H : exists r, compute_raw_update_steps_r k c xs (repeat (maybe_update_prev_loss c x s) n) (repeat g n)
                        = each2 n r).
  { destruct (c_mtype c) eqn:Ht.
    - eexists. exact (raw_regular k n Hk c xs x _ g Ha Ht).
    - eexists. exact (raw_adam k n Hk c xs x _ g Ha Ht).
    - exact (raw_qmodel_sync c xs x _ g Ha ltac:(auto)).
    - exact (raw_qmodel_sync c xs x _ g Ha ltac:(auto)). }
  destruct H as [r Hr]. eexists. apply (apply_after k n Hk c xs x s g r Ha Hr).
Qed.

Variables (B I : Type) (e : renv B I) (vars : list nat).
Hypothesis Hvars : forall th b, map snd (e_grads (r_env e) th b) = vars.

(** A device given what all replicas are given *)
Definition joint_env : env (rinput B * bool)%type I structure :=
  mkEnv (fun _ _ => [])
    (fun (ib : rinput B * bool) th => average (map (fun b => e_loss (r_env e) (if snd ib then snd b else fst b) th)
                               (ri_batches (fst ib))))
    (fun th (ib : rinput B * bool) => r_finish e (mean_stats (smart_cond_tensors k
                    (map (fun b => e_stats (r_env e) th (fst b)) (ri_batches (fst ib))))))
    (e_invert (r_env e)) (e_precond (r_env e)) (e_mult (r_env e)) (fun _ _ v => v).
Definition joint_input (i : rinput B) : input (rinput B * bool) := mkIn (i, false) (i, true) (ri_cov_first i).

Lemma joint_data i : length (ri_batches i) = n -> same_data k n e joint_env i (joint_input i).
Proof. intro Hl. constructor; try reflexivity. exact Hl. Qed.

Lemma full_step_sync p i q :
  length (ri_batches i) = n -> exists r, full_step_r k p e i (repeat q n) = on_each n r.
Proof.
  intro Hl. unfold full_step_r. rewrite !map_repeat. cbv zeta. set (th := s_params (o_st q)).
  rewrite (kfac_update_same k n Hk _ _ e _ joint_env p i (joint_input i) q (joint_data i Hl)).
  set (q1 := kfac_update_ops p joint_env (joint_input i) q).
  assert (Eg : exists g, average_gradients k (map2 (fun th b => e_grads (r_env e) th (fst b)) (repeat th n)
                                                   (ri_batches i)) = repeat g n).
  { replace (map2 (fun th b => e_grads (r_env e) th (fst b)) (repeat th n) (ri_batches i))
      with (map (fun b => e_grads (r_env e) th (fst b)) (ri_batches i))
      by (rewrite <- Hl; symmetry; apply (map2_repeat_l (fun th b => e_grads (r_env e) th (fst b)))).
    set (local := map _ (ri_batches i)).
    assert (Hll : length local = n) by (unfold local; now rewrite map_length).
    unfold average_gradients. rewrite all_average_replicated by (rewrite map_length, Hll; exact Hk).
    rewrite map_length, map2_repeat_l. eexists. rewrite <- Hll. apply map_all_eq.
    intros l Hin. unfold local in Hin. apply in_map_iff in Hin as (b & <- & _). now rewrite Hvars. }
  destruct Eg as [g Eg]. rewrite Eg.
  rewrite ctxs_written by exact Hl. rewrite map_repeat.
  destruct (apply_sync (p_cfg p) _ _ (o_st q1) g (ctxs_agree k n _ _ e _ joint_env i (joint_input i) th q1 (joint_data i Hl)))
    as [r Hr].
  rewrite Hr. destruct r as [s'|er].
  - exists (Ok (mkPst s' (o_cov q1) (o_inv q1) (o_burnin q1))). cbn [on_each bind]. now rewrite map2_repeat.
  - exists (Raise er). reflexivity.
Qed.

Lemma burnin_sync i q :
  length (ri_batches i) = n -> exists q', burnin_step_r k e i (repeat q n) = repeat q' n.
Proof.
  intro Hl. unfold burnin_step_r. rewrite map_repeat.
  replace (map2 (fun q b => e_stats (r_env e) (s_params (o_st q)) (fst b)) (repeat q n) (ri_batches i))
    with (map (fun b => e_stats (r_env e) (s_params (o_st q)) (fst b)) (ri_batches i))
    by (rewrite <- Hl; symmetry; apply (map2_repeat_l (fun q b => e_stats (r_env e) (s_params (o_st q)) (fst b)))).
  rewrite (cov_update_same k n Hk), map2_repeat by (rewrite map_length; exact Hl). eexists. reflexivity.
Qed.

Lemma train_sync p is_ q :
  (forall i, In i is_ -> length (ri_batches i) = n) ->
  uniform n (train_r k p e (repeat q n) is_).
Proof.
  intros H. revert q. induction is_ as [|i is_ IH]; intros q l Hr.
  - simpl in Hr. injection Hr as <-. now exists q.
  - cbn [train_r] in Hr.
    assert (Hm : exists r, minimize_r k p e (repeat q n) i = on_each n r).
    { unfold minimize_r. assert (Hl : length (ri_batches i) = n) by (apply H; now left).
      destruct (Nat.eqb (p_burnin p) 0); [now apply full_step_sync|].
      destruct (forallb _ _); [|now apply full_step_sync].
      destruct (burnin_sync i q Hl) as [q' Hq']. exists (Ok q'). simpl. now rewrite Hq'. }
    destruct Hm as [r Hm]. rewrite Hm in Hr. destruct r as [q'|er]; [|discriminate].
    cbn [on_each bind] in Hr. apply (IH (fun i' Hi => H i' (or_intror Hi)) q' l Hr).
Qed.
End Sync.
