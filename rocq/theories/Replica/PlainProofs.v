(** Configurations whose steps never raise, used by the examples. *)
From Coq Require Import List Arith Bool Reals Lia Lra.
From Verif.Base Require Import Py.
From Verif.Tensors Require Import Model.
From Verif.Train Require Import Model.
From Verif.Replica Require Import Model Spec.
Import ListNotations.
Open Scope list_scope.
Open Scope R_scope.

(** Ordinary momentum, nothing adapted or clipped, no burn-in, statistics at every step *)
Definition plain (p : pcfg) : Prop :=
  c_mtype (p_cfg p) = Regular /\ c_norm (p_cfg p) = None /\ c_adapt (p_cfg p) = false /\
  p_burnin p = 0%nat /\ p_cov_every p = 1%nat.

Lemma plain_apply c x s g :
  c_mtype c = Regular -> c_norm c = None -> c_adapt c = false -> exists s', apply_gradients c x s g = Ok s'.
Proof.
  intros Ht Hn Ha. unfold apply_gradients, compute_raw_update_steps, maybe_clip. rewrite Ht, Hn, Ha.
  cbn [bind]. destruct (update_velocities _ _ _ _) as [vel raw]. cbn [andb bind]. eexists. reflexivity.
Qed.

Lemma plain_step {B I Inv} p (e : env B I Inv) q i :
  plain p -> exists q', minimize p e q i = Ok q' /\
    o_cov q' = cov_update (p_ema p) (e_stats e (s_params (o_st q)) (i_batch i)) (o_cov q).
Proof.
  intros (Ht & Hn & Ha & Hb & Hc). unfold minimize. rewrite Hb. cbn [Nat.eqb]. unfold full_step.
  set (q1 := kfac_update_ops p e i q).
  assert (E : o_cov q1 = cov_update (p_ema p) (e_stats e (s_params (o_st q)) (i_batch i)) (o_cov q)).
  { unfold q1, kfac_update_ops, maybe_pre_update_adapt_damping. rewrite Hc, Ha. cbn [negb orb o_st o_cov].
    rewrite !Nat.mod_1_r. cbn [Nat.eqb]. destruct (i_cov_first i); destruct (Nat.eqb _ 0); reflexivity. }
  cbv zeta. match goal with |- context [apply_gradients ?c ?x ?s ?g] =>
    destruct (plain_apply c x s g Ht Hn Ha) as [s' Hs] end.
  rewrite Hs. cbn [bind]. eexists. split; [reflexivity|]. exact E.
Qed.

Lemma plain_train {B I Inv} p (e : env B I Inv) is_ q : plain p -> exists q', train p e q is_ = Ok q'.
Proof.
  intro H. revert q. induction is_ as [|i is_ IH]; intro q; [exists q; reflexivity|].
  destruct (plain_step p e q i H) as (q' & Hq & _). cbn [train]. rewrite Hq. apply IH.
Qed.

Lemma mapm_all_ok {A B} (f : A -> res B) l : (forall a, exists b, f a = Ok b) -> exists bs, mapm f l = Ok bs.
Proof.
  intro H. induction l as [|a l [bs IH]]; [exists []; reflexivity|].
  destruct (H a) as [b Hb]. exists (b :: bs). simpl. now rewrite Hb, IH.
Qed.

Lemma plain_train_r {B I} k p (e : renv B I) is_ qs :
  plain p -> in_replica k = true -> exists qs', train_r k p e qs is_ = Ok qs'.
Proof.
  intros (Ht & Hn & Ha & Hb & Hc) Hr. revert qs. induction is_ as [|i is_ IH]; intro qs; [exists qs; reflexivity|].
  assert (Hs : exists qs1, minimize_r k p e qs i = Ok qs1).
  { unfold minimize_r. rewrite Hb. cbn [Nat.eqb]. unfold full_step_r, apply_gradients_r, compute_raw_update_steps_r, maybe_clip.
    rewrite Ht, Hn, Ha, Hr. cbv zeta.
    match goal with |- context [mapm ?f ?l] => destruct (mapm_all_ok f l) as [pgs Hp]; [intros a; eexists; reflexivity|] end.
    rewrite Hp. cbn [bind]. destruct (update_velocities_r _ _ _ _ _ _) as [vels raws]. cbn [andb bind].
    destruct (has_strategy k); cbn [bind]; eexists; reflexivity. }
  destruct Hs as [qs1 Hs]. cbn [train_r]. rewrite Hs. apply IH.
Qed.
