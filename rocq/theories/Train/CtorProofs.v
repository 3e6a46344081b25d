(** Constructor checks and the damping rule. *)
From Coq Require Import String List Arith Bool Reals Lra Lia.
From Verif.Base Require Import Py.
From Verif.Tensors Require Import Model.
From Verif.Train Require Import Model Spec.
Import ListNotations.
Open Scope list_scope.
Open Scope R_scope.

Lemma lookup_mtype_spec s t :
  lookup_mtype s momentum_types = Some t <->
  (s = "regular"%string /\ t = Regular) \/ (s = "adam"%string /\ t = Adam) \/
  (s = "qmodel"%string /\ t = Qmodel) \/ (s = "qmodel_fixedmu"%string /\ t = QmodelFixedMu).
Proof.
  unfold momentum_types, lookup_mtype.
  repeat match goal with |- context[String.eqb ?a ?b] => destruct (String.eqb_spec a b); [subst|] end;
    (split; [intros H; try discriminate H; injection H as <-; tauto|]);
    intros H; repeat destruct H as [H|H]; destruct H as [A B]; subst; try reflexivity;
    try discriminate A; congruence.
Qed.

Definition kind_ok (a : args) (t : mtype) : Prop :=
  (a_norm_constraint a <> None -> t = Regular \/ t = Adam) /\
  (t = Qmodel -> a_momentum a = None) /\
  (a_learning_rate a = None <-> t = Qmodel \/ t = QmodelFixedMu) /\
  (a_rescale a <> None -> t = Qmodel \/ t = QmodelFixedMu) /\
  (a_use_passed_loss a = false -> a_train_batch a = true).

Ltac kind_crush :=
  unfold kind_ok; intros;
  repeat match goal with
  | H : _ /\ _ |- _ => destruct H
  | H : _ <-> _ |- _ => destruct H
  end.

Lemma estimator_check a : make_fisher_estimator_check a = Ok tt <-> legal_estimator a.
Proof.
  unfold make_fisher_estimator_check, legal_estimator.
  destruct (a_place a) as [s|].
  - destruct (String.eqb_spec s "round_robin"); [|destruct (String.eqb_spec s "replica_round_robin")];
      cbn [negb orb]; destruct (a_params_stats a), (a_has_batch_size a); cbn [negb andb];
      split; intros H; try discriminate H; try (subst; tauto);
      try (split; [subst; tauto|intros; congruence]);
      try reflexivity; try (destruct H as [_ H]; specialize (H eq_refl); discriminate H);
      exfalso; destruct H as [[H|[H|H]] _]; try discriminate H; injection H as H; contradiction.
  - cbn [negb]. destruct (a_params_stats a), (a_has_batch_size a); cbn [negb andb];
      split; intros H; try discriminate H; try tauto;
      try (split; [tauto|intros; congruence]).
    destruct H as [_ H]; specialize (H eq_refl); discriminate H.
Qed.

(** What the constructor hands to the base class as learning rate. *)
Definition base_lr (a : args) : R :=
  match a_learning_rate a with
  | Some r => r
  | None => match a_rescale a with Some r => r | None => 1 end
  end.

Lemma estimator_res a : make_fisher_estimator_check a = Ok tt \/
  make_fisher_estimator_check a = Raise ValueError.
Proof.
  unfold make_fisher_estimator_check.
  repeat match goal with |- context[if ?b then _ else _] => destruct b end; auto.
Qed.

Lemma construct_ok a vs t r :
  construct a = (vs, Ok (t, r)) ->
  legal a /\ legal_estimator a /\
  lookup_mtype (lower (a_momentum_type a)) momentum_types = Some t /\
  r = base_lr a /\
  vs = (if a_adapt_damping a then ["damping"%string] else []) ++ scalar_vars.
Proof.
  unfold construct, legal, base_lr.
  destruct (lookup_mtype _ _) as [t'|] eqn:L; [|intros H; discriminate H].
  pose proof (proj1 (lookup_mtype_spec _ _) L) as T.
  destruct (estimator_res a) as [E|E]; rewrite E;
    destruct t'; cbn [is_regular_or_adam is_qmodel starts_qmodel negb andb];
    destruct (a_norm_constraint a), (a_momentum a), (a_learning_rate a), (a_rescale a),
      (a_use_passed_loss a), (a_train_batch a); cbn [is_some negb andb]; intros H;
    try discriminate H; injection H as <- <- <-;
    (split; [eexists; split; [exact T|];
             repeat split; intros; try congruence; auto;
             match goal with H : _ \/ _ |- _ => destruct H; discriminate end
            |split; [apply estimator_check, E|auto]]).
Qed.

Lemma construct_raises a vs e : construct a = (vs, Raise e) -> e = ValueError.
Proof.
  unfold construct.
  destruct (lookup_mtype _ _) as [t'|]; [|intros H; congruence].
  destruct (estimator_res a) as [E|E]; rewrite E;
    destruct t'; cbn [is_regular_or_adam is_qmodel starts_qmodel negb andb];
    destruct (a_norm_constraint a), (a_momentum a), (a_learning_rate a), (a_rescale a),
      (a_use_passed_loss a), (a_train_batch a); cbn [is_some negb andb]; intros H; congruence.
Qed.

Lemma legal_construct a : legal a -> legal_estimator a ->
  exists t, construct a
  = ((if a_adapt_damping a then ["damping"%string] else []) ++ scalar_vars, Ok (t, base_lr a)) /\
  lookup_mtype (lower (a_momentum_type a)) momentum_types = Some t.
Proof.
  intros [t [T K]] E. exists t.
  unfold construct, base_lr. apply lookup_mtype_spec in T. rewrite T.
  apply estimator_check in E. rewrite E.
  destruct K as [K1 [K2 [[K3 K3'] [K4 K5]]]].
  destruct t; cbn [is_regular_or_adam is_qmodel starts_qmodel negb andb];
    destruct (a_norm_constraint a), (a_momentum a), (a_learning_rate a), (a_rescale a),
      (a_use_passed_loss a), (a_train_batch a); cbn [is_some negb andb]; try (split; reflexivity);
    exfalso;
    try (destruct K1; congruence); try (specialize (K2 eq_refl); congruence);
    try (specialize (K5 eq_refl); congruence); try (destruct (K3 eq_refl); congruence);
    try (destruct K4; congruence); try (specialize (K3' (or_introl eq_refl)); congruence);
    try (specialize (K3' (or_intror eq_refl)); congruence).
Qed.

Lemma raise_no_vars a vs e :
  construct a = (vs, Raise e) -> a_adapt_damping a = false -> legal_estimator a -> vs = [].
Proof.
  intros H A E. unfold construct in H. apply estimator_check in E.
  destruct (lookup_mtype _ _) as [t'|]; [|congruence].
  rewrite A, E in H.
  destruct t'; cbn [is_regular_or_adam is_qmodel starts_qmodel negb andb] in H;
    destruct (a_norm_constraint a), (a_momentum a), (a_learning_rate a), (a_rescale a),
      (a_use_passed_loss a), (a_train_batch a); cbn [is_some negb andb] in H; congruence.
Qed.

(* ------------------------------------------------------------------------ *)
(** * The damping rule *)

Lemma rltb_true a b : rltb a b = true <-> a < b.
Proof. unfold rltb. destruct (Rlt_dec a b); split; intros; auto; try discriminate; contradiction. Qed.
Lemma rltb_false a b : rltb a b = false <-> ~ a < b.
Proof. unfold rltb. destruct (Rlt_dec a b); split; intros; auto; try discriminate; contradiction. Qed.

Lemma egt_ratio dl q t : egt (ediv dl q) t = true <-> ratio_above dl q t.
Proof.
  unfold ediv, ratio_above. destruct (Req_EM_T q 0) as [Z|Z].
  - destruct (Rlt_dec 0 dl); [|destruct (Rlt_dec dl 0)]; cbn [egt]; split; intros H;
      try discriminate H; try reflexivity; try (right; split; [assumption|lra]);
      destruct H as [[H _]|[_ H]]; try contradiction; lra.
  - cbn [egt]. destruct (Rlt_dec t (dl / q)); split; intros H; try discriminate H; auto.
    destruct H as [[_ H]|[H _]]; [lra|contradiction].
Qed.
Lemma elt_ratio dl q t : elt (ediv dl q) t = true <-> ratio_below dl q t.
Proof.
  unfold ediv, ratio_below. destruct (Req_EM_T q 0) as [Z|Z].
  - destruct (Rlt_dec 0 dl); [|destruct (Rlt_dec dl 0)]; cbn [elt]; split; intros H;
      try discriminate H; try reflexivity; try (right; split; [assumption|lra]);
      destruct H as [[H _]|[_ H]]; try contradiction; lra.
  - cbn [elt]. destruct (Rlt_dec (dl / q) t); split; intros H; try discriminate H; auto.
    destruct H as [[_ H]|[H _]]; [lra|contradiction].
Qed.

Lemma update_damping_rule c x s l q :
  s_prev_loss s = Some l -> s_qchange s = Some q ->
  lm_rule c (s_damping s) (current_loss c x s - l) q (s_damping (update_damping c x s)).
Proof.
  intros L Q. unfold update_damping, lm_rule. rewrite L, Q. cbn [s_damping set_damping].
  change (c_decay c ^ c_interval c) with (c_omega c).
  set (dl := current_loss c x s - l).
  destruct (rltb dl 0 && rltb 0 q || egt (ediv dl q) (c_dec c)) eqn:D.
  - apply orb_true_iff in D. rewrite andb_true_iff, !rltb_true, egt_ratio in D.
    split; [reflexivity|]. intros N. exfalso. apply N.
    destruct D as [[D1 D2]|D]; [left; split; lra|right; exact D].
  - apply orb_false_iff in D. destruct D as [D1 D2].
    split.
    + intros [[H1 H2]|H].
      * apply andb_false_iff in D1. rewrite !rltb_false in D1. destruct D1; exfalso; lra.
      * apply egt_ratio in H. congruence.
    + intros _. destruct (elt (ediv dl q) (c_inc c)) eqn:E; split; intros H; try reflexivity.
      * exfalso. apply H. apply elt_ratio, E.
      * apply elt_ratio in H. congruence.
Qed.

(** Without a recorded loss or prediction the ratio is NaN. *)
Lemma update_damping_nan c x s :
  s_prev_loss s = None \/ s_qchange s = None ->
  s_damping (update_damping c x s) = Rmax (s_damping s) (c_min_damping c + c_l2 c).
Proof.
  intros H. unfold update_damping. cbn [s_damping set_damping].
  assert (N : match s_prev_loss s, s_qchange s with
              | Some l, Some q => ediv (current_loss c x s - l) q
              | _, _ => NaN end = NaN).
  { destruct H as [H|H]; rewrite H; [reflexivity|]. destruct (s_prev_loss s); reflexivity. }
  rewrite N.
  assert (F : match s_prev_loss s, s_qchange s with
              | Some l, Some q => rltb (current_loss c x s - l) 0 && rltb 0 q
              | _, _ => false end = false).
  { destruct H as [H|H]; rewrite H; [reflexivity|]. destruct (s_prev_loss s); reflexivity. }
  rewrite F. reflexivity.
Qed.

(** In every case one of three values. *)
Lemma update_damping_cases c x s :
  let d := s_damping s in let f := c_min_damping c + c_l2 c in
  let d' := s_damping (update_damping c x s) in
  d' = Rmax (d * c_omega c) f \/ d' = Rmax (d / c_omega c) f \/ d' = Rmax d f.
Proof.
  intros d f d'. unfold d', update_damping. cbn [s_damping set_damping].
  repeat match goal with |- context[if ?b then _ else _] => destruct b end; auto.
Qed.

Lemma update_damping_bounds c x s :
  0 < c_omega c <= 1 -> 0 < s_damping s ->
  let f := c_min_damping c + c_l2 c in
  let d' := s_damping (update_damping c x s) in
  f <= d' /\ s_damping s * c_omega c <= d' /\
  d' <= Rmax (s_damping s) f / c_omega c /\ 0 < d'.
Proof.
  intros W D f d'.
  assert (Hi : 1 <= / c_omega c) by (rewrite <- Rinv_1; apply Rinv_le_contravar; lra).
  pose proof (Rmax_l (s_damping s) f) as M1. pose proof (Rmax_r (s_damping s) f) as M2.
  assert (P : 0 < Rmax (s_damping s) f) by lra.
  assert (U : Rmax (s_damping s) f <= Rmax (s_damping s) f / c_omega c) by (unfold Rdiv; nra).
  assert (U2 : s_damping s / c_omega c <= Rmax (s_damping s) f / c_omega c)
    by (unfold Rdiv; apply Rmult_le_compat_r; lra).
  assert (U3 : s_damping s <= s_damping s / c_omega c) by (unfold Rdiv; nra).
  assert (U4 : s_damping s * c_omega c <= s_damping s) by nra.
  assert (U5 : 0 < s_damping s * c_omega c) by nra.
  destruct (update_damping_cases c x s) as [E|[E|E]]; fold d' in E; rewrite E.
  - pose proof (Rmax_l (s_damping s * c_omega c) f). pose proof (Rmax_r (s_damping s * c_omega c) f).
    fold f. repeat split; try lra. apply Rmax_lub; lra.
  - pose proof (Rmax_l (s_damping s / c_omega c) f). pose proof (Rmax_r (s_damping s / c_omega c) f).
    fold f. repeat split; try lra. apply Rmax_lub; lra.
  - fold f. repeat split; lra.
Qed.
