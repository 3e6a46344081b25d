(** Proofs about the registration calls made for a group of records, and about the order of
    the variables. *)
From Coq Require Import String List Arith ZArith Bool Lia Permutation.
From Verif.Base Require Import Py.
From Verif.Graph Require Import Model Spec Proofs.
From Verif.Registry Require Import Model.
From Verif.Match Require Model Spec.
From Verif.Search Require Import Model Spec RegisterProofs FindProofs.
Import ListNotations.
Open Scope string_scope.
Open Scope list_scope.
Local Arguments String.eqb : simpl never.

(* ------------------------------------------------------------------------ *)
(** * Order of the variables *)

Lemma mapM_all {A B} (f : A -> res B) l ys : mapM f l = Ok ys -> forall x, In x l -> exists y, f x = Ok y.
Proof.
  revert ys. induction l as [|a l IH]; intros ys H x [].
  - subst a. cbn in H. apply bind_ok in H as (y & E & _). eauto.
  - cbn in H. apply bind_ok in H as (y & _ & H). apply bind_ok in H as (ys' & H & _). eauto.
Qed.
Lemma mapM_ok {A B} (f : A -> res B) l : (forall x, In x l -> exists y, f x = Ok y) -> exists ys, mapM f l = Ok ys.
Proof.
  induction l as [|a l IH]; intros H; [exists []; reflexivity|].
  destruct (H a (or_introl eq_refl)) as (y & E). destruct IH as (ys & E'); [intros x I; apply H; right; exact I|].
  exists (y :: ys). cbn. rewrite E. cbn. rewrite E'. reflexivity.
Qed.

Section Order.
Variable pr : program.
Variables m m' : list (nat * nat).
Hypothesis Same : forall t, var_of m t = var_of m' t.

Lemma var_at_same x : var_at m x = var_at m' x.
Proof. destruct x; cbn; auto. Qed.
Lemma optional_same b n : optional_var m b n = optional_var m' b n.
Proof. unfold optional_var. destruct (Match.Model.lookup b n); [apply var_at_same|reflexivity]. Qed.
Lemma affine_same b c : record_affine_from_bindings pr b c m = record_affine_from_bindings pr b c m'.
Proof.
  unfold record_affine_from_bindings. rewrite (optional_same b "biases"). destruct (binding b "weights"); [|reflexivity].
  cbn [bind]. rewrite var_at_same. reflexivity.
Qed.
Lemma scale_same b c : record_scale_and_shift_from_bindings b c m = record_scale_and_shift_from_bindings b c m'.
Proof.
  unfold record_scale_and_shift_from_bindings. rewrite (optional_same b "shift"). destruct (binding b "scale"); [|reflexivity].
  cbn [bind]. rewrite var_at_same. reflexivity.
Qed.
Lemma norm_same b c : record_batch_norm_from_bindings b c m = record_batch_norm_from_bindings b c m'.
Proof. unfold record_batch_norm_from_bindings. rewrite !optional_same. reflexivity. Qed.
Lemma foldM_ext {A S} (f h : S -> A -> res S) l : (forall s x, In x l -> f s x = h s x) -> forall s, foldM f l s = foldM h l s.
Proof.
  induction l as [|a l IH]; intros H s; [reflexivity|]. cbn. rewrite (H s a (or_introl eq_refl)).
  destruct (h s a); [|reflexivity]. cbn. apply IH. intros; apply H; right; assumption.
Qed.
Lemma scan_same ml ts d : match_register_list pr = Ok ml ->
  foldM (fun d t => foldM (try_pattern m t) ml d) ts d = foldM (fun d t => foldM (try_pattern m' t) ml d) ts d.
Proof.
  intros Hml. apply foldM_ext. intros s x _. apply foldM_ext. intros s' mr I. unfold match_register_list in Hml.
  apply bind_ok in Hml as (f1 & _ & Hml). apply bind_ok in Hml as (f2 & _ & Hml). apply bind_ok in Hml as (f3 & _ & Hml).
  apply bind_ok in Hml as (f4 & _ & Hml). apply bind_ok in Hml as (f5 & _ & Hml). injection Hml as <-.
  unfold try_pattern.
  destruct I as [<-|[<-|[<-|[<-|[<-|[]]]]]]; cbn [fst snd];
    (match goal with |- bind (?f ?y) _ = _ => destruct (f y) as [v|e] end; [|reflexivity]; cbn [bind];
     destruct (Match.Model.truthy v); [|reflexivity]; destruct v; try reflexivity;
     rewrite ?affine_same, ?scale_same, ?norm_same; reflexivity).
Qed.
End Order.

Lemma find_order pr varlist varlist' members d :
  separate pr varlist -> Permutation varlist varlist' ->
  find_records pr varlist members = Ok d -> find_records pr varlist' members = Ok d.
Proof.
  intros Sep P H. unfold find_records in *. apply bind_ok in H as (ml & Hml & H). apply bind_ok in H as (m & Hm & H).
  rewrite Hml. cbn [bind].
  assert (St : forall t v, stands pr varlist t v <-> stands pr varlist' t v).
  { intros t v. unfold stands. split; intros [I R]; (split; [|exact R]); [eapply Permutation_in; eauto|eapply Permutation_in; [apply Permutation_sym|]; eauto]. }
  assert (Hm' : exists m', tensors_to_variables pr varlist' = Ok m').
  { unfold tensors_to_variables in *. apply bind_ok in Hm as (l & Hl & _).
    destruct (mapM_ok (fun v => do ts <- pr_tensors pr v; Ok (map (fun t => (t, v)) ts)) varlist') as (l' & E).
    - intros v I. apply (mapM_all _ _ _ Hl). eapply Permutation_in; [apply Permutation_sym|]; eauto.
    - rewrite E. cbn. eauto. }
  destruct Hm' as (m' & Hm'). rewrite Hm'. cbn [bind]. rewrite <- H. symmetry. apply (scan_same pr); [|exact Hml].
  intros t. assert (Sep' : separate pr varlist') by (intros x v w A B; apply St in A, B; eapply Sep; eauto).
  pose proof (var_of_stands pr varlist m Sep Hm t) as V. pose proof (var_of_stands pr varlist' m' Sep' Hm' t) as V'.
  destruct (var_of m t) as [v|] eqn:E, (var_of m' t) as [w|] eqn:E'; auto.
  - f_equal. assert (B : stands pr varlist' t w) by (apply V'; reflexivity).
    eapply Sep; [apply V; reflexivity|]. apply St, B.
  - exfalso. assert (A : stands pr varlist t v) by (apply V; reflexivity). apply St, V' in A. discriminate.
  - exfalso. assert (A : stands pr varlist' t w) by (apply V'; reflexivity). apply St, V in A. discriminate.
Qed.

(* ------------------------------------------------------------------------ *)
(** * Calls *)

(** A single record of a usual rank. *)
Lemma single_uses pr c ru bs p r xs :
  r_type r = RT_fully_connected \/ r_type r = RT_conv2d ->
  rank pr (r_inputs r) <= usual_rank r ->
  plan pr c ru bs p [r] = Ok (Some xs) ->
  exists x, xs = [x] /\ uses_of pr bs r (pl_uses x) /\
    (forall u, pl_uses x = Some u -> u <> 1).
Proof.
  intros T L H. unfold plan in H. cbn [forallb] in H.
  destruct (negb (rtype_eqb (r_type r) (r_type r) && true)); [discriminate|].
  unfold uses_of, leading. rewrite (proj2 (Nat.ltb_ge _ _) L).
  apply bind_ok in H as (l & H & E). injection E as <-. unfold rank, usual_rank in L. destruct T as [T|T]; rewrite T in *.
  - unfold plan_fully_connected in H. destruct (pr_dims pr (r_inputs r)) as [[fd dims]|]; [|discriminate].
    destruct (Nat.ltb_spec (if r_dense r then 2 else 1) (S (List.length dims))) as [Q|Q]; [lia|].
    destruct bs as [n|], fd as [f|]; cbn [negb andb] in H.
    + destruct (Nat.eqb_spec f n) as [E|E]; cbn [negb andb] in H.
      * injection H as <-. eexists. split; [reflexivity|]. cbn. split; [intros ? ? [= <-] [= <-]; exact E|discriminate].
      * destruct (Nat.eqb_spec n 0) as [Z|Z]; [discriminate|]. destruct (Nat.eqb_spec (f mod n) 0) as [D|D]; cbn in H; [|discriminate].
        injection H as <-. eexists. split; [reflexivity|]. cbn [pl_uses].
        assert (F : f = f / n * n) by (pose proof (Nat.div_mod f n Z); lia).
        split; [exists n, f; auto|]. intros u [= <-] U. rewrite U in F. lia.
    + injection H as <-. eexists. split; [reflexivity|]. cbn. split; discriminate.
    + injection H as <-. eexists. split; [reflexivity|]. cbn. split; discriminate.
    + injection H as <-. eexists. split; [reflexivity|]. cbn. split; discriminate.
  - unfold plan_conv2d in H. destruct (pr_dims pr (r_inputs r)) as [[fd dims]|]; [|discriminate].
    destruct (Nat.ltb_spec 4 (S (List.length dims))) as [Q|Q]; [lia|].
    destruct bs as [n|], fd as [f|]; cbn [negb andb] in H.
    + destruct (Nat.eqb_spec f n) as [E|E]; cbn [negb andb] in H.
      * injection H as <-. eexists. split; [reflexivity|]. cbn. split; [intros ? ? [= <-] [= <-]; exact E|discriminate].
      * destruct (Nat.eqb_spec n 0) as [Z|Z]; [discriminate|]. destruct (Nat.eqb_spec (f mod n) 0) as [D|D]; cbn in H; [|discriminate].
        injection H as <-. eexists. split; [reflexivity|]. cbn [pl_uses].
        assert (F : f = f / n * n) by (pose proof (Nat.div_mod f n Z); lia).
        split; [exists n, f; auto|]. intros u [= <-] U. rewrite U in F. lia.
    + injection H as <-. eexists. split; [reflexivity|]. cbn. split; discriminate.
    + injection H as <-. eexists. split; [reflexivity|]. cbn. split; discriminate.
    + injection H as <-. eexists. split; [reflexivity|]. cbn. split; discriminate.
Qed.

(** When it raises: a scalar input, or a batch size that does not divide. *)
Lemma single_raises pr c ru bs p r e :
  r_type r = RT_fully_connected \/ r_type r = RT_conv2d ->
  rank pr (r_inputs r) <= usual_rank r ->
  plan pr c ru bs p [r] = Raise e ->
  rank pr (r_inputs r) = 0 \/ exists n f, bs = Some n /\ leading pr r = Some f /\ forall u, f <> u * n.
Proof.
  intros T L H. unfold plan in H. cbn [forallb] in H.
  destruct (negb (rtype_eqb (r_type r) (r_type r) && true)); [discriminate|].
  unfold leading. unfold rank, usual_rank in *.
  assert (No : forall n f, n <> 0 -> f mod n <> 0 -> forall u, f <> u * n).
  { intros n f Z D u ->. apply D. apply Nat.mod_mul, Z. }
  destruct T as [T|T]; rewrite T in *.
  - unfold plan_fully_connected in H. destruct (pr_dims pr (r_inputs r)) as [[fd dims]|]; [|auto].
    destruct (Nat.ltb_spec (if r_dense r then 2 else 1) (S (List.length dims))) as [Q|Q]; [lia|].
    destruct bs as [n|], fd as [f|]; cbn [negb andb bind] in H; try discriminate.
    destruct (Nat.eqb_spec f n) as [E|E]; cbn [negb andb bind] in H; [discriminate|]. right. exists n, f. split; [auto|]. split; [auto|].
    destruct (Nat.eqb_spec n 0) as [Z|Z]; [subst; intros u; lia|]. destruct (Nat.eqb_spec (f mod n) 0) as [D|D]; cbn in H; [discriminate|auto].
  - unfold plan_conv2d in H. destruct (pr_dims pr (r_inputs r)) as [[fd dims]|]; [|auto].
    destruct (Nat.ltb_spec 4 (S (List.length dims))) as [Q|Q]; [lia|].
    destruct bs as [n|], fd as [f|]; cbn [negb andb bind] in H; try discriminate.
    destruct (Nat.eqb_spec f n) as [E|E]; cbn [negb andb bind] in H; [discriminate|]. right. exists n, f. split; [auto|]. split; [auto|].
    destruct (Nat.eqb_spec n 0) as [Z|Z]; [subst; intros u; lia|]. destruct (Nat.eqb_spec (f mod n) 0) as [D|D]; cbn in H; [discriminate|auto].
Qed.

(** The attributes of a convolution with one record. *)
Lemma single_conv pr c ru bs p r xs :
  r_type r = RT_conv2d -> plan pr c ru bs p [r] = Ok (Some xs) ->
  exists x, xs = [x] /\
    pl_call x = match pl_uses x with
                | None => Conv2d p (r_strides r) None (arg pr (r_inputs r)) (arg pr (r_outputs r)) (r_nhwc r) None ru
                | Some _ => Conv2dMulti p (AOne (arg pr (r_inputs r))) (AOne (arg pr (r_outputs r))) (r_nhwc r) None ru
                end.
Proof.
  intros T H. unfold plan in H. cbn [forallb] in H.
  destruct (negb (rtype_eqb (r_type r) (r_type r) && true)); [discriminate|].
  apply bind_ok in H as (l & H & E). injection E as <-. rewrite T in H. unfold plan_conv2d in H.
  destruct (pr_dims pr (r_inputs r)) as [[fd dims]|]; [|discriminate].
  destruct bs as [n|], fd as [f|]; cbn [negb andb] in H;
    repeat match type of H with context [if ?x then _ else _] => destruct x end; try discriminate;
    injection H as <-; eexists; split; reflexivity.
Qed.

(** An embedding lookup of a vector of indices that is used once. *)
Lemma single_embedding pr c ru bs p r :
  r_type r = RT_fully_connected -> r_dense r = false -> rank pr (r_inputs r) = 1 ->
  get_linked_approx c p = None ->
  (forall n f, bs = Some n -> leading pr r = Some f -> n = f) ->
  register_records pr [(p, [r])] ru bs c = (c, Raise ValueError).
Proof.
  intros T D R G B. unfold register_records, sorted_records. cbn [fold_right insert_sorted register_loop].
  unfold mbind at 1. unfold plan. cbn [forallb]. rewrite T. cbn [rtype_eqb negb andb].
  unfold plan_fully_connected. rewrite D, G. cbn [negb andb]. unfold rank in R. unfold leading in B.
  destruct (pr_dims pr (r_inputs r)) as [[fd dims]|]; [|discriminate]. injection R as R. rewrite R.
  change (Nat.ltb 1 1) with false.
  destruct bs as [n|], fd as [f|]; cbn [bind negb andb]; try (rewrite (B n f eq_refl eq_refl), Nat.eqb_refl; cbn [negb andb bind]);
    cbn [run_calls pl_call run_layer]; reflexivity.
Qed.

(** The same lookup used more than once. *)
Lemma multi_embedding pr c ru bs p r1 r2 l :
  (forall r, In r (r1 :: r2 :: l) -> r_type r = RT_fully_connected) -> r_dense r1 = false ->
  get_linked_approx c p = None ->
  exists x, plan pr c ru bs p (r1 :: r2 :: l) = Ok (Some [x]) /\ pl_uses x = None /\
    pl_call x = FullyConnectedMulti p (AMany (map (fun r => arg pr (r_inputs r)) (r1 :: r2 :: l)))
                  (AMany (map (fun r => arg pr (r_outputs r)) (r1 :: r2 :: l))) (Some "kron_indep_in_diag") false ru /\
    lookup fc_multi_table "kron_indep_in_diag" = Some FullyConnectedMultiIndepFB.
Proof.
  intros T D G. eexists (mkPlan _ None). split; [|split; [reflexivity|split; reflexivity]].
  unfold plan.
  assert (F : forallb (fun x => rtype_eqb (r_type r1) (r_type x)) (r1 :: r2 :: l) = true).
  { apply forallb_forall. intros r I. rewrite (T r I), (T r1 (or_introl eq_refl)). reflexivity. }
  rewrite F. cbn [negb]. rewrite (T r1 (or_introl eq_refl)). unfold plan_fully_connected. rewrite D, G. reflexivity.
Qed.

(* ------------------------------------------------------------------------ *)
(** * What is scanned *)

Lemma scans_ancestors g outs :
  closed_graph g -> outs <> [] -> (forall t, In (LOne t) outs -> t < g_ntensors g) ->
  (forall x, In x outs -> exists t, x = LOne t) ->
  exists m, subgraph_of_losses g outs = Ok m /\
    forall x, In x m <-> ancestor g (map loss_node outs) x.
Proof.
  intros C N B A. destruct (subgraph_members g (map loss_node outs)) as (m & E & M); [exact C| | |].
  - destruct outs; [congruence|discriminate].
  - intros x I. apply in_map_iff in I as (y & <- & I). destruct (A y I) as (t & ->). apply B, I.
  - exists m. split.
    + unfold subgraph_of_losses. destruct outs as [|x outs]; [congruence|]. destruct (A x (or_introl eq_refl)) as (t & ->). exact E.
    + intros x. rewrite <- M. unfold is_member. symmetry. apply in_members_In.
Qed.
