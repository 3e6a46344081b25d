(** C54, C71, C72, C74: the configuration of the Keras optimizer. *)
From Coq Require Import String Ascii.
From Coq Require Import QArith List Arith Bool Lia.
From Verif.Base Require Import Py.
From Verif.Keras Require Import Config ConfigProofs.
Import ListNotations.
Local Open Scope string_scope.

(* ------------------------------------------------------------------------ *)
(** * C54 *)

(** Refuted: one of the two intervals alone is overwritten. *)
Theorem C54_keeps_user_settings_refuted :
  ~ (forall kw adaptive kw' k v, configure kw adaptive = Ok kw' -> get kw k = Some v ->
       In k ["invert_every"; "damping_adaptation_interval"; "use_passed_loss"; "update_damping_immediately"] ->
       get kw' k = Some v).
Proof.
  intros H. specialize (H [("invert_every", VNum 20); ("learning_rate", VNone)] (VBool true)).
  cbn in H. specialize (H _ "invert_every" (VNum 20) eq_refl eq_refl (or_introl eq_refl)). discriminate H.
Qed.
Print Assumptions C54_keeps_user_settings_refuted.

(** Refuted: a momentum given in the adaptive mode is dropped without an error. *)
Theorem C54_momentum_refused_refuted :
  ~ (forall kw v, get kw "momentum" = Some v -> v <> VNone -> configure kw (VBool true) = Raise ValueError).
Proof.
  intros H. specialize (H [("momentum", VNum (9 # 10)); ("learning_rate", VNone)] _ eq_refl ltac:(discriminate)).
  vm_compute in H. discriminate H.
Qed.
Print Assumptions C54_momentum_refused_refuted.

(** Refuted: so is a learning rate of zero. *)
Theorem C54_learning_rate_refused_refuted :
  ~ (forall kw v, get kw "learning_rate" = Some v -> v <> VNone -> is_ok (configure kw (VBool true)) = false).
Proof.
  intros H. specialize (H [("learning_rate", VNum 0)] _ eq_refl ltac:(discriminate)). vm_compute in H. discriminate H.
Qed.
Print Assumptions C54_learning_rate_refused_refuted.

(** What holds: everything else is kept, the two flags are kept, the two intervals are kept when
    both are given, and only missing settings are filled in. *)
Theorem C54_keeps_user_settings_partial kw adaptive kw' :
  configure kw adaptive = Ok kw' ->
  (forall k, ~ In k adaptive_keys -> get kw' k = get kw k) /\
  (forall k v, k = "use_passed_loss" \/ k = "update_damping_immediately" -> get kw k = Some v -> get kw' k = Some v) /\
  (forall v w, get kw "invert_every" = Some v -> get kw "damping_adaptation_interval" = Some w ->
     get kw' "invert_every" = Some v /\ get kw' "damping_adaptation_interval" = Some w).
Proof.
  intros E. split; [intros k; exact (configure_other kw adaptive kw' k E)|].
  split; [intros k v; exact (configure_keeps kw adaptive kw' k v E)|intros v w; exact (configure_intervals kw adaptive kw' v w E)].
Qed.
Print Assumptions C54_keeps_user_settings_partial.
Theorem C54_fills_missing_settings_partial kw adaptive kw' :
  configure kw adaptive = Ok kw' -> truthy (get_default kw' "adapt_damping" (VBool false)) = Ok true ->
  (get kw "use_passed_loss" = None -> get kw' "use_passed_loss" = Some (VBool true)) /\
  (get kw "update_damping_immediately" = None -> get kw' "update_damping_immediately" = Some (VBool true)) /\
  (get kw "invert_every" = None \/ get kw "damping_adaptation_interval" = None ->
     get kw' "invert_every" = Some (VNum 5) /\ get kw' "damping_adaptation_interval" = Some (VNum 5)).
Proof. exact (configure_fills kw adaptive kw'). Qed.
Print Assumptions C54_fills_missing_settings_partial.
Theorem C54_nonzero_learning_rate_refused_partial kw lr :
  truthy lr = Ok true -> get kw "learning_rate" = Some lr -> configure kw (VBool true) = Raise ValueError.
Proof. exact (configure_lr kw lr). Qed.
Print Assumptions C54_nonzero_learning_rate_refused_partial.

(** Without the adaptive mode nothing is filled in. *)
Theorem C54_untouched_without_adaptation kw adaptive kw' :
  configure kw adaptive = Ok kw' -> truthy adaptive = Ok false ->
  truthy (get_default kw "adapt_damping" (VBool false)) = Ok false -> kw' = kw.
Proof.
  intros E A D. destruct (configure_ok _ _ _ E) as (a & d & A' & D' & ->).
  rewrite A in A'. injection A' as <-. unfold step1 in *. rewrite D in D'. injection D' as <-. reflexivity.
Qed.
Print Assumptions C54_untouched_without_adaptation.
Example C54_example :
  (exists kw', configure [("learning_rate", VNone); ("invert_every", VNum 4); ("damping_adaptation_interval", VNum 8);
                          ("use_passed_loss", VBool false); ("cov_ema_decay", VNum (1 # 2))] (VBool true) = Ok kw' /\
     truthy (get_default kw' "adapt_damping" (VBool false)) = Ok true /\ get kw' "invert_every" = Some (VNum 4) /\
     get kw' "update_damping_immediately" = Some (VBool true)) /\
  truthy (VNum (1 # 10)) = Ok true /\
  configure [("learning_rate", VNum (1 # 10))] (VBool false) = Ok [("learning_rate", VNum (1 # 10))].
Proof. split; [eexists; split; [reflexivity|]; repeat split|split; reflexivity]. Qed.

(* ------------------------------------------------------------------------ *)
(** * C71 *)

(** The constructor of an optimizer that is not adaptive. *)
Definition plain_args (kw : dict) : kfac_args :=
  mkKArgs VNone (VNum (1 # 10)) (VNum (1 # 100)) VNone VNone VNone (VBool false) VNone "kfac" VNone kw.
Definition same (v : pyval) : res pyval := Ok v.

(** The statement: an optimizer rebuilt from the configuration trains with the same settings. *)
Definition rebuilt_has_same_settings (a : kfac_args) : Prop :=
  forall o kw, kfac_init same same a = Ok o -> create_optimizer o = Ok kw ->
  exists o' kw', from_config same same (get_config o) = Ok o' /\ create_optimizer o' = Ok kw' /\
    forall k, setting kw' k = setting kw k.

(** Refuted: the default cov_ema_decay is written into the configuration as if the user had given
    it, and is then raised to the power cov_update_every. *)
Theorem C71_rebuilt_optimizer_refuted :
  ~ (forall a, (forall k, In k init_params -> get (k_kwargs a) k = None) -> rebuilt_has_same_settings a).
Proof.
  intros H. specialize (H (plain_args [("cov_update_every", VNum 10)])).
  unfold rebuilt_has_same_settings in H. vm_compute in H.
  assert (X : forall k, In k init_params -> get [("cov_update_every", VNum 10)] k = None).
  { intros k I. cbn in I. repeat (destruct I as [<-|I]; [reflexivity|]). destruct I. }
  destruct (H X _ _ eq_refl eq_refl) as (o' & kw' & E1 & E2 & E3).
  injection E1 as <-. cbn in E2. injection E2 as <-. specialize (E3 "cov_ema_decay"). vm_compute in E3. discriminate E3.
Qed.
Print Assumptions C71_rebuilt_optimizer_refuted.

(** Refuted: one with momentum type qmodel_fixedmu cannot be rebuilt at all, because the default
    momentum in the configuration is taken for one given by the user. *)
Theorem C71_rebuilt_fixedmu_refuted :
  exists a o kw, kfac_init same same a = Ok o /\ create_optimizer o = Ok kw /\
    from_config same same (get_config o) = Raise ValueError.
Proof.
  exists (mkKArgs VNone VNone (VNum (1 # 100)) VNone VNone VNone (VBool false) VNone "kfac" VNone
            [("momentum_type", VStr "qmodel_fixedmu")]).
  eexists. eexists. split; [vm_compute; reflexivity|]. split; vm_compute; reflexivity.
Qed.
Print Assumptions C71_rebuilt_fixedmu_refuted.

(** Refuted: the rebuilt adaptive optimizer, given the training batch again, has no loss function
    and no batch size. *)
Theorem C71_rebuilt_adaptive_refuted :
  exists a o kw o' kw'' tb, kfac_init same same a = Ok o /\ create_optimizer o = Ok kw /\
    setting kw "loss_fn" = Ok (Some (VOther 0)) /\ setting kw "batch_size" = Ok (Some (VNum 32)) /\
    from_config same same (get_config o) = Ok o' /\
    (exists kw', register_train_batch (o_kwargs o') tb VNone = Ok kw' /\
       create_optimizer (mkKfac kw' (o_config o') (o_hyper o')) = Ok kw'') /\
    setting kw'' "loss_fn" = Ok (Some VNone) /\ setting kw'' "batch_size" = Ok (Some VNone).
Proof.
  exists (mkKArgs VNone VNone (VNum (1 # 100)) VNone VNone VNone (VBool true) (VBatch true (Some 32%nat)) "kfac" VNone []).
  do 4 eexists. exists (VBatch true (Some 32%nat)).
  split; [vm_compute; reflexivity|]. split; [vm_compute; reflexivity|]. split; [vm_compute; reflexivity|].
  split; [vm_compute; reflexivity|]. split; [vm_compute; reflexivity|].
  split; [eexists; split; vm_compute; reflexivity|]. split; vm_compute; reflexivity.
Qed.
Print Assumptions C71_rebuilt_adaptive_refuted.

(** What holds: without adaptive damping and the qmodel momentum types, and if cov_ema_decay was
    given or the covariances are updated in every step, the optimizer rebuilt at any time (with
    whatever values [h] the hyperparameters have got) has the same settings. *)
Theorem C71_rebuilt_optimizer_partial serialize_loss serialize_fisher_approx a o h :
  (forall v w, serialize_loss v = Ok w -> serialize_loss w = Ok w) ->
  (forall v w, serialize_fisher_approx v = Ok w -> serialize_fisher_approx w = Ok w) ->
  kfac_init serialize_loss serialize_fisher_approx a = Ok o ->
  (forall k, In k init_params -> get (k_kwargs a) k = None) ->
  map fst h = map fst (o_hyper o) -> (forall k, get h k <> Some VNone) ->
  truthy (get_default (o_config o) "adapt_damping" VNone) = Ok false ->
  (forall mt, lower_of (get_default (o_config o) "momentum_type" VNone) = Ok mt -> String.prefix "qmodel" mt = false) ->
  get (k_kwargs a) "cov_ema_decay" <> None \/ get (k_kwargs a) "cov_update_every" = None ->
  let o1 := mkKfac (o_kwargs o) (o_config o) h in
  exists o2 kw kw', from_config serialize_loss serialize_fisher_approx (get_config o1) = Ok o2 /\
    create_optimizer o1 = Ok kw /\ create_optimizer o2 = Ok kw' /\ forall k, setting kw' k = setting kw k.
Proof.
  intros SL SF Io Pn Hk Hv NA NQ C o1.
  destruct (round_trip _ _ SL SF a o h Io Pn Hk Hv NA NQ) as (o2 & kw & kw' & E1 & E2 & E3 & K & Cc & C2 & C1 & Cu).
  exists o2, kw, kw'. split; [exact E1|]. split; [exact E2|]. split; [exact E3|].
  intros k. destruct (String.eqb_spec k "cov_ema_decay") as [->|N]; [|apply K, N].
  destruct (kfac_init_ok _ _ a o Io) as (kw1 & sf & sl & ad & mt & tb & ad2 & _ & _ & _ & _ & Kc & _ & _ & Ec & _).
  assert (G : get (o_config o) "cov_ema_decay" =
     match get (k_kwargs a) "cov_ema_decay" with Some v => Some v | None => Some (VNum (95 # 100)) end).
  { rewrite Ec, get_config_of. cbn. rewrite (configure_other _ _ _ "cov_ema_decay" Kc) by (cbn; intuition discriminate).
    unfold kw0. rewrite get_update. cbn. reflexivity. }
  unfold setting. rewrite C1, C2, Cu, G. destruct (get (k_kwargs a) "cov_ema_decay") as [v|] eqn:X; [reflexivity|].
  destruct C as [C|C]; [congruence|]. cbn [String.eqb Ascii.eqb Bool.eqb].
  assert (Y : get_default (update default_kwargs kw) "cov_update_every" VNone = VNum 1).
  { unfold get_default. rewrite get_update.
    assert (Z : get kw "cov_update_every" = None).
    { unfold create_optimizer in E2. cbn [o_config o_kwargs o_hyper] in E2. rewrite NA in E2. cbn [bind] in E2. injection E2 as <-.
      rewrite get_update. assert (W : get h "cov_update_every" = None).
      { destruct (get h "cov_update_every") eqn:W; [|reflexivity]. exfalso.
        assert (V : exists v, get (o_hyper o) "cov_update_every" = Some v) by (apply get_some_key; rewrite <- Hk; apply get_some_key; eauto).
        destruct (kfac_init_ok _ _ a o Io) as (? & ? & ? & ? & ? & ? & ? & _ & _ & _ & _ & _ & _ & _ & _ & _ & _ & Eh & _).
        rewrite Eh, get_map_fst in V. destruct (existsb _ _) eqn:U; [|destruct V; discriminate].
        apply hypers_of_in in U. cbn in U. intuition discriminate. }
      rewrite W.
      destruct (kfac_init_ok _ _ a o Io) as (kw1' & ? & ? & ad' & ? & tb' & ad2' & _ & _ & _ & _ & Kc' & _ & _ & Ec' & _ & _ & _ & TB' & A2' & E3').
      assert (N1 : get kw1' "cov_update_every" = None).
      { rewrite (configure_other _ _ _ _ Kc') by (cbn; intuition discriminate). unfold kw0. rewrite get_update. cbn. exact C. }
      assert (N2 : get (kw2_of kw1') "cov_update_every" = None) by (rewrite get_kw2_of; destruct (get kw1' "loss_tensor"); exact N1).
      destruct (tb' && ad2')%bool; [|injection E3' as <-; exact N2].
      unfold register_train_batch in E3'. destruct (k_train_batch a) as [| | | | |al fd|]; try discriminate.
      destruct al; [|discriminate]. cbn [negb truthy bind] in E3'.
      destruct (has _ "batch_size"); [injection E3' as <-; rewrite get_set; exact N2|].
      destruct fd as [[|n]|]; try discriminate. injection E3' as <-. rewrite !get_set. exact N2. }
    rewrite Z. reflexivity. }
  rewrite Y. reflexivity.
Qed.
Print Assumptions C71_rebuilt_optimizer_partial.
Example C71_example :
  exists o, kfac_init same same (plain_args [("cov_ema_decay", VNum (9 # 10)); ("cov_update_every", VNum 10); ("momentum", VNum 0)]) = Ok o /\
    truthy (get_default (o_config o) "adapt_damping" VNone) = Ok false /\
    lower_of (get_default (o_config o) "momentum_type" VNone) = Ok "adam" /\ String.prefix "qmodel" "adam" = false /\
    map fst (o_hyper o) = ["learning_rate"; "momentum"; "damping"; "weight_decay_coeff"].
Proof. eexists. split; [vm_compute; reflexivity|]. repeat split. Qed.

(* ------------------------------------------------------------------------ *)
(** * C72 *)

(** The hyperparameters that can be reassigned: those of the five that have a value and that no
    adaptive mode controls. *)
Theorem C72_mutable_hyperparameters sl sf a o :
  kfac_init sl sf a = Ok o ->
  exists ad mt, truthy (get_default (o_config o) "adapt_damping" VNone) = Ok ad /\
    lower_of (get_default (o_config o) "momentum_type" VNone) = Ok mt /\
    forall h, In h (mutable_hyperparameters o) <->
      In h ["learning_rate"; "momentum"; "damping"; "weight_decay_coeff"; "norm_constraint"] /\
      get_default (o_config o) h VNone <> VNone /\ ~ (ad = true /\ h = "damping") /\
      ~ (String.prefix "qmodel" mt = true /\ (h = "learning_rate" \/ h = "momentum")).
Proof.
  intros E. destruct (kfac_init_ok _ _ a o E) as (kw1 & s1 & s2 & ad & mt & tb & ad2 & _ & _ & _ & _ & _ & _ & _ & _ & AD & MT & Eh & _).
  exists ad, mt. split; [exact AD|]. split; [exact MT|]. intros h. unfold mutable_hyperparameters.
  rewrite <- get_some_key, Eh, get_map_fst.
  etransitivity; [|exact (hypers_of_in (o_config o) ad mt h)].
  destruct (existsb _ _); split; [reflexivity|eauto|intros (v & [=])|discriminate].
Qed.
Print Assumptions C72_mutable_hyperparameters.

(** Training uses the current value of each of them. *)
Theorem C72_training_uses_current_value sl sf a o h kw k v :
  kfac_init sl sf a = Ok o -> map fst h = map fst (o_hyper o) ->
  create_optimizer (mkKfac (o_kwargs o) (o_config o) h) = Ok kw -> get h k = Some v -> setting kw k = Ok (Some v).
Proof.
  intros E Hk C G.
  destruct (kfac_init_ok _ _ a o E) as (kw1 & s1 & s2 & ad & mt & tb & ad2 & _ & _ & _ & _ & _ & _ & _ & _ & AD & MT & Eh & _).
  unfold create_optimizer in C. cbn [o_config o_kwargs o_hyper] in C. rewrite AD in C. cbn [bind] in C.
  destruct (if ad then _ else _) as [kw2|]; [|discriminate]. cbn [bind] in C. injection C as <-.
  unfold setting. rewrite get_update, G. destruct (String.eqb_spec k "cov_ema_decay") as [->|]; [|reflexivity]. exfalso.
  assert (V : exists v, get (o_hyper o) "cov_ema_decay" = Some v) by (apply get_some_key; rewrite <- Hk; apply get_some_key; eauto).
  rewrite Eh, get_map_fst in V. destruct (existsb _ _) eqn:U; [|destruct V; discriminate].
  apply hypers_of_in in U. cbn in U. intuition discriminate.
Qed.
Print Assumptions C72_training_uses_current_value.

(** Assigning a number changes that hyperparameter and nothing else; a tensor is refused, and so
    is any assignment to a hyperparameter that was given as a tensor. *)
Theorem C72_set_hyper hyper k x :
  (forall q w, get hyper k = Some (VNum q) -> x = VNum w -> exists h', set_hyper hyper k x = Ok h' /\
     get h' k = Some (VNum w) /\ forall k', k' <> k -> get h' k' = get hyper k') /\
  (forall n, x = VTensor n -> forall h', set_hyper hyper k x <> Ok h') /\
  (forall n, get hyper k = Some (VTensor n) -> set_hyper hyper k x = Raise AttributeError).
Proof.
  unfold set_hyper. repeat split.
  - intros q w -> ->. eexists. split; [reflexivity|]. split; [rewrite get_set, String.eqb_refl; reflexivity|].
    intros k' N. rewrite get_set. destruct (String.eqb_spec k k'); [congruence|reflexivity].
  - intros n -> h'. destruct (get hyper k) as [[]|]; discriminate.
  - intros n ->. reflexivity.
Qed.
Print Assumptions C72_set_hyper.
Example C72_example :
  exists o, kfac_init same same (plain_args [("adapt_damping", VBool true)]) = Ok o /\
    mutable_hyperparameters o = ["learning_rate"; "momentum"; "weight_decay_coeff"] /\
    get (o_hyper o) "momentum" = Some (VNum (9 # 10)).
Proof. eexists. split; [vm_compute; reflexivity|]. split; reflexivity. Qed.

(* ------------------------------------------------------------------------ *)
(** * C74 *)

(** The size of the batch: the one given with the batch, else the one given before, else the
    static size of the inputs; a batch that is not a tuple of tensors, or has no size, is refused. *)
Theorem C74_register_train_batch kw tb bs kw' :
  register_train_batch kw tb bs = Ok kw' ->
  get kw' "train_batch" = Some tb /\ (exists fd, tb = VBatch true fd) /\
  (forall k, k <> "train_batch" -> k <> "batch_size" -> get kw' k = get kw k) /\
  (truthy bs = Ok true /\ get kw' "batch_size" = Some bs \/
   truthy bs = Ok false /\ (exists v, get kw "batch_size" = Some v) /\ get kw' "batch_size" = get kw "batch_size" \/
   truthy bs = Ok false /\ get kw "batch_size" = None /\
     exists n, tb = VBatch true (Some (S n)) /\ get kw' "batch_size" = Some (VNum (inject_Z (Z.of_nat (S n))))).
Proof.
  unfold register_train_batch. destruct tb as [| | | | |al fd|]; try discriminate. destruct al; [|discriminate]. cbn [negb].
  destruct (truthy bs) as [b|]; [|discriminate]. cbn [bind].
  assert (Hb : has (set kw "train_batch" (VBatch true fd)) "batch_size" = has kw "batch_size") by (unfold has; rewrite get_set; reflexivity).
  rewrite Hb. clear Hb.
  assert (Ho : forall v k, k <> "train_batch" -> k <> "batch_size" ->
     get (set (set kw "train_batch" (VBatch true fd)) "batch_size" v) k = get kw k).
  { intros v k A B. rewrite !get_set. destruct (String.eqb_spec "batch_size" k); [congruence|].
    destruct (String.eqb_spec "train_batch" k); [congruence|reflexivity]. }
  destruct b.
  - intros [= <-]. split; [reflexivity|]. split; [eauto|]. split; [apply Ho|]. left. split; reflexivity.
  - destruct (has kw "batch_size") eqn:B.
    + intros [= <-]. split; [reflexivity|]. split; [eauto|]. split.
      * intros k A _. rewrite get_set. destruct (String.eqb_spec "train_batch" k); [congruence|reflexivity].
      * right. left. split; [reflexivity|]. split; [apply has_get, B|]. rewrite get_set. reflexivity.
    + destruct fd as [[|n]|]; try discriminate. intros [= <-]. split; [reflexivity|]. split; [eauto|]. split; [apply Ho|].
      right. right. split; [reflexivity|]. split; [unfold has in B; destruct (get kw "batch_size"); [discriminate|reflexivity]|].
      exists n. split; reflexivity.
Qed.
Print Assumptions C74_register_train_batch.
Theorem C74_refused kw tb bs e :
  register_train_batch kw tb bs = Raise e -> (forall n, bs <> VTensor n) ->
  e = ValueError /\
  ((forall al fd, tb <> VBatch al fd) \/ (exists fd, tb = VBatch false fd) \/
   (truthy bs = Ok false /\ get kw "batch_size" = None /\
      (tb = VBatch true None \/ tb = VBatch true (Some 0%nat)))).
Proof.
  unfold register_train_batch. intros E T.
  destruct tb as [| | | | |al fd|]; try (injection E as <-; split; [reflexivity|left; discriminate]).
  destruct al; [|injection E as <-; split; [reflexivity|right; left; eauto]]. cbn [negb] in E.
  destruct (truthy bs) as [b|] eqn:B.
  - cbn [bind] in E. destruct b; [discriminate|].
    assert (Hb : has (set kw "train_batch" (VBatch true fd)) "batch_size" = has kw "batch_size") by (unfold has; rewrite get_set; reflexivity).
    rewrite Hb in E. destruct (has kw "batch_size") eqn:H; [discriminate|].
    assert (N : get kw "batch_size" = None) by (unfold has in H; destruct (get kw "batch_size"); [discriminate|reflexivity]).
    destruct fd as [[|n]|]; try discriminate; injection E as <-; split; auto 10.
  - exfalso. destruct bs; try discriminate. apply (T n eq_refl).
Qed.
Print Assumptions C74_refused.
(** With adaptive damping, training needs a registered batch, and any that was accepted will
    do; it is given a loss function if it has none.  Without, no batch is needed. *)
Theorem C74_needed_for_adaptive_damping o ad :
  truthy (get_default (o_config o) "adapt_damping" VNone) = Ok ad ->
  (ad = true -> get (o_kwargs o) "train_batch" = None -> create_optimizer o = Raise ValueError) /\
  (forall tb bs kw', register_train_batch (o_kwargs o) tb bs = Ok kw' ->
     exists kw, create_optimizer (mkKfac kw' (o_config o) (o_hyper o)) = Ok kw /\
       (get (o_hyper o) "loss_fn" = None -> ad = true -> exists f, get kw "loss_fn" = Some f)) /\
  (ad = false -> exists kw, create_optimizer o = Ok kw /\
     forall k, get kw k = match get (o_hyper o) k with Some v => Some v | None => get (o_kwargs o) k end).
Proof.
  intros AD. split; [|split].
  - intros -> N. unfold create_optimizer. rewrite AD. cbn [bind]. unfold has. rewrite N. reflexivity.
  - intros tb bs kw' R. destruct (C74_register_train_batch _ _ _ _ R) as (TB & _).
    unfold create_optimizer. cbn [o_config o_kwargs o_hyper]. rewrite AD. cbn [bind].
    destruct ad; cbn [bind]; [|eexists; split; [reflexivity|discriminate]].
    unfold has at 1. rewrite TB. cbn [bind]. eexists. split; [reflexivity|].
    intros H _. rewrite get_update, H. unfold has. destruct (get kw' "loss_fn") as [f|] eqn:L; [rewrite L; eauto|].
    rewrite get_set. cbn. eexists. reflexivity.
  - intros ->. unfold create_optimizer. rewrite AD. cbn [bind]. eexists. split; [reflexivity|].
    intros k. apply get_update.
Qed.
Print Assumptions C74_needed_for_adaptive_damping.
Example C74_example :
  (exists kw', register_train_batch [("batch_size", VNum 16)] (VBatch true (Some 32%nat)) VNone = Ok kw' /\
     get kw' "batch_size" = Some (VNum 16)) /\
  (exists kw', register_train_batch [] (VBatch true (Some 32%nat)) VNone = Ok kw' /\ get kw' "batch_size" = Some (VNum 32)) /\
  register_train_batch [] (VBatch true None) VNone = Raise ValueError /\
  exists o, kfac_init same same (plain_args [("adapt_damping", VBool true)]) = Ok o /\
    truthy (get_default (o_config o) "adapt_damping" VNone) = Ok true /\ get (o_kwargs o) "train_batch" = None.
Proof.
  split; [eexists; split; reflexivity|]. split; [eexists; split; reflexivity|]. split; [reflexivity|].
  eexists. split; [vm_compute; reflexivity|]. split; reflexivity.
Qed.
