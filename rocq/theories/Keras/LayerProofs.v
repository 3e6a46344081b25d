(** Proofs about registering Keras models. *)
From Coq Require Import String Ascii.
From Coq Require Import Reals List Arith Bool Lia Permutation.
From Verif.Base Require Import Py.
From Verif.Keras Require Import Config Layers LayerSpec.
Import ListNotations.
Local Open Scope string_scope.
Local Arguments String.eqb : simpl never.
Local Arguments String.prefix : simpl never.

(* ------------------------------------------------------------------------ *)
(** * Strings and dictionaries *)

Lemma lower_strip s c : spells s c <-> lower (strip_underscores s) = c.
Proof.
  split.
  - induction 1 as [|s c _ IH|a s c N R _ IH|a b s c R E _ IH]; cbn [strip_underscores lower]; [reflexivity|exact IH| |].
    + destruct (Ascii.eqb_spec a "_"); [congruence|]. cbn [lower]. rewrite IH. f_equal. unfold lower_char.
      destruct (Nat.leb_spec 65 (nat_of_ascii a)), (Nat.leb_spec (nat_of_ascii a) 90); cbn; try reflexivity. lia.
    + destruct (Ascii.eqb_spec a "_") as [->|]; [cbv in R; lia|]. cbn [lower]. rewrite IH. f_equal. unfold lower_char.
      destruct (Nat.leb_spec 65 (nat_of_ascii a)), (Nat.leb_spec (nat_of_ascii a) 90); cbn; try lia.
      rewrite <- E. apply ascii_nat_embedding.
  - revert c. induction s as [|a s IH]; intros c <-; cbn [strip_underscores]; [constructor|].
    destruct (Ascii.eqb_spec a "_") as [->|N]; [constructor; apply IH; reflexivity|]. cbn [lower]. unfold lower_char.
    destruct (Nat.leb_spec 65 (nat_of_ascii a)) as [A|A], (Nat.leb_spec (nat_of_ascii a) 90) as [B|B]; cbn [andb].
    + apply SpCapital; [lia| |apply IH; reflexivity]. apply nat_ascii_embedding. lia.
    + apply SpSame; [exact N|lia|apply IH; reflexivity].
    + apply SpSame; [exact N|lia|apply IH; reflexivity].
    + apply SpSame; [exact N|lia|apply IH; reflexivity].
Qed.

Lemma mem_In n l : mem n l = true <-> In n l.
Proof.
  unfold mem. rewrite existsb_exists. split.
  - intros (x & I & E). apply String.eqb_eq in E. subst. exact I.
  - intros I. exists n. split; [exact I|apply String.eqb_refl].
Qed.
Lemma subset_incl a b : subset a b = true <-> incl a b.
Proof.
  unfold subset. rewrite forallb_forall. unfold incl. split; intros H x I; apply mem_In, H, I.
Qed.

Lemma under_lookup {V} (d : list (string * V)) k : under String.eqb d k = lookup d k.
Proof.
  unfold under. induction d as [|[k' v] d IH]; [reflexivity|]. cbn. destruct (String.eqb k' k); [reflexivity|exact IH].
Qed.
Lemma lookup_app {V} (a b : list (string * V)) k :
  lookup (a ++ b)%list k = match lookup a k with Some v => Some v | None => lookup b k end.
Proof. induction a as [|[k' v] a IH]; [reflexivity|]. cbn. destruct (String.eqb k' k); [reflexivity|exact IH]. Qed.
Lemma lookup_assign {V} (d : list (string * V)) k v k' :
  lookup (assign d k v) k' = if String.eqb k k' then Some v else lookup d k'.
Proof.
  induction d as [|[k1 v1] d IH]; [reflexivity|]. cbn. destruct (String.eqb_spec k1 k) as [->|N]; cbn.
  - destruct (String.eqb k k'); reflexivity.
  - rewrite IH. destruct (String.eqb_spec k1 k') as [->|]; [|reflexivity].
    destruct (String.eqb_spec k k'); [congruence|reflexivity].
Qed.
Lemma lookup_dict_of {V} (ps : list (string * V)) k : lookup (dict_of ps) k = lookup (rev ps) k.
Proof.
  unfold dict_of.
  enough (H : forall d, lookup (fold_left (fun d kv => assign d (fst kv) (snd kv)) ps d) k =
                        match lookup (rev ps) k with Some v => Some v | None => lookup d k end).
  { rewrite H. destruct (lookup (rev ps) k); reflexivity. }
  induction ps as [|[k1 v1] ps IH]; intros d; [reflexivity|]. cbn [fold_left fst snd rev]. rewrite IH, lookup_app, lookup_assign.
  destruct (lookup (rev ps) k); [reflexivity|]. cbn. destruct (String.eqb k1 k); reflexivity.
Qed.
Lemma lookup_in {V} (d : list (string * V)) k v : lookup d k = Some v -> In (k, v) d.
Proof.
  induction d as [|[k1 v1] d IH]; [discriminate|]. cbn. destruct (String.eqb_spec k1 k) as [->|]; [intros [= ->]; left; reflexivity|].
  intros H. right. apply IH, H.
Qed.
Lemma lookup_none {V} (d : list (string * V)) k : lookup d k = None <-> ~ In k (map fst d).
Proof.
  induction d as [|[k1 v1] d IH]; [tauto|]. cbn. destruct (String.eqb_spec k1 k) as [->|N].
  - split; [discriminate|tauto].
  - rewrite IH. tauto.
Qed.
Lemma in_lookup {V} (d : list (string * V)) k v : NoDup (map fst d) -> In (k, v) d -> lookup d k = Some v.
Proof.
  induction d as [|[k1 v1] d IH]; [contradiction|]. cbn. intros ND. inversion ND as [|? ? N1 N2]; subst.
  intros [[= -> ->]|I]; [rewrite String.eqb_refl; reflexivity|].
  destruct (String.eqb_spec k1 k) as [->|]; [|apply IH; assumption]. exfalso. apply N1. apply (in_map fst) in I. exact I.
Qed.
Lemma lookup_rev {V} (d : list (string * V)) k : NoDup (map fst d) -> lookup (rev d) k = lookup d k.
Proof.
  intros ND. destruct (lookup d k) as [v|] eqn:E.
  - apply in_lookup; [rewrite map_rev; apply NoDup_rev, ND|]. rewrite <- in_rev. apply lookup_in, E.
  - apply lookup_none. rewrite map_rev, <- in_rev. apply lookup_none, E.
Qed.
Lemma dict_of_nodup {V} (d : list (string * V)) k : NoDup (map fst d) -> lookup (dict_of d) k = lookup d k.
Proof. intros ND. rewrite lookup_dict_of. apply lookup_rev, ND. Qed.

Lemma assign_keys {V} (d : list (string * V)) k v k' : In k' (map fst (assign d k v)) <-> k' = k \/ In k' (map fst d).
Proof.
  induction d as [|[k1 v1] d IH]; [cbn; intuition congruence|]. cbn. destruct (String.eqb_spec k1 k) as [->|N]; cbn; [|rewrite IH]; intuition congruence.
Qed.
Lemma assign_nodup {V} (d : list (string * V)) k v : NoDup (map fst d) -> NoDup (map fst (assign d k v)).
Proof.
  induction d as [|[k1 v1] d IH]; cbn; intros ND; [constructor; [tauto|constructor]|].
  inversion ND as [|? ? N1 N2]; subst. destruct (String.eqb_spec k1 k) as [->|N]; cbn; constructor; auto.
  rewrite assign_keys. intros [->|I]; [congruence|contradiction].
Qed.
Lemma dict_of_keys_nodup {V} (ps : list (string * V)) : NoDup (map fst (dict_of ps)).
Proof.
  unfold dict_of. enough (H : forall d, NoDup (map fst d) -> NoDup (map fst (fold_left (fun d kv => assign d (fst kv) (snd kv)) ps d))).
  { apply H. constructor. }
  induction ps as [|[k v] ps IH]; intros d ND; [exact ND|]. cbn. apply IH, assign_nodup, ND.
Qed.
Lemma zip_fst {A B} (a : list A) (b : list B) : List.length a = List.length b -> map fst (zip a b) = a.
Proof. revert b. induction a as [|x a IH]; intros [|y b]; cbn; try discriminate; [reflexivity|]. intros [= E]. rewrite IH; auto. Qed.
Lemma lookup_zip {V} (names : list string) (l : list V) k :
  List.length names = List.length l ->
  lookup (zip names l) k = match index k names with Some i => nth_error l i | None => None end.
Proof.
  revert l. induction names as [|n names IH]; intros [|v l]; cbn; try discriminate; [reflexivity|]. intros [= E].
  destruct (String.eqb n k); [reflexivity|]. rewrite IH by exact E. destruct (index k names); reflexivity.
Qed.
Lemma index_none n l : index n l = None <-> ~ In n l.
Proof.
  induction l as [|m l IH]; [tauto|]. cbn. destruct (String.eqb_spec m n) as [->|N]; [split; [discriminate|tauto]|].
  destruct (index n l) as [i|]; cbn; [split; [discriminate|]|].
  - intros H. exfalso. assert (Some i = None) by (apply IH; tauto). discriminate.
  - split; [|reflexivity]. intros _. assert (~ In n l) by (apply IH; reflexivity). tauto.
Qed.

(* ------------------------------------------------------------------------ *)
(** * The traversal *)

Lemma flatten_leaves fuel stack loss flat fl loss' :
  layers_size stack <= fuel -> flatten_loop fuel stack loss flat = Ok (fl, loss') -> fl = (flat ++ flat_map leaves stack)%list.
Proof.
  revert stack loss flat. induction fuel as [|fuel IH]; intros stack loss flat B E.
  - destruct stack as [|[l|nm ls outs] stack]; unfold layers_size in B; cbn in B; [|lia|lia].
    injection E as <- <-. cbn. rewrite app_nil_r. reflexivity.
  - destruct stack as [|[l|nm ls outs] stack]; cbn [flatten_loop] in E.
    + injection E as <- <-. cbn. rewrite app_nil_r. reflexivity.
    + apply IH in E; [|unfold layers_size in *; cbn in B; lia]. rewrite E, <- app_assoc. reflexivity.
    + destruct (match lookup loss nm with Some _ => _ | None => _ end) as [loss1|]; [|discriminate]. cbn [bind] in E.
      apply IH in E.
      * rewrite E. rewrite flat_map_app. reflexivity.
      * unfold layers_size in *. rewrite fold_right_app. cbn in B.
        assert (X : forall ls n, fold_right (fun l n => layer_size l + n) n ls = fold_right (fun l n => layer_size l + n) 0 ls + n).
        { clear. induction ls as [|l ls IH]; intros n; cbn; [reflexivity|]. rewrite IH. lia. }
        rewrite X. lia.
Qed.
Lemma flatten_same fuel stack loss flat :
  layers_size stack <= fuel -> (forall n, In n (flat_map nested_names stack) -> ~ In n (map fst loss)) ->
  flatten_loop fuel stack loss flat = Ok ((flat ++ flat_map leaves stack)%list, loss).
Proof.
  revert stack flat. induction fuel as [|fuel IH]; intros stack flat B H.
  - destruct stack as [|[l|nm ls outs] stack]; unfold layers_size in B; cbn in B; [|lia|lia]. cbn. rewrite app_nil_r. reflexivity.
  - destruct stack as [|[l|nm ls outs] stack]; cbn [flatten_loop].
    + cbn. rewrite app_nil_r. reflexivity.
    + rewrite IH; [|unfold layers_size in *; cbn in B; lia|exact H]. rewrite <- app_assoc. reflexivity.
    + replace (lookup loss nm) with (@None lossv) by (symmetry; apply lookup_none, H; left; reflexivity). cbn [bind]. rewrite IH.
      * rewrite flat_map_app. reflexivity.
      * unfold layers_size in *. rewrite fold_right_app. cbn in B.
        assert (X : forall ls n, fold_right (fun l n => layer_size l + n) n ls = fold_right (fun l n => layer_size l + n) 0 ls + n).
        { clear. induction ls as [|l ls IH]; intros n; cbn; [reflexivity|]. rewrite IH. lia. }
        rewrite X. lia.
      * intros n I. apply H. cbn. rewrite flat_map_app in I. right. exact I.
Qed.

(* ------------------------------------------------------------------------ *)
(** * Registering layers and losses *)

Lemma is_trained_spec l : is_trained l = has_trainable_params l.
Proof.
  unfold is_trained, has_trainable_params. rewrite andb_comm. f_equal. destruct (l_params l); reflexivity.
Qed.

Section G.
  Variable producer : nat -> option nat.
  Variable op_inputs : nat -> list nat.

  Lemma get_parent_ok v t :
    get_parent producer op_inputs v = Ok t <->
    exists o, tensors_of v <> [] /\ (forall t', In t' (tensors_of v) -> producer t' = Some o) /\ op_inputs o = [t].
  Proof.
    unfold get_parent. split.
    - intros E.
      assert (X : exists o, tensors_of v <> [] /\ (forall t', In t' (tensors_of v) -> producer t' = Some o) /\
                  match op_inputs o with [t] => Ok t | _ => Raise ValueError end = Ok t).
      { destruct v as [t0|[|t0 ts]]; cbn [tensors_of].
        - destruct (producer t0) as [o|] eqn:P; [|discriminate]. exists o. split; [discriminate|]. split; [|exact E].
          intros t' [<-|[]]. exact P.
        - discriminate.
        - destruct (producer t0) as [o|] eqn:P; [|discriminate]. destruct (forallb _ ts) eqn:F; [|discriminate].
          exists o. split; [discriminate|]. split; [|exact E]. intros t' [<-|I]; [exact P|].
          rewrite forallb_forall in F. specialize (F t' I). destruct (producer t') as [o'|]; [|discriminate].
          apply Nat.eqb_eq in F. congruence. }
      destruct X as (o & A & B & C). exists o. split; [exact A|]. split; [exact B|].
      destruct (op_inputs o) as [|t1 [|]]; try discriminate. congruence.
    - intros (o & A & B & C). destruct v as [t0|[|t0 ts]]; cbn [tensors_of] in *.
      + rewrite (B t0 (or_introl eq_refl)). cbn [bind]. rewrite C. reflexivity.
      + congruence.
      + rewrite (B t0 (or_introl eq_refl)).
        replace (forallb _ ts) with true; [cbn [bind]; rewrite C; reflexivity|].
        symmetry. apply forallb_forall. intros t' I. rewrite (B t' (or_intror I)). apply Nat.eqb_refl.
  Qed.
  Lemma pre_activation_ok l v :
    pre_activation producer op_inputs l = Ok v <-> before_activation producer op_inputs l v.
  Proof.
    unfold pre_activation, before_activation. destruct (l_activation l).
    - destruct (get_parent producer op_inputs (l_out l)) as [t|] eqn:P; cbn [bind].
      + apply get_parent_ok in P. destruct P as (o & A & B & C). split.
        * intros [= <-]. exists o, t. auto.
        * intros (o' & t' & A' & B' & C' & ->). destruct (tensors_of (l_out l)) as [|x]; [congruence|].
          assert (o = o') by (specialize (B x (or_introl eq_refl)); specialize (B' x (or_introl eq_refl)); congruence). subst. congruence.
      + split; [discriminate|]. intros (o' & t' & A' & B' & C' & ->).
        assert (X : get_parent producer op_inputs (l_out l) = Ok t') by (apply get_parent_ok; eauto). congruence.
    - split; [intros [= <-]; reflexivity|intros ->; reflexivity].
  Qed.

  Lemma register_layer_regs p l a cs :
    register_layer producer op_inputs p l a = Ok cs ->
    registrations cs = (if has_trainable_params l then [(l_weights l, a)] else []) /\ loss_calls cs = [].
  Proof.
    unfold register_layer. destruct (pre_activation _ _ l) as [pre|]; [|discriminate]. cbn [bind]. rewrite is_trained_spec.
    destruct (has_trainable_params l); cbn [negb]; [|intros [= <-]; split; reflexivity].
    destruct (l_in l) as [i|]; [|discriminate]. destruct (l_out l) as [o|]; [|discriminate].
    destruct (l_weights l) as [|w0 ws]; [discriminate|].
    destruct (l_kind l) as [| |fused scale center|cls cl pad st dl|]; try (intros [= <-]; split; reflexivity); try discriminate.
    - destruct scale; [|discriminate]. cbn [negb]. destruct center.
      + destruct ws as [|w1 ws]; [discriminate|]. cbn [bind]. intros [= <-].
        destruct (fused && _); split; reflexivity.
      + cbn [bind]. intros [= <-]. destruct (fused && _); split; reflexivity.
    - destruct cl; [|discriminate]. cbn [negb]. destruct (_ || _); [|discriminate]. intros [= <-]. split; reflexivity.
  Qed.

  Lemma register_loss_ok l v w seed cs :
    register_loss producer op_inputs l v w seed = Ok cs ->
    (forall c, v <> LDict c) /\ registrations cs = [] /\ loss_calls cs = cs /\ exists c, cs = [c] /\ right_loss producer op_inputs l v w seed c.
  Proof.
    unfold register_loss. destruct (pre_activation _ _ l) as [pre|] eqn:P; [|discriminate]. apply pre_activation_ok in P. cbn [bind].
    intros E. assert (ND : forall c, v <> LDict c) by (intros c ->; discriminate E). split; [exact ND|].
    set (nm := lower (strip_underscores (loss_name v))) in *.
    assert (E' : (if String.eqb nm "meansquarederror" || String.eqb nm "mse" then Ok [RegLoss SquaredError (One (l_output l)) w seed]
       else if String.eqb nm "sparsecategoricalcrossentropy" || String.eqb nm "categoricalcrossentropy"
       then Ok [RegLoss SoftmaxCrossEntropy pre w seed]
       else if String.eqb nm "binarycrossentropy" then Ok [RegLoss SigmoidCrossEntropy pre w seed] else Raise ValueError) = Ok cs).
    { destruct v; exact E || discriminate E. }
    clear E. assert (S : spells (loss_name v) nm) by (apply lower_strip; reflexivity).
    assert (K : forall k t, (exists c, In (c, k) supported_losses /\ nm = c) ->
       match k with SquaredError => t = One (l_output l) | _ => before_activation producer op_inputs l t end ->
       right_loss producer op_inputs l v w seed (RegLoss k t w seed)).
    { intros k t (c & I & C) T. exists k, t. split; [exists c; split; [exact I|rewrite <- C; exact S]|]. split; [reflexivity|exact T]. }
    destruct (String.eqb_spec nm "meansquarederror") as [M|_]; cbn [orb] in E'.
    { injection E' as <-. split; [reflexivity|]. split; [reflexivity|]. eexists. split; [reflexivity|]. apply K; [|reflexivity]. exists "meansquarederror". cbn. tauto. }
    destruct (String.eqb_spec nm "mse") as [M|_].
    { injection E' as <-. split; [reflexivity|]. split; [reflexivity|]. eexists. split; [reflexivity|]. apply K; [|reflexivity]. exists "mse". cbn. tauto. }
    destruct (String.eqb_spec nm "sparsecategoricalcrossentropy") as [M|_]; cbn [orb] in E'.
    { injection E' as <-. split; [reflexivity|]. split; [reflexivity|]. eexists. split; [reflexivity|]. apply K; [|exact P]. exists "sparsecategoricalcrossentropy". cbn. tauto. }
    destruct (String.eqb_spec nm "categoricalcrossentropy") as [M|_].
    { injection E' as <-. split; [reflexivity|]. split; [reflexivity|]. eexists. split; [reflexivity|]. apply K; [|exact P]. exists "categoricalcrossentropy". cbn. tauto. }
    destruct (String.eqb_spec nm "binarycrossentropy") as [M|_]; [|discriminate].
    injection E' as <-. split; [reflexivity|]. split; [reflexivity|]. eexists. split; [reflexivity|]. apply K; [|exact P]. exists "binarycrossentropy". cbn. tauto.
  Qed.
  Lemma register_loss_complete l v w seed k t :
    (forall c, v <> LDict c) -> is_loss v k -> before_activation producer op_inputs l t ->
    register_loss producer op_inputs l v w seed =
      Ok [RegLoss k (match k with SquaredError => One (l_output l) | _ => t end) w seed].
  Proof.
    intros ND (c & I & S) P. unfold register_loss. apply pre_activation_ok in P. rewrite P. cbn [bind].
    apply lower_strip in S.
    assert (X : exists w', match v with LStr s => Ok (LStr s) | v => keras_serialize v end = Ok w' /\
                 match w' with LStr s => s | LDict c => c | LFun c => c | LClass c => c end = loss_name v).
    { destruct v; try (eexists; split; reflexivity). exfalso. eapply ND. reflexivity. }
    destruct X as (w' & X1 & X2). rewrite X1. cbn [bind]. rewrite X2, S. cbn in I.
    repeat (destruct I as [[= <- <-]|I]; [reflexivity|]). destruct I.
  Qed.
  Lemma register_loss_unsupported l v w seed :
    (forall k, ~ is_loss v k) -> (exists t, before_activation producer op_inputs l t) ->
    register_loss producer op_inputs l v w seed = Raise ValueError.
  Proof.
    intros N (t & P). destruct (register_loss producer op_inputs l v w seed) as [cs|e] eqn:E.
    - apply register_loss_ok in E. destruct E as (_ & _ & _ & c & _ & k & t' & I & _). exfalso. exact (N k I).
    - revert E. unfold register_loss. apply pre_activation_ok in P. rewrite P. cbn [bind].
      destruct v; cbn [keras_serialize bind]; try (intros [= <-]; reflexivity);
        repeat (match goal with |- context [if ?b then _ else _] => destruct b end; try discriminate); intros [= <-]; reflexivity.
  Qed.

  Lemma register_all_regs p fa loss lw seed ls calls :
    register_all producer op_inputs p fa loss lw seed ls = Ok calls ->
    registrations calls = map (fun l => (l_weights l, approx_for fa l)) (filter has_trainable_params ls).
  Proof.
    revert calls. induction ls as [|l ls IH]; intros calls E; cbn [register_all] in E; [injection E as <-; reflexivity|].
    destruct (register_layer _ _ p l _) as [cs|] eqn:R; [|discriminate]. cbn [bind] in E.
    destruct (match lookup loss (l_name l) with Some _ => _ | None => _ end) as [cl|] eqn:L; [|discriminate]. cbn [bind] in E.
    destruct (register_all _ _ p fa loss lw seed ls) as [rest|]; [|discriminate]. cbn [bind] in E. injection E as <-.
    apply register_layer_regs in R. destruct R as [R _]. unfold registrations in *. rewrite !flat_map_app, R, (IH rest eq_refl).
    assert (X : registrations cl = []).
    { destruct (lookup loss (l_name l)) as [v|]; [|injection L as <-; reflexivity]. apply register_loss_ok in L. tauto. }
    unfold registrations in X. rewrite X. cbn [filter]. destruct (has_trainable_params l); reflexivity.
  Qed.
  Lemma register_all_losses p fa loss lw seed ls calls :
    register_all producer op_inputs p fa loss lw seed ls = Ok calls ->
    Forall2 (fun l c => exists v, lookup loss (l_name l) = Some v /\ (forall c, v <> LDict c) /\
               right_loss producer op_inputs l v (match lookup lw (l_name l) with Some w => w | None => 1%R end) seed c)
            (filter (fun l => match lookup loss (l_name l) with Some _ => true | None => false end) ls) (loss_calls calls).
  Proof.
    revert calls. induction ls as [|l ls IH]; intros calls E; cbn [register_all] in E; [injection E as <-; constructor|].
    destruct (register_layer _ _ p l _) as [cs|] eqn:R; [|discriminate]. cbn [bind] in E.
    destruct (match lookup loss (l_name l) with Some _ => _ | None => _ end) as [cl|] eqn:L; [|discriminate]. cbn [bind] in E.
    destruct (register_all _ _ p fa loss lw seed ls) as [rest|]; [|discriminate]. cbn [bind] in E. injection E as <-.
    apply register_layer_regs in R. destruct R as [_ R].
    unfold loss_calls in *. rewrite !filter_app, R. cbn [app filter].
    destruct (lookup loss (l_name l)) as [v|] eqn:Lk; [|injection L as <-; exact (IH rest eq_refl)].
    apply register_loss_ok in L. destruct L as (ND & _ & LC & c & -> & RL). unfold loss_calls in LC. rewrite LC. cbn [app].
    constructor; [exists v; auto|exact (IH rest eq_refl)].
  Qed.

  (** What a successful call consists of. *)
  Lemma get_layer_collection_ok p m loss lw fa seed calls d' :
    get_layer_collection producer op_inputs p m loss lw fa seed = Ok (calls, d') ->
    exists d fad lwd, loss_dict m loss = Ok d /\ flatten m d = Ok (all_leaves m, d') /\
      get_verified_dict key_string KStr fa (map l_name (trainable_layers m)) = Ok fad /\
      get_verified_dict (fun s => Some s) (fun s => s) lw (m_output_names m) = Ok lwd /\
      register_all producer op_inputs p (serialize_fisher_approx fad) d' lwd seed (all_leaves m) = Ok calls.
  Proof.
    unfold get_layer_collection. destruct (loss_dict m loss) as [d|] eqn:Ld; [|discriminate]. cbn [bind].
    destruct (flatten m d) as [[fl d1]|] eqn:F; [|discriminate]. cbn [bind].
    assert (X : fl = all_leaves m) by (apply flatten_leaves in F; [exact F|apply le_n]). subst fl.
    replace (filter is_trained (all_leaves m)) with (trainable_layers m)
      by (symmetry; apply filter_ext; apply is_trained_spec).
    destruct (get_verified_dict key_string KStr fa _) as [fad|] eqn:V; [|discriminate]. cbn [bind].
    destruct (get_verified_dict _ _ lw _) as [lwd|] eqn:W; [|discriminate]. cbn [bind].
    destruct (register_all _ _ _ _ _ _ _ _) as [cs|] eqn:R; [|discriminate]. cbn [bind]. intros [= <- <-].
    exists d, fad, lwd. auto 10.
  Qed.

  (* ---------------------------------------------------------------------- *)
  (** * Approximations *)

  Lemma map_nth_index (names : list string) {V} (l : list V) (dflt : V) :
    NoDup names -> List.length names = List.length l ->
    map (fun n => match index n names with Some i => nth i l dflt | None => dflt end) names = l.
  Proof.
    revert l. induction names as [|n names IH]; intros [|v l]; cbn; try discriminate; [reflexivity|]. intros ND [= E].
    inversion ND as [|? ? N1 N2]; subst. rewrite String.eqb_refl. f_equal. etransitivity; [|exact (IH l N2 E)].
    apply map_ext_in. intros k I. destruct (String.eqb_spec n k); [congruence|]. destruct (index k names); reflexivity.
  Qed.

  Lemma approx_list p m loss lw l seed calls d' :
    get_layer_collection producer op_inputs p m loss lw (CList l) seed = Ok (calls, d') ->
    NoDup (map l_name (trainable_layers m)) ->
    List.length l = List.length (trainable_layers m) /\
    registrations calls = combine (map l_weights (trainable_layers m)) l.
  Proof.
    intros E ND. destruct (get_layer_collection_ok _ _ _ _ _ _ _ _ E) as (d & fad & lwd & _ & _ & V & _ & R).
    cbn in V. rewrite map_length in V. destruct (Nat.eqb_spec (List.length (trainable_layers m)) (List.length l)) as [Len|]; [|discriminate].
    injection V as <-. split; [auto|]. apply register_all_regs in R. rewrite R. clear R E. fold (trainable_layers m).
    assert (Len' : List.length (map l_name (trainable_layers m)) = List.length l) by (rewrite map_length; exact Len).
    assert (A : map (approx_for (serialize_fisher_approx (map (fun kv => (KStr (fst kv), snd kv))
                  (dict_of (zip (map l_name (trainable_layers m)) l))))) (trainable_layers m) = l).
    { etransitivity; [|exact (map_nth_index _ l None ND Len')]. rewrite map_map. apply map_ext_in. intros x I.
      unfold approx_for, serialize_fisher_approx. rewrite map_map. cbn [fst snd serialize_key].
      rewrite (map_ext _ (fun kv => kv)) by (intros []; reflexivity). rewrite map_id.
      rewrite dict_of_nodup by apply dict_of_keys_nodup.
      rewrite dict_of_nodup by (rewrite zip_fst; assumption).
      rewrite lookup_zip by exact Len'.
      destruct (index (l_name x) (map l_name (trainable_layers m))) as [i|] eqn:Ix.
      - destruct (nth_error l i) as [v|] eqn:Nt; [symmetry; apply nth_error_nth, Nt|]. exfalso.
        apply nth_error_None in Nt. revert Nt Ix. rewrite <- Len'. clear. revert i. generalize (map l_name (trainable_layers m)) as names.
        induction names as [|n names IH]; intros i; cbn; [discriminate|]. destruct (String.eqb n (l_name x)); [intros A [= <-]; lia|].
        destruct (index (l_name x) names) as [j|]; [|discriminate]. cbn. intros A [= <-]. apply (IH j); [lia|reflexivity].
      - exfalso. apply index_none in Ix. apply Ix, in_map, I. }
    revert A. generalize (approx_for (serialize_fisher_approx (map (fun kv => (KStr (fst kv), snd kv))
                  (dict_of (zip (map l_name (trainable_layers m)) l))))) as f. intros f <-. clear.
    induction (trainable_layers m) as [|x xs IH]; [reflexivity|]. cbn. f_equal. exact IH.
  Qed.

  Lemma prefix_append a b : String.prefix a (a ++ b) = true.
  Proof.
    induction a as [|c a IH]; [destruct b; reflexivity|]. cbn [append].
    change (String.prefix (String c a) (String c (a ++ b))) with (if Ascii.ascii_dec c c then String.prefix a (a ++ b) else false).
    destruct (Ascii.ascii_dec c c); [exact IH|congruence].
  Qed.
  Lemma append_inj a b c : a ++ b = a ++ c -> b = c.
  Proof. induction a as [|x a IH]; cbn; [auto|]. intros [= E]. auto. Qed.

  Lemma approx_for_dict (d : list (key * option string)) l :
    NoDup (map fst d) -> (forall s v, In (KStr s, v) d -> String.prefix class_prefix s = false) ->
    String.prefix class_prefix (l_name l) = false ->
    approx_for (serialize_fisher_approx d) l = approx_given d l.
  Proof.
    intros ND NP NL. unfold approx_for, serialize_fisher_approx, approx_given.
    set (sd := map (fun kv => (serialize_key (fst kv), snd kv)) d).
    assert (NDs : NoDup (map fst sd)).
    { unfold sd. rewrite map_map. cbn [fst]. clear NL. subst sd. induction d as [|[k v] d IH]; [constructor|]. cbn [map fst] in *.
      inversion ND as [|? ? N1 N2]; subst. constructor; [|apply IH; [exact N2|intros s w I; apply (NP s w); right; exact I]].
      intros I. apply N1. apply in_map_iff in I. destruct I as ([k' v'] & E & I). cbn [fst] in E.
      apply in_map_iff. exists (k', v'). split; [|exact I]. cbn. destruct k as [s|c], k' as [s'|c']; cbn [serialize_key] in E.
      - congruence.
      - exfalso. specialize (NP s v (or_introl eq_refl)). rewrite <- E, prefix_append in NP. discriminate.
      - exfalso. specialize (NP s' v' (or_intror I)). rewrite E, prefix_append in NP. discriminate.
      - apply append_inj in E. congruence. }
    rewrite !dict_of_nodup by exact NDs.
    assert (L1 : lookup sd (l_name l) = under key_eqb d (KStr (l_name l))).
    { unfold sd, under. clear -NL. induction d as [|[[s|c] v] d IH]; [reflexivity| |]; cbn [map fst snd serialize_key lookup find key_eqb].
      - destruct (String.eqb s (l_name l)); [reflexivity|exact IH].
      - destruct (String.eqb_spec (class_prefix ++ c) (l_name l)) as [E|]; [|exact IH].
        rewrite <- E, prefix_append in NL. discriminate. }
    assert (L2 : lookup sd (class_prefix ++ l_class l) = under key_eqb d (KCls (l_class l))).
    { unfold sd, under. clear -NP. induction d as [|[[s|c] v] d IH]; [reflexivity| |]; cbn [map fst snd serialize_key lookup find key_eqb].
      - destruct (String.eqb_spec s (class_prefix ++ l_class l)) as [E|]; [|apply IH; intros s' w I; apply (NP s' w); right; exact I].
        exfalso. specialize (NP s v (or_introl eq_refl)). rewrite E, prefix_append in NP. discriminate.
      - destruct (String.eqb_spec (class_prefix ++ c) (class_prefix ++ l_class l)) as [E|N].
        + apply append_inj in E. subst c. rewrite String.eqb_refl. reflexivity.
        + destruct (String.eqb_spec c (l_class l)); [congruence|]. apply IH. intros s' w I. apply (NP s' w). right. exact I. }
    rewrite L1, L2. reflexivity.
  Qed.

  Lemma approx_dict p m loss lw d seed calls d' :
    get_layer_collection producer op_inputs p m loss lw (CDict d) seed = Ok (calls, d') ->
    NoDup (map fst d) -> (forall s v, In (KStr s, v) d -> String.prefix class_prefix s = false) ->
    (forall l, In l (trainable_layers m) -> String.prefix class_prefix (l_name l) = false) ->
    (forall s v, In (KStr s, v) d -> In s (map l_name (trainable_layers m))) /\
    registrations calls = map (fun l => (l_weights l, approx_given d l)) (trainable_layers m).
  Proof.
    intros E ND NP NL. destruct (get_layer_collection_ok _ _ _ _ _ _ _ _ E) as (d0 & fad & lwd & _ & _ & V & _ & R).
    cbn [get_verified_dict] in V. destruct (subset _ _) eqn:S; [|discriminate]. injection V as <-. apply subset_incl in S. split.
    - intros s v I. apply S. apply in_flat_map. exists (KStr s, v). split; [exact I|]. cbn [fst key_string].
      rewrite (NP s v I). left. reflexivity.
    - apply register_all_regs in R. rewrite R. fold (trainable_layers m). apply map_ext_in. intros l I.
      rewrite approx_for_dict; auto.
  Qed.

  Lemma approx_none p m loss lw seed calls d' :
    get_layer_collection producer op_inputs p m loss lw CNone seed = Ok (calls, d') ->
    registrations calls = map (fun l => (l_weights l, None)) (trainable_layers m).
  Proof.
    intros E. destruct (get_layer_collection_ok _ _ _ _ _ _ _ _ E) as (d0 & fad & lwd & _ & _ & V & _ & R).
    cbn in V. injection V as <-. apply register_all_regs in R. exact R.
  Qed.

  (** Registering with the serialized dict is the same. *)
  Lemma approx_for_lookup (fa fb : list (string * option string)) l :
    (forall k, lookup fa k = lookup fb k) -> approx_for fa l = approx_for fb l.
  Proof. intros H. unfold approx_for. rewrite !H. reflexivity. Qed.
  Lemma register_all_ext p fa fb loss lw seed ls :
    (forall k, lookup fa k = lookup fb k) ->
    register_all producer op_inputs p fa loss lw seed ls = register_all producer op_inputs p fb loss lw seed ls.
  Proof.
    intros H. induction ls as [|l ls IH]; [reflexivity|]. cbn [register_all]. rewrite (approx_for_lookup fa fb l H), IH. reflexivity.
  Qed.
  Lemma dict_of_keys {V} (ps : list (string * V)) k : In k (map fst (dict_of ps)) <-> In k (map fst ps).
  Proof.
    assert (A : lookup (dict_of ps) k = None <-> lookup (rev ps) k = None) by (rewrite lookup_dict_of; reflexivity).
    rewrite !lookup_none, map_rev, <- in_rev in A. 
    destruct (in_dec string_dec k (map fst (dict_of ps))), (in_dec string_dec k (map fst ps)); tauto.
  Qed.
  Lemma approx_serialized p m loss lw d seed :
    get_layer_collection producer op_inputs p m loss lw
      (CDict (map (fun kv => (KStr (fst kv), snd kv)) (serialize_fisher_approx d))) seed =
    get_layer_collection producer op_inputs p m loss lw (CDict d) seed.
  Proof.
    unfold get_layer_collection. destruct (loss_dict m loss) as [ld|]; [|reflexivity]. cbn [bind].
    destruct (flatten m ld) as [[fl d1]|]; [|reflexivity]. cbn [bind]. cbn [get_verified_dict].
    set (names := map l_name (filter is_trained fl)).
    assert (S : subset (flat_map (fun kv : key * option string => match key_string (fst kv) with
                 | Some s => if String.prefix class_prefix s then [] else [s] | None => [] end)
                 (map (fun kv => (KStr (fst kv), snd kv)) (serialize_fisher_approx d))) names =
                subset (flat_map (fun kv : key * option string => match key_string (fst kv) with
                 | Some s => if String.prefix class_prefix s then [] else [s] | None => [] end) d) names).
    { apply eq_true_iff_eq. rewrite !subset_incl. 
      assert (X : forall s, In s (flat_map (fun kv : key * option string => match key_string (fst kv) with
                 | Some s => if String.prefix class_prefix s then [] else [s] | None => [] end)
                 (map (fun kv => (KStr (fst kv), snd kv)) (serialize_fisher_approx d))) <->
               In s (flat_map (fun kv : key * option string => match key_string (fst kv) with
                 | Some s => if String.prefix class_prefix s then [] else [s] | None => [] end) d)).
      { intros s. rewrite !in_flat_map. unfold serialize_fisher_approx. split.
        - intros ([k v] & I & J). apply in_map_iff in I. destruct I as ([k1 v1] & [= <- <-] & I). cbn [fst key_string] in J.
          destruct (String.prefix class_prefix k1) eqn:P; [destruct J|]. destruct J as [<-|[]].
          assert (I2 : In k1 (map fst (map (fun kv : key * option string => (serialize_key (fst kv), snd kv)) d))).
          { apply dict_of_keys. apply (in_map fst) in I. exact I. }
          rewrite map_map in I2. apply in_map_iff in I2. destruct I2 as ([k2 v2] & E & I2). cbn [fst] in E.
          exists (k2, v2). split; [exact I2|]. cbn [fst]. destruct k2 as [s2|c2]; cbn [serialize_key key_string] in *.
          + subst. rewrite P. left. reflexivity.
          + subst. rewrite prefix_append in P. discriminate.
        - intros ([k v] & I & J). cbn [fst] in J. destruct k as [s2|c2]; cbn [key_string] in J; [|destruct J].
          destruct (String.prefix class_prefix s2) eqn:P; [destruct J|]. destruct J as [<-|[]].
          assert (I2 : In s2 (map fst (dict_of (map (fun kv : key * option string => (serialize_key (fst kv), snd kv)) d)))).
          { apply dict_of_keys. rewrite map_map. apply in_map_iff. exists (KStr s2, v). split; [reflexivity|exact I]. }
          apply in_map_iff in I2. destruct I2 as ([k2 v2] & E & I2). cbn [fst] in E. subst.
          exists (KStr s2, v2). split; [apply in_map_iff; exists (s2, v2); split; [reflexivity|exact I2]|].
          cbn [fst key_string]. rewrite P. left. reflexivity. }
      split; intros H s I; apply H, X, I. }
    rewrite S. clear S. match goal with |- context [subset ?a names] => destruct (subset a names); [|reflexivity] end. cbn [bind].
    destruct (get_verified_dict _ _ lw _) as [lwd|]; [|reflexivity]. cbn [bind].
    erewrite register_all_ext; [reflexivity|]. intros k.
    unfold serialize_fisher_approx at 1. rewrite map_map. cbn [fst snd serialize_key].
    rewrite (map_ext _ (fun kv => kv)) by (intros []; reflexivity). rewrite map_id.
    apply dict_of_nodup. unfold serialize_fisher_approx. apply dict_of_keys_nodup.
  Qed.

  (* ---------------------------------------------------------------------- *)
  (** * Losses *)

  Lemma loss_dict_keys m loss d n :
    loss_dict m loss = Ok d -> NoDup (m_output_names m) ->
    (forall v, loss = LaOne v -> (exists ls l, m_layers m = (ls ++ [l])%list /\ m_output_names m = [layer_name l])) ->
    (forall dd, loss = LaDict dd -> NoDup (map fst dd)) ->
    lookup d n = (match loss with
                  | LaOne (LStr "") => None
                  | LaOne (LDict c) => lookup [("class_name", LStr c); ("config", LDict c)] n
                  | _ => loss_given (m_output_names m) loss n
                  end) /\ (forall k, In k (map fst d) -> In k (m_output_names m)).
  Proof.
    intros E ND H1 H2. destruct loss as [|v|l|dd]; cbn [loss_dict] in E.
    - injection E as <-. split; [reflexivity|contradiction].
    - specialize (H1 v eq_refl). destruct H1 as (ls & x & Lm & On).
      assert (R : rev (m_layers m) = x :: rev ls) by (rewrite Lm, rev_app_distr; reflexivity).
      assert (G : forall v', (if Nat.ltb 1 (List.length (m_output_names m)) then Raise ValueError
              else match rev (m_layers m) with l :: _ => Ok [(layer_name l, v')] | [] => Raise IndexError end) = Ok d ->
              d = [(layer_name x, v')]).
      { intros v'. rewrite On, R. cbn. intros [= <-]. reflexivity. }
      assert (F : forall v', d = [(layer_name x, v')] ->
         lookup d n = loss_given (m_output_names m) (LaOne v') n /\ (forall k, In k (map fst d) -> In k (m_output_names m))).
      { intros v' ->. rewrite On. cbn. rewrite orb_false_r, String.eqb_sym. split; [destruct (String.eqb n (layer_name x)); reflexivity|tauto]. }
      destruct v as [[|a s]|s|s|s].
      + injection E as <-. split; [reflexivity|contradiction].
      + apply F, G, E.
      + apply F, G, E.
      + apply F, G, E.
      + destruct (_ && _) eqn:S; [|discriminate]. injection E as <-. apply andb_prop in S. destruct S as [_ S].
        apply subset_incl in S. split; [reflexivity|exact S].
    - destruct l as [|v l].
      + injection E as <-. split; [|contradiction]. cbn. destruct (index n (m_output_names m)) as [[|]|]; reflexivity.
      + destruct (Nat.eqb_spec (List.length (m_output_names m)) (List.length (v :: l))) as [Len|]; [|discriminate].
        injection E as <-. split.
        * rewrite dict_of_nodup by (rewrite zip_fst; assumption). rewrite lookup_zip by exact Len. reflexivity.
        * intros k I. apply (proj1 (dict_of_keys _ _)) in I. rewrite zip_fst in I by exact Len. exact I.
    - specialize (H2 dd eq_refl). destruct dd as [|kv dd]; [injection E as <-; split; [reflexivity|contradiction]|].
      destruct (_ && _) eqn:S; [|discriminate]. injection E as <-. apply andb_prop in S. destruct S as [_ S].
      apply subset_incl in S. split; [|exact S]. cbn [loss_given]. rewrite under_lookup. reflexivity.
  Qed.

  Lemma weights_lookup lw outs lwd n :
    get_verified_dict (fun s => Some s) (fun s => s) lw outs = Ok lwd -> NoDup outs ->
    match lookup lwd n with Some w => w | None => 1%R end = weight_given outs lw n.
  Proof.
    intros E ND. destruct lw as [|l|d|]; cbn [get_verified_dict] in E.
    - injection E as <-. reflexivity.
    - destruct (Nat.eqb_spec (List.length outs) (List.length l)) as [Len|]; [|discriminate]. injection E as <-.
      rewrite (map_ext _ (fun kv => kv)) by (intros []; reflexivity). rewrite map_id.
      rewrite dict_of_nodup by (rewrite zip_fst; assumption). rewrite lookup_zip by exact Len. cbn [weight_given].
      destruct (index n outs) as [i|]; [|reflexivity]. destruct (nth_error l i) as [w|] eqn:Nt.
      + symmetry. apply nth_error_nth, Nt.
      + apply nth_error_None in Nt. symmetry. apply nth_overflow, Nt.
    - destruct (subset _ _); [|discriminate]. injection E as <-. cbn [weight_given]. rewrite under_lookup. reflexivity.
    - discriminate.
  Qed.

  Lemma losses_registered p m loss lw fa seed calls d' :
    get_layer_collection producer op_inputs p m loss lw fa seed = Ok (calls, d') ->
    outputs_are_layers m ->
    (forall v, loss = LaOne v -> (exists ls l, m_layers m = (ls ++ [l])%list /\ m_output_names m = [layer_name l])) ->
    (forall dd, loss = LaDict dd -> NoDup (map fst dd)) ->
    loss_dict m loss = Ok d' /\
    Forall2 (fun l c => exists v, lookup d' (l_name l) = Some v /\ (forall c, v <> LDict c) /\
               right_loss producer op_inputs l v (weight_given (m_output_names m) lw (l_name l)) seed c)
            (filter (fun l => match lookup d' (l_name l) with Some _ => true | None => false end) (all_leaves m)) (loss_calls calls).
  Proof.
    intros E (N1 & N2 & Inc & NN) H1 H2. destruct (get_layer_collection_ok _ _ _ _ _ _ _ _ E) as (d & fad & lwd & Ld & F & _ & W & R).
    assert (d = d').
    { unfold flatten in F. rewrite flatten_same in F; [congruence|apply le_n|].
      intros n I J. apply (NN n I). destruct (loss_dict_keys m loss d n Ld N2 H1 H2) as [_ K]. apply K, J. }
    subst d'. split; [exact Ld|]. apply register_all_losses in R.
    revert R. generalize (filter (fun l => match lookup d (l_name l) with Some _ => true | None => false end) (all_leaves m)) as ls.
    generalize (loss_calls calls) as cs. intros cs ls R. induction R as [|l c ls cs (v & A & B & C) _ IH]; constructor; [|exact IH].
    exists v. split; [exact A|]. split; [exact B|]. rewrite <- (weights_lookup lw _ lwd _ W N2). exact C.
  Qed.
End G.

(* ------------------------------------------------------------------------ *)
(** * The loss function for adapting the damping *)

Section L.
  Variable deserialize : string -> res lossv.
  Variable value : lossv -> nat -> nat -> R.

  Lemma map_res_forall2 {A B} (f : A -> res B) l l' : Forall2 (fun a b => f a = Ok b) l l' -> map_res f l = Ok l'.
  Proof. induction 1 as [|a b l l' E _ IH]; [reflexivity|]. cbn. rewrite E, IH. reflexivity. Qed.

  Lemma forall2_right {A B} (P : A -> B -> Prop) (Q : B -> Prop) l l' :
    (forall a b, P a b -> Q b) -> Forall2 P l l' -> Forall Q l'.
  Proof. intros H. induction 1; constructor; eauto. Qed.
  Lemma forall2_length {A B} (P : A -> B -> Prop) l l' : Forall2 P l l' -> List.length l = List.length l'.
  Proof. induction 1; cbn; auto. Qed.
  Lemma forall2_weaken {A B} (P Q : A -> B -> Prop) l l' :
    (forall a b, P a b -> Q a b) -> Forall2 P l l' -> Forall2 Q l l'.
  Proof. intros H. induction 1; constructor; auto. Qed.
  Lemma forall2_map {A B C} (g : A -> B) (P : B -> C -> Prop) l l' :
    Forall2 (fun a c => P (g a) c) l l' -> Forall2 P (map g l) l'.
  Proof. induction 1; constructor; auto. Qed.
  Lemma map_given_list {V} outs (vs : list V) :
    NoDup outs -> List.length vs = List.length outs ->
    map (fun n => match index n outs with Some i => nth_error vs i | None => None end) outs = map Some vs.
  Proof.
    revert vs. induction outs as [|o outs IH]; intros [|v vs] ND; cbn; try discriminate; [reflexivity|]. intros [= E].
    inversion ND as [|? ? N1 N2]; subst. rewrite String.eqb_refl. cbn. f_equal. rewrite <- (IH vs N2 E).
    apply map_ext_in. intros n I. destruct (String.eqb_spec o n); [congruence|]. destruct (index n outs); reflexivity.
  Qed.
  Lemma losses_resolved outs loss fns :
    NoDup outs -> (exists l, loss = LaList l /\ List.length l = List.length outs) \/ (exists d, loss = LaDict d) ->
    Forall2 (fun n f => exists v, loss_given outs loss n = Some v /\ stands_for deserialize v f) outs fns ->
    loss_fn_losses deserialize outs loss = Ok (LaList fns).
  Proof.
    intros ND H F.
    assert (X : exists vs, match loss with LaList l => l = vs | LaDict d =>
                 map_res (fun n => match lookup d n with Some v => Ok v | None => Raise KeyError end) outs = Ok vs | _ => False end /\
               Forall2 (stands_for deserialize) vs fns).
    { destruct H as [(l & -> & Len)|(d & ->)].
      - exists l. split; [reflexivity|]. cbn [loss_given] in F.
        assert (G : Forall2 (fun o f => exists v, o = Some v /\ stands_for deserialize v f)
                   (map (fun n => match index n outs with Some i => nth_error l i | None => None end) outs) fns).
        { exact (forall2_map _ (fun o f => exists v, o = Some v /\ stands_for deserialize v f) _ _ F). }
        rewrite map_given_list in G by assumption. clear -G. revert fns G. induction l as [|v l IH]; intros fns G; inversion G as [|? f ? fs X G']; subst; constructor; auto. destruct X as (v' & [= <-] & S). exact S.
      - cbn [loss_given] in F. clear ND. assert (G : Forall2 (fun n f => exists v, lookup d n = Some v /\ stands_for deserialize v f) outs fns).
        { refine (forall2_weaken _ _ _ _ _ F). intros n f (v & E & S). exists v. rewrite <- under_lookup. auto. }
        clear F. induction G as [|n f outs fns (v & E & S) F IH]; [exists []; split; [reflexivity|constructor]|].
        destruct IH as (vs & E' & F'). exists (v :: vs). split; [cbn; rewrite E, E'; reflexivity|constructor; assumption]. }
    destruct X as (vs & E & G). unfold loss_fn_losses.
    assert (Y : map_res (fun v => match v with LStr s => deserialize s | v => Ok v end) vs = Ok fns).
    { apply map_res_forall2. clear -G. induction G as [|v f vs fns (_ & S) _ IH]; constructor; [|exact IH]. destruct v; auto; f_equal; exact S. }
    destruct loss as [|v|l|d]; try contradiction.
    - subst. cbn [bind]. rewrite Y. reflexivity.
    - rewrite E. cbn [bind]. rewrite Y. reflexivity.
  Qed.

  Lemma values_ok fns ps ys :
    Forall (fun f => exists nm, f = LFun nm \/ f = LClass nm) fns ->
    map_res (fun fpy => call_loss value (fst fpy) (fst (snd fpy)) (snd (snd fpy))) (zip fns (zip ps ys)) = Ok (loss_values value fns ps ys).
  Proof.
    intros F. revert ps ys. induction F as [|f fns (nm & C) _ IH]; intros ps ys; [reflexivity|].
    destruct ps as [|p ps]; [reflexivity|]. destruct ys as [|y ys]; [reflexivity|]. cbn. rewrite IH.
    destruct C; subst f; reflexivity.
  Qed.
  Lemma loss_values_length fns ps ys :
    List.length ps = List.length fns -> List.length ys = List.length fns -> List.length (loss_values value fns ps ys) = List.length fns.
  Proof.
    revert ps ys. induction fns as [|f fns IH]; intros [|p ps] [|y ys]; cbn; try discriminate; [reflexivity|].
    intros [= A] [= B]. rewrite IH; auto.
  Qed.
  Lemma weighted_sum_ones vs : weighted_sum (map (fun _ => 1%R) vs) vs = total vs.
  Proof. induction vs as [|v vs IH]; [reflexivity|]. cbn. rewrite IH, Rmult_1_l. reflexivity. Qed.
  Lemma weighted_sum_zip ws vs : weighted_sum ws vs = total (map (fun lw => (fst lw * snd lw)%R) (zip vs ws)).
  Proof.
    revert vs. induction ws as [|w ws IH]; intros [|v vs]; try reflexivity. cbn. rewrite IH, (Rmult_comm w v). reflexivity.
  Qed.
  Lemma map_ones {A B} (l : list A) (l' : list B) :
    List.length l = List.length l' -> map (fun _ => 1%R) l = map (fun _ => 1%R) l'.
  Proof. revert l'. induction l as [|a l IH]; intros [|b l']; cbn; try discriminate; [reflexivity|]. intros [= E]. f_equal. apply IH, E. Qed.
  Lemma add_n_total l : l <> [] -> add_n l = Ok (total l).
  Proof. destruct l; [congruence|reflexivity]. Qed.
  Lemma own_total t own : match own with [] => Ok t | _ => do r <- add_n own; Ok (t + r)%R end = Ok (t + total own)%R.
  Proof. destruct own; cbn [total fold_right]; [rewrite Rplus_0_r; reflexivity|reflexivity]. Qed.

  Lemma loss_fn_many outs loss w own fns ps ys :
    NoDup outs -> outs <> [] ->
    (exists l, loss = LaList l /\ List.length l = List.length outs) \/ (exists d, loss = LaDict d) ->
    Forall2 (fun n f => exists v, loss_given outs loss n = Some v /\ stands_for deserialize v f) outs fns ->
    (forall ws, w = CList ws -> List.length ws = List.length outs) ->
    List.length ps = List.length outs -> List.length ys = List.length outs ->
    loss_fn deserialize value outs loss w own (Many ps) (Many ys) =
      Ok (weighted_sum (map (weight_given outs w) outs) (loss_values value fns ps ys) + total own)%R.
  Proof.
    intros ND NE H F Hw Lp Ly. unfold loss_fn. rewrite (losses_resolved outs loss fns ND H F). cbn [bind].
    assert (C : Forall (fun f => exists nm, f = LFun nm \/ f = LClass nm) fns).
    { refine (forall2_right _ _ _ _ _ F). intros n f (v & _ & C & _). exact C. }
    assert (Lf : List.length fns = List.length outs) by (symmetry; exact (forall2_length _ _ _ F)).
    rewrite (values_ok fns ps ys C). cbn [bind].
    assert (Lv : List.length (loss_values value fns ps ys) = List.length outs) by (rewrite loss_values_length; congruence).
    set (vals := loss_values value fns ps ys) in *. clearbody vals.
    assert (Ws : match loss_fn_weights outs w with CList l => l | _ => [] end = map (weight_given outs w) outs \/
                 match loss_fn_weights outs w with CList l => l | _ => [] end = [] /\ map (weight_given outs w) outs = map (fun _ => 1%R) vals).
    { destruct w as [|ws|d|]; cbn [loss_fn_weights weight_given].
      - right. split; [reflexivity|]. apply map_ones, eq_sym, Lv.
      - left. symmetry. apply (map_nth_index outs ws 1%R); [exact ND|symmetry; apply Hw; reflexivity].
      - left. apply map_ext. intros n. cbn [weight_given]. rewrite under_lookup. reflexivity.
      - right. split; [reflexivity|]. apply map_ones, eq_sym, Lv. }
    assert (T : add_n (match match loss_fn_weights outs w with CList l => l | _ => [] end with
                       | [] => vals
                       | _ => map (fun lw => (fst lw * snd lw)%R) (zip vals match loss_fn_weights outs w with CList l => l | _ => [] end) end) =
                Ok (weighted_sum (map (weight_given outs w) outs) vals)).
    { destruct Ws as [Ws|[Ws Wo]]; rewrite Ws.
      - assert (map (weight_given outs w) outs <> []) by (destruct outs; [congruence|discriminate]).
        rewrite weighted_sum_zip. destruct (map (weight_given outs w) outs) as [|x xs]; [congruence|].
        apply add_n_total. destruct vals; [destruct outs; [congruence|discriminate]|discriminate].
      - rewrite Wo, weighted_sum_ones. apply add_n_total. destruct vals; [destruct outs; [congruence|discriminate]|discriminate]. }
    rewrite T. cbn [bind]. apply own_total.
  Qed.
  Lemma loss_fn_one outs v f w own p y :
    stands_for deserialize v f -> loss_fn deserialize value outs (LaOne v) w own (One p) (One y) = Ok (value f p y + total own)%R.
  Proof.
    intros ((nm & C) & S).
    assert (X : loss_fn_losses deserialize outs (LaOne v) = Ok (LaOne f)).
    { unfold loss_fn_losses. destruct v; try (subst f; reflexivity).
      - rewrite S. reflexivity.
      - subst f. destruct C; discriminate. }
    unfold loss_fn. rewrite X. cbn [bind]. destruct C; subst f; cbn [call_loss bind]; apply own_total.
  Qed.
End L.

Lemma index_lt n l i : index n l = Some i -> i < List.length l.
Proof.
  revert i. induction l as [|m l IH]; intros i; cbn; [discriminate|]. destruct (String.eqb m n); [intros [= <-]; lia|].
  destruct (index n l) as [j|]; [|discriminate]. cbn. intros [= <-]. specialize (IH j eq_refl). lia.
Qed.
Lemma loss_dict_complete m loss d n :
  loss_dict m loss = Ok d -> NoDup (m_output_names m) -> loss_was_given loss = true ->
  (forall v, loss = LaOne v -> (exists ls l, m_layers m = (ls ++ [l])%list /\ m_output_names m = [layer_name l])) ->
  (forall dd, loss = LaDict dd -> NoDup (map fst dd)) ->
  lookup d n = loss_given (m_output_names m) loss n /\ (lookup d n <> None <-> In n (m_output_names m)).
Proof.
  intros E ND G H1 H2. destruct (loss_dict_keys m loss d n E ND H1 H2) as [K1 K2].
  assert (A : lookup d n <> None -> In n (m_output_names m)).
  { intros N. apply K2. destruct (in_dec string_dec n (map fst d)) as [I|I]; [exact I|]. exfalso. apply N, lookup_none, I. }
  assert (NDi : forall c, loss <> LaOne (LDict c)).
  { intros c ->. destruct (H1 _ eq_refl) as (ls & l & _ & On). cbn [loss_dict] in E. rewrite On in E.
    destruct (subset [layer_name l] _ && subset _ [layer_name l]) eqn:S; [|discriminate]. apply andb_prop in S. destruct S as [_ S].
    apply subset_incl in S. destruct (S "class_name" (or_introl eq_refl)) as [X|[]]. destruct (S "config" (or_intror (or_introl eq_refl))) as [Y|[]].
    congruence. }
  assert (K : lookup d n = loss_given (m_output_names m) loss n).
  { rewrite K1. destruct loss as [|[[|a s]|s|s|c]|l|dd]; try reflexivity; [discriminate G|]. exfalso. eapply NDi. reflexivity. }
  split; [exact K|]. split; [exact A|]. intros I. rewrite K. destruct loss as [|v|l|dd]; cbn [loss_given].
  - discriminate G.
  - apply mem_In in I. unfold mem in I. rewrite I. discriminate.
  - cbn [loss_dict] in E. destruct l as [|v l]; [discriminate G|].
    destruct (Nat.eqb_spec (List.length (m_output_names m)) (List.length (v :: l))) as [Len|]; [|discriminate].
    destruct (index n (m_output_names m)) as [i|] eqn:Ix; [|apply index_none in Ix; contradiction].
    apply nth_error_Some. rewrite <- Len. apply (index_lt n), Ix.
  - cbn [loss_dict] in E. destruct dd as [|kv dd]; [discriminate G|]. destruct (_ && _) eqn:S; [|discriminate].
    apply andb_prop in S. destruct S as [S _]. apply subset_incl in S. rewrite under_lookup. intros X. apply lookup_none in X. apply X, S, I.
Qed.

Lemma losses_as_given producer op_inputs p m loss lw fa seed calls d' :
  get_layer_collection producer op_inputs p m loss lw fa seed = Ok (calls, d') ->
  outputs_are_layers m -> loss_was_given loss = true ->
  (forall v, loss = LaOne v -> (exists ls l, m_layers m = (ls ++ [l])%list /\ m_output_names m = [layer_name l])) ->
  (forall dd, loss = LaDict dd -> NoDup (map fst dd)) ->
  Permutation (map l_name (output_layers m)) (m_output_names m) /\
  Forall2 (fun l c => exists v, loss_given (m_output_names m) loss (l_name l) = Some v /\
             right_loss producer op_inputs l v (weight_given (m_output_names m) lw (l_name l)) seed c)
          (output_layers m) (loss_calls calls) /\
  (forall dd, loss = LaDict dd -> d' = dd).
Proof.
  intros E O G H1 H2. pose proof O as (N1 & N2 & Inc & NN).
  destruct (losses_registered producer op_inputs _ _ _ _ _ _ _ _ E O H1 H2) as [Ld F].
  assert (K : forall n, lookup d' n = loss_given (m_output_names m) loss n /\ (lookup d' n <> None <-> In n (m_output_names m))).
  { intros n. apply loss_dict_complete; assumption. }
  assert (Fl : filter (fun l => match lookup d' (l_name l) with Some _ => true | None => false end) (all_leaves m) = output_layers m).
  { apply filter_ext. intros l. destruct (K (l_name l)) as [_ B]. apply eq_true_iff_eq. etransitivity; [|symmetry; apply (mem_In (l_name l))].
    rewrite <- B. destruct (lookup d' (l_name l)); split; congruence. }
  rewrite Fl in F. split; [|split].
  - apply NoDup_Permutation; [|exact N2|].
    + unfold output_layers. revert N1. generalize (all_leaves m) as ls. induction ls as [|l ls IH]; cbn; [constructor|]. intros ND.
      inversion ND as [|? ? A B]; subst. destruct (existsb _ _); [|apply IH, B]. cbn. constructor; [|apply IH, B].
      intros I. apply A. apply in_map_iff in I. destruct I as (x & Ex & I). apply filter_In in I. rewrite <- Ex. apply in_map, I.
    + intros n. rewrite in_map_iff. split.
      * intros (l & <- & I). apply filter_In in I. apply mem_In, I.
      * intros I. destruct (proj1 (in_map_iff _ _ _) (Inc n I)) as (l & El & Il). exists l. split; [exact El|].
        apply filter_In. split; [exact Il|]. apply (mem_In (l_name l)). rewrite El. exact I.
  - refine (forall2_weaken _ _ _ _ _ F). intros l c (v & A & _ & B). exists v. split; [|exact B]. rewrite <- A. symmetry. apply K.
  - intros dd ->. cbn [loss_dict] in Ld. destruct dd as [|kv dd]; [discriminate G|]. destruct (_ && _); [|discriminate]. congruence.
Qed.

(** The registration of one layer. *)
Lemma register_layer_cases producer op_inputs p l a cs :
  register_layer producer op_inputs p l a = Ok cs ->
  has_trainable_params l = false /\ cs = [] \/
  has_trainable_params l = true /\ exists i o t, l_in l = One i /\ l_out l = One o /\
    before_activation producer op_inputs l (One t) /\
    (exists w ws, l_weights l = w :: ws /\
     match l_kind l with
     | KDense => cs = [RegFullyConnected true (l_weights l) (InNode (One i)) t a]
     | KEmbedding => cs = [RegFullyConnected false (l_weights l) (InNode (One i)) t a]
     | KNorm fused scale center =>
         scale = true /\ exists uses,
         (if center then exists b ws', ws = b :: ws' /\ cs = RegScaleAndShift (l_weights l) (InUnscaled t w (Some b)) t a :: uses
          else cs = RegScaleAndShift (l_weights l) (InUnscaled t w None) t a :: uses) /\
         uses = (if fused && negb (match p with SetTo true => true | _ => false end) then [AddUses (l_weights l) 1] else [])
     | KConv cls cl pad st dl => cl = true /\ (cls = 1 \/ cls = 2) /\
         cs = [RegConv cls (l_weights l) (InNode (One i)) t a pad (1 :: st ++ [1])%list (1 :: dl ++ [1])%list]
     | KOther => False
     end).
Proof.
  assert (Ph : match p with SetTo true => true | _ => false end = is_phase_set p) by (destruct p as [|[]]; reflexivity). rewrite Ph. clear Ph.
  unfold register_layer. destruct (pre_activation _ _ l) as [pre|] eqn:P; [|discriminate]. apply pre_activation_ok in P. cbn [bind].
  rewrite is_trained_spec. destruct (has_trainable_params l); cbn [negb]; [|intros [= <-]; left; split; reflexivity].
  intros E. right. split; [reflexivity|].
  destruct (l_in l) as [i|] eqn:Li; [|discriminate]. destruct (l_out l) as [o|] eqn:Lo; [|discriminate].
  destruct (l_weights l) as [|w ws] eqn:Lw; [discriminate|].
  assert (T : exists t, pre = One t).
  { unfold before_activation in P. destruct (l_activation l); [destruct P as (o' & t & _ & _ & _ & ->); eauto|rewrite P, Lo; eauto]. }
  destruct T as (t & ->). exists i, o, t. split; [reflexivity|]. split; [reflexivity|]. split; [exact P|]. exists w, ws. split; [reflexivity|].
  destruct (l_kind l) as [| |fused scale center|cls cl pad st dl|]; try (injection E as <-; reflexivity); try discriminate.
  - destruct scale; [|discriminate]. cbn [negb] in E. split; [reflexivity|]. exists (if fused && negb (is_phase_set p) then [AddUses (w :: ws) 1] else []).
    destruct center.
    + destruct ws as [|b ws']; [discriminate|]. cbn [bind] in E. injection E as <-. split; [exists b, ws'; split; reflexivity|reflexivity].
    + cbn [bind] in E. injection E as <-. split; reflexivity.
  - destruct cl; [|discriminate]. cbn [negb] in E. destruct (Nat.eqb_spec cls 2) as [->|].
    + cbn [orb] in E. injection E as <-. auto.
    + destruct (Nat.eqb_spec cls 1) as [->|]; [|discriminate]. cbn [orb] in E. injection E as <-. auto.
Qed.
Lemma register_layer_unsupported producer op_inputs p l a t :
  has_trainable_params l = true -> before_activation producer op_inputs l t -> l_weights l <> [] ->
  (l_kind l = KOther \/ (exists cls cl pad st dl, l_kind l = KConv cls cl pad st dl /\ (cl = false \/ cls <> 1 /\ cls <> 2)) \/
   (exists fused center, l_kind l = KNorm fused false center) \/ (exists ts, l_in l = Many ts) \/ (exists ts, l_out l = Many ts)) ->
  register_layer producer op_inputs p l a = Raise ValueError.
Proof.
  intros T P W H. unfold register_layer. apply pre_activation_ok in P. rewrite P. cbn [bind]. rewrite is_trained_spec, T. cbn [negb].
  destruct (l_in l) as [i|]; [|reflexivity]. destruct (l_out l) as [o|]; [|reflexivity]. destruct (l_weights l) as [|w ws]; [congruence|].
  destruct H as [->|[(cls & cl & pad & st & dl & -> & H)|[(f & c & ->)|[(ts & H)|(ts & H)]]]]; try discriminate; try reflexivity.
  destruct cl; [|reflexivity]. destruct H as [H|[H1 H2]]; [discriminate|]. cbn [negb].
  destruct (Nat.eqb_spec cls 2), (Nat.eqb_spec cls 1); try congruence. reflexivity.
Qed.
