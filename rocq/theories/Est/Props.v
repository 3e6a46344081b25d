(** Property theorems C99 - C104. *)
From Coq Require Import String QArith Arith Bool List Reals Lia Lra Permutation.
From Verif.Base Require Import Py.
From Verif.Train Require Import Model.
From Verif.Replica Require Import Model.
From Verif.Replica Require Spec Props.
From Verif.Sched Require Model Spec Props.
From Verif.Curv Require Model Spec.
From Verif.Est Require Import Model Spec GradProofs ThunkProofs FunProofs EntryProofs.
Import ListNotations.
Open Scope list_scope.
Open Scope R_scope.

(* ======================================================================= *)
(** ** C99 *)

(** Where one gradient of all the losses is taken, the factors are instantiated if and only if
    every tensor they need has a loss that depends on it, and otherwise the error names exactly
    the tensors that have none. *)
Theorem C99_unconnected_tensors_named_partial : forall g mode variables stats blocks,
  one_gradient_mode g mode ->
  (stats <> None -> exists l, variables = PList l /\ l <> []) ->
  ((exists gr st, instantiate_factors mode variables stats g blocks = Instantiated gr st) <->
     (forall x, In x (needed variables stats blocks) -> connected g x)) /\
  (~ (forall x, In x (needed variables stats blocks) -> connected g x) ->
     exists named, instantiate_factors mode variables stats g blocks = Unconnected named /\
       forall x, In x named <-> In x (needed variables stats blocks) /\ ~ connected g x).
Proof. intros g mode variables stats blocks. apply refusal. Qed.
Print Assumptions C99_unconnected_tensors_named_partial.

(** In exact mode the condition is another one: every loss must depend on every tensor. *)
Theorem C99_exact_mode_needs_every_loss_partial : forall g variables stats blocks,
  (stats <> None -> exists l, variables = PList l /\ l <> []) ->
  (stats <> None -> exists l, In l (g_losses g) /\ (0 < g_inner g l)%nat) ->
  ((exists gr st, instantiate_factors "exact" variables stats g blocks = Instantiated gr st) <->
   (forall l x, In l (g_losses g) -> (0 < g_inner g l)%nat -> In x (needed variables stats blocks) ->
      g_dep g l x = true)).
Proof. intros g variables stats blocks. apply exact_accepts. Qed.
Print Assumptions C99_exact_mode_needs_every_loss_partial.

(** Losses [0] and [1], tensors of one entry *)
Definition two_heads : graph :=
  mkGraph [0; 1]%nat (fun l x => Nat.eqb l x) (fun _ => true) (fun _ => 1%nat) (fun _ => 1%nat)
    (fun l x => [if Nat.eqb l x then 1 else 0]) (fun l x => [if Nat.eqb l x then 1 else 0])
    (fun l x => [if Nat.eqb l x then 1 else 0]) (fun l _ x => [if Nat.eqb l x then 1 else 0]).
(** One loss with an inner vector of two entries, that depends on the tensor 0 only *)
Definition one_head : graph :=
  mkGraph [0]%nat (fun l x => Nat.eqb l x) (fun _ => true) (fun _ => 2%nat) (fun _ => 1%nat)
    (fun l x => [1]) (fun l x => [1]) (fun l x => [1]) (fun l _ x => [1]).
Definition no_losses : graph :=
  mkGraph [] (fun _ _ => false) (fun _ => true) (fun _ => 1%nat) (fun _ => 1%nat)
    (fun l x => [1]) (fun l x => [1]) (fun l x => [1]) (fun l _ x => [1]).

Example C99_example :
  one_gradient_mode two_heads "gradients" /\
  (forall x, In x (needed (PList []) None [[0]; [1]]%nat) -> connected two_heads x) /\
  instantiate_factors "gradients" (PList []) None one_head [[0]; [1; 2]]%nat = Unconnected [1; 2]%nat.
Proof.
  split; [now left|]. split; [|reflexivity].
  intros x H. cbn in H. exists x. split; [cbn; intuition|]. cbn. apply Nat.eqb_refl.
Qed.

(** The promise fails in exact mode: a tensor that a loss depends on can be refused because another
    loss does not depend on it; the error can name tensors that are connected, or none at all; and
    without losses unconnected tensors are accepted. *)
Theorem C99_unconnected_tensors_named_refuted :
  (exists g blocks, (forall x, In x (concat blocks) -> connected g x) /\
     exists named, instantiate_factors "exact" (PList []) None g blocks = Unconnected named) /\
  (exists g blocks named x, instantiate_factors "exact" (PList []) None g blocks = Unconnected named /\
     In x named /\ connected g x) /\
  (exists g blocks x, instantiate_factors "exact" (PList []) None g blocks = Unconnected [] /\
     In x (concat blocks) /\ ~ connected g x) /\
  (exists g blocks x gr, instantiate_factors "exact" (PList []) None g blocks = Instantiated gr None /\
     In x (concat blocks) /\ ~ connected g x).
Proof.
  split; [|split; [|split]].
  - exists two_heads, [[0]; [1]]%nat. split; [apply C99_example|]. eexists. reflexivity.
  - exists one_head, [[1]; [0]]%nat, [1; 0]%nat, 0%nat. split; [reflexivity|]. split; [cbn; tauto|].
    exists 0%nat. split; [now left|reflexivity].
  - exists one_head, [[0]; [1]]%nat, 1%nat. split; [reflexivity|]. split; [cbn; tauto|].
    intros (l & [<-|[]] & H). discriminate.
  - exists no_losses, [[0]; [1]]%nat, 1%nat, []. split; [reflexivity|]. split; [cbn; tauto|].
    intros (l & [] & _).
Qed.
Print Assumptions C99_unconnected_tensors_named_refuted.

(* ======================================================================= *)
(** ** C100 *)

(** The statistics: one vector per variable, in their order and of their sizes, each entry of which
    is the sum over all losses of the derivative, divided by the batch size; asking for them does
    not change what the blocks get. *)
Theorem C100_mean_gradients_partial : forall g vs blocks batch,
  forallb (g_targets g) (g_losses g) = true -> well_formed g (g_data g) -> vs <> [] ->
  (forall x, In x (needed (PList vs) (Some batch) blocks) -> connected g x) ->
  exists gr sts,
    instantiate_factors "empirical" (PList vs) (Some batch) g blocks = Instantiated gr (Some sts) /\
    instantiate_factors "empirical" (PList vs) None g blocks = Instantiated gr None /\
    length sts = length vs /\
    forall i j, (i < length vs)%nat ->
      length (nth i sts []) = g_dim g (nth i vs 0%nat) /\
      nth j (nth i sts []) 0
      = rsum (map (fun l => nth j (g_data g l (nth i vs 0%nat)) 0) (g_losses g)) / INR batch.
Proof.
  intros g vs blocks batch H. apply stats_value_of.
  exact (mode_one g "empirical" (or_intror (or_introl (conj eq_refl H)))).
Qed.
Print Assumptions C100_mean_gradients_partial.

(** In the other modes they are the same means, not of the derivatives of the losses but of those
    that the estimate of the curvature is made from: on samples, with random signs, or, in exact
    mode, summed over all directions. *)
Theorem C100_means_in_other_modes : forall g mode vs blocks batch,
  one_gradient_mode g mode -> well_formed g (differentiated g mode) -> vs <> [] ->
  (forall x, In x (needed (PList vs) (Some batch) blocks) -> connected g x) ->
  exists gr sts,
    instantiate_factors mode (PList vs) (Some batch) g blocks = Instantiated gr (Some sts) /\
    instantiate_factors mode (PList vs) None g blocks = Instantiated gr None /\
    length sts = length vs /\
    forall i j, (i < length vs)%nat ->
      length (nth i sts []) = g_dim g (nth i vs 0%nat) /\
      nth j (nth i sts []) 0
      = rsum (map (fun l => nth j (differentiated g mode l (nth i vs 0%nat)) 0) (g_losses g)) / INR batch.
Proof. intros g mode vs blocks batch H. exact (stats_value_of _ _ _ _ _ _ (mode_one g mode H)). Qed.
Print Assumptions C100_means_in_other_modes.

Theorem C100_means_in_exact_mode : forall g vs blocks batch,
  (forall i, well_formed g (fun l x => g_hot g l i x)) -> vs <> [] ->
  (exists l, In l (g_losses g) /\ (0 < g_inner g l)%nat) ->
  (forall l x, In l (g_losses g) -> (0 < g_inner g l)%nat ->
     In x (needed (PList vs) (Some batch) blocks) -> g_dep g l x = true) ->
  exists gr sts,
    instantiate_factors "exact" (PList vs) (Some batch) g blocks = Instantiated gr (Some sts) /\
    instantiate_factors "exact" (PList vs) None g blocks = Instantiated gr None /\
    length sts = length vs /\
    forall i j, (i < length vs)%nat ->
      length (nth i sts []) = g_dim g (nth i vs 0%nat) /\
      nth j (nth i sts []) 0
      = rsum (map (fun l => rsum (map (fun k => nth j (g_hot g l k (nth i vs 0%nat)) 0)
                                    (seq 0 (g_inner g l)))) (g_losses g)) / INR batch.
Proof. exact exact_stats_value. Qed.
Print Assumptions C100_means_in_exact_mode.

Example C100_exact_example :
  let g := mkGraph [0; 1]%nat (fun _ _ => true) (fun _ => true) (fun l => S l) (fun _ => 1%nat)
             (fun l x => [1]) (fun l x => [1]) (fun l x => [1]) (fun l i x => [INR (l + i)]) in
  (forall i, well_formed g (fun l x => g_hot g l i x)) /\
  (exists l, In l (g_losses g) /\ (0 < g_inner g l)%nat) /\
  (forall l x, In l (g_losses g) -> (0 < g_inner g l)%nat ->
     In x (needed (PList [1; 0]%nat) (Some 4%nat) [[0]]%nat) -> g_dep g l x = true) /\
  rsum (map (fun l => rsum (map (fun k => nth 0 (g_hot g l k 0%nat) 0) (seq 0 (g_inner g l)))) (g_losses g)) / INR 4
  = 3 / 4.
Proof.
  cbv zeta. split; [|split; [|split]].
  - intros i l x. split; [reflexivity|discriminate].
  - exists 0%nat. cbn. split; [now left|lia].
  - reflexivity.
  - unfold rsum. cbn. lra.
Qed.

(** On replicas everyone gets the mean of the replicas' statistics. *)
Theorem C100_replicas_partial : forall k locals,
  Replica.Spec.replicated k (length locals) -> Replica.Spec.same_shape locals ->
  length (stats_on_replicas k locals) = length locals /\
  forall sts i j, In sts (stats_on_replicas k locals) ->
    nth j (nth i sts []) 0 = rsum (map (fun l => nth j (nth i l []) 0) locals) / INR (length locals).
Proof.
  intros k locals Hk Hs. destruct (Replica.Props.C95_average_over_replicas k locals Hk Hs) as (L & _ & _ & A & _).
  split; [exact L|]. intros sts i j H. specialize (A sts i j H).
  unfold Replica.Spec.entry, Replica.Spec.average in A. rewrite map_length in A. exact A.
Qed.
Print Assumptions C100_replicas_partial.

Lemma two_heads_formed : well_formed two_heads (g_data two_heads).
Proof.
  intros l x. split; [reflexivity|]. cbn. intro H. rewrite H. intro j. destruct j as [|[|j]]; reflexivity.
Qed.
Example C100_example :
  forallb (g_targets two_heads) (g_losses two_heads) = true /\ well_formed two_heads (g_data two_heads) /\
  (forall x, In x (needed (PList [1; 0]%nat) (Some 4%nat) [[0]]%nat) -> connected two_heads x) /\
  make_estimator true (Some 4%nat) = Ok (Some 4%nat).
Proof.
  split; [reflexivity|]. split; [apply two_heads_formed|]. split; [|reflexivity].
  intros x H. cbn in H. exists x. split; [cbn; intuition|]. cbn. apply Nat.eqb_refl.
Qed.

(** A tuple of variables, which the optimizer's var_list may be, makes it fail, always. *)
Theorem C100_tuples_refuted : forall mode vs batch g blocks trainable, vs <> [] ->
  opt_variables (Some (PTuple vs)) trainable = PTuple vs /\
  instantiate_factors mode (PTuple vs) (Some batch) g blocks = Failed TypeError.
Proof. intros mode [|v vs] batch g blocks trainable H; [contradiction|]. split; reflexivity. Qed.
Print Assumptions C100_tuples_refuted.

(** The statistics are computed if and only if they were asked for; then the batch size must be
    given, and so must at least one variable. *)
Theorem C100_on_request : forall (asked : bool) (batch_size : option nat),
  (asked = true -> batch_size = None -> make_estimator asked batch_size = Raise ValueError) /\
  (asked = false \/ batch_size <> None ->
   exists stats, make_estimator asked batch_size = Ok stats /\
     (asked = true -> stats = batch_size) /\
     forall mode variables g blocks,
       (asked = true -> items variables = [] ->
        forall gr sts, instantiate_factors mode variables stats g blocks <> Instantiated gr sts) /\
       forall gr sts, instantiate_factors mode variables stats g blocks = Instantiated gr sts ->
         (sts <> None <-> asked = true)).
Proof.
  intros asked bs. split; [intros -> ->; reflexivity|]. intro H.
  exists (if asked then bs else None). split.
  { destruct asked; [|reflexivity]. destruct H as [H|H]; [discriminate|]. destruct bs; [reflexivity|contradiction]. }
  split; [intros ->; reflexivity|]. intros mode variables g blocks. unfold instantiate_factors. split.
  - intros -> E gr sts X. destruct bs as [b|]; [|destruct H as [H|H]; [discriminate|contradiction]].
    destruct (list_plus blocks variables) as [ts|] eqn:Ep; [|discriminate].
    destruct (get_grads_lists mode g ts) as [gls|] eqn:Eg; [|discriminate].
    destruct (existsb _ _); [discriminate|].
    assert (Et : (length ts <= length blocks)%nat).
    { destruct variables as [vs|vs]; cbn [items] in E; subst vs; [|discriminate]. injection Ep as <-.
      rewrite app_nil_r. lia. }
    rewrite skipn_all2 in X; [discriminate|]. rewrite map_length. pose proof (grads_length mode g ts gls Eg). lia.
  - intros gr sts X.
    destruct (match (if asked then bs else None) with None => Ok blocks | Some _ => list_plus blocks variables end); [|discriminate].
    destruct (get_grads_lists _ _ _); [|discriminate]. destruct (existsb _ _); [discriminate|].
    destruct asked.
    + destruct bs as [b|]; [|destruct H as [H|H]; [discriminate|contradiction]].
      destruct (skipn _ _); [discriminate|]. injection X as _ <-. split; [reflexivity|discriminate].
    + injection X as _ <-. split; [intro Y; contradiction|discriminate].
Qed.
Print Assumptions C100_on_request.

(** They are for the variables that were given or, without any, for all trainable ones. *)
Theorem C100_which_variables : forall var_list trainable,
  items (opt_variables var_list trainable) =
    match var_list with
    | None | Some (PList []) | Some (PTuple []) => trainable
    | Some (PList vs) | Some (PTuple vs) => vs
    end.
Proof. intros [[[|]|[|]]|] trainable; reflexivity. Qed.
Print Assumptions C100_which_variables.

(* ======================================================================= *)
(** ** C101 *)

(** compute_gradients without a list of variables, then apply_gradients, does what minimize does,
    provided the variables of the optimizer are all the trainable ones. *)
Theorem C101_two_steps_are_minimize_partial :
  forall (FB : Type) (blocks : list (Curv.Model.bkey * FB)) transform registered trainable grad out,
    NoDup (Curv.Spec.all_vars blocks) -> NoDup registered -> Permutation registered trainable ->
    minimize blocks transform registered trainable grad None = Ok out ->
    exists out', compute_and_apply blocks transform registered trainable grad None = Ok out' /\
      Permutation out out' /\ map snd out' = trainable.
Proof.
  intros FB blocks transform registered trainable grad out Hb N P H.
  rewrite minimize_none in H. unfold compute_and_apply, compute_gradients. cbn [bind].
  exact (permuted FB blocks transform Hb grad registered trainable out N P H).
Qed.
Print Assumptions C101_two_steps_are_minimize_partial.

(** With a list of variables: any order of the optimizer's own variables gives the same updates in
    that order, by minimize and by the two steps alike; any other set of variables is refused. *)
Theorem C101_variables_in_any_order :
  forall (FB : Type) (blocks : list (Curv.Model.bkey * FB)) transform registered trainable grad l,
    NoDup (Curv.Spec.all_vars blocks) -> NoDup registered ->
    (forall out, Permutation registered l ->
       minimize blocks transform registered trainable grad None = Ok out ->
       exists out', minimize blocks transform registered trainable grad (Some l) = Ok out' /\
         compute_and_apply blocks transform registered trainable grad (Some l) = Ok out' /\
         Permutation out out' /\ map snd out' = l) /\
    (~ (forall v, In v l <-> In v registered) ->
       minimize blocks transform registered trainable grad (Some l) = Raise ValueError /\
       compute_and_apply blocks transform registered trainable grad (Some l) = Raise ValueError).
Proof.
  intros FB blocks transform registered trainable grad l Hb N. split.
  - intros out P H. rewrite minimize_none in H.
    destruct (some_ok FB blocks transform registered trainable grad l) as [E1 E2].
    { intro v. split; intro K; [eapply Permutation_in; [apply Permutation_sym; exact P|exact K]|].
      eapply Permutation_in; eassumption. }
    rewrite E1, E2.
    destruct (permuted FB blocks transform Hb grad registered l out N P H) as (out' & K1 & K2 & K3).
    exists out'. auto.
  - intro H. assert (E : check_var_list registered l = Raise ValueError).
    { destruct (check_raises registered l) as [E|E]; [|exact E]. elim H. exact (proj1 (check_ok registered l) E). }
    unfold minimize, compute_and_apply, compute_gradients. rewrite E. split; reflexivity.
Qed.
Print Assumptions C101_variables_in_any_order.

(** If a trainable variable is not one of the optimizer's, then the two steps without a list of
    variables always raise. *)
Theorem C101_other_trainable_variables_raise :
  forall (FB : Type) (blocks : list (Curv.Model.bkey * FB)) transform registered trainable grad v,
    NoDup (Curv.Spec.all_vars blocks) -> NoDup trainable ->
    (forall w, In w (Curv.Spec.all_vars blocks) <-> In w registered) ->
    In v trainable -> ~ In v registered ->
    exists e, compute_and_apply blocks transform registered trainable grad None = Raise e.
Proof.
  intros FB blocks transform registered trainable grad v Hb N S Hv Hn.
  unfold compute_and_apply, compute_gradients. cbn [bind].
  apply (unregistered FB blocks transform Hb grad trainable v N Hv). now rewrite S.
Qed.
Print Assumptions C101_other_trainable_variables_raise.

Definition keep (b : unit) (x : Curv.Model.bval vec) : res (Curv.Model.bval vec) := Ok x.
Example C101_example :
  let blocks := [(Curv.Model.KVar 1, tt); (Curv.Model.KTup [0; 2], tt)]%nat in
  NoDup (Curv.Spec.all_vars blocks) /\
  minimize blocks keep [0; 1; 2]%nat [2; 1; 0]%nat (fun v => Some [INR v]) None
  = Ok [(Curv.Model.One [INR 0], 0); (Curv.Model.One [INR 1], 1); (Curv.Model.One [INR 2], 2)]%nat /\
  compute_and_apply blocks keep [0; 1; 2]%nat [2; 1; 0]%nat (fun v => Some [INR v]) None
  = Ok [(Curv.Model.One [INR 2], 2); (Curv.Model.One [INR 1], 1); (Curv.Model.One [INR 0], 0)]%nat.
Proof. cbv zeta. split; [|split; reflexivity]. cbn. repeat constructor; cbn; intuition congruence. Qed.

(** So an optimizer that was given some of the trainable variables can minimize but cannot do the
    two steps that minimize is documented to combine. *)
Theorem C101_two_steps_are_minimize_refuted :
  exists (blocks : list (Curv.Model.bkey * unit)) transform registered trainable grad out e,
    NoDup (Curv.Spec.all_vars blocks) /\ NoDup registered /\ NoDup trainable /\
    (forall v, In v registered -> In v trainable) /\ (forall v, In v trainable -> grad v <> None) /\
    minimize blocks transform registered trainable grad None = Ok out /\
    compute_and_apply blocks transform registered trainable grad None = Raise e.
Proof.
  exists [(Curv.Model.KVar 0%nat, tt)], keep, [0]%nat, [0; 1]%nat, (fun v => Some [INR v]).
  exists [(Curv.Model.One [INR 0], 0%nat)], KeyError.
  repeat split; try reflexivity; try (cbn; repeat constructor; cbn; intuition congruence).
Qed.
Print Assumptions C101_two_steps_are_minimize_refuted.

(* ======================================================================= *)
(** ** C102 *)

(** The asynchronous optimizer never places its computations: whichever devices it is given, every
    thunk runs wherever it is called. *)
Theorem C102_devices_ignored_partial :
  forall (dev B : Type) (cov_devices inv_devices : option (list dev))
         (cov_var cov_upd inv_var inv_upd : list (option dev -> B)),
    async_thunks cov_devices inv_devices (cov_var, cov_upd, inv_var, inv_upd)
    = (cov_var, cov_upd, inv_var, inv_upd).
Proof.
  intros. unfold async_thunks, async_devices.
  exact (proj1 (Sched.Props.C06_no_devices_no_placement dev B None None None None cov_var cov_upd inv_var inv_upd []
    (or_introl eq_refl) (or_introl eq_refl) (or_introl eq_refl))).
Qed.
Print Assumptions C102_devices_ignored_partial.

(** That is not what its arguments promise. *)
Theorem C102_round_robin_placement_refuted :
  exists (cov_devices inv_devices : list nat) (cov_var cov_upd inv_var inv_upd : list (option nat -> option nat)),
    cov_devices <> [] /\ inv_devices <> [] /\ length cov_var = length cov_upd /\
    let '(cov_var', cov_upd', _, inv_upd') :=
      async_thunks (Some cov_devices) (Some inv_devices) (cov_var, cov_upd, inv_var, inv_upd) in
    ~ Sched.Spec.placed cov_devices cov_var cov_var' /\ ~ Sched.Spec.placed cov_devices cov_upd cov_upd' /\
    ~ Sched.Spec.placed inv_devices inv_upd inv_upd'.
Proof.
  exists [7; 8]%nat, [9]%nat, [fun d => d], [fun d => d], [fun d => d], [fun d => d].
  split; [discriminate|]. split; [discriminate|]. split; [reflexivity|]. cbn.
  repeat split; intros [_ H]; destruct (H 0%nat (fun d => d) eq_refl) as (d & t & _ & E & K);
    cbn in E; inversion E; subst; specialize (K None); discriminate.
Qed.
Print Assumptions C102_round_robin_placement_refuted.

(* ======================================================================= *)
(** ** C103 *)

(** In every order of the thunks that respects the documented one, they all succeed if and only if
    the covariance variables that a damping is computed from also come before; and then the ops
    are those meant, in the order of the thunks. *)
Theorem C103_orders_that_work : forall fs ts, documented_order ts ->
  ((exists r, run_thunks fs ts nothing_made = Ok r) <-> damping_order fs ts) /\
  (forall s ms, run_thunks fs ts nothing_made = Ok (s, ms) -> ms = meant fs ts).
Proof.
  intros fs ts D. split.
  - split; [intros [r H]; exact (runs_only fs ts r H)|]. intro R. destruct (runs fs ts D R) as [s H]. eauto.
  - intros s ms H. pose proof (runs_only fs ts _ H) as R. destruct (runs fs ts D R) as [s' H']. congruence.
Qed.
Print Assumptions C103_orders_that_work.

(** The order in which the four lists are returned works. *)
Theorem C103_returned_order_works : forall fs,
  (forall i j, In j (tf_reads (nth i fs no_factor)) -> (j < length fs)%nat) ->
  exists s, run_thunks fs
      (map CovVar (seq 0 (length fs)) ++ map CovUpdate (seq 0 (length fs)) ++
       map InvVar (seq 0 (length fs)) ++ map InvUpdate (seq 0 (length fs))) nothing_made
    = Ok (s, map UpdatesCov (seq 0 (length fs)) ++ map (fun f => UpdatesInverses (tf_inverses f)) fs).
Proof.
  intros fs H. destruct (runs fs (returned_order (length fs)) (returned_documented _) (returned_damping fs H)) as [s E].
  exists s. unfold returned_order in E. rewrite E. f_equal. f_equal.
  rewrite !meant_app. unfold meant. rewrite !map_map.
  assert (Z : forall (f : nat -> list made) l, (forall x, f x = []) -> concat (map f l) = []).
  { intros f l Hf. induction l as [|a l IH]; cbn; [reflexivity|]. now rewrite Hf. }
  rewrite (Z (fun x => [])) by reflexivity. cbn [app].
  assert (S : forall (A : Type) (f : nat -> A) l, concat (map (fun x => [f x]) l) = map f l).
  { intros A f l. induction l as [|a l IH]; cbn; [reflexivity|]. now rewrite IH. }
  rewrite !S. f_equal. clear.
  enough (G : forall n, map (fun x => UpdatesInverses (tf_inverses (nth (x - n) fs no_factor))) (seq n (length fs))
     = map (fun f => UpdatesInverses (tf_inverses f)) fs).
  { rewrite <- (G 0%nat). apply map_ext. intro x. now rewrite Nat.sub_0_r. }
  induction fs as [|f fs IH]; intro n; cbn [length seq map]; [reflexivity|]. f_equal.
  - now rewrite Nat.sub_diag.
  - rewrite <- (IH (S n)). apply map_ext_in. intros x Hx. apply in_seq in Hx.
    replace (x - n)%nat with (S (x - S n)) by lia. reflexivity.
Qed.
Print Assumptions C103_returned_order_works.

(** The two factors of a layer: either damping is computed from both *)
Definition one_layer : list tfactor := [mkTF [10] [0; 1]; mkTF [11] [0; 1]]%nat.
Definition one_factor_after_the_other : list thunk :=
  [CovVar 0; InvVar 0; CovUpdate 0; InvUpdate 0; CovVar 1; InvVar 1; CovUpdate 1; InvUpdate 1]%nat.

Lemma before_check (a b : thunk) ts :
  (forall pre post, ts = pre ++ b :: post -> In a pre) -> before a b ts.
Proof. exact (fun H => H). Qed.

Lemma first_order_documented : documented_order one_factor_after_the_other.
Proof.
  split.
  - intro i. unfold one_factor_after_the_other.
    repeat split; intros pre post E;
      repeat (destruct pre as [|? pre]; [try discriminate; cbn in E; inversion E; subst; cbn; tauto|
              cbn in E; inversion E; subst; clear E; rename H1 into E]); 
      destruct pre; discriminate.
  - cbn. repeat constructor; cbn; intuition congruence.
Qed.

(** The documented order is not enough. *)
Theorem C103_documented_order_refuted : exists fs ts,
  documented_order ts /\ run_thunks fs ts nothing_made = Raise AttributeError.
Proof. exists one_layer, one_factor_after_the_other. split; [apply first_order_documented|reflexivity]. Qed.
Print Assumptions C103_documented_order_refuted.

(** And one of its requirements is not checked: an update made before the inverse variables
    succeeds and updates nothing. *)
Theorem C103_updates_without_variables_partial : forall fs i s,
  tf_inverses (nth i fs no_factor) <> [] ->
  (forall j, In j (tf_reads (nth i fs no_factor)) -> In j (ts_cov s)) -> ~ In i (ts_inv s) ->
  run_thunk fs (InvUpdate i) s = Ok (s, [UpdatesInverses []]).
Proof.
  intros fs i s Hi Hr Hn. cbn. apply has_inverses_spec in Hi. rewrite Hi.
  assert (F : forallb (fun j => mem j (ts_cov s)) (tf_reads (nth i fs no_factor)) = true).
  { apply forallb_forall. intros j Hj. now apply mem_in, Hr. }
  rewrite F. apply mem_false in Hn. now rewrite Hn.
Qed.
Print Assumptions C103_updates_without_variables_partial.

Example C103_example :
  documented_order (returned_order 2) /\ damping_order one_layer (returned_order 2) /\
  run_thunks one_layer [CovVar 0; CovVar 1; InvUpdate 0; InvVar 0]%nat nothing_made
  = Ok (mkTS [1; 0] [0], [UpdatesInverses []])%nat.
Proof.
  split; [apply returned_documented|]. split; [|reflexivity].
  apply (returned_damping one_layer). intros [|[|i]] j H; cbn in *; [intuition lia|intuition lia|].
  destruct i; destruct H.
Qed.

(* ======================================================================= *)
(** ** C104 *)

(** After a successful registration a block that is neither diagonal nor a series block can be
    multiplied by the powers asked for, by the power 1 and by no others, and by the Cholesky
    factors if and only if they were asked for. *)
Theorem C104_requested_functions_partial : forall exps chol cholinv bs r b e,
  register_matrix_functions exps chol cholinv bs = Ok r -> In b bs ->
  ~ diagonal_block b -> ~ series_block b ->
  (multiply_matpower r b e = Ok tt <-> (e == 1)%Q \/ asked exps e) /\
  (multiply_cholesky r b = Ok tt <-> chol = true) /\
  (multiply_cholesky_inverse r b = Ok tt <-> cholinv = true).
Proof.
  intros exps chol cholinv bs r b e H Hb Nd Ns. split; [exact (powers _ _ _ _ _ b e H Hb Nd Ns)|].
  exact (choleskys _ _ _ _ _ b H Hb Nd Ns).
Qed.
Print Assumptions C104_requested_functions_partial.

(** Diagonal blocks can be multiplied by everything; series blocks by the powers asked for, and not
    by Cholesky factors. *)
Theorem C104_other_blocks_partial : forall exps chol cholinv bs r b e,
  register_matrix_functions exps chol cholinv bs = Ok r -> In b bs ->
  (diagonal_block b -> multiply_matpower r b e = Ok tt /\ multiply_cholesky r b = Ok tt /\
                       multiply_cholesky_inverse r b = Ok tt) /\
  (series_block b -> (multiply_matpower r b e = Ok tt <-> asked exps e) /\
     multiply_cholesky r b = Raise TypeError /\ multiply_cholesky_inverse r b = Raise TypeError).
Proof.
  intros exps chol cholinv bs r b e H Hb. split; [apply diagonal_powers|]. intro Hs.
  destruct (series_powers _ _ _ _ _ b e H Hb Hs) as (_ & K1 & K2).
  split; [split; assumption|]. exact (series_cholesky r b Hs).
Qed.
Print Assumptions C104_other_blocks_partial.

(** The registration succeeds if and only if series blocks are asked for the inverse only, and SUA
    blocks for the powers 1 and -1 only and for no Cholesky factors. *)
Theorem C104_registration_partial : forall exps chol cholinv bs,
  (exists r, register_matrix_functions exps chol cholinv bs = Ok r) <->
  (forall b, In b bs ->
     (series_block b -> forall e, In e exps -> (e == -1)%Q) /\
     (sua_block b -> chol = false /\ cholinv = false /\ forall e, In e exps -> (e == 1)%Q \/ (e == -1)%Q)).
Proof. exact registration_succeeds. Qed.
Print Assumptions C104_registration_partial.

Example C104_example : exists r,
  register_matrix_functions [(-1)%Q; (-1 # 2)%Q] true false [MFull 0 0; MKron Dense 1 1 Diagonal 2 2; MDiag] = Ok r /\
  ~ diagonal_block (MKron Dense 1 1 Diagonal 2 2) /\ ~ series_block (MKron Dense 1 1 Diagonal 2 2) /\
  multiply_matpower r (MKron Dense 1 1 Diagonal 2 2) (-2 # 4) = Ok tt /\
  multiply_matpower r (MFull 0 0) (1 # 2) = Raise KeyError.
Proof.
  eexists. split; [reflexivity|]. split.
  - intros [H|(a & b & c & d & H)]; discriminate.
  - split; [intros (a & b & c & d & H); discriminate|]. split; reflexivity.
Qed.

(** The documented promise, that the power 1 always works and those not asked for fail, holds for
    neither half; and Cholesky factors that were asked for can be missing. *)
Theorem C104_requested_functions_refuted :
  (exists exps bs r b, register_matrix_functions exps false false bs = Ok r /\ In b bs /\
     multiply_matpower r b 1 <> Ok tt) /\
  (exists exps bs r b e, register_matrix_functions exps false false bs = Ok r /\ In b bs /\
     ~ (e == 1)%Q /\ ~ asked exps e /\ multiply_matpower r b e = Ok tt) /\
  (exists exps bs r b, register_matrix_functions exps true true bs = Ok r /\ In b bs /\
     multiply_cholesky r b <> Ok tt /\ multiply_cholesky_inverse r b <> Ok tt) /\
  (exists b, forall exps, exists e, register_matrix_functions exps true false [b] = Raise e).
Proof.
  split; [|split; [|split]].
  - exists [(-1)%Q], [MSeries 0 0 1 1], (mkMR [] [] [] [(1, 1); (0, 0)]%nat), (MSeries 0 0 1 1).
    split; [reflexivity|]. split; [now left|]. discriminate.
  - exists [(-1)%Q], [MDiag], no_regs, MDiag, (2 # 1)%Q.
    split; [reflexivity|]. split; [now left|]. split; [discriminate|]. split; [|reflexivity].
    intros (e & [<-|[]] & H). discriminate.
  - exists [(-1)%Q], [MSeries 0 0 1 1]. eexists. exists (MSeries 0 0 1 1).
    split; [reflexivity|]. split; [now left|]. split; discriminate.
  - exists (MKron SUA 0 0 Dense 1 1). intro exps.
    destruct (register_matrix_functions exps true false [MKron SUA 0 0 Dense 1 1]) as [r|e] eqn:E; [|eauto].
    exfalso. destruct (sua_exps _ _ _ _ _ (MKron SUA 0 0 Dense 1 1) E (or_introl eq_refl)) as [K _]; [|discriminate].
    repeat eexists. now left.
Qed.
Print Assumptions C104_requested_functions_refuted.
