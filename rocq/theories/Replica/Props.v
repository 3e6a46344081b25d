(** Properties C95-C98: training on several replicas. *)
From Coq Require Import List Arith Bool Reals Lia Lra FunctionalExtensionality.
From Verif.Base Require Import Py.
From Verif.Tensors Require Import Model.
From Verif.Train Require Import Model.
From Verif.Replica Require Import Model Spec CommProofs StepProofs TrainProofs EquivProofs SyncProofs PlainProofs.
Import ListNotations.
Open Scope list_scope.
Open Scope R_scope.

(** A concrete context is one of [n] replicas. *)
Ltac in_context :=
  repeat split; simpl; try lia; try (intros m [H|H]; now inversion H); try (intros; discriminate).

(* ------------------------------------------------------------------------ *)
(** * C95  Averages over replicas *)

(** When the code runs in [n] replicas that can communicate, every replica gets, entry by entry,
    the average (the sum) of what the replicas passed. *)
Theorem C95_average_over_replicas : forall k xs,
  replicated k (length xs) -> same_shape xs ->
  length (all_average k xs) = length xs /\ length (all_sum k xs) = length xs /\
  (forall y x, In y (all_average k xs) -> In x xs -> map (@length R) y = map (@length R) x) /\
  (forall y i j, In y (all_average k xs) -> entry y i j = average (map (fun x => entry x i j) xs)) /\
  (forall y i j, In y (all_sum k xs) -> entry y i j = rsum (map (fun x => entry x i j) xs)).
Proof.
  intros k xs Hk Hs. rewrite all_average_replicated, all_sum_replicated by exact Hk.
  rewrite !repeat_length. split; [reflexivity|]. split; [reflexivity|]. split; [|split].
  - intros y x Hy Hx. apply repeat_spec in Hy. subst y. unfold mean. rewrite shape_sprod.
    now apply shape_total.
  - intros y i j Hy. apply repeat_spec in Hy. subst y. now apply entry_mean.
  - intros y i j Hy. apply repeat_spec in Hy. subst y. now apply entry_total.
Qed.
Print Assumptions C95_average_over_replicas.

(** Three kinds of contexts with two replicas that can communicate *)
Example C95_contexts :
  replicated (mkRctx (Some (Mirrored, 2%nat)) true None None) 2 /\
  replicated (mkRctx None false (Some 2%nat) None) 2 /\
  replicated (mkRctx None false None (Some 2%nat)) 2 /\
  same_shape [[[1; 2]; [3]]; [[5; 6]; [7]]].
Proof.
  repeat split; simpl; try lia; try (intros m [H|H]; now inversion H); try (intros; discriminate).
  intros x y [<-|[<-|[]]] [<-|[<-|[]]]; reflexivity.
Qed.

(** Inside a TF-Replicator its replicas are the ones that count, whatever else there is around. *)
Theorem C95_replicator_decides : forall k xs,
  replicator k = Some (length xs) -> (1 <= length xs)%nat -> same_shape xs ->
  (forall y i j, In y (all_average k xs) -> entry y i j = average (map (fun x => entry x i j) xs)) /\
  (forall y i j, In y (all_sum k xs) -> entry y i j = rsum (map (fun x => entry x i j) xs)).
Proof.
  intros k xs Hk H1 Hs.
  assert (H : replicated (mkRctx None true (replicator k) None) (length xs)).
  { repeat split; simpl; [lia| |congruence]. intros m [H|H]; congruence. }
  destruct (C95_average_over_replicas _ xs H Hs) as (_ & _ & _ & E).
  unfold all_average, all_sum, get_num_replicas, replica_context, has_strategy in *. simpl in E. rewrite Hk in *.
  simpl in *. rewrite !andb_false_r in *. exact E.
Qed.
Print Assumptions C95_replicator_decides.

Example C95_replicator_within_strategy :
  replicator (mkRctx (Some (Mirrored, 4%nat)) true (Some 2%nat) (Some 8%nat)) = Some (length [[[1]]; [[2]]]).
Proof. reflexivity. Qed.

(** "If not operating in a supported replicated context this function acts like the identity":
    not so for all_average.  In the scope of a strategy but outside of its replicas it divides
    by the number of replicas without having summed anything. *)
Theorem C95_identity_elsewhere_refuted : exists k x,
  cross_replica k /\ all_sum k [x] = [x] /\ all_average k [x] <> [x].
Proof.
  exists (mkRctx (Some (TPUStrategy, 2%nat)) false None None), [[1]].
  assert (Hc : cross_replica (mkRctx (Some (TPUStrategy, 2%nat)) false None None)) by (repeat split).
  split; [exact Hc|]. split; [reflexivity|].
  rewrite (cross_replica_average _ _ Hc) by (cbn; lia). simpl. intro H. injection H as H.
  apply (f_equal (Rmult (1 + 1))) in H. field_simplify in H. lra.
Qed.
Print Assumptions C95_identity_elsewhere_refuted.

(** What does hold: with one replica or without any replication both are the identity; across
    replicas all_sum is the identity and all_average divides by the number of replicas. *)
Theorem C95_identity_elsewhere_partial : forall k xs,
  (replicated k 1 -> all_average k xs = xs /\ all_sum k xs = xs) /\
  (cross_replica k -> all_sum k xs = xs) /\
  (forall s n, cross_replica k -> strategy k = Some (s, n) -> (1 <= n)%nat ->
     forall r i j, (r < length xs)%nat ->
       entry (nth r (all_average k xs) []) i j = entry (nth r xs []) i j / INR n).
Proof.
  intros k xs. split; [intro H; apply one_replica; now rewrite (replicated_num k 1 H)|].
  split; [apply cross_replica_sum|]. intros s n Hc Hs Hn r i j Hr.
  assert (E : get_num_replicas k = n).
  { destruct Hc as (_ & _ & Hr' & _). unfold get_num_replicas. now rewrite Hr', Hs. }
  rewrite cross_replica_average by (rewrite ?E; assumption). rewrite E.
  rewrite (nth_indep _ [] (sprod (/ INR n) [])) by now rewrite map_length.
  rewrite map_nth, entry_sprod. unfold Rdiv. apply Rmult_comm.
Qed.
Print Assumptions C95_identity_elsewhere_partial.

Example C95_cross_replica_reached :
  cross_replica (mkRctx (Some (OtherStrategy, 4%nat)) false None None) /\
  replicated (mkRctx None true None None) 1.
Proof. repeat split; cbn; auto. intros m [H|H]; discriminate. Qed.

(* ------------------------------------------------------------------------ *)
(** * C96  Replicas with equal shares do what one device does with all the data *)

Lemma not_mirrored_syncs k : ~ mirrored k -> syncs k = false.
Proof.
  intro H. unfold syncs, has_kind. destruct (strategy k) as [[[| |] m]|] eqn:E; try apply andb_false_r.
  exfalso. apply H. now exists m.
Qed.

Theorem C96_like_one_device : forall (Ex I : Type) (pb : problem Ex I) k n B p is_ q,
  replicated k n -> ~ mirrored k -> (1 <= B)%nat ->
  (forall i, In i is_ -> split_evenly n B i) ->
  train_r k (with_batch_size B p) (replica_env pb) (repeat q n) is_
  = on_each n (train (with_batch_size (n * B) p) (device_env pb) q (map merged is_)).
Proof.
  intros Ex I pb k n B p is_ q Hk Hm HB Hi. pose proof (not_mirrored_syncs k Hm) as Hs.
  apply (train_same k n B Hk HB Ex I pb (@concat Ex)); [now rewrite Hs|exact Hi|].
  unfold construct_r, syncs in *. now rewrite andb_assoc, Hs.
Qed.
Print Assumptions C96_like_one_device.

(** Fitting a constant to numbers by least squares, with the squared residual as the only
    statistic *)
Definition fit : problem R unit :=
  mkProblem [0%nat] (fun _ => 1%nat)
    (fun th x => (nth 0 (th 0%nat) 0 - x) ^ 2)
    (fun th x _ _ => 2 * (nth 0 (th 0%nat) 0 - x))
    1 (fun th x _ _ => (nth 0 (th 0%nat) 0 - x) ^ 2) (fun s => s)
    1 (fun _ => 1%nat) (fun _ _ _ us _ => nth 0 (nth 0 us []) 0)
    (fun cov d => [[match cov with m :: _ => m_var m tt + d | [] => d end]])
    (fun inv g => map (fun gv => (vscale (/ nth 0 (nth 0 inv []) 0) (fst gv), snd gv)) g)
    (fun _ _ _ g => g).
Definition fit_cfg : pcfg :=
  mkP (mkCfg Regular (1/10) (9/10) None false 0 None 1 false false true true 1 5 0 0 (3/4) (1/4) true)
      1 1 0 (1/2).
Definition fit_start : pst unit structure := initial (fun _ => [0]) 1 1 [[0]].
Definition fit_data : list (rinput (list R)) :=
  [mkRin [([1; 2], [0; 0]); ([3; 4], [0; 0])] true; mkRin [([5; 6], [1; 2]); ([7; 8], [3; 4])] false].

Example C96_nontrivial :
  replicated (mkRctx (Some (TPUStrategy, 2%nat)) true None None) 2 /\
  ~ mirrored (mkRctx (Some (TPUStrategy, 2%nat)) true None None) /\
  (forall i, In i fit_data -> split_evenly 2 2 i) /\
  (exists q, train (with_batch_size 4 fit_cfg) (device_env fit) fit_start (map merged fit_data) = Ok q) /\
  merged (hd (mkRin [] true) fit_data) = mkIn [[1; 2]; [3; 4]] [[0; 0]; [0; 0]] true.
Proof.
  split; [in_context|]. split; [intros [m H]; discriminate|]. split.
  - intros i [<-|[<-|[]]]; (split; [reflexivity|]); intros b [<-|[<-|[]]]; split; reflexivity.
  - split; [apply plain_train; repeat split|reflexivity].
Qed.

(* ------------------------------------------------------------------------ *)
(** * C97  Replicas stay in step *)

(** Whatever the replicas compute from their own data, if they start with the same variables
    and have gradients for the same variables, they hold the same variables after every step. *)
Theorem C97_replicas_stay_equal : forall (Batch I : Type) (e : renv Batch I) vars k n p is_ q qs,
  replicated k n ->
  (forall th b, map snd (e_grads (r_env e) th b) = vars) ->
  (forall i, In i is_ -> length (ri_batches i) = n) ->
  train_r k p e (repeat q n) is_ = Ok qs ->
  length qs = n /\ (forall q1 q2, In q1 qs -> In q2 qs -> q1 = q2).
Proof.
  intros Batch I e vars k n p is_ q qs Hk Hv Hi Hr.
  destruct (train_sync k n Hk Batch I e vars Hv p is_ q Hi qs Hr) as [q' ->].
  split; [apply repeat_length|]. intros q1 q2 H1 H2. apply repeat_spec in H1. apply repeat_spec in H2. now subst.
Qed.
Print Assumptions C97_replicas_stay_equal.

(** Replicas with different data and even different numbers of examples *)
Example C97_nontrivial :
  replicated (mkRctx (Some (Mirrored, 2%nat)) true None None) 2 /\
  (forall th b, map snd (e_grads (r_env (replica_env fit)) th b) = [0%nat]) /\
  exists qs, train_r (mkRctx (Some (Mirrored, 2%nat)) true None None) fit_cfg (replica_env fit)
               (repeat fit_start 2) [mkRin [([1; 2; 3], []); ([4], [])] true] = Ok qs.
Proof. split; [in_context|]. split; [reflexivity|]. apply plain_train_r; repeat split. Qed.

(* ------------------------------------------------------------------------ *)
(** * C98  MirroredStrategy *)

Definition two_mirrors : rctx := mkRctx (Some (Mirrored, 2%nat)) true None None.

Lemma mirrored_syncs k n : replicated k n -> mirrored k -> syncs k = true.
Proof.
  intros (_ & _ & Hs & _) [m Hm]. unfold syncs, replica_context, has_strategy, has_kind. rewrite Hm in *.
  destruct Hs as [_ ->]. reflexivity.
Qed.

(** The statistics that enter the curvature estimate are the first replica's only; everything
    else is as on one device with all the data. *)
Theorem C98_mirrored_like_one_device_partial : forall (Ex I : Type) (pb : problem Ex I) k n B p is_ q,
  replicated k n -> mirrored k -> (1 <= B)%nat ->
  construct_r k (with_batch_size B p) = Ok tt ->
  (forall i, In i is_ -> split_evenly n B i) ->
  train_r k (with_batch_size B p) (replica_env pb) (repeat q n) is_
  = on_each n (train (with_batch_size (n * B) p) (first_stats_env pb) q (map merged is_)).
Proof.
  intros Ex I pb k n B p is_ q Hk Hm HB Hc Hi.
  apply (train_same k n B Hk HB Ex I pb (hd [])); auto. now rewrite (mirrored_syncs k n Hk Hm).
Qed.
Print Assumptions C98_mirrored_like_one_device_partial.

Definition statistic (q : pst unit structure) : R :=
  match o_cov q with m :: _ => m_var m tt | [] => 0 end.

Theorem C98_mirrored_like_one_device_refuted :
  exists (pb : problem R unit) n B p is_ q,
  replicated two_mirrors n /\ mirrored two_mirrors /\ (1 <= B)%nat /\
  construct_r two_mirrors (with_batch_size B p) = Ok tt /\
  (forall i, In i is_ -> split_evenly n B i) /\
  train_r two_mirrors (with_batch_size B p) (replica_env pb) (repeat q n) is_
  <> on_each n (train (with_batch_size (n * B) p) (device_env pb) q (map merged is_)).
Proof.
  exists fit, 2%nat, 1%nat, fit_cfg, [mkRin [([0], [0]); ([1], [0])] true], fit_start.
  assert (Hk : replicated two_mirrors 2) by in_context.
  assert (Hm : mirrored two_mirrors) by (now exists 2%nat).
  assert (Hi : forall i, In i [mkRin [([0], [0]); ([1], [0])] true] -> split_evenly 2 1 i).
  { intros i [<-|[]]. split; [reflexivity|]. intros b [<-|[<-|[]]]; split; reflexivity. }
  split; [exact Hk|]. split; [exact Hm|]. split; [lia|]. split; [reflexivity|]. split; [exact Hi|].
  rewrite C98_mirrored_like_one_device_partial; [|exact Hk|exact Hm|lia|reflexivity|exact Hi].
  assert (Hp : plain (with_batch_size (2 * 1) fit_cfg)) by repeat split.
  cbn [map train].
  destruct (plain_step _ (first_stats_env fit) fit_start (merged (mkRin [([0], [0]); ([1], [0])] true)) Hp)
    as (q1 & -> & H1).
  destruct (plain_step _ (device_env fit) fit_start (merged (mkRin [([0], [0]); ([1], [0])] true)) Hp)
    as (q2 & -> & H2).
  cbn [bind on_each repeat]. intro H. injection H as ->.
  assert (E : statistic q2 = statistic q2) by reflexivity. unfold statistic in E.
  rewrite H1 in E at 1. rewrite H2 in E.
  cbn [e_stats first_stats_env device_env env_of i_batch merged ri_batches map fst hd concat app seq
       pb_factors pb_stat pb_finish fit cov_update zip o_cov initial fit_start repeat mav_step mav_init m_var
       o_st s_params nth p_ema with_batch_size fit_cfg] in E.
  unfold avg, average in E. cbn [map rsum fold_right length INR] in E. cbn [snd] in E. field_simplify in E. lra.
Qed.
Print Assumptions C98_mirrored_like_one_device_refuted.

(** Burn-in is refused there, and only there. *)
Theorem C98_burnin_refused : forall k p,
  construct_r k p = Raise ValueError <->
  (mirrored k /\ in_replica k = true /\ (0 < p_burnin p)%nat).
Proof.
  intros k p. unfold construct_r, replica_context, has_strategy, has_kind, mirrored.
  destruct (strategy k) as [[[| |] m]|]; destruct (in_replica k); cbn [is_some andb];
    destruct (Nat.ltb_spec 0 (p_burnin p)) as [H|H]; cbn [andb]; split; intro E; try discriminate E;
    try (destruct E as ((m' & E1) & E2 & E3); try discriminate; try lia; reflexivity).
  split; [now exists m|]. split; [reflexivity|exact H].
Qed.
Print Assumptions C98_burnin_refused.

Example C98_nontrivial :
  construct_r two_mirrors fit_cfg = Ok tt /\
  construct_r two_mirrors (mkP (p_cfg fit_cfg) 1 1 3 (1/2)) = Raise ValueError.
Proof. split; reflexivity. Qed.
