(** The communication helpers. *)
From Coq Require Import List Arith Bool Reals Lia Lra FunctionalExtensionality.
From Verif.Base Require Import Py.
From Verif.Tensors Require Import Model.
From Verif.Train Require Import Model.
From Verif.Replica Require Import Model Spec.
Import ListNotations.
Open Scope list_scope.
Open Scope R_scope.

(** * Lists *)

Lemma map2_repeat {A B C} (f : A -> B -> C) x y n :
  map2 f (repeat x n) (repeat y n) = repeat (f x y) n.
Proof. induction n as [|n IH]; [reflexivity|]. unfold map2 in *; simpl. now rewrite IH. Qed.

Lemma map_repeat {A B} (f : A -> B) x n : map f (repeat x n) = repeat (f x) n.
Proof. induction n as [|n IH]; [reflexivity|]. simpl. now rewrite IH. Qed.

Lemma zip_repeat {A B} (x : A) (y : B) n : zip (repeat x n) (repeat y n) = repeat (x, y) n.
Proof. induction n as [|n IH]; [reflexivity|]. simpl. now rewrite IH. Qed.

Lemma map_const {A B} (l : list A) (b : B) : map (fun _ => b) l = repeat b (length l).
Proof. induction l as [|a l IH]; [reflexivity|]. simpl. now rewrite IH. Qed.

Lemma map2_length {A B C} (f : A -> B -> C) l m : length l = length m -> length (map2 f l m) = length l.
Proof.
  unfold map2. rewrite map_length. revert m. induction l as [|a l IH]; intros [|b m] H; try discriminate.
  - reflexivity.
  - simpl in *. injection H as H. now rewrite IH.
Qed.

Lemma zip_length_eq {A B} (l : list A) (m : list B) : length l = length m -> length (zip l m) = length l.
Proof.
  revert m. induction l as [|a l IH]; intros [|b m] H; try discriminate; [reflexivity|].
  simpl in *. injection H as H. now rewrite IH.
Qed.

(** One of the two lists is constant. *)
Lemma map2_repeat_r {A B C} (f : A -> B -> C) l y :
  map2 f l (repeat y (length l)) = map (fun a => f a y) l.
Proof.
  unfold map2. induction l as [|a l IH]; [reflexivity|]. simpl. now rewrite IH.
Qed.
Lemma map2_repeat_l {A B C} (f : A -> B -> C) x m :
  map2 f (repeat x (length m)) m = map (f x) m.
Proof.
  unfold map2. induction m as [|a l IH]; [reflexivity|]. simpl. now rewrite IH.
Qed.

Lemma map_all_eq {A B} (f : A -> B) l b :
  (forall a, In a l -> f a = b) -> map f l = repeat b (length l).
Proof.
  induction l as [|a l IH]; intros H; [reflexivity|]. simpl. rewrite (H a) by now left.
  rewrite IH; [reflexivity|]. intros a' Ha. apply H. now right.
Qed.

Lemma zip_fst_snd {A B} (l : list (A * B)) : zip (map fst l) (map snd l) = l.
Proof. induction l as [|[a b] l IH]; [reflexivity|]. simpl. now rewrite IH. Qed.

Lemma nth_repeat_lt {A} (x d : A) n j : (j < n)%nat -> nth j (repeat x n) d = x.
Proof.
  revert j. induction n as [|n IH]; intros j H; [lia|]. destruct j as [|j]; [reflexivity|].
  simpl. apply IH. lia.
Qed.

(** * Sums *)

Lemma rsum_app l m : rsum (l ++ m) = rsum l + rsum m.
Proof. induction l as [|a l IH]; simpl; [lra|]. rewrite IH. lra. Qed.

Lemma rsum_repeat x n : rsum (repeat x n) = INR n * x.
Proof.
  induction n as [|n IH]; [simpl; lra|].
  cbn [repeat rsum fold_right]. fold (rsum (repeat x n)). rewrite IH, S_INR. lra.
Qed.

Lemma rsum_scale a l : rsum (map (Rmult a) l) = a * rsum l.
Proof. induction l as [|b l IH]; simpl; [lra|]. rewrite IH. lra. Qed.

Lemma vscale_vscale a b v : vscale a (vscale b v) = vscale (a * b) v.
Proof. unfold vscale. rewrite map_map. apply map_ext. intro x. lra. Qed.
Lemma vscale_1 v : vscale 1 v = v.
Proof. unfold vscale. rewrite <- (map_id v) at 2. apply map_ext. intro x. lra. Qed.
Lemma vadd_vscale a v : vadd v (vscale a v) = vscale (1 + a) v.
Proof.
  unfold vadd, vscale. induction v as [|x v IH]; [reflexivity|]. simpl. rewrite IH. f_equal. lra.
Qed.
Lemma sprod_1 x : sprod 1 x = x.
Proof. unfold sprod. rewrite <- (map_id x) at 2. apply map_ext. exact vscale_1. Qed.
Lemma sprod_sprod a b x : sprod a (sprod b x) = sprod (a * b) x.
Proof. unfold sprod. rewrite map_map. apply map_ext. intro v. apply vscale_vscale. Qed.
Lemma add_sprod a x : map2 vadd x (sprod a x) = sprod (1 + a) x.
Proof.
  unfold map2, sprod. induction x as [|v x IH]; [reflexivity|]. simpl. rewrite IH, vadd_vscale.
  reflexivity.
Qed.

Lemma total_repeat x n : (1 <= n)%nat -> total (repeat x n) = sprod (INR n) x.
Proof.
  destruct n as [|n]; [lia|]. intros _. induction n as [|n IH].
  - simpl. now rewrite sprod_1.
  - change (total (repeat x (S (S n)))) with (map2 vadd x (total (repeat x (S n)))).
    rewrite IH, add_sprod. f_equal. rewrite (S_INR (S n)). lra.
Qed.

Lemma INR_pos n : (1 <= n)%nat -> INR n <> 0.
Proof. intro H. apply not_0_INR. lia. Qed.

Lemma mean_repeat x n : (1 <= n)%nat -> mean (repeat x n) = x.
Proof.
  intro H. unfold mean. rewrite repeat_length, total_repeat, sprod_sprod, Rinv_l, sprod_1; auto.
  now apply INR_pos.
Qed.

Lemma average_repeat x n : (1 <= n)%nat -> average (repeat x n) = x.
Proof.
  intro H. unfold average. rewrite rsum_repeat, repeat_length. field. now apply INR_pos.
Qed.

(** * Reductions of arbitrary structures of one shape, entry by entry *)

Lemma shape_cons a x : same_shape (a :: x) -> same_shape x.
Proof. intros H y z Hy Hz. apply H; now right. Qed.

Lemma shape_total xs x : In x xs -> same_shape xs -> map (@length R) (total xs) = map (@length R) x.
Proof.
  revert x. induction xs as [|y xs IH]; intros x Hx Hs; [destruct Hx|].
  destruct xs as [|z xs].
  - simpl. apply Hs; [now left|assumption].
  - change (total (y :: z :: xs)) with (map2 vadd y (total (z :: xs))).
    assert (Hz : map (@length R) (total (z :: xs)) = map (@length R) y).
    { rewrite (IH z); [|now left|now apply (shape_cons y)]. apply Hs; [right; now left|now left]. }
    transitivity (map (@length R) y); [|apply Hs; [now left|assumption]].
    remember (total (z :: xs)) as t. clear - Hz. unfold map2. revert t Hz.
    induction y as [|v y IHy]; intros [|w t] Hz; try discriminate; [reflexivity|].
    simpl in *. injection Hz as Hl Hz. rewrite IHy by assumption. f_equal.
    unfold vadd. rewrite map_length. apply zip_length_eq. now symmetry.
Qed.

Lemma nth_vadd v w j : length v = length w -> nth j (vadd v w) 0 = nth j v 0 + nth j w 0.
Proof.
  unfold vadd. revert w j. induction v as [|x v IH]; intros [|y w] j H; try discriminate.
  - simpl. destruct j; lra.
  - simpl in *. injection H as H. destruct j; [reflexivity|]. now apply IH.
Qed.

Lemma entry_add x y i j :
  map (@length R) x = map (@length R) y -> entry (map2 vadd x y) i j = entry x i j + entry y i j.
Proof.
  unfold entry, map2. revert y i. induction x as [|v x IH]; intros [|w y] i H; try discriminate.
  - simpl. destruct i; destruct j; simpl; lra.
  - simpl in H. injection H as Hl H. destruct i; simpl; [now apply nth_vadd|now apply IH].
Qed.

Lemma entry_total xs i j :
  same_shape xs -> entry (total xs) i j = rsum (map (fun x => entry x i j) xs).
Proof.
  induction xs as [|x xs IH]; intro Hs; [unfold entry; simpl; destruct i, j; reflexivity|].
  destruct xs as [|y xs]; [simpl; lra|].
  change (total (x :: y :: xs)) with (map2 vadd x (total (y :: xs))).
  rewrite entry_add, IH.
  - reflexivity.
  - now apply (shape_cons x).
  - rewrite (shape_total (y :: xs) y); [|now left|now apply (shape_cons x)].
    apply Hs; [now left|right; now left].
Qed.

Lemma entry_sprod a x i j : entry (sprod a x) i j = a * entry x i j.
Proof.
  unfold entry, sprod. revert i. induction x as [|v x IH]; intro i.
  - destruct i, j; simpl; lra.
  - destruct i; simpl; [|apply IH]. unfold vscale. clear. revert j.
    induction v as [|y v IH]; intros [|j]; simpl; try lra. apply IH.
Qed.

Lemma entry_mean xs i j :
  same_shape xs -> entry (mean xs) i j = average (map (fun x => entry x i j) xs).
Proof.
  intro Hs. unfold mean, average. rewrite entry_sprod, entry_total, map_length by assumption.
  unfold Rdiv. apply Rmult_comm.
Qed.

Lemma shape_sprod a x : map (@length R) (sprod a x) = map (@length R) x.
Proof. unfold sprod, vscale. rewrite map_map. apply map_ext. intro v. apply map_length. Qed.

(** * The helpers in each kind of context *)

Lemma replicated_num k n : replicated k n -> get_num_replicas k = n.
Proof.
  intros (H1 & Ha & Hs & Hnone). unfold get_num_replicas.
  destruct (replicator k) as [m|]; [apply Ha; now left|].
  destruct (strategy k) as [[kd m]|]; [apply Hs|].
  destruct (shards k) as [[|m]|]; [|apply Ha; now right|symmetry; now apply Hnone].
  assert (0 = n)%nat by (apply Ha; now right). lia.
Qed.

Lemma communicates k n :
  replicated k n -> (1 < n)%nat -> is_some (replicator k) || replica_context k || is_tpu_replicated k = true.
Proof.
  intros (_ & _ & Hs & Hnone) H1. unfold replica_context, has_strategy, is_tpu_replicated, replica_context, has_strategy.
  destruct (replicator k); [reflexivity|]. destruct (strategy k) as [[kd m]|].
  - destruct Hs as [_ Hi]. rewrite Hi. reflexivity.
  - destruct (shards k) as [s|]; [simpl; now rewrite ?orb_true_r|]. specialize (Hnone eq_refl eq_refl eq_refl). lia.
Qed.

Lemma all_sum_replicated k xs :
  replicated k (length xs) -> all_sum k xs = repeat (total xs) (length xs).
Proof.
  intro H. pose proof H as (H1 & _). pose proof (replicated_num _ _ H) as Hn. unfold all_sum. rewrite Hn.
  destruct (Nat.leb_spec (length xs) 1) as [Hle|Hlt].
  - destruct xs as [|x [|y xs]]; simpl in *; try lia. reflexivity.
  - pose proof (communicates _ _ H Hlt) as Hc. rewrite map_const.
    destruct (is_some (replicator k)); [reflexivity|]. destruct (replica_context k); [reflexivity|].
    simpl in Hc. now rewrite Hc.
Qed.

Lemma all_average_replicated k xs :
  replicated k (length xs) -> all_average k xs = repeat (mean xs) (length xs).
Proof.
  intro H. pose proof H as (H1 & _). pose proof (replicated_num _ _ H) as Hn. unfold all_average. rewrite Hn.
  destruct (Nat.leb_spec (length xs) 1) as [Hle|Hlt].
  - destruct xs as [|x [|y xs]]; simpl in *; try lia. unfold mean. simpl.
    rewrite Rinv_1, sprod_1. reflexivity.
  - rewrite map_const. destruct (replica_context k && _); [reflexivity|].
    rewrite (all_sum_replicated k xs H), map_repeat. reflexivity.
Qed.

Lemma total_scalars l : l <> [] -> total (map (fun x => [[x]]) l) = [[rsum l]].
Proof.
  induction l as [|x l IH]; intro H; [now destruct H|]. destruct l as [|y l].
  - simpl. do 2 f_equal. lra.
  - change (total (map (fun x => [[x]]) (x :: y :: l)))
      with (map2 vadd [[x]] (total (map (fun x => [[x]]) (y :: l)))).
    rewrite IH by discriminate. reflexivity.
Qed.

Lemma mean_scalars l : l <> [] -> mean (map (fun x => [[x]]) l) = [[average l]].
Proof.
  intro H. unfold mean. rewrite total_scalars, map_length by assumption. unfold average, sprod, vscale.
  simpl. do 2 f_equal. unfold Rdiv. apply Rmult_comm.
Qed.

Lemma replicated_pos k n : replicated k n -> (1 <= n)%nat.
Proof. now intros [H _]. Qed.

Lemma all_average1_replicated k l :
  replicated k (length l) -> all_average1 k l = repeat (average l) (length l).
Proof.
  intro H. pose proof (replicated_pos _ _ H) as Hp. unfold all_average1.
  rewrite all_average_replicated by now rewrite map_length.
  rewrite map_length, map_repeat, mean_scalars; [reflexivity|]. destruct l; [simpl in Hp; lia|discriminate].
Qed.

Lemma all_average_at_replicated {I} k (fs : list (I -> R)) :
  replicated k (length fs) ->
  all_average_at k fs = repeat (fun i => average (map (fun f => f i) fs)) (length fs).
Proof.
  intro H. unfold all_average_at.
  rewrite (map_all_eq _ _ (fun i => average (map (fun f => f i) fs))).
  - now rewrite seq_length.
  - intros j Hj. apply functional_extensionality. intro i.
    rewrite all_average1_replicated by now rewrite map_length.
    rewrite nth_repeat_lt; [reflexivity|]. apply in_seq in Hj. rewrite map_length. lia.
Qed.

Lemma sync_repeat k x n : (1 <= n)%nat -> sync k (repeat x n) = repeat x n.
Proof.
  intro H. unfold sync. destruct (syncs k); [|reflexivity].
  now rewrite map_const, repeat_length, mean_repeat.
Qed.
Lemma sync1_repeat k x n : (1 <= n)%nat -> sync1 k (repeat x n) = repeat x n.
Proof. intro H. unfold sync1. now rewrite map_repeat, sync_repeat, map_repeat. Qed.
Lemma sync_vec_repeat k x n : (1 <= n)%nat -> sync_vec k (repeat x n) = repeat x n.
Proof. intro H. unfold sync_vec. now rewrite map_repeat, sync_repeat, map_repeat. Qed.
Lemma sync_at_repeat {I} k (f : I -> R) n : (1 <= n)%nat -> sync_at k (repeat f n) = repeat f n.
Proof.
  intro H. unfold sync_at. rewrite repeat_length.
  rewrite (map_all_eq _ _ f); [now rewrite seq_length|].
  intros j Hj. apply functional_extensionality. intro i.
  rewrite map_repeat, sync1_repeat, nth_repeat_lt; auto. apply in_seq in Hj. lia.
Qed.

Lemma emean_repeat e n : (1 <= n)%nat -> emean (repeat e n) = e.
Proof.
  intro H. unfold emean. rewrite repeat_length. destruct n as [|n]; [lia|]. clear H.
  destruct e as [a| | |].
  - assert (Hs : forall m, fold_right eadd (Fin 0) (repeat (Fin a) m) = Fin (INR m * a)).
    { induction m as [|m IH]; [simpl; f_equal; lra|]. cbn [repeat fold_right]. rewrite IH, S_INR. simpl.
      f_equal. lra. }
    rewrite Hs. f_equal. field. apply INR_pos. lia.
  - assert (Hs : forall m, fold_right eadd (Fin 0) (repeat PInf (S m)) = PInf).
    { induction m as [|m IH]; [reflexivity|]. change (eadd PInf (fold_right eadd (Fin 0) (repeat PInf (S m))) = PInf).
      now rewrite IH. }
    now rewrite Hs.
  - assert (Hs : forall m, fold_right eadd (Fin 0) (repeat NInf (S m)) = NInf).
    { induction m as [|m IH]; [reflexivity|]. change (eadd NInf (fold_right eadd (Fin 0) (repeat NInf (S m))) = NInf).
      now rewrite IH. }
    now rewrite Hs.
  - reflexivity.
Qed.
Lemma sync_ext_repeat k e n : (1 <= n)%nat -> sync_ext k (repeat e n) = repeat e n.
Proof.
  intro H. unfold sync_ext. destruct (syncs k); [|reflexivity].
  now rewrite map_const, repeat_length, emean_repeat.
Qed.

(** Outside of the supported contexts *)
Lemma cross_replica_sum k xs : cross_replica k -> all_sum k xs = xs.
Proof.
  intros (Hs & Hi & Hr & Ht). unfold all_sum, replica_context, is_tpu_replicated, replica_context.
  rewrite Hr, Ht, Hi, andb_false_r. simpl. destruct (Nat.leb _ 1); reflexivity.
Qed.
Lemma cross_replica_average k xs :
  cross_replica k -> (1 <= get_num_replicas k)%nat ->
  all_average k xs = map (sprod (/ INR (get_num_replicas k))) xs.
Proof.
  intros H Hn. unfold all_average. rewrite (cross_replica_sum k xs H).
  destruct H as (Hs & Hi & Hr & Ht). unfold replica_context. rewrite Hi, andb_false_r. simpl.
  destruct (Nat.leb_spec (get_num_replicas k) 1) as [H1|H1]; [|reflexivity].
  replace (get_num_replicas k) with 1%nat by lia. simpl. rewrite Rinv_1.
  rewrite <- (map_id xs) at 1. apply map_ext. intro x. symmetry. apply sprod_1.
Qed.

(** Without replicas *)
Lemma one_replica k xs : (get_num_replicas k <= 1)%nat -> all_average k xs = xs /\ all_sum k xs = xs.
Proof.
  intro H. unfold all_average, all_sum.
  destruct (Nat.leb_spec (get_num_replicas k) 1) as [_|H']; [split; reflexivity|lia].
Qed.
