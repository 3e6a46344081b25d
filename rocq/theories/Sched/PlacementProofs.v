(** Proofs about placement, map_gather and the replica inverse update. *)
From Coq Require Import List Arith Lia Bool Reals Lra.
From Verif.Base Require Import Py ListFacts.
From Verif.Sched Require Import Model Spec.
Import ListNotations.

(** ** Round robin placement *)
Lemma rr_cov {dev B} (ds : list dev) inv_devs
    (cv cu iv iu : list (thunk dev B)) :
  ds <> [] -> length cv = length cu ->
  let '(cv', cu', iv', iu') := round_robin_thunks (Some ds) inv_devs (cv, cu, iv, iu) in
  placed ds cv cv' /\ placed ds cu cu' /\ iv' = iv.
Proof.
  intros Hne Hl. destruct ds as [|d ds]; [congruence|].
  set (full := d :: ds) in *.
  cbn [round_robin_thunks]. change (d :: ds) with full.
  assert (Hd : forall i, exists x, nth_error full (i mod length full) = Some x).
  { intros i. destruct (nth_error full (i mod length full)) eqn:E; eauto.
    apply nth_error_None in E.
    pose proof (Nat.mod_upper_bound i (length full) ltac:(unfold full; simpl; lia)). lia. }
  repeat split.
  - rewrite map_length, length_zip_cycle_gen, length_zip by exact Hne. etransitivity; [|apply Nat.min_id]. f_equal; auto.
  - intros i t Ht. destruct (Hd i) as [x Hx].
    assert (exists u, nth_error cu i = Some u) as [u Hu].
    { destruct (nth_error cu i) eqn:E; eauto. apply nth_error_None in E.
      assert (i < length cv) by (apply nth_error_Some; congruence). lia. }
    exists x, (make_thunk_on_device t x). split; [exact Hx|]. split; [|reflexivity].
    rewrite nth_error_map, nth_error_zip_cycle, nth_error_zip by exact Hne. fold full. rewrite Ht, Hu, Hx.
    reflexivity.
  - rewrite map_length, length_zip_cycle_gen, length_zip by exact Hne. etransitivity; [|apply Nat.min_id]. f_equal; auto.
  - intros i u Hu. destruct (Hd i) as [x Hx].
    assert (exists t, nth_error cv i = Some t) as [t Ht].
    { destruct (nth_error cv i) eqn:E; eauto. apply nth_error_None in E.
      assert (i < length cu) by (apply nth_error_Some; congruence). lia. }
    exists x, (make_thunk_on_device u x). split; [exact Hx|]. split; [|reflexivity].
    rewrite nth_error_map, nth_error_zip_cycle, nth_error_zip by exact Hne. fold full. rewrite Ht, Hu, Hx.
    reflexivity.
Qed.

Lemma rr_inv {dev B} (ds : list dev) cov_devs
    (cv cu iv iu : list (thunk dev B)) :
  ds <> [] ->
  let '(cv', cu', iv', iu') := round_robin_thunks cov_devs (Some ds) (cv, cu, iv, iu) in
  placed ds iu iu' /\ iv' = iv.
Proof.
  intros Hne. destruct ds as [|d ds]; [congruence|].
  set (full := d :: ds) in *.
  cbn [round_robin_thunks]. change (d :: ds) with full.
  assert (Hd : forall i, exists x, nth_error full (i mod length full) = Some x).
  { intros i. destruct (nth_error full (i mod length full)) eqn:E; eauto.
    apply nth_error_None in E.
    pose proof (Nat.mod_upper_bound i (length full) ltac:(unfold full; simpl; lia)). lia. }
  assert (placed full iu
     (map (fun x : thunk dev B * dev => make_thunk_on_device (fst x) (snd x))
          (zip_cycle full full iu))) as HP.
  { split.
    - rewrite map_length, length_zip_cycle_gen by exact Hne. reflexivity.
    - intros i t Ht. destruct (Hd i) as [x Hx].
      exists x, (make_thunk_on_device t x). split; [exact Hx|]. split; [|reflexivity].
      rewrite nth_error_map, nth_error_zip_cycle by exact Hne. fold full. rewrite Ht, Hx. reflexivity. }
  destruct cov_devs as [[|c cs]|]; cbn; split; auto.
Qed.

Lemma rr_none {dev B} (devs1 devs2 : option (list dev)) (cv cu iv iu : list (thunk dev B)) :
  (devs1 = None \/ devs1 = Some []) -> (devs2 = None \/ devs2 = Some []) ->
  round_robin_thunks devs1 devs2 (cv, cu, iv, iu) = (cv, cu, iv, iu).
Proof. intros [->| ->] [->| ->]; reflexivity. Qed.

Lemma place_trans_some {dev B} (ds : list dev) ctx (ts : list (thunk dev B)) :
  ds <> [] ->
  length (place_transformation_thunks (Some ds) ctx ts) = length ts /\
  forall i t, nth_error ts i = Some t ->
    exists d, nth_error ds (i mod length ds) = Some d /\
      nth_error (place_transformation_thunks (Some ds) ctx ts) i = Some (t (Some d)).
Proof.
  intros Hne. destruct ds as [|d ds]; [congruence|].
  set (full := d :: ds) in *.
  assert (E : place_transformation_thunks (Some full) ctx ts =
    map (fun td : thunk dev B * dev => fst td (Some (snd td))) (zip_cycle full full ts))
    by reflexivity.
  rewrite E. clear E.
  split.
  - rewrite map_length, length_zip_cycle_gen by exact Hne. reflexivity.
  - intros i t Ht.
    assert (exists x, nth_error full (i mod length full) = Some x) as [x Hx].
    { destruct (nth_error full (i mod length full)) eqn:E; eauto.
      apply nth_error_None in E.
      pose proof (Nat.mod_upper_bound i (length full) ltac:(unfold full; simpl; lia)). lia. }
    exists x. split; [exact Hx|].
    rewrite nth_error_map, nth_error_zip_cycle by exact Hne. fold full. rewrite Ht, Hx. reflexivity.
Qed.

Lemma place_trans_none {dev B} (devs : option (list dev)) ctx (ts : list (thunk dev B)) :
  devs = None \/ devs = Some [] ->
  place_transformation_thunks devs ctx ts = map (fun t => t ctx) ts.
Proof. intros [->| ->]; reflexivity. Qed.

Lemma load_balanced n k j1 j2 :
  j1 < k -> j2 < k -> within 1 (load n k j1) (load n k j2).
Proof.
  intros H1 H2. unfold load, within.
  pose proof (count_residue_window k j1 0 n H1).
  pose proof (count_residue_window k j2 0 n H2). lia.
Qed.

(** ** Sums with a single non-zero term *)
Lemma map2_zeros_l (y : tensor) n :
  length y = n -> map2 Rplus (repeat 0%R n) y = y.
Proof.
  revert n; induction y as [|b y IH]; intros [|n] H; simpl in *; try discriminate; auto.
  rewrite Rplus_0_l, IH by lia. reflexivity.
Qed.
Lemma map2_zeros_r (y : tensor) n :
  length y = n -> map2 Rplus y (repeat 0%R n) = y.
Proof.
  revert n; induction y as [|b y IH]; intros [|n] H; simpl in *; try discriminate; auto.
  rewrite Rplus_0_r, IH by lia. reflexivity.
Qed.
Lemma map_const_repeat {A B} (b : B) (l : list A) : map (fun _ => b) l = repeat b (length l).
Proof. induction l; simpl; congruence. Qed.

Definition zeros_of (sh : list nat) : structure := map (repeat 0%R) sh.
Lemma zeros_like_of x : zeros_like x = zeros_of (shapes x).
Proof.
  unfold zeros_like, zeros_of, shapes. rewrite map_map. apply map_ext. intros a.
  apply map_const_repeat.
Qed.
Lemma shapes_zeros sh : shapes (zeros_of sh) = sh.
Proof.
  unfold shapes, zeros_of. rewrite map_map. rewrite <- (map_id sh) at 2. apply map_ext.
  intros a; apply repeat_length.
Qed.
Lemma structure_add_zero_r x : structure_add x (zeros_of (shapes x)) = x.
Proof.
  induction x as [|a x IH]; simpl; auto. unfold structure_add in *; simpl.
  unfold tensor_add at 1. rewrite map2_zeros_r by reflexivity. f_equal. exact IH.
Qed.
Lemma structure_add_zero_l x : structure_add (zeros_of (shapes x)) x = x.
Proof.
  induction x as [|a x IH]; simpl; auto. unfold structure_add in *; simpl.
  unfold tensor_add at 1. rewrite map2_zeros_l by reflexivity. f_equal. exact IH.
Qed.

Lemma cross_sum_single (v : nat -> structure) sh k n :
  (forall r, shapes (v r) = sh) -> 0 < n ->
  cross_sum (fun r => if Nat.eqb r k then v r else zeros_like (v r)) n =
  if Nat.ltb k n then v k else zeros_of sh.
Proof.
  intros Hs. set (x := fun r => if Nat.eqb r k then v r else zeros_like (v r)).
  induction n as [|n IH]; intros Hn; [lia|].
  destruct n as [|n].
  - simpl. unfold x. destruct k; simpl; auto. rewrite zeros_like_of, Hs. reflexivity.
  - change (cross_sum x (S (S n))) with (structure_add (cross_sum x (S n)) (x (S n))).
    rewrite IH by lia. unfold x at 1.
    destruct (Nat.eqb_spec (S n) k) as [E|E].
    + subst k. rewrite (proj2 (Nat.ltb_ge (S n) (S n))) by lia.
      rewrite (proj2 (Nat.ltb_lt (S n) (S (S n)))) by lia.
      rewrite <- (Hs (S n)). apply structure_add_zero_l.
    + rewrite zeros_like_of, Hs.
      destruct (Nat.ltb_spec k (S n)).
      * rewrite (proj2 (Nat.ltb_lt k (S (S n)))) by lia.
        rewrite <- (Hs k). apply structure_add_zero_r.
      * rewrite (proj2 (Nat.ltb_ge k (S (S n)))) by lia.
        rewrite <- (shapes_zeros sh) at 2. apply structure_add_zero_r.
Qed.

(** ** map_gather *)
Lemma map_gather_single c thunks r :
  num_replicas c <= 1 -> map_gather c thunks r = map (fun t => t r) thunks.
Proof. intros H. unfold map_gather. rewrite (proj2 (Nat.leb_le _ _)) by lia. reflexivity. Qed.

Lemma map_gather_tpu n thunks r :
  2 <= n ->
  (forall t r1 r2, In t thunks -> shapes (t r1) = shapes (t r2)) ->
  length (map_gather (TpuReplicated n) thunks r) = length thunks /\
  forall i t, nth_error thunks i = Some t ->
    nth_error (map_gather (TpuReplicated n) thunks r) i = Some (t (i mod n)).
Proof.
  intros Hn Hs. unfold map_gather. cbn [num_replicas].
  rewrite (proj2 (Nat.leb_gt _ _)) by lia.
  split; [rewrite map_length; apply length_enumerate_from|].
  intros i t Ht. rewrite nth_error_map, nth_error_enumerate, Ht. cbn [option_map fst snd].
  f_equal. unfold all_sum. cbn [num_replicas]. rewrite (proj2 (Nat.leb_gt _ _)) by lia.
  rewrite (cross_sum_single t (shapes (t 0)) (i mod n) n).
  - rewrite (proj2 (Nat.ltb_lt _ _)); [reflexivity|]. apply Nat.mod_upper_bound. lia.
  - intros r'. apply Hs. eapply nth_error_In; eauto.
  - lia.
Qed.

Lemma map_gather_pure c (vals : list structure) r :
  map_gather c (map (fun v _ => v) vals) r = vals.
Proof.
  destruct (Nat.leb_spec (num_replicas c) 1) as [H|H].
  - rewrite map_gather_single by lia. rewrite map_map. apply map_id.
  - destruct c as [|n|n]; cbn [num_replicas] in H; try lia.
    + destruct (map_gather_tpu n (map (fun v _ => v) vals) r) as [Hl Hi]; [lia| |].
      { intros t r1 r2 Ht. apply in_map_iff in Ht as (v & <- & _). reflexivity. }
      rewrite map_length in Hl.
      apply nth_error_list_eq. intros i.
      destruct (nth_error vals i) as [v|] eqn:E.
      * rewrite (Hi i (fun _ => v)) by (rewrite nth_error_map, E; reflexivity). reflexivity.
      * apply nth_error_None. apply nth_error_None in E. lia.
    + unfold map_gather. cbn [num_replicas]. rewrite (proj2 (Nat.leb_gt _ _)) by lia.
      rewrite map_map. apply map_id.
Qed.

Lemma runs_thunk_tpu n i r : 2 <= n ->
  runs_thunk (TpuReplicated n) i r = true <-> r = i mod n.
Proof.
  intros Hn. unfold runs_thunk. cbn [num_replicas]. rewrite (proj2 (Nat.leb_gt _ _)) by lia.
  apply Nat.eqb_eq.
Qed.

(** ** all_sum / all_average agree on all replicas and are the entrywise sum *)
Lemma nth_map2 {A B C} (f : A -> B -> C) l m i a b :
  nth_error l i = Some a -> nth_error m i = Some b -> nth_error (map2 f l m) i = Some (f a b).
Proof.
  revert m i; induction l as [|x l IH]; intros [|y m] [|i]; simpl; intros H1 H2; try discriminate.
  - congruence.
  - apply IH; auto.
Qed.

Lemma shapes_add x y sh : shapes x = sh -> shapes y = sh -> shapes (structure_add x y) = sh.
Proof.
  revert y sh; induction x as [|a x IH]; intros [|b y] sh Hx Hy; simpl in *; subst; try discriminate; auto.
  injection Hy as H1 H2. unfold structure_add; simpl. f_equal.
  - unfold tensor_add. clear IH. revert b H1; induction a as [|u a IHa]; intros [|w b] H; simpl in *; try discriminate; auto.
  - apply IH; auto.
Qed.

Lemma entry_add x y j i a b :
  entry x j i = Some a -> entry y j i = Some b -> entry (structure_add x y) j i = Some (a + b)%R.
Proof.
  unfold entry, structure_add.
  destruct (nth_error x j) as [tx|] eqn:Ex; [|discriminate].
  destruct (nth_error y j) as [ty|] eqn:Ey; [|discriminate].
  intros H1 H2. rewrite (nth_map2 _ _ _ _ _ _ Ex Ey).
  apply nth_map2; auto.
Qed.

Lemma cross_sum_entry (x : nat -> structure) (f : nat -> R) j i n :
  (forall r, r < S n -> entry (x r) j i = Some (f r)) ->
  entry (cross_sum x (S n)) j i = Some (sum_f_R0 f n).
Proof.
  induction n as [|n IH]; intros H.
  - simpl. apply H. lia.
  - change (cross_sum x (S (S n))) with (structure_add (cross_sum x (S n)) (x (S n))).
    simpl sum_f_R0. apply entry_add; [apply IH; intros; apply H; lia|apply H; lia].
Qed.

Lemma all_sum_entry c x (f : nat -> R) j i r :
  2 <= num_replicas c ->
  (forall r, r < num_replicas c -> entry (x r) j i = Some (f r)) ->
  entry (all_sum c x r) j i = Some (sum_f_R0 f (num_replicas c - 1)).
Proof.
  intros Hn H. unfold all_sum. rewrite (proj2 (Nat.leb_gt _ _)) by lia.
  replace (num_replicas c) with (S (num_replicas c - 1)) at 1 by lia.
  apply cross_sum_entry. intros r' Hr. apply H. lia.
Qed.

Lemma all_average_entry c x (f : nat -> R) j i r :
  2 <= num_replicas c ->
  (forall r, r < num_replicas c -> entry (x r) j i = Some (f r)) ->
  entry (all_average c x r) j i =
  Some (sum_f_R0 f (num_replicas c - 1) / INR (num_replicas c))%R.
Proof.
  intros Hn H.
  pose proof (all_sum_entry c x f j i r Hn H) as E. unfold all_sum, all_average in *.
  rewrite (proj2 (Nat.leb_gt _ _)) in * by lia.
  unfold entry in *. rewrite nth_error_map.
  destruct (nth_error (cross_sum x (num_replicas c)) j) as [t|]; [|discriminate].
  cbn [option_map]. rewrite nth_error_map, E. reflexivity.
Qed.

(** ** Replica inverse update *)
Lemma fold_upd_in (g : nat -> tensor) vs s v :
  fold_left (fun s v => upd s v (g v)) vs s v = if existsb (Nat.eqb v) vs then g v else s v.
Proof.
  revert s; induction vs as [|w vs IH]; intros s; simpl; auto.
  rewrite IH. unfold upd. destruct (Nat.eqb_spec v w) as [->|]; simpl; auto.
  destruct (existsb (Nat.eqb w) vs); auto.
Qed.

Lemma run_inv_update_eq f s v :
  run_inv_update f s v =
  if existsb (Nat.eqb v) (rf_written f) then rf_compute f v else s v.
Proof. apply fold_upd_in. Qed.

Lemma existsb_In v l : existsb (Nat.eqb v) l = true <-> In v l.
Proof.
  rewrite existsb_exists. split.
  - intros (x & Hx & E). apply Nat.eqb_eq in E. congruence.
  - intros H. exists v. split; auto. apply Nat.eqb_refl.
Qed.

(** A sequence of (optional) updates: the value at [v] is the one of the unique
    factor owning it, if that factor is in the sequence. *)
Lemma fold_updates_owned (A : Type) (own : A -> list nat) (g : A -> nat -> tensor)
      (step : rvars -> A -> rvars) (l : list A) s v :
  (forall s a v, step s a v = if existsb (Nat.eqb v) (own a) then g a v else s v) ->
  (forall a b, In a l -> In b l -> In v (own a) -> In v (own b) -> g a v = g b v) ->
  (forall a, In a l -> In v (own a) -> fold_left step l s v = g a v) /\
  ((forall a, In a l -> ~ In v (own a)) -> fold_left step l s v = s v).
Proof.
  intros Hstep. revert s. induction l as [|a l IH]; intros s Hag; split.
  - contradiction.
  - reflexivity.
  - intros b [->|Hb] Hv; cbn [fold_left].
    + destruct (IH (step s b)) as [H1 H2]; [intros; apply Hag; simpl; auto|].
      destruct (existsb (fun a => existsb (Nat.eqb v) (own a)) l) eqn:E.
      * apply existsb_exists in E as (a' & Ha' & E). apply existsb_In in E.
        rewrite (H1 a' Ha' E). apply Hag; simpl; auto.
      * rewrite H2.
        -- rewrite Hstep. rewrite (proj2 (existsb_In v (own b)) Hv). reflexivity.
        -- intros a' Ha' Hc.
           assert (existsb (fun a => existsb (Nat.eqb v) (own a)) l = true); [|congruence].
           apply existsb_exists. exists a'. split; auto. apply existsb_In; auto.
    + apply (IH (step s a)); auto. intros; apply Hag; simpl; auto.
  - intros Hn. cbn [fold_left].
    destruct (IH (step s a)) as [H1 H2]; [intros; apply Hag; simpl; auto|].
    rewrite H2 by (intros; apply Hn; simpl; auto).
    rewrite Hstep.
    destruct (existsb (Nat.eqb v) (own a)) eqn:E; auto.
    apply existsb_In in E. exfalso. apply (Hn a); simpl; auto.
Qed.

Lemma fold_left_ext_in {A B} (f g : A -> B -> A) l :
  (forall a b, In b l -> f a b = g a b) -> forall a, fold_left f l a = fold_left g l a.
Proof.
  induction l as [|b l IH]; intros H a; simpl; auto.
  rewrite H by (simpl; auto). apply IH. intros; apply H; simpl; auto.
Qed.

Lemma inv_thunk_value f st r :
  incl (rf_exposed f) (rf_written f) -> inv_thunk f st r = map (rf_compute f) (rf_exposed f).
Proof.
  intros H. unfold inv_thunk. apply map_ext_in. intros v Hv.
  rewrite run_inv_update_eq. rewrite (proj2 (existsb_In v _)); auto.
Qed.

Lemma gathered_values c kept st r :
  (forall f, In f kept -> incl (rf_exposed f) (rf_written f)) ->
  map_gather c (map (fun f => inv_thunk f st) kept) r =
  map (fun f => map (rf_compute f) (rf_exposed f)) kept.
Proof.
  intros H.
  destruct (Nat.leb_spec (num_replicas c) 1) as [Hc|Hc].
  - rewrite map_gather_single by lia. rewrite map_map. apply map_ext_in.
    intros f Hf. apply inv_thunk_value; auto.
  - destruct c as [|n|n]; cbn [num_replicas] in Hc; try lia.
    + destruct (map_gather_tpu n (map (fun f => inv_thunk f st) kept) r) as [Hl Hi]; [lia| |].
      { intros t r1 r2 Ht. apply in_map_iff in Ht as (f & <- & Hf).
        rewrite !inv_thunk_value by auto. reflexivity. }
      rewrite map_length in Hl.
      apply nth_error_list_eq. intros i. rewrite nth_error_map.
      destruct (nth_error kept i) as [f|] eqn:E; cbn [option_map].
      * rewrite (Hi i (inv_thunk f st)) by (rewrite nth_error_map, E; reflexivity).
        f_equal. apply inv_thunk_value. apply H. eapply nth_error_In; eauto.
      * apply nth_error_None. apply nth_error_None in E. lia.
    + unfold map_gather. cbn [num_replicas]. rewrite (proj2 (Nat.leb_gt _ _)) by lia.
      rewrite map_map. apply map_ext_in. intros f Hf. apply inv_thunk_value; auto.
Qed.

Lemma fold_zip_map {A B C} (g : A -> B) (step : C -> A * B -> C) l s :
  fold_left step (zip l (map g l)) s = fold_left (fun s a => step s (a, g a)) l s.
Proof. revert s; induction l; simpl; auto. Qed.

Lemma replica_inv_update_correct c factors st :
  (exists f, In f factors /\ rf_exposed f <> []) ->
  (forall f, In f factors -> forall v, In v (rf_written f) <-> In v (rf_exposed f)) ->
  (forall f g v, In f factors -> In g factors ->
     In v (rf_written f) -> In v (rf_written g) -> f = g) ->
  exists st', replica_inv_update c factors st = Ok st' /\
    forall r v, st' r v = plain_inv_update factors (st r) v.
Proof.
  intros [f0 [Hf0 Hne0]] Heq Hdis.
  unfold replica_inv_update. set (kept := filter has_inv_vars factors).
  assert (Hk : forall f, In f kept <-> In f factors /\ rf_exposed f <> []).
  { intros f. unfold kept. rewrite filter_In. unfold has_inv_vars.
    destruct (rf_exposed f); split; intros [? ?]; split; auto; congruence. }
  destruct kept as [|k0 ks] eqn:Ek.
  { exfalso. apply (proj2 (Hk f0)). auto. }
  eexists. split; [reflexivity|]. intros r v. cbn beta.
  rewrite gathered_values by (intros f Hf v' Hv'; apply Heq; auto; apply Hk; auto).
  rewrite fold_zip_map. cbn [fst snd].
  set (local := fold_left _ (enumerate (k0 :: ks)) (st r)).
  set (l := k0 :: ks) in *.
  set (step1 := fun (s : rvars) (f : rfactor) =>
     fold_left (fun s vv => upd s (fst vv) (snd vv))
       (zip (rf_exposed f) (map (rf_compute f) (rf_exposed f))) s).
  change (fold_left step1 l local v = plain_inv_update factors (st r) v).
  destruct (fold_updates_owned _ rf_exposed rf_compute step1 l local v) as [H1 H2].
  { intros s a w. unfold step1. rewrite fold_zip_map. cbn [fst snd]. apply fold_upd_in. }
  { intros a b Ha Hb Hva Hvb. rewrite (Hdis a b v); auto; try apply Hk; auto.
    - apply Heq; [apply Hk|]; auto.
    - apply Heq; [apply Hk|]; auto. }
  unfold plain_inv_update.
  destruct (fold_updates_owned _ rf_written rf_compute
              (fun s f => run_inv_update f s) factors (st r) v) as [H3 H4].
  { intros. apply run_inv_update_eq. }
  { intros a b Ha Hb Hva Hvb. rewrite (Hdis a b v); auto. }
  destruct (existsb (fun f => existsb (Nat.eqb v) (rf_written f)) factors) eqn:E.
  - apply existsb_exists in E as (f & Hf & E). apply existsb_In in E.
    rewrite (H3 f Hf E).
    apply Heq in E; auto. apply H1; auto. apply Hk. split; auto. intros Hn; rewrite Hn in E; contradiction.
  - assert (Hno : forall f, In f factors -> ~ In v (rf_written f)).
    { intros f Hf Hc.
      assert (existsb (fun f => existsb (Nat.eqb v) (rf_written f)) factors = true); [|congruence].
      apply existsb_exists. exists f. split; auto. apply existsb_In; auto. }
    rewrite H4 by exact Hno.
    rewrite H2.
    + unfold local.
      destruct (fold_updates_owned (nat * rfactor)
                  (fun it => if runs_thunk c (fst it) r then rf_written (snd it) else [])
                  (fun it => rf_compute (snd it))
                  (fun s it => if runs_thunk c (fst it) r then run_inv_update (snd it) s else s)
                  (enumerate l) (st r) v) as [_ H6].
      * intros s a w. destruct (runs_thunk c (fst a) r); [apply run_inv_update_eq|reflexivity].
      * intros [i1 f1] [i2 f2] Ha Hb; cbn [fst snd].
        destruct (runs_thunk c i1 r); [|contradiction].
        destruct (runs_thunk c i2 r); [|contradiction].
        assert (forall i f, In (i, f) (enumerate l) -> In f factors) as Hin.
        { intros i f Hi. apply In_nth_error in Hi as [j Hj].
          rewrite nth_error_enumerate in Hj. destruct (nth_error l j) eqn:Ej; [|discriminate].
          injection Hj as -> ->. apply Hk. eapply nth_error_In; eauto. }
        intros Hv1 Hv2. rewrite (Hdis f1 f2 v); eauto.
      * rewrite H6; [reflexivity|]. intros [i f] Hi; cbn [fst snd].
        destruct (runs_thunk c i r); [|auto].
        apply Hno. apply In_nth_error in Hi as [j Hj].
        rewrite nth_error_enumerate in Hj. destruct (nth_error l j) eqn:Ej; [|discriminate].
        injection Hj as -> ->. apply Hk. eapply nth_error_In; eauto.
    + intros f Hf Hc. apply Hk in Hf as [Hf _]. apply (Hno f Hf). apply Heq; auto.
Qed.

Lemma replica_inv_update_raises c factors st :
  replica_inv_update c factors st = Raise ValueError <->
  (forall f, In f factors -> rf_exposed f = []).
Proof.
  unfold replica_inv_update. split.
  - intros H f Hf. destruct (rf_exposed f) as [|v vs] eqn:E; auto. exfalso.
    destruct (filter has_inv_vars factors) eqn:Ef; [|discriminate].
    assert (In f (filter has_inv_vars factors)) as Hin.
    { apply filter_In. split; auto. unfold has_inv_vars. rewrite E. reflexivity. }
    rewrite Ef in Hin. contradiction.
  - intros H. destruct (filter has_inv_vars factors) as [|f l] eqn:Ef; auto.
    assert (In f (filter has_inv_vars factors)) as Hin by (rewrite Ef; simpl; auto).
    apply filter_In in Hin as [Hf Hb]. unfold has_inv_vars in Hb.
    rewrite (H f Hf) in Hb. discriminate.
Qed.

(** The SUA factor: writes the inverse covariance (variable 1) and the hidden
    quantities (variable 2), exposes only variable 1. *)
Definition ex_dense : rfactor := mkRF [0] [0] (fun _ => [3%R]).
Definition ex_sua : rfactor := mkRF [1; 2] [1] (fun v => [INR v + 5]%R).

Lemma replica_inv_update_sua :
  exists st', replica_inv_update (TpuReplicated 2) [ex_dense; ex_sua] (fun _ _ => [0%R]) = Ok st' /\
    st' 1 2 = [7%R] /\ st' 0 2 = [0%R].
Proof.
  eexists. split; [reflexivity|]. split; cbn.
  - unfold upd; cbn. f_equal. lra.
  - unfold upd; cbn. reflexivity.
Qed.

Lemma replica_inv_update_refuted :
  exists (factors : list rfactor) (st st' : nat -> nat -> list R) (v : nat),
    replica_inv_update (TpuReplicated 2) factors st = Ok st' /\
    (exists f, In f factors /\ In v (rf_written f)) /\
    st' 0 v <> st' 1 v /\ st' 0 v <> plain_inv_update factors (st 0) v.
Proof.
  destruct replica_inv_update_sua as (st' & E & H1 & H0).
  exists [ex_dense; ex_sua], (fun _ _ => [0%R]), st', 2.
  split; [exact E|]. split; [exists ex_sua; simpl; auto|].
  rewrite H1, H0. split.
  - intros H. injection H. lra.
  - cbn. unfold upd; cbn. intros H. injection H. lra.
Qed.

Lemma runs_thunk_balanced n m r1 r2 :
  2 <= n -> r1 < n -> r2 < n ->
  within 1 (countb (fun i => runs_thunk (TpuReplicated n) i r1) (seq 0 m))
           (countb (fun i => runs_thunk (TpuReplicated n) i r2) (seq 0 m)).
Proof.
  intros Hn H1 H2.
  assert (E : forall r, countb (fun i => runs_thunk (TpuReplicated n) i r) (seq 0 m) = load m n r).
  { intros r. unfold load. apply countb_ext. intros i _. unfold runs_thunk. cbn [num_replicas].
    rewrite (proj2 (Nat.leb_gt _ _)) by lia. apply Nat.eqb_sym. }
  rewrite !E. apply load_balanced; auto.
Qed.
