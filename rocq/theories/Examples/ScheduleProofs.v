From Coq Require Import String List Arith ZArith Bool Reals Lra Lia.
From Flocq Require Import Core.
From Verif.Base Require Import Py.
From Verif.Sched Require Import Model Spec BatchProofs.
From Verif.Examples Require Import Model Spec.
Import ListNotations.
Open Scope list_scope.
Open Scope nat_scope.

Lemma in_effects {A} (l : list (option A)) a : In a (effects l) <-> In (Some a) l.
Proof.
  induction l as [|[x|] l IH]; cbn [effects In]; [tauto| |].
  - rewrite IH. split; intros [H|H]; auto; left; congruence.
  - rewrite IH. split; intros H; [auto|]. destruct H as [H|H]; [discriminate H|exact H].
Qed.

Lemma effects_incl {A} t b (th : list A) a : In a (effects (batch_execute t b th)) -> In a th.
Proof.
  rewrite in_effects. intros H. apply In_nth_error in H. destruct H as [j H].
  rewrite batch_execute_nth in H. destruct (nth_error th j) eqn:E; [|discriminate H].
  destruct (batch_condition _ _ _ _); [|discriminate H]. injection H as ->. eapply nth_error_In, E.
Qed.

Lemma effects_of_group t b n : exists is,
  effects (batch_execute t b (map Inv (seq 0 n))) = map Inv is /\ forall k, In k is -> k < n.
Proof.
  set (l := effects _).
  assert (H : forall e, In e l -> exists k, e = Inv k /\ k < n).
  { intros e He. apply effects_incl in He. apply in_map_iff in He. destruct He as [k [<- K]].
    apply in_seq in K. exists k. split; [reflexivity|lia]. }
  clearbody l. induction l as [|e l IH]; [exists []; split; [reflexivity|intros k []]|].
  destruct (H e (or_introl eq_refl)) as [k [-> K]].
  destruct IH as [is [-> I]]; [intros e' E; apply H; right; exact E|].
  exists (k :: is). split; [reflexivity|]. intros k' [<-|E]; auto.
Qed.

Lemma manual_order ie nc ni t : ie <> 0 -> exists l, manual_step ie nc ni t = Ok l /\
  in_order nc ni l /\ (forall k, In (Inv k) l <-> k < ni /\ Nat.modulo t ie = 0).
Proof.
  intros H. unfold manual_step. apply Nat.eqb_neq in H. rewrite H. eexists. split; [reflexivity|].
  unfold group. destruct (Nat.eqb_spec (t mod ie) 0) as [E|E].
  - split.
    + exists (seq 0 ni). split; [reflexivity|]. intros k K. apply in_seq in K. lia.
    + intros k. rewrite !in_app_iff, !in_map_iff. split.
      * intros [[x [X _]]|[[x [X I]]|[X|[]]]]; try discriminate X.
        injection X as <-. apply in_seq in I. lia.
      * intros [K _]. right. left. exists k. split; [reflexivity|]. apply in_seq. lia.
  - split.
    + exists []. split; [reflexivity|intros k []].
    + intros k. rewrite !in_app_iff, !in_map_iff. split; [|tauto].
      intros [[x [X _]]|[[]|[X|[]]]]; discriminate X.
Qed.

Lemma manual_fresh ie nc ni t k : ie <> 0 -> k < ni ->
  fresh (fun s => match manual_step ie nc ni s with Ok l => l | Raise _ => [] end) ie t k.
Proof.
  intros H K. exists (ie * (t / ie)).
  pose proof (Nat.div_mod t ie H). pose proof (Nat.mod_upper_bound t ie H).
  split; [lia|]. split; [lia|].
  destruct (manual_order ie nc ni (ie * (t / ie)) H) as [l [-> [_ I]]]. apply I. split; [exact K|].
  rewrite Nat.mul_comm. apply Nat.mod_mul. exact H.
Qed.

Lemma estimator_order nc ni t : in_order nc ni (estimator_step nc ni t).
Proof.
  unfold estimator_step, group. destruct (Nat.eqb t 0).
  - exists (seq 0 ni). split; [reflexivity|]. intros k K. apply in_seq in K. lia.
  - destruct (effects_of_group (Z.of_nat t) 1 ni) as [is [-> I]]. exists is. split; [reflexivity|exact I].
Qed.

Lemma inv_count_app l1 l2 : inverses_in (l1 ++ l2) = inverses_in l1 + inverses_in l2.
Proof. unfold inverses_in. rewrite filter_app, app_length. reflexivity. Qed.
Lemma inv_count_cov l : inverses_in (map Cov l) = 0.
Proof. unfold inverses_in. induction l as [|a l IH]; [reflexivity|exact IH]. Qed.
Lemma inv_count_inv l : inverses_in (map Inv l) = length l.
Proof. unfold inverses_in. induction l as [|a l IH]; [reflexivity|]. cbn. f_equal. exact IH. Qed.

Lemma estimator_work nc ni t :
  inverses_in (estimator_step nc ni t) = if Nat.eqb t 0 then ni else Nat.min 1 ni.
Proof.
  unfold estimator_step, group. rewrite !inv_count_app, inv_count_cov. destruct (Nat.eqb t 0).
  - rewrite inv_count_inv, seq_length. cbn. lia.
  - pose proof (batch_execute_effects_count t 1 (map Inv (seq 0 ni))) as E.
    rewrite map_length, seq_length in E. change (Z.of_nat 1) with 1%Z in E.
    destruct (effects_of_group (Z.of_nat t) 1 ni) as [is [Q _]]. rewrite Q in *.
    rewrite map_length in E. rewrite inv_count_inv, E. cbn. lia.
Qed.

Lemma estimator_fresh nc ni t k : k < ni -> fresh (estimator_step nc ni) ni t k.
Proof.
  intros K.
  assert (Z0 : In (Inv k) (estimator_step nc ni 0)).
  { unfold estimator_step, group. cbn [Nat.eqb]. rewrite !in_app_iff. right. left. apply in_map.
    apply in_seq. lia. }
  (* the last step t' <= t with t' mod ni = k *)
  assert (E : t < ni \/ exists t', 0 < t' /\ t' <= t /\ t < t' + ni /\ Nat.modulo t' ni = k).
  { destruct (Nat.lt_ge_cases t ni) as [L|G]; [left; exact L|right].
    pose proof (Nat.div_mod t ni ltac:(lia)) as D. pose proof (Nat.mod_upper_bound t ni ltac:(lia)).
    set (q := t / ni) in *. set (r := t mod ni) in *.
    assert (Q1 : 1 <= q) by (destruct q; [lia|lia]).
    destruct (Nat.le_gt_cases k r) as [L|L].
    - exists (ni * q + k). repeat split; try nia.
      rewrite Nat.add_comm, Nat.mul_comm, Nat.mod_add by lia. apply Nat.mod_small. exact K.
    - destruct q as [|q]; [lia|].
      assert (P : 0 < k) by lia.
      exists (ni * q + k). repeat split; try nia.
      rewrite Nat.add_comm, Nat.mul_comm, Nat.mod_add by lia. apply Nat.mod_small. exact K. }
  destruct E as [L|[t' [P [L [U M]]]]].
  - exists 0. split; [lia|]. split; [lia|exact Z0].
  - exists t'. split; [exact L|]. split; [exact U|]. unfold estimator_step, group.
    destruct (Nat.eqb_spec t' 0); [lia|]. rewrite !in_app_iff. right. left. rewrite in_effects.
    assert (Th : nth_error (map Inv (seq 0 ni)) k = Some (Inv k)).
    { rewrite nth_error_map, nth_error_nth' with (d := 0) by (rewrite seq_length; exact K).
      rewrite seq_nth by exact K. reflexivity. }
    destruct (batch_execute_runs_iff t' 1 (map Inv (seq 0 ni)) k (Inv k) Th) as [R _].
    apply nth_error_In with (n := k). apply R.
    rewrite map_length, seq_length. exists 0. split; [lia|]. rewrite Nat.mul_1_r, Nat.add_0_r. symmetry. exact M.
Qed.
