From Coq Require Import String List Arith ZArith Bool Reals Lra Lia.
From Flocq Require Import Core Relative.
From Verif.Base Require Import Py.
From Verif.Examples Require Import Model.
Import ListNotations.
Open Scope list_scope.
Open Scope Z_scope.

Notation fexp := (FLT_exp (-1074) 53).

Instance prec53 : Prec_gt_0 53. Proof. unfold Prec_gt_0. lia. Qed.

Lemma fl_mono x y : (x <= y)%R -> (fl x <= fl y)%R.
Proof. apply round_le; typeclasses eauto. Qed.

Lemma fl_eighth m : Z.abs m < 2 ^ 53 -> fl (IZR m / 8) = (IZR m / 8)%R.
Proof.
  intros H. apply round_generic; [typeclasses eauto|]. apply generic_format_FLT.
  exists (Float radix2 m (-3)).
  - unfold F2R. cbn [Fnum Fexp bpow]. change (Z.pow_pos radix2 3) with 8. reflexivity.
  - exact H.
  - cbn. lia.
Qed.

Lemma fl_int m : Z.abs m < 2 ^ 50 -> fl (IZR m) = IZR m.
Proof.
  intros H. replace (IZR m) with (IZR (8 * m) / 8)%R by (rewrite mult_IZR; lra).
  apply fl_eighth. lia.
Qed.

(** The literal is the nearest float: less than half a unit in the last place away. *)
Lemma lit_value : (IZR 6 / IZR 10 - lit06 = / 5 * / IZR (2 ^ 53))%R.
Proof.
  unfold lit06. assert (IZR (2 ^ 53) <> 0)%R by (apply IZR_neq; lia).
  assert (E : (IZR (2 ^ 53) = 9007199254740992)%R) by reflexivity. rewrite E. lra.
Qed.

Lemma pow53 : (IZR (2 ^ 53) = 9007199254740992)%R.
Proof. reflexivity. Qed.

Lemma lt_sixty n id : 3 <= n < 2 ^ 50 -> 0 <= id ->
  ((IZR id < sixty_percent n)%R <-> 5 * id < 3 * n).
Proof.
  intros [N1 N2] I. unfold sixty_percent. rewrite fl_int by lia.
  assert (P : (0 < IZR n)%R) by (apply IZR_lt; lia).
  assert (N2' : (IZR n < 1125899906842624)%R) by (apply (IZR_lt n (2 ^ 50)); exact N2).
  pose proof pow53 as E53.
  split; intros H.
  - destruct (Z_lt_le_dec (5 * id) (3 * n)) as [L|L]; [exact L|exfalso].
    assert (L' : (3 * IZR n <= 5 * IZR id)%R) by (rewrite <- !mult_IZR; apply IZR_le; exact L).
    assert (X : (lit06 * IZR n <= IZR id)%R) by (unfold lit06; rewrite E53; lra).
    destruct (Z_lt_le_dec id n) as [Q|Q].
    + apply fl_mono in X. rewrite (fl_int id) in X by lia. lra.
    + assert (Y : (lit06 * IZR n <= IZR n)%R) by (unfold lit06; rewrite E53; lra).
      apply fl_mono in Y. rewrite (fl_int n) in Y by lia.
      apply IZR_le in Q. lra.
  - assert (L' : (5 * IZR id + 1 <= 3 * IZR n)%R).
    { rewrite <- !mult_IZR, <- plus_IZR. apply IZR_le. lia. }
    assert (X : (IZR (8 * id + 1) / 8 <= lit06 * IZR n)%R).
    { rewrite plus_IZR, mult_IZR. unfold lit06. rewrite E53. lra. }
    apply fl_mono in X. rewrite fl_eighth in X by lia.
    rewrite plus_IZR, mult_IZR in X. lra.
Qed.

(** For any number of workers. *)
Lemma fl_upper x : (1 <= x)%R -> (fl x <= x * (1 + / 1000))%R.
Proof.
  intros H. unfold fl.
  pose proof (relative_error_N_FLT radix2 (-1074) 53 ltac:(lia) (fun z => negb (Z.even z)) x) as E.
  assert (B : (bpow radix2 (-1074 + 53 - 1) <= Rabs x)%R).
  { rewrite Rabs_right by lra. apply Rle_trans with 1%R; [|exact H].
    change 1%R with (bpow radix2 0). apply bpow_le. lia. }
  specialize (E B). rewrite (Rabs_right x) in E by lra.
  assert (S : (/ 2 * bpow radix2 (- (53) + 1) <= / 1000)%R).
  { apply Rle_trans with (/ 2 * bpow radix2 (-9))%R.
    - apply Rmult_le_compat_l; [lra|]. apply bpow_le. lia.
    - cbn. change (Z.pow_pos 2 9) with 512. lra. }
  assert (Q : (/ 2 * bpow radix2 (- (53) + 1) * x <= / 1000 * x)%R) by (apply Rmult_le_compat_r; lra).
  set (r := round radix2 fexp ZnearestE x) in *.
  pose proof (Rle_abs (r - x)) as A. unfold r in *. lra.
Qed.

Lemma sixty_bounds n : 3 <= n -> (1 <= sixty_percent n <= IZR (n - 1))%R.
Proof.
  intros H. pose proof pow53 as E53.
  assert (N : (3 <= IZR n)%R) by (apply (IZR_le 3); exact H).
  assert (L : (3 <= fl (IZR n))%R).
  { rewrite <- (fl_int 3) by lia. apply fl_mono. exact N. }
  assert (U : (fl (IZR n) <= IZR n * (1 + / 1000))%R) by (apply fl_upper; lra).
  assert (X1 : (1 <= lit06 * fl (IZR n))%R) by (unfold lit06; rewrite E53; lra).
  unfold sixty_percent. split.
  - rewrite <- (fl_int 1) by lia. apply fl_mono. exact X1.
  - apply Rle_trans with (1 := fl_upper _ X1).
    assert (lit06 * fl (IZR n) <= 61 / 100 * IZR n)%R.
    { unfold lit06. rewrite E53. lra. }
    rewrite minus_IZR. lra.
Qed.

Lemma ceil_sixty n : 3 <= n -> 1 <= Zceil (sixty_percent n) <= n - 1.
Proof.
  intros H. destruct (sixty_bounds n H) as [L U]. split.
  - apply le_IZR. apply Rle_trans with (1 := L). apply Zceil_ub.
  - apply Zceil_glb. exact U.
Qed.

Lemma lt_ceil t id : (IZR id < t)%R <-> id < Zceil t.
Proof.
  split; intros H.
  - apply lt_IZR. apply Rlt_le_trans with (1 := H). apply Zceil_ub.
  - apply Rnot_le_lt. intros L. apply Zceil_glb in L. lia.
Qed.

Lemma gradient_iff n id : 3 <= n ->
  is_gradient_task id n = true <-> 0 <= id < Zceil (sixty_percent n).
Proof.
  intros H. unfold is_gradient_task. destruct (Z.ltb_spec n 3); [lia|].
  rewrite andb_true_iff, Z.leb_le.
  destruct (Rlt_bool_spec (IZR id) (sixty_percent n)) as [L|L].
  - apply lt_ceil in L. split; [|split; [tauto|reflexivity]]. tauto.
  - split; [intros [_ E]; discriminate E|]. intros [_ E]. apply lt_ceil in E. lra.
Qed.

Lemma cov_iff n id : 3 <= n ->
  is_cov_update_task id n = true <-> Zceil (sixty_percent n) <= id < n - 1.
Proof.
  intros H. unfold is_cov_update_task. destruct (Z.ltb_spec n 3); [lia|].
  rewrite andb_true_iff, Z.ltb_lt.
  destruct (Rle_bool_spec (sixty_percent n) (IZR id)) as [L|L].
  - apply Zceil_glb in L. split; [|split; [reflexivity|tauto]]. tauto.
  - split; [intros [E _]; discriminate E|]. intros [E _]. apply lt_ceil in L. lia.
Qed.

Lemma inv_iff n id : 3 <= n -> is_inv_update_task id n = true <-> id = n - 1.
Proof.
  intros H. unfold is_inv_update_task. destruct (Z.ltb_spec n 3); [lia|]. apply Z.eqb_eq.
Qed.

Definition b2n (b : bool) : nat := if b then 1%nat else 0%nat.

Lemma one_role n id : 0 <= id < n ->
  (b2n (is_gradient_task id n) + b2n (is_cov_update_task id n) + b2n (is_inv_update_task id n) = 1)%nat /\
  choose_op id n = Ok (if is_gradient_task id n then TrainOp
                       else if is_cov_update_task id n then CovUpdateOp else NextInvOp).
Proof.
  intros H. destruct (Z_lt_le_dec n 3) as [S|S].
  - unfold choose_op, is_gradient_task, is_cov_update_task, is_inv_update_task.
    destruct (Z.ltb_spec n 3); [|lia]. split; reflexivity.
  - pose proof (ceil_sixty n S). pose proof (gradient_iff n id S) as G.
    pose proof (cov_iff n id S) as C. pose proof (inv_iff n id S) as I.
    unfold choose_op.
    destruct (is_gradient_task id n), (is_cov_update_task id n), (is_inv_update_task id n);
      try (split; reflexivity); exfalso;
      repeat match goal with
      | K : true = true <-> ?P |- _ => assert P by (apply K; reflexivity); clear K
      | K : false = true <-> ?P |- _ => assert (~ P) by (intros Q; apply K in Q; discriminate Q); clear K
      end; lia.
Qed.

Lemma count_below k n : (k <= n)%nat ->
  length (filter (fun id => Z.of_nat id <? Z.of_nat k) (seq 0 n)) = k.
Proof.
  intros H. replace n with (k + (n - k))%nat by lia. rewrite seq_app, filter_app, app_length.
  assert (A : forall m a, (a + m <= k)%nat ->
     length (filter (fun id => Z.of_nat id <? Z.of_nat k) (seq a m)) = m).
  { induction m as [|m IH]; intros a L; [reflexivity|]. cbn [seq filter].
    destruct (Z.ltb_spec (Z.of_nat a) (Z.of_nat k)); [|lia]. cbn [length]. rewrite IH; lia. }
  assert (B : forall m a, (k <= a)%nat ->
     length (filter (fun id => Z.of_nat id <? Z.of_nat k) (seq a m)) = 0%nat).
  { induction m as [|m IH]; intros a L; [reflexivity|]. cbn [seq filter].
    destruct (Z.ltb_spec (Z.of_nat a) (Z.of_nat k)); [lia|]. apply IH. lia. }
  rewrite A, B; lia.
Qed.

Lemma gradient_count (n : nat) :
  Z.of_nat (length (filter (fun id => is_gradient_task (Z.of_nat id) (Z.of_nat n)) (seq 0 n)))
  = replicas_to_aggregate (make_distributed_train_op (Z.of_nat n)).
Proof.
  unfold make_distributed_train_op, num_gradient_tasks. cbn [replicas_to_aggregate].
  destruct (Z.ltb_spec (Z.of_nat n) 3) as [S|S].
  - unfold is_gradient_task. apply Z.ltb_lt in S. rewrite S.
    assert (E : filter (fun _ : nat => true) (seq 0 n) = seq 0 n).
    { generalize (seq 0 n). induction l as [|a l IH]; [reflexivity|]. cbn. f_equal. exact IH. }
    rewrite E, seq_length. reflexivity.
  - pose proof (ceil_sixty _ S) as B. set (k := Zceil (sixty_percent (Z.of_nat n))) in *.
    assert (E : filter (fun id => is_gradient_task (Z.of_nat id) (Z.of_nat n)) (seq 0 n)
                = filter (fun id => Z.of_nat id <? Z.of_nat (Z.to_nat k)) (seq 0 n)).
    { apply filter_ext. intros id. apply eq_true_iff_eq. rewrite gradient_iff by exact S.
      rewrite Z.ltb_lt. fold k. lia. }
    rewrite E, count_below by lia. lia.
Qed.

Lemma ceil_value n : 3 <= n < 2 ^ 50 -> Zceil (sixty_percent n) = (3 * n + 4) / 5.
Proof.
  intros H. pose proof (ceil_sixty n (proj1 H)).
  pose proof (Z.div_mod (3 * n + 4) 5). pose proof (Z.mod_pos_bound (3 * n + 4) 5).
  set (k := (3 * n + 4) / 5) in *.
  assert (A : k - 1 < Zceil (sixty_percent n)).
  { apply lt_ceil. apply lt_sixty; [exact H|lia|lia]. }
  assert (B : ~ k < Zceil (sixty_percent n)).
  { intros L. apply lt_ceil in L. apply lt_sixty in L; [lia|exact H|lia]. }
  lia.
Qed.

Lemma roles_exact n id : 3 <= n < 2 ^ 50 -> 0 <= id < n ->
  (choose_op id n = Ok TrainOp <-> 5 * id < 3 * n) /\
  (choose_op id n = Ok CovUpdateOp <-> 3 * n <= 5 * id /\ id < n - 1) /\
  (choose_op id n = Ok NextInvOp <-> id = n - 1) /\
  replicas_to_aggregate (make_distributed_train_op n) = (3 * n + 4) / 5.
Proof.
  intros H I. destruct (one_role n id I) as [_ E]. rewrite E.
  pose proof (gradient_iff n id (proj1 H)) as G. pose proof (cov_iff n id (proj1 H)) as C.
  rewrite ceil_value in G, C by exact H.
  pose proof (Z.div_mod (3 * n + 4) 5). pose proof (Z.mod_pos_bound (3 * n + 4) 5).
  set (k := (3 * n + 4) / 5) in *.
  split; [|split; [|split]]; try (split; intros X; destruct (is_gradient_task id n), (is_cov_update_task id n);
    try discriminate X; try reflexivity;
    repeat match goal with
      | K : true = true <-> ?P |- _ => assert P by (apply K; reflexivity); clear K
      | K : false = true <-> ?P |- _ => assert (~ P) by (intros Q; apply K in Q; discriminate Q); clear K
      end; lia).
  unfold make_distributed_train_op, num_gradient_tasks. cbn [replicas_to_aggregate].
  destruct (Z.ltb_spec n 3); [lia|]. apply ceil_value. exact H.
Qed.

Lemma out_of_range n id : 3 <= n <= id -> choose_op id n = Raise ValueError.
Proof.
  intros H. assert (S : 3 <= n) by lia. pose proof (ceil_sixty n S).
  pose proof (gradient_iff n id S) as G. pose proof (cov_iff n id S) as C. pose proof (inv_iff n id S) as I.
  unfold choose_op.
  destruct (is_gradient_task id n), (is_cov_update_task id n), (is_inv_update_task id n);
    try reflexivity; exfalso;
    repeat match goal with
    | K : true = true <-> ?P |- _ => assert P by (apply K; reflexivity); clear K
    | K : false = true <-> ?P |- _ => assert (~ P) by (intros Q; apply K in Q; discriminate Q); clear K
    end; lia.
Qed.

Lemma few_workers n id : n < 3 -> choose_op id n = Ok TrainOp.
Proof. intros H. unfold choose_op, is_gradient_task. apply Z.ltb_lt in H. rewrite H. reflexivity. Qed.

(** Statistics are updated by some worker if and only if there are at least five. *)
Lemma some_statistics n : n < 2 ^ 50 ->
  ((exists id, 0 <= id < n /\ choose_op id n = Ok CovUpdateOp) <-> 5 <= n).
Proof.
  intros U. split.
  - intros [id [I E]]. destruct (Z_lt_le_dec n 3) as [S|S].
    + rewrite few_workers in E by exact S. discriminate E.
    + apply (proj1 (proj2 (roles_exact n id (conj S U) I))) in E. lia.
  - intros L. exists (n - 2). split; [lia|].
    assert (S : 3 <= n) by lia. assert (I : 0 <= n - 2 < n) by lia.
    apply (proj1 (proj2 (roles_exact n (n - 2) (conj S U) I))). lia.
Qed.

Lemma aggregates_less n : 3 <= n ->
  replicas_to_aggregate (make_distributed_train_op n) < total_num_replicas (make_distributed_train_op n).
Proof.
  intros H. unfold make_distributed_train_op, num_gradient_tasks. cbn.
  destruct (Z.ltb_spec n 3); [lia|]. pose proof (ceil_sixty n H). lia.
Qed.
