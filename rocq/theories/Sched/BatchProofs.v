(** Proofs about batch_execute. *)
From Coq Require Import List Arith ZArith Lia Bool Permutation.
From Verif.Base Require Import Py ListFacts.
From Verif.Sched Require Import Model Spec.
Import ListNotations.

Lemma batch_condition_spec n b t j :
  j < n ->
  batch_condition (Z.of_nat t) (Z.of_nat b) (Z.of_nat n) (Z.of_nat j) = true <->
  in_batch n b t j.
Proof.
  intros Hj. unfold batch_condition, in_batch. rewrite Z.ltb_lt.
  set (x := (Z.of_nat b - 1 + Z.of_nat t * Z.of_nat b - Z.of_nat j)%Z).
  split.
  - intros Hr.
    pose proof (Z.div_mod x (Z.of_nat n) ltac:(lia)) as Hx.
    pose proof (Z.mod_pos_bound x (Z.of_nat n) ltac:(lia)) as Hb.
    set (r := (x mod Z.of_nat n)%Z) in *. set (q := (x / Z.of_nat n)%Z) in *.
    exists (Z.to_nat (Z.of_nat b - 1 - r)). split; [lia|].
    apply Nat2Z.inj. rewrite Nat2Z.inj_mod, Nat2Z.inj_add, Nat2Z.inj_mul, Z2Nat.id by lia.
    apply Z.mod_unique with (q := q); [lia|]. unfold x in Hx. lia.
  - intros (s & Hs & ->).
    pose proof (Nat.div_mod (t * b + s) n ltac:(lia)) as Hd.
    set (q := (t * b + s) / n) in *. set (m := (t * b + s) mod n) in *.
    assert (E : x = (Z.of_nat b - 1 - Z.of_nat s + Z.of_nat q * Z.of_nat n)%Z).
    { unfold x. apply (f_equal Z.of_nat) in Hd.
      rewrite !Nat2Z.inj_add, !Nat2Z.inj_mul in Hd. lia. }
    rewrite E, Z_mod_plus_full.
    pose proof (Z.mod_le (Z.of_nat b - 1 - Z.of_nat s) (Z.of_nat n) ltac:(lia) ltac:(lia)).
    lia.
Qed.

Lemma batch_execute_length {A} t b (thunks : list A) :
  length (batch_execute t b thunks) = length thunks.
Proof. unfold batch_execute, enumerate. rewrite map_length, length_enumerate_from. auto. Qed.

Lemma batch_execute_nth {A} t b (thunks : list A) j :
  nth_error (batch_execute t b thunks) j =
  match nth_error thunks j with
  | Some a => Some (if batch_condition t b (Z.of_nat (length thunks)) (Z.of_nat j)
                    then Some a else None)
  | None => None
  end.
Proof.
  unfold batch_execute. rewrite nth_error_map, nth_error_enumerate.
  destruct (nth_error thunks j); reflexivity.
Qed.

Lemma batch_execute_runs_iff {A} (t b : nat) (thunks : list A) j a :
  nth_error thunks j = Some a ->
  (in_batch (length thunks) b t j ->
   nth_error (batch_execute (Z.of_nat t) (Z.of_nat b) thunks) j = Some (Some a)) /\
  (~ in_batch (length thunks) b t j ->
   nth_error (batch_execute (Z.of_nat t) (Z.of_nat b) thunks) j = Some None).
Proof.
  intros Ha.
  assert (Hj : j < length thunks) by (apply nth_error_Some; congruence).
  rewrite batch_execute_nth, Ha.
  pose proof (batch_condition_spec (length thunks) b t j Hj) as H.
  destruct (batch_condition _ _ _ _); split; intros H0; auto.
  - exfalso; apply H0, H; auto.
  - apply H in H0; discriminate.
Qed.

Lemma effects_length_countb {A} (c : nat -> bool) (l : list A) i :
  length (effects (map (fun jt => if c (fst jt) then Some (snd jt) else None)
                       (enumerate_from i l))) = countb c (seq i (length l)).
Proof.
  revert i; induction l as [|a l IH]; intros i; simpl; auto.
  unfold countb in *; simpl. destruct (c i); simpl; auto.
Qed.

(** the residues t*b, ..., t*b+b-1 modulo n are distinct when b <= n *)
Lemma nodup_residues n b x : b <= n -> NoDup (map (fun s => (x + s) mod n) (seq 0 b)).
Proof.
  intros Hb. apply NoDup_nth_error. intros i k Hi E.
  rewrite map_length, seq_length in Hi.
  rewrite !nth_error_map in E.
  rewrite (nth_error_nth' (seq 0 b) 0) in E by (rewrite seq_length; lia).
  rewrite seq_nth in E by lia. simpl in E.
  destruct (Nat.lt_ge_cases k b) as [Hk|Hk].
  2:{ assert (N : nth_error (seq 0 b) k = None)
        by (apply nth_error_None; rewrite seq_length; lia).
      rewrite N in E; discriminate. }
  rewrite (nth_error_nth' (seq 0 b) 0) in E by (rewrite seq_length; lia).
  rewrite seq_nth in E by lia. simpl in E. injection E as E.
  pose proof (Nat.div_mod (x + i) n ltac:(lia)) as H1.
  pose proof (Nat.div_mod (x + k) n ltac:(lia)) as H2.
  rewrite E in H1.
  set (m := (x + k) mod n) in *. set (q1 := (x + i) / n) in *. set (q2 := (x + k) / n) in *.
  assert (q1 = q2) by nia. subst. lia.
Qed.

Lemma batch_execute_effects_count {A} (t b : nat) (thunks : list A) :
  length (effects (batch_execute (Z.of_nat t) (Z.of_nat b) thunks))
  = Nat.min b (length thunks).
Proof.
  unfold batch_execute, enumerate.
  rewrite (effects_length_countb
             (fun j => batch_condition (Z.of_nat t) (Z.of_nat b)
                         (Z.of_nat (length thunks)) (Z.of_nat j)) thunks 0).
  set (n := length thunks). unfold countb.
  destruct (Nat.le_gt_cases b n) as [Hb|Hb].
  - rewrite Nat.min_l by lia.
    transitivity (length (map (fun s => (t * b + s) mod n) (seq 0 b)));
      [|rewrite map_length; apply seq_length].
    apply Permutation_length, NoDup_Permutation.
    + apply NoDup_filter, seq_NoDup.
    + apply nodup_residues; auto.
    + intros j. rewrite filter_In, in_seq, in_map_iff. split.
      * intros [Hj Hc]. apply batch_condition_spec in Hc; [|lia].
        destruct Hc as (s & Hs & ->). exists s. rewrite in_seq. lia.
      * intros (s & Hs & Hin). apply in_seq in Hin.
        assert (Hn : 0 < n) by lia.
        pose proof (Nat.mod_upper_bound (t * b + s) n ltac:(lia)).
        split; [lia|]. apply batch_condition_spec; [lia|].
        exists s; split; [lia|congruence].
  - rewrite Nat.min_r by lia.
    transitivity (length (seq 0 n)); [f_equal|apply seq_length].
    assert (forall l, (forall j, In j l -> j < n) ->
      filter (fun j => batch_condition (Z.of_nat t) (Z.of_nat b) (Z.of_nat n) (Z.of_nat j)) l = l)
      as Hall.
    { induction l as [|j l IH]; intros Hl; simpl; auto.
      unfold batch_condition at 1.
      pose proof (Z.mod_pos_bound (Z.of_nat b - 1 + Z.of_nat t * Z.of_nat b - Z.of_nat j)
                   (Z.of_nat n)).
      assert (j < n) by (apply Hl; left; auto).
      destruct (Z.ltb_spec ((Z.of_nat b - 1 + Z.of_nat t * Z.of_nat b - Z.of_nat j)
                             mod Z.of_nat n) (Z.of_nat b)); [|lia].
      f_equal. apply IH. intros; apply Hl; right; auto. }
    apply Hall. intros j Hj; apply in_seq in Hj; lia.
Qed.

(** Number of steps in [t0, t0+k) at which thunk [j] takes effect. *)
Notation runs_in_window thunks b j t0 k :=
  (runs (fun t => batch_execute (Z.of_nat t) (Z.of_nat b) thunks) j t0 k).

Lemma runs_in_window_residues {A} (thunks : list A) b j t0 k :
  j < length thunks -> b <= length thunks ->
  runs_in_window thunks b j t0 k =
  countb (fun m => m mod length thunks =? j) (seq (t0 * b) (k * b)).
Proof.
  intros Hj Hb. set (n := length thunks) in *.
  revert t0; induction k as [|k IH]; intros t0; [reflexivity|].
  unfold runs. cbn [seq].
  change (S k * b) with (b + k * b). rewrite seq_app, countb_app.
  unfold runs in IH.
  unfold countb at 1. cbn [filter].
  assert (Hd : forall c : bool, forall l : list nat, forall f,
     length (if c then t0 :: filter f l else filter f l) = (if c then 1 else 0) + countb f l).
  { intros [] l f; reflexivity. }
  rewrite Hd, (IH (S t0)). replace (S t0 * b) with (t0 * b + b) by lia. f_equal.
  (* one step *)
  destruct (nth_error thunks j) as [a|] eqn:Ha.
  2:{ apply nth_error_None in Ha. fold n in Ha. lia. }
  rewrite batch_execute_nth, Ha. fold n.
  pose proof (batch_condition_spec n b t0 j Hj) as Hc.
  assert (Hle1 : countb (fun m => m mod n =? j) (seq (t0 * b) b) <= 1).
  { rewrite <- (count_residue_full n j (t0 * b) Hj).
    assert (Es : seq (t0 * b) n = seq (t0 * b) b ++ seq (t0 * b + b) (n - b))
      by (rewrite <- seq_app; f_equal; lia).
    rewrite Es, countb_app. lia. }
  destruct (batch_condition _ _ _ _).
  - destruct (proj1 Hc eq_refl) as (s & Hs & E).
    assert (1 <= countb (fun m => m mod n =? j) (seq (t0 * b) b)).
    { unfold countb.
      destruct (filter (fun m => m mod n =? j) (seq (t0 * b) b)) eqn:F; [|simpl; lia].
      assert (In (t0 * b + s) (filter (fun m => m mod n =? j) (seq (t0 * b) b))).
      { apply filter_In. split; [apply in_seq; lia|]. apply Nat.eqb_eq; auto. }
      rewrite F in *. contradiction. }
    lia.
  - destruct (countb (fun m => m mod n =? j) (seq (t0 * b) b)) as [|c] eqn:F; auto.
    exfalso. unfold countb in F.
    destruct (filter (fun m => m mod n =? j) (seq (t0 * b) b)) as [|m l] eqn:G; [discriminate|].
    assert (In m (filter (fun m => m mod n =? j) (seq (t0 * b) b))) as Hm
      by (rewrite G; left; auto).
    apply filter_In in Hm. destruct Hm as [Hm1 Hm2].
    apply in_seq in Hm1. apply Nat.eqb_eq in Hm2.
    assert (false = true) as X; [|discriminate X].
    apply Hc. exists (m - t0 * b). split; [lia|].
    replace (t0 * b + (m - t0 * b)) with m by lia. auto.
Qed.

Lemma batch_execute_fair {A} (thunks : list A) b j1 j2 t0 k :
  b <= length thunks -> j1 < length thunks -> j2 < length thunks ->
  within 1 (runs_in_window thunks b j1 t0 k) (runs_in_window thunks b j2 t0 k).
Proof.
  intros Hb H1 H2. rewrite !runs_in_window_residues by auto. unfold within.
  pose proof (count_residue_window (length thunks) j1 (t0 * b) (k * b) H1).
  pose proof (count_residue_window (length thunks) j2 (t0 * b) (k * b) H2).
  lia.
Qed.

Lemma runs_in_window_exact {A} (thunks : list A) b j t0 k :
  b <= length thunks -> j < length thunks ->
  k * b / length thunks <= runs_in_window thunks b j t0 k <= k * b / length thunks + 1.
Proof.
  intros Hb H1. rewrite runs_in_window_residues by auto.
  apply count_residue_window; auto.
Qed.
