(** Proofs about OpQueue and the asynchronous workers. *)
From Coq Require Import List Arith ZArith Lia Bool Permutation.
From Verif.Base Require Import Py ListFacts.
From Verif.Sched Require Import Model Spec.
Import ListNotations.

Lemma op_eq_dec (a b : op) : {a = b} + {a <> b}.
Proof. decide equality; apply Nat.eq_dec. Defined.
Lemma res_op_eq_dec (a b : res op) : {a = b} + {a <> b}.
Proof. decide equality; [apply op_eq_dec|decide equality]. Defined.

(** ** sorting *)
Lemma insert_name_perm x l : Permutation (insert_name x l) (x :: l).
Proof.
  induction l as [|y l IH]; simpl; auto.
  destruct (x <=? y); auto. rewrite IH. apply perm_swap.
Qed.
Lemma sort_names_perm l : Permutation (sort_names l) l.
Proof. induction l as [|x l IH]; simpl; auto. rewrite insert_name_perm, IH. auto. Qed.
Lemma sort_names_length l : length (sort_names l) = length l.
Proof. apply Permutation_length, sort_names_perm. Qed.

(** ** lookup *)
Lemma lookup_op_spec ops o :
  NoDup (map op_name ops) -> In o ops -> lookup_op ops (op_name o) = Ok o.
Proof.
  induction ops as [|a ops IH]; intros Hnd Hin; [contradiction|].
  cbn [map] in Hnd. inversion Hnd as [|? ? Hni Hnd']; subst.
  cbn [lookup_op]. destruct Hin as [->|Hin].
  - destruct (lookup_op ops (op_name o)) as [o'|e] eqn:E.
    + exfalso. apply Hni. clear - E.
      assert (forall ops n o', lookup_op ops n = Ok o' -> In n (map op_name ops)) as H.
      { clear. induction ops as [|a ops IH]; intros n o' H; [discriminate|].
        cbn [lookup_op] in H. destruct (lookup_op ops n) eqn:E.
        - right. eapply IH; eauto.
        - destruct (Nat.eqb_spec (op_name a) n); [left; auto|discriminate]. }
      eapply H; eauto.
    + rewrite Nat.eqb_refl. reflexivity.
  - rewrite IH by auto. reflexivity.
Qed.

(** ** shuffle buffer *)
Lemma remove_nth_perm {A} (l : list A) i x :
  nth_error l i = Some x -> Permutation l (x :: remove_nth i l).
Proof.
  revert i; induction l as [|y l IH]; intros [|i] H; simpl in *; try discriminate.
  - injection H as ->. auto.
  - rewrite (IH _ H) at 1. apply perm_swap.
Qed.
Lemma remove_nth_length {A} (l : list A) i x :
  nth_error l i = Some x -> S (length (remove_nth i l)) = length l.
Proof. intros H. apply remove_nth_perm, Permutation_length in H. simpl in H. auto. Qed.

Lemma shuffle_run_perm {A} picks (fuel : nat) (buf input : list A) :
  fuel = length buf + length input -> (buf = [] -> input = []) ->
  Permutation (shuffle_run fuel picks buf input) (buf ++ input).
Proof.
  revert buf input; induction fuel as [|f IH]; intros buf input Hf Hb.
  - destruct buf, input; simpl in *; try discriminate; auto.
  - cbn [shuffle_run].
    assert (Hlen : length buf <> 0).
    { intros H0. apply length_zero_iff_nil in H0. rewrite (Hb H0), H0 in Hf. discriminate. }
    pose proof (Nat.mod_upper_bound (picks f) (length buf) Hlen) as Hr.
    set (r := picks f mod length buf) in *.
    destruct (nth_error buf r) as [x|] eqn:E.
    2:{ apply nth_error_None in E. lia. }
    pose proof (remove_nth_perm _ _ _ E) as Hp.
    pose proof (remove_nth_length _ _ _ E) as Hl.
    destruct input as [|y input'].
    + rewrite IH.
      * rewrite !app_nil_r. symmetry. exact Hp.
      * simpl in *. lia.
      * auto.
    + rewrite IH.
      * rewrite <- app_assoc. simpl. rewrite Hp at 2. simpl. auto.
      * rewrite app_length. simpl in *. lia.
      * intros H0. destruct (remove_nth r buf); discriminate.
Qed.

Lemma shuffle_perm {A} picks k (l : list A) :
  (k = 0 -> l = []) -> Permutation (shuffle k picks l) l.
Proof.
  intros Hk. unfold shuffle. rewrite shuffle_run_perm.
  - rewrite firstn_skipn. auto.
  - rewrite <- app_length, firstn_skipn. auto.
  - intros H. destruct k; [rewrite Hk; auto|]. destruct l; [auto|discriminate].
Qed.

(** ** epochs *)
Lemma map_lookup_perm ops names :
  NoDup (map op_name ops) -> Permutation names (map op_name ops) ->
  Permutation (map (lookup_op ops) names) (map Ok ops).
Proof.
  intros Hnd Hp. rewrite Hp, map_map.
  assert (map (fun x => lookup_op ops (op_name x)) ops = map Ok ops) as ->; auto.
  apply map_ext_in. intros o Ho. apply lookup_op_spec; auto.
Qed.

Lemma op_epoch_perm rnd ops e :
  NoDup (map op_name ops) -> Permutation (op_epoch rnd ops e) (map Ok ops).
Proof.
  intros Hnd. unfold op_epoch. apply map_lookup_perm; auto.
  rewrite shuffle_perm.
  - apply sort_names_perm.
  - intros H. apply length_zero_iff_nil in H. subst. reflexivity.
Qed.

Lemma op_epoch_length rnd ops e :
  NoDup (map op_name ops) -> length (op_epoch rnd ops e) = length ops.
Proof.
  intros H. rewrite (Permutation_length (op_epoch_perm rnd ops e H)). apply map_length.
Qed.

Lemma map_nth_seq {A} (d : A) l : map (fun i => nth i l d) (seq 0 (length l)) = l.
Proof.
  induction l as [|x l IH]; simpl; auto. f_equal.
  rewrite <- seq_shift, map_map. apply IH.
Qed.

Lemma next_op_epoch rnd ops e :
  NoDup (map op_name ops) ->
  map (next_op rnd ops) (seq (e * length ops) (length ops)) = op_epoch rnd ops e.
Proof.
  intros Hnd. destruct ops as [|o ops]; [reflexivity|].
  set (n := length (o :: ops)). assert (Hn : n <> 0) by (unfold n; simpl; lia).
  rewrite <- (map_nth_seq (Raise IndexError) (op_epoch rnd (o :: ops) e)).
  rewrite op_epoch_length by auto. fold n.
  rewrite <- (Nat.add_0_r (e * n)).
  assert (forall len s, s + len <= n ->
            map (next_op rnd (o :: ops)) (seq (e * n + s) len) =
            map (fun i => nth i (op_epoch rnd (o :: ops) e) (Raise IndexError)) (seq s len)) as H.
  { induction len as [|len IH]; intros s Hs; [reflexivity|].
    cbn [seq map]. f_equal.
    - unfold next_op. fold n.
      replace (e * n + s) with (s + e * n) by lia.
      rewrite Nat.mod_add, Nat.div_add by lia.
      rewrite Nat.mod_small, Nat.div_small by lia. reflexivity.
    - replace (S (e * n + s)) with (e * n + S s) by lia. apply IH. lia. }
  apply H. lia.
Qed.

Lemma next_op_epoch_perm rnd ops e :
  NoDup (map op_name ops) ->
  Permutation (map (next_op rnd ops) (seq (e * length ops) (length ops))) (map Ok ops).
Proof. intros H. rewrite next_op_epoch by auto. apply op_epoch_perm; auto. Qed.

Lemma count_occ_perm {A} (dec : forall x y : A, {x = y} + {x <> y}) l m x :
  Permutation l m -> count_occ dec l x = count_occ dec m x.
Proof. intros H. apply Permutation_count_occ; auto. Qed.

Lemma count_one ops o :
  NoDup (map op_name ops) -> In o ops -> count_occ res_op_eq_dec (map Ok ops) (Ok o) = 1.
Proof.
  intros Hnd Hin.
  assert (NoDup (map (@Ok op) ops)) as Hnd'.
  { clear Hin. induction ops as [|a ops IH]; simpl in *; constructor.
    - inversion Hnd as [|? ? Hni Hnt]; subst. intros Hi. apply in_map_iff in Hi.
      destruct Hi as (x & E & Hx). injection E as ->. apply Hni. apply in_map; auto.
    - apply IH. inversion Hnd; auto. }
  rewrite NoDup_count_occ' in Hnd'. apply Hnd'. apply in_map; auto.
Qed.

Lemma next_op_counts rnd ops o m :
  NoDup (map op_name ops) -> In o ops ->
  count_occ res_op_eq_dec (map (next_op rnd ops) (seq 0 (m * length ops))) (Ok o) = m.
Proof.
  intros Hnd Hin. induction m as [|m IH]; [reflexivity|].
  replace (S m * length ops) with (m * length ops + length ops) by lia.
  rewrite seq_app, map_app, count_occ_app, IH. simpl plus.
  rewrite (count_occ_perm _ _ _ _ (next_op_epoch_perm rnd ops m Hnd)).
  rewrite count_one by auto. lia.
Qed.

Lemma next_op_total rnd ops k :
  NoDup (map op_name ops) -> ops <> [] ->
  exists o, In o ops /\ next_op rnd ops k = Ok o.
Proof.
  intros Hnd Hne.
  assert (Hn : length ops <> 0) by (destruct ops; simpl; [congruence|lia]).
  pose proof (next_op_epoch_perm rnd ops (k / length ops) Hnd) as Hp.
  assert (In (next_op rnd ops k)
     (map (next_op rnd ops) (seq (k / length ops * length ops) (length ops)))) as Hin.
  { apply in_map, in_seq.
    pose proof (Nat.div_mod k (length ops) Hn).
    pose proof (Nat.mod_upper_bound k (length ops) Hn). lia. }
  rewrite Hp in Hin. apply in_map_iff in Hin. destruct Hin as (o & E & Ho). eauto.
Qed.

Lemma next_op_gap rnd ops p o :
  NoDup (map op_name ops) -> next_op rnd ops p = Ok o ->
  exists q, p < q /\ q <= p + (2 * length ops - 1) /\ next_op rnd ops q = Ok o.
Proof.
  intros Hnd E.
  assert (Hne : ops <> []) by (intros ->; discriminate).
  destruct (next_op_total rnd ops p Hnd Hne) as (o' & Hin & E').
  rewrite E in E'. injection E' as <-.
  assert (Hn : length ops <> 0) by (destruct ops; simpl; [congruence|lia]).
  pose proof (Nat.div_mod p (length ops) Hn).
  pose proof (Nat.mod_upper_bound p (length ops) Hn).
  set (n := length ops) in *. set (e := p / n) in *. set (r := p mod n) in *.
  pose proof (next_op_epoch_perm rnd ops (S e) Hnd) as Hp.
  assert (In (Ok o) (map (next_op rnd ops) (seq (S e * n) n))) as Hq.
  { fold n in Hp. rewrite Hp. apply in_map; auto. }
  apply in_map_iff in Hq. destruct Hq as (q & Eq & Hq). apply in_seq in Hq.
  exists q. repeat split; try lia. auto.
Qed.

(** ** asynchronous workers *)
Definition passedb (p : wphase) : bool := match p with Passed => true | _ => false end.
Definition holdingb (p : wphase) : bool := match p with Holding _ => true | _ => false end.

Lemma set_nth_split {A} i (x y : A) l :
  nth_error l i = Some y ->
  l = firstn i l ++ y :: skipn (S i) l /\ set_nth i x l = firstn i l ++ x :: skipn (S i) l.
Proof.
  revert i; induction l as [|z l IH]; intros [|i] H; simpl in *; try discriminate.
  - injection H as ->. auto.
  - unfold set_nth in *. simpl. destruct (IH _ H) as [H1 H2].
    split; f_equal; [exact H1|exact H2].
Qed.

Lemma set_nth_length {A} i (x : A) l : length (set_nth i x l) = length l.
Proof.
  revert i; induction l as [|z l IH]; intros [|i]; simpl; auto.
  unfold set_nth in *. simpl. f_equal. apply IH.
Qed.

Lemma holdings_set i p q ps :
  nth_error ps i = Some p ->
  Permutation (holdings ps) (holding_of p ++ holdings (firstn i ps ++ skipn (S i) ps)) /\
  Permutation (holdings (set_nth i q ps))
              (holding_of q ++ holdings (firstn i ps ++ skipn (S i) ps)).
Proof.
  intros H. destruct (set_nth_split i q p ps H) as [H1 H2].
  assert (G : forall z, Permutation (holdings (firstn i ps ++ z :: skipn (S i) ps))
        (holding_of z ++ holdings (firstn i ps ++ skipn (S i) ps))).
  { intros z. unfold holdings. rewrite !map_app, !concat_app. cbn [map concat].
    rewrite !app_assoc. apply Permutation_app_tail, Permutation_app_comm. }
  split; [rewrite H1 at 1; apply G|rewrite H2; apply G].
Qed.

Lemma countb_set {A} (f : A -> bool) i p q ps :
  nth_error ps i = Some p ->
  countb f (set_nth i q ps) + (if f p then 1 else 0) = countb f ps + (if f q then 1 else 0).
Proof.
  intros H. destruct (set_nth_split i q p ps H) as [H1 H2].
  rewrite H2. rewrite H1 at 3. rewrite !countb_app. unfold countb. cbn [filter].
  destruct (f p), (f q); simpl; lia.
Qed.

Definition async_inv (ops : list op) (workers : nat) (s : astate) : Prop :=
  length (a_phase s) = workers /\
  Permutation (a_ran s ++ holdings (a_phase s)) (map (async_draw ops) (seq 0 (a_pos s))).

Lemma async_step_inv ops workers s e :
  async_inv ops workers s -> async_inv ops workers (async_step ops s e).
Proof.
  intros [Hl Hp]. destruct e as [w|]; [|split; auto].
  cbn [async_step]. destruct (nth_error (a_phase s) w) as [p|] eqn:E; [|split; auto].
  destruct p as [| |o|]; [| | |split; auto];
  (split; [cbn [a_phase]; rewrite set_nth_length; exact Hl|]); cbn [a_phase a_ran a_pos].
  - destruct (holdings_set w AtCheck (if a_stop s then Exited else Passed) _ E) as [H1 H2].
    rewrite <- Hp, H1, H2. destruct (a_stop s); reflexivity.
  - destruct (holdings_set w Passed (Holding (async_draw ops (a_pos s))) _ E) as [H1 H2].
    rewrite H2, seq_S, map_app, <- Hp, H1. cbn [holding_of map app plus].
    rewrite <- app_assoc. apply Permutation_app_head. apply Permutation_cons_append.
  - destruct (holdings_set w (Holding o) AtCheck _ E) as [H1 H2].
    rewrite H2, <- Hp, H1. cbn [holding_of app]. rewrite <- app_assoc. reflexivity.
Qed.

Lemma async_run_inv ops workers sched : async_inv ops workers (async_run ops workers sched).
Proof.
  unfold async_run.
  assert (async_inv ops workers (async_init workers)) as H0.
  { split; simpl; [apply repeat_length|].
    induction workers; simpl; auto. }
  revert H0. generalize (async_init workers).
  induction sched as [|e sched IH]; intros s Hs; simpl; auto.
  apply IH, async_step_inv; auto.
Qed.

Lemma holdings_length ps : length (holdings ps) = countb holdingb ps.
Proof.
  unfold holdings, countb. induction ps as [|p ps IH]; simpl; auto.
  destruct p; simpl; auto.
Qed.

(** the k-th draw is the op whose rank is k mod n *)
Lemma async_draw_rank ops k :
  NoDup (map op_name ops) -> ops <> [] ->
  exists o, In o ops /\ async_draw ops k = Ok o /\
            op_name o = nth (k mod length ops) (sort_names (map op_name ops)) 0.
Proof.
  intros Hnd Hne. destruct ops as [|o0 ops0]; [congruence|].
  set (ops := o0 :: ops0) in *.
  assert (Hn : length ops <> 0) by (unfold ops; simpl; lia).
  pose proof (Nat.mod_upper_bound k (length ops) Hn) as Hr.
  set (x := nth (k mod length ops) (sort_names (map op_name ops)) 0).
  assert (In x (map op_name ops)) as Hin.
  { apply (Permutation_in _ (sort_names_perm _)). apply nth_In.
    rewrite sort_names_length, map_length. auto. }
  apply in_map_iff in Hin. destruct Hin as (o & E & Ho).
  exists o. repeat split; auto.
  unfold async_draw, ops. fold ops. fold x. rewrite <- E. apply lookup_op_spec; auto.
Qed.

Lemma count_draws ops o K :
  NoDup (map op_name ops) -> In o ops ->
  exists j, j < length ops /\
    count_occ res_op_eq_dec (map (async_draw ops) (seq 0 K)) (Ok o) =
    countb (fun m => m mod length ops =? j) (seq 0 K).
Proof.
  intros Hnd Hin.
  assert (Hne : ops <> []) by (intros ->; contradiction).
  assert (Hn : length ops <> 0) by (destruct ops; simpl; [congruence|lia]).
  set (names := sort_names (map op_name ops)).
  assert (Hnames : Permutation names (map op_name ops)) by apply sort_names_perm.
  assert (In (op_name o) names) as Hn1.
  { apply (Permutation_in _ (Permutation_sym Hnames)), in_map; auto. }
  destruct (In_nth _ _ 0 Hn1) as (j & Hj & Ej).
  assert (Hlen : length names = length ops).
  { unfold names. rewrite sort_names_length. apply map_length. }
  exists j. split; [lia|].
  assert (Hnd2 : NoDup names).
  { apply (Permutation_NoDup (Permutation_sym Hnames)); auto. }
  generalize (seq 0 K). intros l. induction l as [|m l IH]; [reflexivity|].
  cbn [map count_occ]. unfold countb in *. cbn [filter].
  destruct (async_draw_rank ops m Hnd Hne) as (om & Hom & Em & Nm).
  fold names in Nm. pose proof (Nat.mod_upper_bound m (length ops) Hn) as Hmod.
  rewrite Em.
  destruct (res_op_eq_dec (Ok om) (Ok o)) as [E|E].
  - injection E as ->.
    assert (m mod length ops = j) as ->.
    { apply (proj1 (NoDup_nth names 0) Hnd2); [lia|lia|congruence]. }
    rewrite Nat.eqb_refl. simpl. f_equal. exact IH.
  - destruct (Nat.eqb_spec (m mod length ops) j) as [X|X]; [|exact IH].
    exfalso. apply E. f_equal.
    assert (op_name om = op_name o) by congruence.
    assert (lookup_op ops (op_name om) = Ok om) by (apply lookup_op_spec; auto).
    assert (lookup_op ops (op_name o) = Ok o) by (apply lookup_op_spec; auto).
    congruence.
Qed.

Lemma async_fair ops workers sched o1 o2 :
  NoDup (map op_name ops) -> In o1 ops -> In o2 ops ->
  let s := async_run ops workers sched in
  let draws o := count_occ res_op_eq_dec (map (async_draw ops) (seq 0 (a_pos s))) (Ok o) in
  let done o := count_occ res_op_eq_dec (a_ran s) (Ok o) in
  within 1 (draws o1) (draws o2) /\ within (1 + workers) (done o1) (done o2).
Proof.
  intros Hnd H1 H2 s draws done.
  destruct (async_run_inv ops workers sched) as [Hl Hp]. fold s in Hl, Hp.
  assert (Hdraw : forall o, draws o = done o + count_occ res_op_eq_dec (holdings (a_phase s)) (Ok o)).
  { intros o. unfold draws, done. rewrite <- (count_occ_perm _ _ _ _ Hp), count_occ_app. auto. }
  assert (Hw : within 1 (draws o1) (draws o2)).
  { destruct (count_draws ops o1 (a_pos s) Hnd H1) as (j1 & L1 & E1).
    destruct (count_draws ops o2 (a_pos s) Hnd H2) as (j2 & L2 & E2).
    unfold draws. rewrite E1, E2.
    pose proof (count_residue_window (length ops) j1 0 (a_pos s) L1).
    pose proof (count_residue_window (length ops) j2 0 (a_pos s) L2).
    unfold within. lia. }
  split; auto.
  assert (Hh : forall o, count_occ res_op_eq_dec (holdings (a_phase s)) (Ok o) <= workers).
  { intros o. etransitivity; [apply count_occ_bound|].
    rewrite holdings_length. rewrite <- Hl. apply countb_le. }
  unfold within in *. pose proof (Hdraw o1). pose proof (Hdraw o2).
  pose proof (Hh o1). pose proof (Hh o2). lia.
Qed.

Lemma async_stop_bound ops s sched :
  a_stop s = true ->
  let s' := fold_left (async_step ops) sched s in
  a_pos s' + countb passedb (a_phase s') <= a_pos s + countb passedb (a_phase s) /\
  length (a_ran s') + countb holdingb (a_phase s') + countb passedb (a_phase s')
  <= length (a_ran s) + countb holdingb (a_phase s) + countb passedb (a_phase s).
Proof.
  revert s; induction sched as [|e sched IH]; intros s Hs; simpl; [lia|].
  assert (H : a_stop (async_step ops s e) = true /\
    a_pos (async_step ops s e) + countb passedb (a_phase (async_step ops s e))
      <= a_pos s + countb passedb (a_phase s) /\
    length (a_ran (async_step ops s e)) + countb holdingb (a_phase (async_step ops s e))
      + countb passedb (a_phase (async_step ops s e))
      <= length (a_ran s) + countb holdingb (a_phase s) + countb passedb (a_phase s)).
  { destruct e as [w|]; [|simpl; auto].
    cbn [async_step]. destruct (nth_error (a_phase s) w) as [p|] eqn:E; [|auto].
    destruct p as [| |o|]; [| | |auto]; cbn [a_stop a_pos a_phase a_ran]; rewrite ?Hs.
    - pose proof (countb_set passedb w _ Exited _ E). pose proof (countb_set holdingb w _ Exited _ E).
      simpl in *. split; auto. lia.
    - pose proof (countb_set passedb w _ (Holding (async_draw ops (a_pos s))) _ E).
      pose proof (countb_set holdingb w _ (Holding (async_draw ops (a_pos s))) _ E).
      simpl in *. split; auto. lia.
    - pose proof (countb_set passedb w _ AtCheck _ E). pose proof (countb_set holdingb w _ AtCheck _ E).
      rewrite app_length. simpl in *. split; auto. lia. }
  destruct H as (H1 & H2 & H3). specialize (IH _ H1). simpl in IH. lia.
Qed.

Lemma async_after_stop ops workers sched1 sched2 :
  let s1 := async_run ops workers sched1 in
  let s2 := async_run ops workers (sched1 ++ Stop :: sched2) in
  a_pos s2 <= a_pos s1 + workers /\ length (a_ran s2) <= length (a_ran s1) + workers.
Proof.
  intros s1 s2. unfold s2, async_run. rewrite fold_left_app. fold (async_run ops workers sched1).
  fold s1. cbn [fold_left].
  destruct (async_run_inv ops workers sched1) as [Hl _]. fold s1 in Hl.
  pose proof (async_stop_bound ops (async_step ops s1 Stop) sched2 eq_refl) as H.
  cbv zeta in H.
  change (a_pos (async_step ops s1 Stop)) with (a_pos s1) in H.
  change (a_phase (async_step ops s1 Stop)) with (a_phase s1) in H.
  change (a_ran (async_step ops s1 Stop)) with (a_ran s1) in H.
  assert (countb passedb (a_phase s1) + countb holdingb (a_phase s1) <= workers) as Hb.
  { rewrite <- Hl. unfold countb. generalize (a_phase s1). clear.
    induction l as [|p ps IH]; [simpl; lia|].
    destruct p; cbn [filter passedb holdingb length]; lia. }
  lia.
Qed.

(** ** The k-th draw is the (k mod n)-th op in name order *)
From Coq Require Import Sorting.Sorted.
Lemma insert_name_sorted x l :
  StronglySorted le l -> StronglySorted le (insert_name x l).
Proof.
  induction 1 as [|y l Hs IH Hf]; simpl.
  - repeat constructor.
  - destruct (Nat.leb_spec x y) as [Hle|Hlt].
    + constructor; [constructor; auto|]. constructor; auto.
      rewrite Forall_forall in *. intros z Hz. specialize (Hf z Hz). lia.
    + constructor; auto. rewrite Forall_forall in *. intros z Hz.
      apply (Permutation_in _ (insert_name_perm x l)) in Hz.
      destruct Hz as [<-|Hz]; [lia|auto].
Qed.
Lemma sort_names_sorted l : StronglySorted le (sort_names l).
Proof. induction l; simpl; [constructor|]. apply insert_name_sorted; auto. Qed.

Lemma sorted_rank s r :
  StronglySorted le s -> NoDup s -> r < length s ->
  countb (fun y => y <? nth r s 0) s = r.
Proof.
  intros Hs; revert r; induction Hs as [|x s Hs IH Hf]; intros r Hnd Hr; simpl in Hr; [lia|].
  inversion Hnd as [|? ? Hni Hnd']; subst. rewrite Forall_forall in Hf.
  destruct r as [|r].
  - cbn [nth]. unfold countb; simpl. rewrite Nat.ltb_irrefl.
    assert (E : countb (fun y => y <? x) s = 0); [|exact E].
    assert (Hz : forall y, In y s -> (y <? x) = false).
    { intros y Hy. apply Nat.ltb_ge. apply Hf; auto. }
    clear - Hz. induction s as [|y s IH]; auto. unfold countb in *; simpl.
    rewrite Hz by (simpl; auto). apply IH. intros; apply Hz; simpl; auto.
  - cbn [nth]. unfold countb; simpl.
    assert (In (nth r s 0) s) as Hin by (apply nth_In; lia).
    assert (x <> nth r s 0) by congruence.
    pose proof (Hf _ Hin).
    rewrite (proj2 (Nat.ltb_lt x (nth r s 0))) by lia. simpl. f_equal.
    apply IH; auto. lia.
Qed.

Lemma async_kth_draw ops k :
  NoDup (map op_name ops) -> ops <> [] ->
  exists o, In o ops /\ async_draw ops k = Ok o /\ rank_by op_name ops o = k mod length ops.
Proof.
  intros Hnd Hne. destruct (async_draw_rank ops k Hnd Hne) as (o & Hin & E & En).
  exists o. repeat split; auto. unfold rank_by.
  assert (Hn : length ops <> 0) by (destruct ops; simpl; [congruence|lia]).
  rewrite <- (countb_map op_name (fun y => y <? op_name o)).
  rewrite <- (countb_perm _ _ _ (sort_names_perm (map op_name ops))). rewrite En.
  apply sorted_rank.
  - apply sort_names_sorted.
  - eapply Permutation_NoDup; [apply Permutation_sym, sort_names_perm|]; auto.
  - rewrite sort_names_length, map_length. apply Nat.mod_upper_bound; auto.
Qed.
