(** Proofs about the data readers. *)
From Coq Require Import List Arith Bool Lia Permutation.
From Verif.Base Require Import Py ListFacts.
From Verif.Data Require Import Model Spec.
Import ListNotations.

Lemma nth_error_set_same {B} (l : list B) i x : i < length l -> nth_error (set_nth l i x) i = Some x.
Proof.
  unfold set_nth. intros L. rewrite nth_error_app2; rewrite firstn_length_le by lia; [|lia].
  rewrite Nat.sub_diag. destruct (skipn i l) eqn:E; [|reflexivity].
  apply (f_equal (@length B)) in E. rewrite skipn_length in E. cbn in E. lia.
Qed.
Lemma nth_error_set_other {B} (l : list B) i j x : i <> j -> nth_error (set_nth l i x) j = nth_error l j.
Proof.
  revert i j. induction l as [|a l IH]; intros i j N; unfold set_nth.
  - rewrite firstn_nil, skipn_nil. reflexivity.
  - destruct i as [|i]; cbn.
    + destruct j; [congruence|reflexivity].
    + destruct j as [|j]; [reflexivity|]. cbn. apply IH. lia.
Qed.
Lemma set_nth_length {B} (l : list B) i x : length (set_nth l i x) = length l.
Proof.
  unfold set_nth. rewrite app_length. destruct (skipn i l) eqn:E.
  - rewrite firstn_length. apply (f_equal (@length B)) in E. rewrite skipn_length in E. cbn in *. lia.
  - rewrite firstn_length. apply (f_equal (@length B)) in E. rewrite skipn_length in E. cbn in *. lia.
Qed.

Section Reader.
Context {row : Type}.
Variables (k max b : nat) (data : list (list row)) (s0 : vars row).
Hypothesis Bm : b <= max.
Hypothesis En : enough k max data.
Hypothesis Sz : sized k max s0.

(** What holds after the operations [dn]. *)
Record inv (dn : list op) (s : vars row) (x : values row) : Prop := {
  i_len : length (v_storage s) = k;
  i_size : (In SetSize dn -> v_size s = b) /\ (~ In SetSize dn -> v_size s = v_size s0);
  i_store : forall i, i < k ->
    (In (Store i) dn -> nth_error (v_storage s) i =
       Some (firstn b (nth i data []) ++ skipn b (nth i (v_storage s0) []))) /\
    (~ In (Store i) dn -> nth_error (v_storage s) i = nth_error (v_storage s0) i);
  i_taken : forall i, In (Take i) dn -> assoc (x_taken x) i = Some (firstn b (nth i data []));
  i_read : forall i v, In (i, v) (x_read x) -> nth_error (cached_batch s0) i = Some v;
  i_read_all : forall i, In (ReadCached i) dn -> exists v, In (i, v) (x_read x);
  i_returned : forall i v, In (i, v) (x_returned x) -> v = firstn b (nth i data []);
  i_returned_all : forall i, In (Return i) dn -> In (i, firstn b (nth i data [])) (x_returned x) }.

Lemma op_dec (o p : op) : {o = p} + {o <> p}.
Proof. decide equality; apply Nat.eq_dec. Qed.

Lemma storage_row i : i < k -> nth_error (v_storage s0) i = Some (nth i (v_storage s0) []) /\ length (nth i (v_storage s0) []) = max.
Proof.
  intros L. destruct Sz as [A B]. split; [apply nth_error_nth'; lia|]. apply B, nth_In. lia.
Qed.
Lemma data_row i : i < k -> nth_error data i = Some (nth i data []) /\ max <= length (nth i data []).
Proof.
  intros L. destruct En as [A B]. split; [apply nth_error_nth'; lia|]. apply B, nth_In. lia.
Qed.

Lemma inv_step dn o s x :
  inv dn s x -> ~ In o dn -> (forall p, requires k o p -> In p dn) -> (forall i, op_index o = Some i -> i < k) ->
  (forall p, In p dn -> forall q, requires k p q -> In q dn) ->
  exists s' x', step max b data o s x = Ok (s', x') /\ inv (dn ++ [o]) s' x'.
Proof.
  intros [L S St T R Ra Rt Rta] N Rq Ix Cl.
  assert (Ap : forall p, In p (dn ++ [o]) <-> In p dn \/ p = o).
  { intros p. rewrite in_app_iff. cbn. intuition. }
  destruct o as [i| |i| |i|i]; cbn [step].
  - (* ReadCached *)
    assert (Li : i < k) by (apply Ix; reflexivity).
    assert (Ns : ~ In SetSize dn) by (intros Q; apply N, (Cl _ Q); cbn; eauto).
    assert (Nt : ~ In (Store i) dn) by (intros Q; apply N, (Cl _ Q); cbn; eauto).
    assert (E : nth_error (cached_batch s) i = nth_error (cached_batch s0) i).
    { unfold cached_batch. rewrite !nth_error_map, (proj2 S Ns), (proj2 (St i Li) Nt). reflexivity. }
    assert (E0 : nth_error (cached_batch s0) i = Some (firstn (v_size s0) (nth i (v_storage s0) []))).
    { unfold cached_batch. rewrite nth_error_map, (proj1 (storage_row i Li)). reflexivity. }
    rewrite E, E0. do 2 eexists. split; [reflexivity|]. constructor; cbn; auto.
    + split; intros Q; apply S; rewrite Ap in Q; intuition congruence.
    + intros j Lj. split; intros Q; apply (St j Lj); rewrite Ap in Q; intuition congruence.
    + intros j Q. apply T. apply Ap in Q. intuition congruence.
    + intros j v [[= <- <-]|Q]; [exact E0|auto].
    + intros j Q. apply Ap in Q as [Q|[= ->]]; [|eauto]. destruct (Ra j Q). eauto.
    + intros j Q. apply Rta. apply Ap in Q. intuition congruence.
  - (* Check *)
    rewrite (proj2 (Nat.leb_le b max) Bm). do 2 eexists. split; [reflexivity|]. constructor; auto.
    + split; intros Q; apply S; rewrite Ap in Q; intuition congruence.
    + intros j Lj. split; intros Q; apply (St j Lj); rewrite Ap in Q; intuition congruence.
    + intros j Q. apply T. apply Ap in Q. intuition congruence.
    + intros j Q. apply Ra. apply Ap in Q. intuition congruence.
    + intros j Q. apply Rta. apply Ap in Q. intuition congruence.
  - (* Take *)
    assert (Li : i < k) by (apply Ix; reflexivity). rewrite (proj1 (data_row i Li)).
    do 2 eexists. split; [reflexivity|]. constructor; cbn; auto.
    + split; intros Q; apply S; rewrite Ap in Q; intuition congruence.
    + intros j Lj. split; intros Q; apply (St j Lj); rewrite Ap in Q; intuition congruence.
    + intros j Q. destruct (Nat.eqb_spec i j) as [->|Nj]; [reflexivity|]. apply T. apply Ap in Q. intuition congruence.
    + intros j Q. apply Ra. apply Ap in Q. intuition congruence.
    + intros j Q. apply Rta. apply Ap in Q. intuition congruence.
  - (* SetSize *)
    do 2 eexists. split; [reflexivity|]. constructor; cbn; auto.
    + split; [reflexivity|]. intros Q. exfalso. apply Q, Ap. auto.
    + intros j Lj. split; intros Q; apply (St j Lj); rewrite Ap in Q; intuition congruence.
    + intros j Q. apply T. apply Ap in Q. intuition congruence.
    + intros j Q. apply Ra. apply Ap in Q. intuition congruence.
    + intros j Q. apply Rta. apply Ap in Q. intuition congruence.
  - (* Store *)
    assert (Li : i < k) by (apply Ix; reflexivity).
    rewrite (T i) by (apply Rq; cbn; auto). rewrite (proj2 (St i Li) N).
    destruct (storage_row i Li) as [E0 L0], (data_row i Li) as [_ Ld]. rewrite E0.
    rewrite !firstn_length_le by lia. rewrite Nat.eqb_refl.
    do 2 eexists. split; [reflexivity|]. constructor; cbn; auto.
    + rewrite set_nth_length. exact L.
    + split; intros Q; apply S; rewrite Ap in Q; intuition congruence.
    + intros j Lj. destruct (Nat.eq_dec i j) as [<-|Nj].
      * split; [intros _; rewrite nth_error_set_same by lia; reflexivity|]. intros Q. exfalso. apply Q, Ap. auto.
      * rewrite nth_error_set_other by auto. split; intros Q; apply (St j Lj); rewrite Ap in Q; intuition congruence.
    + intros j Q. apply T. apply Ap in Q. intuition congruence.
    + intros j Q. apply Ra. apply Ap in Q. intuition congruence.
    + intros j Q. apply Rta. apply Ap in Q. intuition congruence.
  - (* Return *)
    rewrite (T i) by (apply Rq; cbn; auto). do 2 eexists. split; [reflexivity|]. constructor; cbn; auto.
    + split; intros Q; apply S; rewrite Ap in Q; intuition congruence.
    + intros j Lj. split; intros Q; apply (St j Lj); rewrite Ap in Q; intuition congruence.
    + intros j Q. apply T. apply Ap in Q. intuition congruence.
    + intros j Q. apply Ra. apply Ap in Q. intuition congruence.
    + intros j v [[= <- <-]|Q]; [reflexivity|eauto].
    + intros j Q. apply Ap in Q as [Q|[= ->]]; auto.
Qed.

Lemma exec_inv l : possible k l -> exists s' x', exec max b data l s0 no_values = (s', Ok x') /\ inv l s' x'.
Proof.
  intros [Ix Pl].
  assert (Cl : forall dn rest, l = dn ++ rest -> forall p, In p dn -> forall q, requires k p q -> In q dn).
  { intros dn rest E p I q Q. apply in_split in I as (d1 & d2 & ->). rewrite <- app_assoc in E. cbn in E.
    destruct (Pl d1 p (d2 ++ rest) E) as [_ H]. apply in_app_iff. left. apply H, Q. }
  assert (G : forall rest dn s x, l = dn ++ rest -> inv dn s x ->
    exists s' x', exec max b data rest s x = (s', Ok x') /\ inv l s' x').
  { induction rest as [|o rest IH]; intros dn s x E I.
    - rewrite app_nil_r in E. subst dn. exists s, x. split; [reflexivity|exact I].
    - destruct (Pl dn o rest E) as [No Rq].
      destruct (inv_step dn o s x I No Rq) as (s' & x' & E1 & I1).
      + intros i H. apply (Ix o); [|exact H]. rewrite E. apply in_app_iff. cbn. auto.
      + apply (Cl dn (o :: rest) E).
      + cbn [exec]. rewrite E1. apply (IH (dn ++ [o])); [|exact I1]. rewrite <- app_assoc. exact E. }
  apply (G l [] s0 no_values eq_refl). constructor; cbn; try tauto.
  apply Sz.
Qed.

Lemma inv_reads l s' x' : possible k l -> reads_batch k l -> 0 < k -> inv l s' x' ->
  cached_batch s' = batch b data /\ sized k max s'.
Proof.
  intros [_ Pl] Rd K [L S St T R Ra Rt Rta].
  assert (Al : forall i q, i < k -> requires k (Return i) q -> In q l).
  { intros i q Li Q. apply Rd in Li. apply in_split in Li as (l1 & l2 & E). destruct (Pl _ _ _ E) as [_ H].
    rewrite E. apply in_app_iff. left. apply H, Q. }
  assert (Hs : In SetSize l) by (apply (Al 0 _ K); cbn; auto).
  assert (Hst : forall i, i < k -> In (Store i) l) by (intros i Li; apply (Al 0 _ K); cbn; eauto).
  split.
  - apply nth_error_list_eq. intros i. unfold cached_batch, batch. rewrite !nth_error_map, (proj1 S Hs).
    destruct (Nat.lt_ge_cases i k) as [Li|Li].
    + rewrite (proj1 (St i Li) (Hst i Li)). destruct (data_row i Li) as [-> Ld]. cbn. f_equal.
      rewrite firstn_app, firstn_firstn, Nat.min_id, firstn_length_le by lia. rewrite Nat.sub_diag. cbn. apply app_nil_r.
    + destruct En as [A _]. rewrite !(proj2 (nth_error_None _ _)) by lia. reflexivity.
  - split; [exact L|]. intros d I. apply In_nth_error in I as (i & E).
    assert (Li : i < k) by (rewrite <- L; apply nth_error_Some; congruence).
    rewrite (proj1 (St i Li) (Hst i Li)) in E. injection E as <-.
    destruct (storage_row i Li) as [_ L0], (data_row i Li) as [_ Ld].
    rewrite app_length, firstn_length_le, skipn_length by lia. lia.
Qed.

(** The main fact about a run that returns the new batch. *)
Lemma read_run l : possible k l -> reads_batch k l -> 0 < k ->
  exists s' x', exec max b data l s0 no_values = (s', Ok x') /\
    (forall i v, In (i, v) (x_read x') -> nth_error (cached_batch s0) i = Some v) /\
    (forall i, In (ReadCached i) l -> exists v, In (i, v) (x_read x')) /\
    (forall i v, In (i, v) (x_returned x') -> nth_error (batch b data) i = Some v) /\
    (forall i, i < k -> exists v, In (i, v) (x_returned x')) /\
    cached_batch s' = batch b data /\ sized k max s'.
Proof.
  intros Pl Rd K. destruct (exec_inv l Pl) as (s' & x' & E & I). exists s', x'. split; [exact E|].
  destruct (inv_reads l s' x' Pl Rd K I) as [C Z]. destruct I as [L S St T R Ra Rt Rta].
  split; [exact R|]. split; [exact Ra|]. split; [|split; [|auto]].
  - intros i v Q. assert (Li : i < k).
    { destruct (Nat.lt_ge_cases i k) as [|Li]; [assumption|]. exfalso.
      assert (X : forall l s x s' x', (forall o j, In o l -> op_index o = Some j -> j < k) ->
        (forall j v, In (j, v) (x_returned x) -> j < k) -> exec max b data l s x = (s', Ok x') ->
        forall j v, In (j, v) (x_returned x') -> j < k).
      { clear. induction l as [|o l IH]; cbn; intros s x s' x' Hl Hx E j v Q.
        - injection E as <- <-. eauto.
        - destruct (step max b data o s x) as [[s1 x1]|e] eqn:E1; [|discriminate].
          apply (IH s1 x1 s' x') with (j := j) (v := v); [intros p jj Ip; apply Hl; right; exact Ip| |exact E|exact Q].
          intros j' v' Q'. destruct o as [i| |i| |i|i]; cbn in E1.
          + destruct (nth_error _ i); [|discriminate]. injection E1 as <- <-. cbn in Q'. eauto.
          + destruct (Nat.leb b max); [|discriminate]. injection E1 as <- <-. eauto.
          + destruct (nth_error data i); [|discriminate]. injection E1 as <- <-. cbn in Q'. eauto.
          + injection E1 as <- <-. eauto.
          + destruct (assoc (x_taken x) i), (nth_error (v_storage s) i); try discriminate.
            destruct (Nat.eqb _ _); [|discriminate]. injection E1 as <- <-. eauto.
          + destruct (assoc (x_taken x) i); [|discriminate]. injection E1 as <- <-. cbn in Q'.
            destruct Q' as [[= <- <-]|Q']; [|eauto]. apply (Hl (Return i) i); [left; reflexivity|reflexivity]. }
      assert (i < k); [|lia]. eapply (X l s0 no_values s' x' (proj1 Pl)); [|exact E|exact Q]. cbn. tauto. }
    rewrite (Rt i v Q). unfold batch. rewrite nth_error_map, (proj1 (data_row i Li)). reflexivity.
  - intros i Li. eauto.
Qed.

(** A store that succeeds got a full batch. *)
Lemma exec_store (l : list op) (s : vars row) x s' x' : b <= max -> sized k max s ->
  (forall i v, assoc (x_taken x) i = Some v -> exists d, nth_error data i = Some d /\ v = firstn b d) ->
  exec max b data l s x = (s', Ok x') ->
  forall j, In (Store j) l -> exists d, nth_error data j = Some d /\ b <= length d.
Proof.
  clear Bm En Sz. intros Bm. revert s x. induction l as [|o l IH]; intros s x Sz Tk E j I; [destruct I|].
  cbn [exec] in E. destruct (step max b data o s x) as [[s1 x1]|e] eqn:E1; [|discriminate].
  assert (P : sized k max s1 /\
    (forall i v, assoc (x_taken x1) i = Some v -> exists d, nth_error data i = Some d /\ v = firstn b d) /\
    (forall i, o = Store i -> exists d, nth_error data i = Some d /\ b <= length d)).
  { destruct o as [i| |i| |i|i]; cbn in E1.
    - destruct (nth_error _ i); [|discriminate]. injection E1 as <- <-. split; [exact Sz|split; [exact Tk|discriminate]].
    - destruct (Nat.leb b max); [|discriminate]. injection E1 as <- <-. split; [exact Sz|split; [exact Tk|discriminate]].
    - destruct (nth_error data i) as [d|] eqn:Ed; [|discriminate]. injection E1 as <- <-. cbn. split; [exact Sz|].
      split; [|discriminate]. intros i' v. destruct (Nat.eqb_spec i i') as [<-|_]; [|apply Tk].
      intros [= <-]. eauto.
    - injection E1 as <- <-. split; [exact Sz|split; [exact Tk|discriminate]].
    - destruct (assoc (x_taken x) i) as [cur|] eqn:Ec; [|discriminate].
      destruct (nth_error (v_storage s) i) as [old|] eqn:Eo; [|discriminate].
      destruct (Nat.eqb_spec (length cur) (length (firstn b old))) as [El|]; [|discriminate].
      injection E1 as <- <-. destruct Sz as [A B]. pose proof (B old (nth_error_In _ _ Eo)) as Lo.
      rewrite firstn_length_le in El by lia. cbn. split; [split|split; [exact Tk|]].
      + rewrite <- A. apply set_nth_length.
      + intros d Q. cbn in Q. apply In_nth_error in Q as (q & Q). destruct (Nat.eq_dec i q) as [<-|Nq].
        * rewrite nth_error_set_same in Q by (apply nth_error_Some; congruence). injection Q as <-.
          rewrite app_length, skipn_length. lia.
        * rewrite nth_error_set_other in Q by auto. apply B, (nth_error_In _ _ Q).
      + intros i' [= <-]. destruct (Tk i cur Ec) as (d & Ed & ->). exists d. split; [exact Ed|].
        rewrite firstn_length in El. lia.
    - destruct (assoc (x_taken x) i); [|discriminate]. injection E1 as <- <-. split; [exact Sz|split; [exact Tk|discriminate]]. }
  destruct P as (P1 & P2 & P3). destruct I as [->|I]; [auto|]. apply (IH s1 x1 P1 P2 E j I).
Qed.

(** A run that only looks at the cached batch. *)
Lemma look_run l : possible k l -> only_looks l ->
  exists x', exec max b data l s0 no_values = (s0, Ok x') /\
    (forall i v, In (i, v) (x_read x') -> nth_error (cached_batch s0) i = Some v) /\
    (forall i, In (ReadCached i) l -> exists v, In (i, v) (x_read x')).
Proof.
  intros Pl O. destruct (exec_inv l Pl) as (s' & x' & E & I).
  assert (Q : s' = s0).
  { revert E. generalize (@no_values row). clear - O. revert s' x'. generalize s0. induction l as [|o l IH]; intros s s' x' x E.
    - cbn in E. injection E as <- _. reflexivity.
    - cbn in E. destruct (O o (or_introl eq_refl)) as (i & ->). cbn in E.
      destruct (nth_error (cached_batch s) i); [|discriminate]. apply (IH (fun o I => O o (or_intror I))) in E. exact E. }
  subst s'. exists x'. split; [exact E|]. destruct I as [L S St T R Ra Rt Rta]. auto.
Qed.
End Reader.

(** A batch that is too large is never returned. *)
Lemma too_large {row} k max b (data : list (list row)) s l i :
  max < b -> possible k l -> In (Return i) l -> exists e, snd (exec max b data l s no_values) = Raise e.
Proof.
  intros B [_ Pl] I.
  assert (C : In Check l).
  { assert (T : In (Take i) l).
    { apply in_split in I as (l1 & l2 & E). destruct (Pl _ _ _ E) as [_ H]. rewrite E. apply in_app_iff. left. apply H. cbn. auto. }
    apply in_split in T as (l1 & l2 & E). destruct (Pl _ _ _ E) as [_ H]. rewrite E. apply in_app_iff. left. apply H. reflexivity. }
  clear Pl I. generalize (@no_values row). revert s. induction l as [|o l IH]; intros s x; [destruct C|].
  cbn [exec]. destruct (step max b data o s x) as [[s1 x1]|e] eqn:E; [|eexists; reflexivity]. apply IH.
  destruct C as [->|C]; [|exact C]. cbn in E. destruct (Nat.leb_spec b max); [lia|discriminate].
Qed.

(** Nor is a batch of which some tensor has too few rows. *)
Lemma short_data {row} k max b (data : list (list row)) s l i j d :
  sized k max s -> possible k l -> In (Return i) l -> j < k -> nth_error data j = Some d -> length d < b ->
  exists e, snd (exec max b data l s no_values) = Raise e.
Proof.
  intros Sz Po I Lj Ed Ld. destruct (Nat.lt_ge_cases max b) as [B|B]; [exact (too_large k max b data s l i B Po I)|].
  destruct (exec max b data l s no_values) as [s' [x'|e]] eqn:E; [|eexists; reflexivity]. exfalso.
  assert (St : In (Store j) l).
  { destruct Po as [_ Pl]. apply in_split in I as (l1 & l2 & El). destruct (Pl _ _ _ El) as [_ H].
    rewrite El. apply in_app_iff. left. apply H. cbn. eauto. }
  destruct (exec_store k max b data l s no_values s' x' B Sz) with (j := j) as (d' & Ed' & Ld'); try assumption.
  - cbn. discriminate.
  - rewrite Ed in Ed'. injection Ed' as <-. lia.
Qed.

Lemma history {row} k max (rs : list (run row)) s y :
  0 < k -> sized k max s -> (forall r, In r rs -> proper k max r) -> last_batch k rs (cached_batch s) y ->
  cached_batch (exec_runs max rs s) = y /\ sized k max (exec_runs max rs s).
Proof.
  intros K Sz Pr H. remember (cached_batch s) as x0 eqn:X. induction H as [x|rs r x y H IH Rd|rs r x y H IH Lk].
  - subst. split; [reflexivity|exact Sz].
  - assert (P : proper k max r) by (apply Pr, in_app_iff; cbn; auto). destruct P as (Po & Bm & En & _).
    destruct IH as [C Z]; [intros q I; apply Pr, in_app_iff; auto|exact X|].
    unfold exec_runs in *. rewrite fold_left_app. cbn [fold_left]. unfold exec_run at 1 3.
    destruct (read_run k max (r_size r) (r_data r) _ Bm En Z (r_ops r) Po Rd K) as (s' & x' & E & _ & _ & _ & _ & C' & Z').
    rewrite E. cbn. auto.
  - assert (P : proper k max r) by (apply Pr, in_app_iff; cbn; auto). destruct P as (Po & Bm & En & _).
    destruct IH as [C Z]; [intros q I; apply Pr, in_app_iff; auto|exact X|].
    unfold exec_runs in *. rewrite fold_left_app. cbn [fold_left]. unfold exec_run at 1 3.
    destruct (look_run k max (r_size r) (r_data r) _ Bm En Z (r_ops r) Po Lk) as (x' & E & _).
    rewrite E. cbn. auto.
Qed.

(** After a read of too large a batch the stored rows are as before; the size may not be. *)
Lemma too_large_state {row} k max b (data : list (list row)) s l :
  max < b -> possible k l -> v_storage (fst (exec max b data l s no_values)) = v_storage s /\
    (v_size (fst (exec max b data l s no_values)) = v_size s \/ v_size (fst (exec max b data l s no_values)) = b).
Proof.
  intros B [_ Pl].
  assert (G : forall rest dn s' x, l = dn ++ rest -> ~ In Check dn -> v_storage s' = v_storage s ->
     (v_size s' = v_size s \/ v_size s' = b) ->
     v_storage (fst (exec max b data rest s' x)) = v_storage s /\
     (v_size (fst (exec max b data rest s' x)) = v_size s \/ v_size (fst (exec max b data rest s' x)) = b)).
  { induction rest as [|o rest IH]; intros dn s' x E N Hi Hs; [cbn; auto|].
    destruct (Pl dn o rest E) as [_ Rq]. cbn [exec].
    destruct (step max b data o s' x) as [[s1 x1]|e] eqn:E1; [|cbn; auto].
    assert (Sh : forall i, o = Store i -> False).
    { intros i ->. assert (Q : In (Take i) dn) by (apply Rq; cbn; auto). apply N.
      apply in_split in Q as (d1 & d2 & ->). rewrite <- app_assoc in E.
      destruct (Pl d1 (Take i) (d2 ++ Store i :: rest) E) as [_ H]. apply in_app_iff. left. apply H. reflexivity. }
    apply (IH (dn ++ [o])).
    - rewrite <- app_assoc. exact E.
    - intros I. apply in_app_iff in I as [I|[->|[]]]; [auto|]. cbn in E1. destruct (Nat.leb_spec b max); [lia|discriminate].
    - destruct o as [i| |i| |i|i]; cbn in E1.
      + destruct (nth_error _ _); [|discriminate]. injection E1 as <- _. exact Hi.
      + destruct (Nat.leb b max); [|discriminate]. injection E1 as <- _. exact Hi.
      + destruct (nth_error _ _); [|discriminate]. injection E1 as <- _. exact Hi.
      + injection E1 as <- _. exact Hi.
      + destruct (Sh i eq_refl).
      + destruct (assoc _ _); [|discriminate]. injection E1 as <- _. exact Hi.
    - destruct o as [i| |i| |i|i]; cbn in E1.
      + destruct (nth_error _ _); [|discriminate]. injection E1 as <- _. exact Hs.
      + destruct (Nat.leb b max); [|discriminate]. injection E1 as <- _. exact Hs.
      + destruct (nth_error _ _); [|discriminate]. injection E1 as <- _. exact Hs.
      + injection E1 as <- _. right. reflexivity.
      + destruct (Sh i eq_refl).
      + destruct (assoc _ _); [|discriminate]. injection E1 as <- _. exact Hs. }
  apply (G l []); auto.
Qed.
