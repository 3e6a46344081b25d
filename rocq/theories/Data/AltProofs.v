(** Proofs about the reader that keeps positions of a fixed data set. *)
From Coq Require Import List Arith Bool Lia Permutation.
From Verif.Base Require Import Py ListFacts.
From Verif.Data Require Import Model Spec.
Import ListNotations.

Lemma gather_ok {row} (d : list row) is : in_range (length d) is ->
  exists v, gather d is = Ok v /\ rows_at d is v.
Proof.
  induction is as [|i is IH]; intros R; cbn.
  - exists []. split; [reflexivity|constructor].
  - destruct (nth_error d i) as [x|] eqn:E.
    + destruct IH as (v & -> & H); [intros j I; apply R; right; exact I|]. cbn. eexists. split; [reflexivity|].
      constructor; [exact E|exact H].
    + exfalso. apply nth_error_None in E. specialize (R i (or_introl eq_refl)). lia.
Qed.
Lemma in_range_firstn n m is : in_range n is -> in_range n (firstn m is).
Proof. intros R i I. apply R. rewrite <- (firstn_skipn m is). apply in_app_iff. auto. Qed.
Lemma perm_range n is : Permutation is (seq 0 n) -> in_range n is.
Proof. intros P i I. apply (Permutation_in _ P), in_seq in I. lia. Qed.

Section Alt.
Context {row : Type}.
Variables (k n b : nat) (data : list (list row)) (sh : list nat) (s0 : avars).
Hypothesis Bn : b <= n.
Hypothesis Fu : full data k n.
Hypothesis Sh : Permutation sh (seq 0 n).
Hypothesis R0 : in_range n (a_indices s0).

Record ainv (dn : list aop) (s : avars) (x : avalues row) : Prop := {
  j_size : (In ASetSize dn -> a_size s = b) /\ (~ In ASetSize dn -> a_size s = a_size s0);
  j_ind : (In ASetIndices dn -> a_indices s = sh) /\ (~ In ASetIndices dn -> a_indices s = a_indices s0);
  j_sh : In AShuffle dn -> y_indices x = Some sh;
  j_taken : forall i, In (AExtract i) dn -> exists v, assoc (y_taken x) i = Some v /\ rows_of data (firstn b sh) i v;
  j_read : forall i v, In (i, v) (y_read x) -> rows_of data (positions s0) i v;
  j_read_all : forall i, In (AReadCached i) dn -> exists v, In (i, v) (y_read x);
  j_returned : forall i v, In (i, v) (y_returned x) -> rows_of data (firstn b sh) i v;
  j_returned_all : forall i, In (AReturn i) dn -> exists v, In (i, v) (y_returned x) }.

Lemma rows_exist i is : i < k -> in_range n is -> exists d v, nth_error data i = Some d /\ gather d is = Ok v /\ rows_of data is i v.
Proof.
  intros L R. destruct Fu as [A B]. destruct (nth_error data i) as [d|] eqn:E.
  - destruct (gather_ok d is) as (v & G & H); [rewrite (B d); [exact R|eapply nth_error_In; eauto]|].
    exists d, v. split; [reflexivity|]. split; [exact G|]. exists d. auto.
  - apply nth_error_None in E. lia.
Qed.

Lemma ainv_step dn o s x :
  ainv dn s x -> ~ In o dn -> (forall p, arequires k o p -> In p dn) -> (forall i, aop_index o = Some i -> i < k) ->
  (forall p, In p dn -> forall q, arequires k p q -> In q dn) ->
  exists s' x', astep n b data sh o s x = Ok (s', x') /\ ainv (dn ++ [o]) s' x'.
Proof.
  intros [S J H T R Ra Rt Rta] N Rq Ix Cl.
  assert (Ap : forall p, In p (dn ++ [o]) <-> In p dn \/ p = o).
  { intros p. rewrite in_app_iff. cbn. intuition. }
  destruct o as [i| | |i| | |i]; cbn [astep].
  - assert (Li : i < k) by (apply Ix; reflexivity).
    assert (Ns : ~ In ASetSize dn) by (intros Q; apply N, (Cl _ Q); cbn; eauto).
    assert (Ni : ~ In ASetIndices dn) by (intros Q; apply N, (Cl _ Q); cbn; eauto).
    rewrite (proj2 S Ns), (proj2 J Ni). fold (positions s0).
    destruct (rows_exist i (positions s0) Li) as (d & v & -> & -> & Rv); [apply in_range_firstn, R0|].
    cbn. do 2 eexists. split; [reflexivity|]. constructor; cbn; auto.
    + split; intros Q; apply S; rewrite Ap in Q; intuition congruence.
    + split; intros Q; apply J; rewrite Ap in Q; intuition congruence.
    + intros Q. apply H. apply Ap in Q. intuition congruence.
    + intros j Q. apply T. apply Ap in Q. intuition congruence.
    + intros j w [[= <- <-]|Q]; auto.
    + intros j Q. apply Ap in Q as [Q|[= ->]]; [|eauto]. destruct (Ra j Q). eauto.
    + intros j Q. apply Rta. apply Ap in Q. intuition congruence.
  - rewrite (proj2 (Nat.leb_le b n) Bn). do 2 eexists. split; [reflexivity|]. constructor; cbn; auto.
    + split; intros Q; apply S; rewrite Ap in Q; intuition congruence.
    + split; intros Q; apply J; rewrite Ap in Q; intuition congruence.
    + intros Q. apply H. apply Ap in Q. intuition congruence.
    + intros j Q. apply T. apply Ap in Q. intuition congruence.
    + intros j Q. apply Ra. apply Ap in Q. intuition congruence.
    + intros j Q. apply Rta. apply Ap in Q. intuition congruence.
  - do 2 eexists. split; [reflexivity|]. constructor; cbn; auto.
    + split; intros Q; apply S; rewrite Ap in Q; intuition congruence.
    + split; intros Q; apply J; rewrite Ap in Q; intuition congruence.
    + intros j Q. apply T. apply Ap in Q. intuition congruence.
    + intros j Q. apply Ra. apply Ap in Q. intuition congruence.
    + intros j Q. apply Rta. apply Ap in Q. intuition congruence.
  - assert (Li : i < k) by (apply Ix; reflexivity). rewrite H by (apply Rq; cbn; auto).
    destruct (rows_exist i (firstn b sh) Li) as (d & v & -> & -> & Rv); [apply in_range_firstn, perm_range, Sh|].
    cbn. do 2 eexists. split; [reflexivity|]. constructor; cbn; auto.
    + split; intros Q; apply S; rewrite Ap in Q; intuition congruence.
    + split; intros Q; apply J; rewrite Ap in Q; intuition congruence.
    + intros j Q. destruct (Nat.eqb_spec i j) as [->|Nj]; [eauto|]. apply T. apply Ap in Q. intuition congruence.
    + intros j Q. apply Ra. apply Ap in Q. intuition congruence.
    + intros j Q. apply Rta. apply Ap in Q. intuition congruence.
  - rewrite H by (apply Rq; cbn; auto). do 2 eexists. split; [reflexivity|]. constructor; cbn; auto.
    + split; intros Q; apply S; rewrite Ap in Q; intuition congruence.
    + split; [reflexivity|]. intros Q. exfalso. apply Q, Ap. auto.
    + intros Q. apply H. apply Ap in Q. intuition congruence.
    + intros j Q. apply T. apply Ap in Q. intuition congruence.
    + intros j Q. apply Ra. apply Ap in Q. intuition congruence.
    + intros j Q. apply Rta. apply Ap in Q. intuition congruence.
  - do 2 eexists. split; [reflexivity|]. constructor; cbn; auto.
    + split; [reflexivity|]. intros Q. exfalso. apply Q, Ap. auto.
    + split; intros Q; apply J; rewrite Ap in Q; intuition congruence.
    + intros Q. apply H. apply Ap in Q. intuition congruence.
    + intros j Q. apply T. apply Ap in Q. intuition congruence.
    + intros j Q. apply Ra. apply Ap in Q. intuition congruence.
    + intros j Q. apply Rta. apply Ap in Q. intuition congruence.
  - destruct (T i) as (v & -> & Rv); [apply Rq; cbn; auto|]. do 2 eexists. split; [reflexivity|]. constructor; cbn; auto.
    + split; intros Q; apply S; rewrite Ap in Q; intuition congruence.
    + split; intros Q; apply J; rewrite Ap in Q; intuition congruence.
    + intros Q. apply H. apply Ap in Q. intuition congruence.
    + intros j Q. apply T. apply Ap in Q. intuition congruence.
    + intros j Q. apply Ra. apply Ap in Q. intuition congruence.
    + intros j w [[= <- <-]|Q]; auto.
    + intros j Q. apply Ap in Q as [Q|[= ->]]; [|eauto]. destruct (Rta j Q). eauto.
Qed.

Lemma aexec_inv l : apossible k l -> exists s' x', aexec n b data sh l s0 no_avalues = (s', Ok x') /\ ainv l s' x'.
Proof.
  intros [Ix Pl].
  assert (Cl : forall dn rest, l = dn ++ rest -> forall p, In p dn -> forall q, arequires k p q -> In q dn).
  { intros dn rest E p I q Q. apply in_split in I as (d1 & d2 & ->). rewrite <- app_assoc in E. cbn in E.
    destruct (Pl d1 p (d2 ++ rest) E) as [_ H]. apply in_app_iff. left. apply H, Q. }
  assert (G : forall rest dn s x, l = dn ++ rest -> ainv dn s x ->
    exists s' x', aexec n b data sh rest s x = (s', Ok x') /\ ainv l s' x').
  { induction rest as [|o rest IH]; intros dn s x E I.
    - rewrite app_nil_r in E. subst dn. exists s, x. split; [reflexivity|exact I].
    - destruct (Pl dn o rest E) as [No Rq].
      destruct (ainv_step dn o s x I No Rq) as (s' & x' & E1 & I1).
      + intros i H. apply (Ix o); [|exact H]. rewrite E. apply in_app_iff. cbn. auto.
      + apply (Cl dn (o :: rest) E).
      + cbn [aexec]. rewrite E1. apply (IH (dn ++ [o])); [|exact I1]. rewrite <- app_assoc. exact E. }
  apply (G l [] s0 no_avalues eq_refl). constructor; cbn; tauto.
Qed.

Lemma aread_run l : apossible k l -> areads_batch k l -> 0 < k ->
  exists s' x', aexec n b data sh l s0 no_avalues = (s', Ok x') /\
    (forall i v, In (i, v) (y_read x') -> rows_of data (positions s0) i v) /\
    (forall i, In (AReadCached i) l -> exists v, In (i, v) (y_read x')) /\
    (forall i v, In (i, v) (y_returned x') -> rows_of data (firstn b sh) i v) /\
    (forall i, i < k -> exists v, In (i, v) (y_returned x')) /\
    positions s' = firstn b sh /\ in_range n (a_indices s').
Proof.
  intros Pl Rd K. destruct (aexec_inv l Pl) as (s' & x' & E & I). exists s', x'. split; [exact E|].
  destruct I as [S J H T R Ra Rt Rta].
  assert (Al : forall q, arequires k (AReturn 0) q -> In q l).
  { intros q Q. pose proof (Rd 0 K) as Li. apply in_split in Li as (l1 & l2 & El). destruct (proj2 Pl _ _ _ El) as [_ Hr].
    rewrite El. apply in_app_iff. left. apply Hr, Q. }
  split; [exact R|]. split; [exact Ra|]. split; [exact Rt|]. split; [intros i Li; auto|].
  unfold positions. rewrite (proj1 S) by (apply Al; cbn; auto). rewrite (proj1 J) by (apply Al; cbn; auto).
  split; [reflexivity|apply perm_range, Sh].
Qed.
Lemma alook_run l : apossible k l -> aonly_looks l ->
  exists x', aexec n b data sh l s0 no_avalues = (s0, Ok x') /\
    (forall i v, In (i, v) (y_read x') -> rows_of data (positions s0) i v) /\
    (forall i, In (AReadCached i) l -> exists v, In (i, v) (y_read x')).
Proof.
  intros Pl O. destruct (aexec_inv l Pl) as (s' & x' & E & I).
  assert (Q : s' = s0).
  { revert E. generalize (@no_avalues row). clear - O. revert s' x'. generalize s0. induction l as [|o l IH]; intros s s' x' x E.
    - cbn in E. injection E as <- _. reflexivity.
    - cbn in E. destruct (O o (or_introl eq_refl)) as (i & ->). cbn in E.
      destruct (nth_error data i); [|discriminate]. destruct (gather _ _); [|discriminate]. cbn in E.
      apply (IH (fun o I => O o (or_intror I))) in E. exact E. }
  subst s'. exists x'. split; [exact E|]. destruct I as [S J H T R Ra Rt Rta]. auto.
Qed.
End Alt.

Lemma atoo_large {row} k n b (data : list (list row)) sh s l i :
  n < b -> apossible k l -> In (AReturn i) l -> exists e, snd (aexec n b data sh l s no_avalues) = Raise e.
Proof.
  intros B [_ Pl] I.
  assert (C : In ACheck l).
  { assert (T : In (AExtract i) l).
    { apply in_split in I as (l1 & l2 & E). destruct (Pl _ _ _ E) as [_ H]. rewrite E. apply in_app_iff. left. apply H. cbn. auto. }
    apply in_split in T as (l1 & l2 & E). destruct (Pl _ _ _ E) as [_ H]. rewrite E. apply in_app_iff. left. apply H. cbn. auto. }
  clear Pl I. generalize (@no_avalues row). revert s. induction l as [|o l IH]; intros s x; [destruct C|].
  cbn [aexec]. destruct (astep n b data sh o s x) as [[s1 x1]|e] eqn:E; [|eexists; reflexivity]. apply IH.
  destruct C as [->|C]; [|exact C]. cbn in E. destruct (Nat.leb_spec b n); [lia|discriminate].
Qed.

Lemma ahistory {row} k n (data : list (list row)) (rs : list arun) s y :
  0 < k -> full data k n -> in_range n (a_indices s) -> (forall r, In r rs -> aproper k n r) ->
  last_positions k rs (positions s) y ->
  positions (aexec_runs n data rs s) = y /\ in_range n (a_indices (aexec_runs n data rs s)).
Proof.
  intros K Fu R Pr H. remember (positions s) as x0 eqn:X. induction H as [x|rs r x y H IH Rd|rs r x y H IH Lk].
  - subst. split; [reflexivity|exact R].
  - assert (P : aproper k n r) by (apply Pr, in_app_iff; cbn; auto). destruct P as (Po & Bm & Sh & _).
    destruct IH as [C Z]; [intros q I; apply Pr, in_app_iff; auto|exact X|].
    unfold aexec_runs in *. rewrite fold_left_app. cbn [fold_left]. unfold aexec_run at 1 3.
    destruct (aread_run k n (ar_size r) data (ar_shuffled r) _ Bm Fu Sh Z (ar_ops r) Po Rd K) as (s' & x' & E & _ & _ & _ & _ & C' & Z').
    rewrite E. cbn. auto.
  - assert (P : aproper k n r) by (apply Pr, in_app_iff; cbn; auto). destruct P as (Po & Bm & Sh & _).
    destruct IH as [C Z]; [intros q I; apply Pr, in_app_iff; auto|exact X|].
    unfold aexec_runs in *. rewrite fold_left_app. cbn [fold_left]. unfold aexec_run at 1 3.
    destruct (alook_run k n (ar_size r) data (ar_shuffled r) _ Bm Fu Sh Z (ar_ops r) Po Lk) as (x' & E & _).
    rewrite E. cbn. auto.
Qed.

(** After a read of too large a batch the positions are as before; the size may not be. *)
Lemma atoo_large_state {row} k n b (data : list (list row)) sh s l :
  n < b -> apossible k l -> a_indices (fst (aexec n b data sh l s no_avalues)) = a_indices s /\
    (a_size (fst (aexec n b data sh l s no_avalues)) = a_size s \/ a_size (fst (aexec n b data sh l s no_avalues)) = b).
Proof.
  intros B [_ Pl].
  assert (G : forall rest dn s' x, l = dn ++ rest -> ~ In ACheck dn -> a_indices s' = a_indices s ->
     (a_size s' = a_size s \/ a_size s' = b) ->
     a_indices (fst (aexec n b data sh rest s' x)) = a_indices s /\
     (a_size (fst (aexec n b data sh rest s' x)) = a_size s \/ a_size (fst (aexec n b data sh rest s' x)) = b)).
  { induction rest as [|o rest IH]; intros dn s' x E N Hi Hs; [cbn; auto|].
    destruct (Pl dn o rest E) as [_ Rq]. cbn [aexec].
    destruct (astep n b data sh o s' x) as [[s1 x1]|e] eqn:E1; [|cbn; auto].
    assert (Sh : o = ASetIndices -> False).
    { intros ->. assert (Q : In AShuffle dn) by (apply Rq; cbn; auto). apply N.
      apply in_split in Q as (d1 & d2 & ->). rewrite <- app_assoc in E.
      destruct (Pl d1 AShuffle (d2 ++ ASetIndices :: rest) E) as [_ H]. apply in_app_iff. left. apply H. reflexivity. }
    apply (IH (dn ++ [o])).
    - rewrite <- app_assoc. exact E.
    - intros I. apply in_app_iff in I as [I|[->|[]]]; [auto|]. cbn in E1. destruct (Nat.leb_spec b n); [lia|discriminate].
    - destruct o as [i| | |i| | |i]; cbn in E1.
      + destruct (nth_error data i); [|discriminate]. destruct (gather _ _); [|discriminate]. injection E1 as <- _. exact Hi.
      + destruct (Nat.leb b n); [|discriminate]. injection E1 as <- _. exact Hi.
      + injection E1 as <- _. exact Hi.
      + destruct (nth_error data i), (y_indices x); try discriminate. destruct (gather _ _); [|discriminate]. injection E1 as <- _. exact Hi.
      + destruct (Sh eq_refl).
      + injection E1 as <- _. exact Hi.
      + destruct (assoc _ _); [|discriminate]. injection E1 as <- _. exact Hi.
    - destruct o as [i| | |i| | |i]; cbn in E1.
      + destruct (nth_error data i); [|discriminate]. destruct (gather _ _); [|discriminate]. injection E1 as <- _. exact Hs.
      + destruct (Nat.leb b n); [|discriminate]. injection E1 as <- _. exact Hs.
      + injection E1 as <- _. exact Hs.
      + destruct (nth_error data i), (y_indices x); try discriminate. destruct (gather _ _); [|discriminate]. injection E1 as <- _. exact Hs.
      + destruct (Sh eq_refl).
      + injection E1 as <- _. right. reflexivity.
      + destruct (assoc _ _); [|discriminate]. injection E1 as <- _. exact Hs. }
  apply (G l []); auto.
Qed.
