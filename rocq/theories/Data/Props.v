(** C52 and C68: the data readers that keep the previous batch. *)
From Coq Require Import List Arith Lia Permutation.
From Verif.Base Require Import Py.
From Verif.Data Require Import Model Spec Proofs AltProofs.
Import ListNotations.

(* ------------------------------------------------------------------------ *)
(** * C52 *)

(** In whatever order the operations of a run happen: what is seen of the cached batch is the
    batch before the run, what is returned is the first [b] rows of every tensor, and this is the
    cached batch afterwards. *)
Theorem C52_read_run {row} k max b (data : list (list row)) s l :
  b <= max -> enough k max data -> sized k max s -> possible k l -> reads_batch k l -> 0 < k ->
  exists s' x, exec max b data l s no_values = (s', Ok x) /\
    (forall i v, In (i, v) (x_read x) -> nth_error (cached_batch s) i = Some v) /\
    (forall i, In (ReadCached i) l -> exists v, In (i, v) (x_read x)) /\
    (forall i v, In (i, v) (x_returned x) -> nth_error (batch b data) i = Some v) /\
    (forall i, i < k -> exists v, In (i, v) (x_returned x)) /\
    cached_batch s' = batch b data /\ sized k max s'.
Proof. intros B E S P R K. exact (read_run k max b data s B E S l P R K). Qed.
Print Assumptions C52_read_run.

(** Looking at the cached batch changes nothing and shows it. *)
Theorem C52_look_run {row} k max b (data : list (list row)) s l :
  b <= max -> enough k max data -> sized k max s -> possible k l -> only_looks l ->
  exists x, exec max b data l s no_values = (s, Ok x) /\
    (forall i v, In (i, v) (x_read x) -> nth_error (cached_batch s) i = Some v) /\
    (forall i, In (ReadCached i) l -> exists v, In (i, v) (x_read x)).
Proof. intros B E S P O. exact (look_run k max b data s B E S l P O). Qed.
Print Assumptions C52_look_run.

(** After any history of runs the cached batch is the last one that was read, whatever the sizes. *)
Theorem C52_history {row} k max (rs : list (run row)) s y :
  0 < k -> sized k max s -> (forall r, In r rs -> proper k max r) ->
  last_batch k rs (cached_batch s) y -> cached_batch (exec_runs max rs s) = y.
Proof. intros K S P H. exact (proj1 (history k max rs s y K S P H)). Qed.
Print Assumptions C52_history.

(** A batch larger than the storage is refused. *)
Theorem C52_too_large {row} k max b (data : list (list row)) s l i :
  max < b -> possible k l -> In (Return i) l -> exists e, snd (exec max b data l s no_values) = Raise e.
Proof. exact (too_large k max b data s l i). Qed.
Print Assumptions C52_too_large.

(** So is a batch for which some tensor of the data has too few rows: what is returned always
    has [b] rows. *)
Theorem C52_short_data {row} k max b (data : list (list row)) s l i j d :
  sized k max s -> possible k l -> In (Return i) l ->
  j < k -> nth_error data j = Some d -> length d < b ->
  exists e, snd (exec max b data l s no_values) = Raise e.
Proof. exact (short_data k max b data s l i j d). Qed.
Print Assumptions C52_short_data.

(** The same for the reader that keeps positions.  [shuffled] is any result of the shuffle. *)
Theorem C52_alt_read_run {row} k n b (data : list (list row)) shuffled s l :
  b <= n -> full data k n -> Permutation shuffled (seq 0 n) -> in_range n (a_indices s) ->
  apossible k l -> areads_batch k l -> 0 < k ->
  exists s' x, aexec n b data shuffled l s no_avalues = (s', Ok x) /\
    (forall i v, In (i, v) (y_read x) -> rows_of data (positions s) i v) /\
    (forall i, In (AReadCached i) l -> exists v, In (i, v) (y_read x)) /\
    (forall i v, In (i, v) (y_returned x) -> rows_of data (firstn b shuffled) i v) /\
    (forall i, i < k -> exists v, In (i, v) (y_returned x)) /\
    positions s' = firstn b shuffled /\ in_range n (a_indices s').
Proof. intros B F Sh R P A K. exact (aread_run k n b data shuffled s B F Sh R l P A K). Qed.
Print Assumptions C52_alt_read_run.

(** The batch consists of [b] different examples. *)
Theorem C52_alt_batch_is_sample n b shuffled :
  b <= n -> Permutation shuffled (seq 0 n) ->
  length (firstn b shuffled) = b /\ NoDup (firstn b shuffled) /\ in_range n (firstn b shuffled).
Proof.
  intros B P. split; [|split; [|apply in_range_firstn, perm_range, P]].
  - rewrite firstn_length, (Permutation_length P), seq_length. lia.
  - assert (N : NoDup (firstn b shuffled ++ skipn b shuffled)).
    { rewrite firstn_skipn. apply (Permutation_NoDup (Permutation_sym P)), seq_NoDup. }
    revert N. generalize (skipn b shuffled). induction (firstn b shuffled) as [|a l IH]; intros m N; [constructor|].
    cbn in N. inversion N as [|? ? N1 N2]. constructor; [|apply (IH m), N2].
    intros I. apply N1, in_app_iff. auto.
Qed.
Print Assumptions C52_alt_batch_is_sample.

Theorem C52_alt_look_run {row} k n b (data : list (list row)) shuffled s l :
  b <= n -> full data k n -> Permutation shuffled (seq 0 n) -> in_range n (a_indices s) ->
  apossible k l -> aonly_looks l ->
  exists x, aexec n b data shuffled l s no_avalues = (s, Ok x) /\
    (forall i v, In (i, v) (y_read x) -> rows_of data (positions s) i v) /\
    (forall i, In (AReadCached i) l -> exists v, In (i, v) (y_read x)).
Proof. intros B F Sh R P A. exact (alook_run k n b data shuffled s B F Sh R l P A). Qed.
Print Assumptions C52_alt_look_run.

Theorem C52_alt_history {row} k n (data : list (list row)) rs s y :
  0 < k -> full data k n -> in_range n (a_indices s) -> (forall r, In r rs -> aproper k n r) ->
  last_positions k rs (positions s) y -> positions (aexec_runs n data rs s) = y.
Proof. intros K F R P H. exact (proj1 (ahistory k n data rs s y K F R P H)). Qed.
Print Assumptions C52_alt_history.

Theorem C52_alt_too_large {row} k n b (data : list (list row)) shuffled s l i :
  n < b -> apossible k l -> In (AReturn i) l ->
  exists e, snd (aexec n b data shuffled l s no_avalues) = Raise e.
Proof. exact (atoo_large k n b data shuffled s l i). Qed.
Print Assumptions C52_alt_too_large.

(** Two tensors, storage for three rows, runs with two rows, a look, and three rows. *)
Definition ex_order : list op :=
  [Check; ReadCached 1; Take 0; ReadCached 0; SetSize; Take 1; Store 1; Store 0; Return 0; Return 1].
Definition ex_runs : list (run nat) :=
  [mkRun 2 [[1; 2; 3]; [4; 5; 6]] ex_order; mkRun 1 [[0; 0; 0]; [0; 0; 0]] [ReadCached 1];
   mkRun 3 [[7; 8; 9; 0]; [6; 5; 4; 3]] ex_order].
Ltac splits := intros l1 o l2 E;
  repeat (destruct l1 as [|? l1]; cbn in E; [injection E as <- <-; split; [cbn; intuition congruence|cbn; intros p Q;
     repeat match goal with
     | H : _ \/ _ |- _ => destruct H as [H|H]
     | H : exists _, _ |- _ =>
         let j := fresh "j" in let Lj := fresh "Lj" in destruct H as (j & Lj & H);
         destruct j as [|[|j]]; try (exfalso; lia)
     | H : False |- _ => destruct H
     end; subst; auto 20]|injection E as <- E]);
  destruct l1; discriminate.
Lemma ex_possible : possible 2 ex_order.
Proof.
  split.
  - unfold ex_order. intros o i I E. cbn in I. repeat (destruct I as [<-|I]; [cbn in E; try discriminate E; injection E as <-; lia|]). destruct I.
  - unfold ex_order. splits.
Qed.
Lemma ex_reads : reads_batch 2 ex_order.
Proof. intros [|[|i]] L; [cbn; auto 12|cbn; auto 12|lia]. Qed.
Lemma ex_look : possible 2 [ReadCached 1] /\ only_looks [ReadCached 1].
Proof.
  split; [split|].
  - intros o i [<-|[]] [= <-]. lia.
  - splits.
  - intros o [<-|[]]. eauto.
Qed.
Example C52_short_example :
  snd (exec 3 2 [[1; 2; 3]; [4]] ex_order (mkVars [[0; 0; 0]; [0; 0; 0]] 0) no_values) =
    Raise InvalidArgumentError.
Proof. reflexivity. Qed.
Example C52_example :
  sized 2 3 (mkVars [[0; 0; 0]; [0; 0; 0]] 0) /\ (forall r, In r ex_runs -> proper 2 3 r) /\
  last_batch 2 ex_runs (cached_batch (mkVars [[0; 0; 0]; [0; 0; 0]] 0)) [[7; 8; 9]; [6; 5; 4]] /\
  snd (exec 3 3 [[7; 8; 9; 0]; [6; 5; 4; 3]] ex_order
        (exec_runs 3 (firstn 2 ex_runs) (mkVars [[0; 0; 0]; [0; 0; 0]] 0)) no_values) =
    Ok (mkValues [(0, [1; 2]); (1, [4; 5])] [(1, [6; 5; 4]); (0, [7; 8; 9])] [(1, [6; 5; 4]); (0, [7; 8; 9])]).
Proof.
  split; [|split; [|split]].
  - split; [reflexivity|]. intros d [<-|[<-|[]]]; reflexivity.
  - assert (E : forall r : run nat, In r ex_runs -> enough 2 3 (r_data r)).
    { intros r I. cbn in I. repeat (destruct I as [<-|I]; [split; [reflexivity|]; cbn; intros d J;
        repeat (destruct J as [<-|J]; [cbn; lia|]); destruct J|]). destruct I. }
    intros r I. split; [|split; [|split; [apply E, I|]]]; cbn in I;
      repeat (destruct I as [<-|I]; [cbn; auto using ex_possible, ex_reads, (proj1 ex_look), (proj2 ex_look); try lia|]); destruct I.
  - change [[7; 8; 9]; [6; 5; 4]] with (batch 3 [[7; 8; 9; 0]; [6; 5; 4; 3]]).
    apply (lb_read 2 (firstn 2 ex_runs) (mkRun 3 [[7; 8; 9; 0]; [6; 5; 4; 3]] ex_order) _ (batch 2 [[1; 2; 3]; [4; 5; 6]])); [|exact ex_reads].
    apply (lb_look 2 (firstn 1 ex_runs)); [|apply ex_look].
    apply (lb_read 2 [] (mkRun 2 [[1; 2; 3]; [4; 5; 6]] ex_order) _ (cached_batch (mkVars [[0; 0; 0]; [0; 0; 0]] 0))); [|exact ex_reads].
    constructor.
  - reflexivity.
Qed.

Definition ex_aorder : list aop :=
  [ACheck; AReadCached 0; AReadCached 1; ASetSize; AShuffle; ASetIndices; AExtract 1; AExtract 0; AReturn 1; AReturn 0].
Lemma ex_apossible : apossible 2 ex_aorder.
Proof.
  split.
  - unfold ex_aorder. intros o i I E. cbn in I. repeat (destruct I as [<-|I]; [cbn in E; try discriminate E; injection E as <-; lia|]). destruct I.
  - unfold ex_aorder. splits.
Qed.
Example C52_alt_example :
  full [[10; 11; 12]; [20; 21; 22]] 2 3 /\ Permutation [2; 0; 1] (seq 0 3) /\ apossible 2 ex_aorder /\
  areads_batch 2 ex_aorder /\
  aexec 3 2 [[10; 11; 12]; [20; 21; 22]] [2; 0; 1] ex_aorder (mkAVars [1; 2; 0] 1) no_avalues =
    (mkAVars [2; 0; 1] 2, Ok (mkAValues [(1, [21]); (0, [11])] (Some [2; 0; 1])
      [(0, [12; 10]); (1, [22; 20])] [(0, [12; 10]); (1, [22; 20])])).
Proof.
  split; [|split; [|split; [exact ex_apossible|split]]].
  - split; [reflexivity|]. intros d [<-|[<-|[]]]; reflexivity.
  - apply (perm_trans (perm_swap 0 2 [1])), perm_skip. apply perm_swap.
  - intros [|[|i]] L; [cbn; auto 12|cbn; auto 12|lia].
  - reflexivity.
Qed.

(* ------------------------------------------------------------------------ *)
(** * C68 *)

(** The check of the batch size is not a dependency of the assignment of the size: a read that is
    refused can change the cached batch. *)
Theorem C68_failed_read_keeps_batch_refuted :
  ~ (forall (row : Type) k max b (data : list (list row)) s l,
       max < b -> enough k b data -> sized k max s -> possible k l ->
       (exists e, snd (exec max b data l s no_values) = Raise e) ->
       cached_batch (fst (exec max b data l s no_values)) = cached_batch s).
Proof.
  intros H.
  assert (P : possible 1 [ReadCached 0; SetSize; Check; Take 0; Store 0; Return 0]).
  { split.
    - intros o i I E. cbn in I. repeat (destruct I as [<-|I]; [cbn in E; try discriminate E; injection E as <-; lia|]). destruct I.
    - splits. }
  assert (X : cached_batch (fst (exec 2 3 [[7; 8; 9]] [ReadCached 0; SetSize; Check; Take 0; Store 0; Return 0]
              (mkVars [[5; 6]] 1) no_values)) = cached_batch (mkVars [[5; 6]] 1)); [|discriminate X].
  apply (H nat 1); [lia| | |exact P|eexists; reflexivity].
  - split; [reflexivity|]. intros d [<-|[]]. cbn. lia.
  - split; [reflexivity|]. intros d [<-|[]]. reflexivity.
Qed.
Print Assumptions C68_failed_read_keeps_batch_refuted.

(** What holds: the stored rows (and positions) are not touched, only the size may be. *)
Theorem C68_failed_read_keeps_rows_partial {row} k max b (data : list (list row)) s l :
  max < b -> possible k l ->
  v_storage (fst (exec max b data l s no_values)) = v_storage s /\
  (v_size (fst (exec max b data l s no_values)) = v_size s \/
   v_size (fst (exec max b data l s no_values)) = b).
Proof. exact (too_large_state k max b data s l). Qed.
Print Assumptions C68_failed_read_keeps_rows_partial.
Theorem C68_alt_failed_read_keeps_positions_partial {row} k n b (data : list (list row)) shuffled s l :
  n < b -> apossible k l ->
  a_indices (fst (aexec n b data shuffled l s no_avalues)) = a_indices s /\
  (a_size (fst (aexec n b data shuffled l s no_avalues)) = a_size s \/
   a_size (fst (aexec n b data shuffled l s no_avalues)) = b).
Proof. exact (atoo_large_state k n b data shuffled s l). Qed.
Print Assumptions C68_alt_failed_read_keeps_positions_partial.
Example C68_example : 3 < 4 /\ possible 2 ex_order /\ apossible 2 ex_aorder.
Proof. split; [lia|]. split; [exact ex_possible|exact ex_apossible]. Qed.
