(** Any number of steps on replicas that start with the same variables. *)
From Coq Require Import List Arith Bool Reals Lia Lra FunctionalExtensionality.
From Verif.Base Require Import Py.
From Verif.Tensors Require Import Model.
From Verif.Train Require Import Model.
From Verif.Replica Require Import Model Spec CommProofs StepProofs.
Import ListNotations.
Open Scope list_scope.
Open Scope R_scope.

Lemma mav_eta {I} (m : mav I) : mkMav (m_var m) (m_weight m) (m_norm m) = m.
Proof. now destruct m. Qed.

Lemma transpose_repeat_in {A} (d : A) n l :
  transpose d n (map (fun a => repeat a n) l) = repeat l n.
Proof.
  unfold transpose. rewrite (map_all_eq _ _ l); [now rewrite seq_length|].
  intros j Hj. apply in_seq in Hj. rewrite map_map. rewrite <- (map_id l) at 2.
  apply map_ext. intro a. apply nth_repeat_lt. lia.
Qed.

Lemma map_nth_seq {A} (d : A) l : map (fun j => nth j l d) (seq 0 (length l)) = l.
Proof.
  induction l as [|a l IH]; [reflexivity|]. cbn [length seq map nth]. f_equal.
  rewrite <- seq_shift, map_map. exact IH.
Qed.

Lemma transpose_repeat_out {A} (d : A) n l :
  transpose d (length l) (repeat l n) = map (fun a => repeat a n) l.
Proof.
  unfold transpose. transitivity (map (fun j => repeat (nth j l d) n) (seq 0 (length l))).
  - apply map_ext. intro j. apply (map_repeat (fun r => nth j r d)).
  - now rewrite <- (map_map (fun j => nth j l d) (fun a => repeat a n)), map_nth_seq.
Qed.

Lemma hd_repeat {A} (d x : A) n : (1 <= n)%nat -> hd d (repeat x n) = x.
Proof. destruct n; [lia|reflexivity]. Qed.

Section Steps.
Variables (k : rctx) (n : nat).
Hypothesis Hk : replicated k n.
Let Hn : (1 <= n)%nat := replicated_pos k n Hk.
Variables (B I : Type) (e : renv B I).

(** * Covariances *)

Lemma sync_mavs_repeat (m : mav I) : sync_mavs k (repeat m n) = repeat m n.
Proof.
  unfold sync_mavs. rewrite !map_repeat, sync_at_repeat, sync1_repeat, zip_repeat, map2_repeat by exact Hn.
  cbn [fst snd]. now rewrite mav_eta.
Qed.

(** The statistics after the average *)
Definition mean_stats (raw : list (list (I -> R))) : list (I -> R) :=
  map (fun j i => average (map (fun r => nth j r (fun _ => 0) i) raw)) (seq 0 (length (hd [] raw))).

Lemma cov_update_same decay raw cov :
  length raw = n ->
  cov_update_r k e decay raw (repeat cov n)
  = repeat (cov_update decay (r_finish e (mean_stats raw)) cov) n.
Proof.
  intro Hl. unfold cov_update_r. rewrite repeat_length.
  assert (E : map (all_average_at k) (transpose (fun _ : I => 0) (length (hd [] raw)) raw)
              = map (fun a => repeat a n) (mean_stats raw)).
  { unfold transpose, mean_stats. rewrite !map_map. apply map_ext. intro j.
    rewrite all_average_at_replicated by (rewrite map_length, Hl; exact Hk).
    rewrite map_length, Hl. f_equal. apply functional_extensionality. intro i. now rewrite map_map. }
  rewrite E, transpose_repeat_in, map2_repeat, hd_repeat by exact Hn.
  rewrite transpose_repeat_out, map_map.
  rewrite (map_ext _ (fun a => repeat a n)) by exact sync_mavs_repeat.
  now rewrite transpose_repeat_in.
Qed.

(** * kfac_update_ops and the step, in terms of what one device would be given *)

Variables (B' : Type) (e' : env B' I structure).

(** One step's data of the replicas and of the device *)
Record same_data (i : rinput B) (i' : input B') : Prop := mkSame {
  sd_length : length (ri_batches i) = n;
  sd_order : i_cov_first i' = ri_cov_first i;
  sd_invert : e_invert e' = e_invert (r_env e);
  sd_precond : e_precond e' = e_precond (r_env e);
  sd_mult : e_mult e' = e_mult (r_env e);
  sd_loss : forall th, average (map (fun b => e_loss (r_env e) (fst b) th) (ri_batches i))
                       = e_loss e' (i_batch i') th;
  sd_prev : forall th, average (map (fun b => e_loss (r_env e) (snd b) th) (ri_batches i))
                       = e_loss e' (i_prev i') th;
  sd_stats : forall th,
    r_finish e (mean_stats (smart_cond_tensors k
                  (map (fun b => e_stats (r_env e) th (fst b)) (ri_batches i))))
    = e_stats e' th (i_batch i') }.

Definition replica_ctxs (i : rinput B) (th : nat -> vec) (q : pst I structure) : list ctx :=
  map (fun b => loss_ctx_r e b (e_loss (r_env e) (fst b) th) q th) (ri_batches i).
Definition device_ctx (i' : input B') (th : nat -> vec) (q : pst I structure) : ctx :=
  loss_ctx e' i' (e_loss e' (i_batch i') th) (o_cov q) (o_inv q) (s_damping (o_st q)) th.

Lemma ctxs_agree i i' th q : same_data i i' -> agree n (replica_ctxs i th q) (device_ctx i' th q).
Proof.
  intros [Hl Ho Hi Hp Hm Hlo Hpr Hs]. unfold replica_ctxs, device_ctx, loss_ctx_r, loss_ctx. constructor; simpl.
  - now rewrite map_length.
  - intros y Hy. apply in_map_iff in Hy as (b & <- & _). simpl. now rewrite Hp.
  - intros y Hy. apply in_map_iff in Hy as (b & <- & _). simpl. now rewrite Hm.
  - rewrite map_map. apply Hlo.
  - intro t. rewrite map_map. apply Hlo.
  - intro t. rewrite map_map. apply Hpr.
Qed.

Lemma ctxs_written i th q :
  length (ri_batches i) = n -> ctxs_r e i (repeat th n) (repeat q n) = replica_ctxs i th q.
Proof.
  intro Hl. unfold ctxs_r. rewrite zip_repeat_r, map2_const_r, map_map by (rewrite ?map_length; exact Hl).
  reflexivity.
Qed.

Lemma smart_cond_length {A} (l : list A) : length (smart_cond_tensors k l) = length l.
Proof.
  unfold smart_cond_tensors. destruct (syncs k); [|reflexivity]. destruct l; [reflexivity|].
  now rewrite map_length.
Qed.

Definition cov_group (p : pcfg) (i' : input B') (th : nat -> vec) (q : pst I structure) : pst I structure :=
  if Nat.eqb (Nat.modulo (s_counter (o_st q)) (p_cov_every p)) 0
  then mkPst (o_st q) (cov_update (p_ema p) (e_stats e' th (i_batch i')) (o_cov q)) (o_inv q) (o_burnin q)
  else q.
Definition damping_group (p : pcfg) (i' : input B') (th : nat -> vec) (q : pst I structure) : pst I structure :=
  mkPst (maybe_pre_update_adapt_damping (p_cfg p) (device_ctx i' th q) (o_st q)) (o_cov q) (o_inv q)
        (o_burnin q).

Lemma cov_group_same p i i' th q :
  same_data i i' -> cov_group_r k p e i (repeat th n) (repeat q n) = repeat (cov_group p i' th q) n.
Proof.
  intros [Hl Ho Hi Hp Hm Hlo Hpr Hs]. unfold cov_group_r, cov_group. rewrite map_repeat.
  replace (map2 (fun th b => e_stats (r_env e) th (fst b)) (repeat th n) (ri_batches i))
    with (map (fun b => e_stats (r_env e) th (fst b)) (ri_batches i))
    by (rewrite <- Hl; symmetry; apply (map2_repeat_l (fun th b => e_stats (r_env e) th (fst b)))).
  rewrite cov_update_same by (rewrite smart_cond_length, map_length; exact Hl).
  rewrite Hs, map2_repeat. reflexivity.
Qed.

Lemma damping_group_same p i i' th q :
  same_data i i' -> damping_group_r k p e i (repeat th n) (repeat q n) = repeat (damping_group p i' th q) n.
Proof.
  intro H. pose proof (sd_length _ _ H) as Hl. unfold damping_group_r, damping_group.
  rewrite ctxs_written by exact Hl. rewrite map_repeat.
  rewrite (pre_damping_r k n Hk _ _ _ _ (ctxs_agree i i' th q H)), map2_repeat. reflexivity.
Qed.

Lemma kfac_update_same p i i' q :
  same_data i i' ->
  kfac_update_ops_r k p e i (repeat q n) = repeat (kfac_update_ops p e' i' q) n.
Proof.
  intro H. pose proof H as [Hl Ho Hi Hp Hm Hlo Hpr Hs].
  unfold kfac_update_ops_r. rewrite !map_repeat. cbv zeta. set (th := s_params (o_st q)).
  set (q1 := if ri_cov_first i then damping_group p i' th (cov_group p i' th q)
             else cov_group p i' th (damping_group p i' th q)).
  assert (E1 : (if ri_cov_first i
                then damping_group_r k p e i (repeat th n) (cov_group_r k p e i (repeat th n) (repeat q n))
                else cov_group_r k p e i (repeat th n) (damping_group_r k p e i (repeat th n) (repeat q n)))
               = repeat q1 n).
  { unfold q1. destruct (ri_cov_first i).
    - now rewrite (cov_group_same p i i'), (damping_group_same p i i').
    - now rewrite (damping_group_same p i i'), (cov_group_same p i i'). }
  rewrite E1, map_repeat, sync_repeat, zip_repeat, map2_repeat by exact Hn. cbn [fst snd].
  f_equal. unfold kfac_update_ops. rewrite Ho, Hi. reflexivity.
Qed.

Lemma burnin_same i i' q :
  same_data i i' -> syncs k = false ->
  burnin_step_r k e i (repeat q n) = repeat (burnin_step e' i' q) n.
Proof.
  intros [Hl Ho Hi Hp Hm Hlo Hpr Hs] Hsy. unfold burnin_step_r. rewrite map_repeat.
  replace (map2 (fun q b => e_stats (r_env e) (s_params (o_st q)) (fst b)) (repeat q n) (ri_batches i))
    with (map (fun b => e_stats (r_env e) (s_params (o_st q)) (fst b)) (ri_batches i))
    by (rewrite <- Hl; symmetry; apply (map2_repeat_l (fun q b => e_stats (r_env e) (s_params (o_st q)) (fst b)))).
  rewrite cov_update_same, map2_repeat by (rewrite map_length; exact Hl).
  specialize (Hs (s_params (o_st q))). unfold smart_cond_tensors in Hs. rewrite Hsy in Hs. rewrite Hs.
  reflexivity.
Qed.
End Steps.
Arguments same_data k n {B I} e {B'} e' i i'.
Arguments sd_length {k n B I e B' e' i i'}.
Arguments mean_stats {I}.
Arguments replica_ctxs {B I}. Arguments device_ctx {I B'}.
