From Coq Require Import String List Arith ZArith Bool Reals Lra Lia.
From Flocq Require Import Core.
From Verif.Base Require Import Py.
From Verif.Examples Require Import Model Spec.
Import ListNotations.
Open Scope list_scope.
Open Scope R_scope.

Section Sizes.
Variables T S N : nat.
Hypothesis T2 : (2 <= T)%nat.
Hypothesis S1 : (1 <= S)%nat.
Hypothesis N1 : (1 <= N)%nat.

Let last := (T - 1)%nat.
Lemma last_R : INR last = INR T - 1.
Proof. unfold last. rewrite minus_INR by lia. reflexivity. Qed.
Lemma last_pos : 0 < INR last.
Proof. apply lt_0_INR. unfold last. lia. Qed.
Lemma S_pos : 0 < INR S. Proof. apply lt_0_INR. lia. Qed.
Lemma N_pos : 0 < INR N. Proof. apply lt_0_INR. lia. Qed.
Lemma ln2_pos : 0 < ln 2. Proof. rewrite <- ln_1. apply ln_increasing; lra. Qed.

Lemma ratio_pos : 0 < INR N / INR S.
Proof. apply Rdiv_lt_0_compat; [apply N_pos|apply S_pos]. Qed.

Lemma log_zero : log2 (INR N / INR S) = 0 <-> N = S.
Proof.
  pose proof ln2_pos. pose proof S_pos. unfold log2. split.
  - intros E. assert (L : ln (INR N / INR S) = 0).
    { apply (Rmult_eq_reg_r (/ ln 2)); [|apply Rinv_neq_0_compat; lra]. unfold Rdiv in E. lra. }
    rewrite <- ln_1 in L. apply ln_inv in L; [|apply ratio_pos|lra].
    apply INR_eq. replace (INR N) with (INR N / INR S * INR S) by (field; lra). rewrite L. lra.
  - intros ->. replace (INR S / INR S) with 1 by (field; lra). rewrite ln_1. unfold Rdiv. lra.
Qed.

Lemma power_form k : N <> S ->
  Rpower 2 (INR k / ((INR T - 1) / log2 (INR N / INR S))) * INR S = geometric (INR S) (INR N) k last.
Proof.
  intros H. assert (D : log2 (INR N / INR S) <> 0) by (rewrite log_zero; exact H).
  pose proof ln2_pos. pose proof last_pos as L. unfold geometric. rewrite Rmult_comm. f_equal.
  unfold Rpower. f_equal. unfold log2 in *. rewrite last_R in *. field.
  repeat split; try lra. intros E. apply D. rewrite E. unfold Rdiv. lra.
Qed.

Lemma geo_zero : geometric (INR S) (INR N) 0 last = INR S.
Proof.
  unfold geometric. cbn [INR]. unfold Rdiv at 2. rewrite Rmult_0_l, Rpower_O by apply ratio_pos. lra.
Qed.
Lemma geo_last : geometric (INR S) (INR N) last last = INR N.
Proof.
  pose proof last_pos. pose proof S_pos. unfold geometric.
  replace (INR last / INR last) with 1 by (field; lra).
  rewrite Rpower_1 by apply ratio_pos. field. lra.
Qed.
Lemma geo_up i j : (S <= N)%nat -> (i <= j)%nat ->
  geometric (INR S) (INR N) i last <= geometric (INR S) (INR N) j last.
Proof.
  intros H L. pose proof S_pos as P. unfold geometric. apply Rmult_le_compat_l; [lra|].
  assert (B : 1 <= INR N / INR S).
  { apply (Rmult_le_reg_r (INR S)); [lra|]. replace (INR N / INR S * INR S) with (INR N) by (field; lra).
    rewrite Rmult_1_l. apply le_INR. exact H. }
  apply Rle_Rpower; [exact B|]. apply Rmult_le_compat_r.
  - left. apply Rinv_0_lt_compat, last_pos.
  - apply le_INR. exact L.
Qed.
Lemma geo_down i j : (N <= S)%nat -> (i <= j)%nat ->
  geometric (INR S) (INR N) j last <= geometric (INR S) (INR N) i last.
Proof.
  intros H L. pose proof S_pos as P. pose proof last_pos as Q. unfold geometric.
  apply Rmult_le_compat_l; [lra|]. unfold Rpower.
  assert (B : ln (INR N / INR S) <= 0).
  { rewrite <- ln_1. pose proof ratio_pos as R. assert (INR N / INR S <= 1).
    { apply (Rmult_le_reg_r (INR S)); [lra|]. replace (INR N / INR S * INR S) with (INR N) by (field; lra).
      rewrite Rmult_1_l. apply le_INR. exact H. }
    destruct (Req_dec (INR N / INR S) 1) as [->|Ne]; [lra|]. left. apply ln_increasing; lra. }
  assert (C : INR i / INR last <= INR j / INR last).
  { apply Rmult_le_compat_r; [left; apply Rinv_0_lt_compat, Q|]. apply le_INR. exact L. }
  assert (E : INR j / INR last * ln (INR N / INR S) <= INR i / INR last * ln (INR N / INR S)) by nra.
  destruct E as [E|E]; [left; apply exp_increasing; exact E|right; rewrite E; reflexivity].
Qed.

Definition entry (k : nat) : Z := Z.min (Zfloor (geometric (INR S) (INR N) k last)) (Z.of_nat N).

Lemma floor_INR n : Zfloor (INR n) = Z.of_nat n.
Proof. rewrite INR_IZR_INZ. apply Zfloor_IZR. Qed.

Lemma geo_pos k : 0 < geometric (INR S) (INR N) k last.
Proof. unfold geometric. apply Rmult_lt_0_compat; [apply S_pos|]. unfold Rpower. apply exp_pos. Qed.

Lemma entry_up i j : (i <= j < T)%nat -> (entry i <= entry j)%Z.
Proof.
  intros [L U]. unfold entry. destruct (Nat.le_ge_cases S N) as [H|H].
  - pose proof (Zfloor_le _ _ (geo_up i j H L)). lia.
  - (* below the start size, all entries are N *)
    assert (X : forall k, (k <= last)%nat -> (Z.of_nat N <= Zfloor (geometric (INR S) (INR N) k last))%Z).
    { intros k K. rewrite <- floor_INR. apply Zfloor_le.
      pose proof (geo_down k last H K) as G. rewrite geo_last in G. exact G. }
    pose proof (X i ltac:(unfold last; lia)). pose proof (X j ltac:(unfold last; lia)). lia.
Qed.
Lemma entry_first : entry 0 = Z.min (Z.of_nat S) (Z.of_nat N).
Proof. unfold entry. rewrite geo_zero, floor_INR. reflexivity. Qed.
Lemma entry_last : entry last = Z.of_nat N.
Proof. unfold entry. rewrite geo_last, floor_INR. lia. Qed.

Lemma schedule_entries : N <> S -> exists l, batch_size_schedule T S N = Ok l /\
  length l = T /\ forall k, (k < T)%nat -> nth_error l k = Some (entry k).
Proof.
  intros H. unfold batch_size_schedule. destruct (Nat.eqb_spec N 0); [lia|].
  destruct (Req_EM_T (log2 (INR N / INR S)) 0) as [E|E]; [apply log_zero in E; contradiction|].
  eexists. split; [reflexivity|]. split; [rewrite map_length, seq_length; reflexivity|].
  intros k K. rewrite nth_error_map, nth_error_nth' with (d := 0%nat) by (rewrite seq_length; exact K).
  rewrite seq_nth by exact K. cbn [option_map Nat.add]. f_equal. unfold entry. f_equal.
  rewrite power_form by exact H. unfold py_int, Ztrunc.
  destruct (Rlt_bool_spec (geometric (INR S) (INR N) k last) 0) as [Ne|_]; [|reflexivity].
  pose proof (geo_pos k). lra.
Qed.

Lemma schedule_equal : N = S -> batch_size_schedule T S N = Raise ZeroDivisionError.
Proof.
  intros H. unfold batch_size_schedule. destruct (Nat.eqb_spec N 0); [lia|].
  destruct (Req_EM_T (log2 (INR N / INR S)) 0) as [E|E]; [reflexivity|].
  exfalso. apply E, log_zero, H.
Qed.

Lemma size_at l i : batch_size_schedule T S N = Ok l -> batch_size_at l i = Ok (entry (Nat.min i last)).
Proof.
  intros E. destruct (Nat.eq_dec N S) as [Q|Q]; [rewrite schedule_equal in E by exact Q; discriminate E|].
  destruct (schedule_entries Q) as [l' [E' [L H]]]. rewrite E in E'. injection E' as <-.
  unfold batch_size_at. rewrite L. fold last. rewrite H by (unfold last; lia). reflexivity.
Qed.

Lemma size_facts l : batch_size_schedule T S N = Ok l ->
  length l = T /\
  (forall k, (k < T)%nat -> nth_error l k = Some (entry k)) /\
  (forall i, exists b, batch_size_at l i = Ok b /\
     (Z.min (Z.of_nat S) (Z.of_nat N) <= b <= Z.of_nat N)%Z /\
     (i = 0%nat -> b = Z.min (Z.of_nat S) (Z.of_nat N)) /\ ((T - 1 <= i)%nat -> b = Z.of_nat N) /\
     (forall j b', (i <= j)%nat -> batch_size_at l j = Ok b' -> (b <= b')%Z)).
Proof.
  intros E. assert (Q : N <> S) by (intros Q; rewrite schedule_equal in E by exact Q; discriminate E).
  destruct (schedule_entries Q) as [l' [E' [L H]]]. rewrite E in E'. injection E' as <-.
  split; [exact L|]. split; [exact H|]. intros i. exists (entry (Nat.min i last)).
  split; [apply size_at; exact E|]. split; [|split; [|split]].
  - split; [|unfold entry; lia]. rewrite <- entry_first. apply entry_up. unfold last. lia.
  - intros ->. apply entry_first.
  - intros G. rewrite Nat.min_r by exact G. apply entry_last.
  - intros j b' LE B. rewrite (size_at l j E) in B. injection B as <-. apply entry_up. unfold last. lia.
Qed.
End Sizes.
