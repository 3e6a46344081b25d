(** Proofs about the decay callbacks. *)
From Coq Require Import String.
From Coq Require Import Reals ZArith List Bool Lia Lra.
From Verif.Base Require Import Py.
From Verif.Keras Require Import Callbacks.
Import ListNotations.
Local Open Scope R_scope.

Section Last.
Variables (f : Z -> R -> res R) (active : Z -> bool) (val : Z -> R) (lo hi : Z).
Hypothesis F : forall it v, (lo <= it < hi)%Z -> f it v = Ok (if active it then val it else v).

Lemma train_ext : forall n it v, (lo <= it)%Z -> (it + Z.of_nat n <= hi)%Z ->
  exists w, train f it n v = Ok w /\
   ((forall i, (it <= i < it + Z.of_nat n)%Z -> active i = false) -> w = v) /\
   (forall m, (it <= m < it + Z.of_nat n)%Z -> active m = true ->
      (forall i, (m < i < it + Z.of_nat n)%Z -> active i = false) -> w = val m).
Proof.
  induction n as [|n IH]; intros it v L H.
  - exists v. split; [reflexivity|]. split; [reflexivity|]. intros m M. cbn in M. lia.
  - cbn [train]. rewrite F by lia. cbn [bind].
    destruct (IH (it + 1)%Z (if active it then val it else v)) as (w & E & N & M); [lia|lia|].
    exists w. split; [exact E|]. split.
    + intros A. rewrite N by (intros i I; apply A; lia). rewrite A by lia. reflexivity.
    + intros m I A B. destruct (Z.eq_dec m it) as [->|Ne].
      * rewrite N by (intros i J; apply B; lia). rewrite A. reflexivity.
      * apply M; [lia|exact A|]. intros i J. apply B. lia.
Qed.
End Last.

Lemma fpow_pos x y : 0 < x -> fpow x y = Ok (Rpower x y).
Proof. intros H. unfold fpow. destruct (Rlt_dec 0 x); [reflexivity|lra]. Qed.
Lemma fpow_zero y : 0 < y -> fpow 0 y = Ok 0.
Proof.
  intros H. unfold fpow. destruct (Rlt_dec 0 0); [lra|]. destruct (Req_EM_T 0 0); [|lra].
  destruct (Rlt_dec 0 y); [reflexivity|lra].
Qed.

(** The value that the polynomial takes at a step between 1 and N. *)
Definition poly_at (init_value final_value power : R) (n step : Z) : R :=
  if Z.eqb step n then final_value
  else (init_value - final_value) * Rpower (1 - IZR step / IZR n) power + final_value.

Lemma ratio_lt (s n : Z) : (0 < s < n)%Z -> 0 < 1 - IZR s / IZR n.
Proof.
  intros H. assert (A : 0 < IZR n) by (apply IZR_lt; lia). assert (B : IZR s < IZR n) by (apply IZR_lt; lia).
  assert (IZR s / IZR n < 1); [|lra]. apply Rmult_lt_reg_r with (IZR n); [exact A|].
  unfold Rdiv. rewrite Rmult_assoc, Rinv_l by lra. lra.
Qed.

Lemma poly_step i f p n d it v : 0 < p ->
  poly_on_batch_begin i f p n d it v =
  Ok (if (Z.ltb 0 (it - d) && Z.leb (it - d) n)%bool then poly_at i f p n (it - d) else v).
Proof.
  intros P. unfold poly_on_batch_begin, get_global_step.
  destruct (Z.ltb_spec 0 (it - d)) as [A|A]; [|reflexivity].
  destruct (Z.leb_spec (it - d) n) as [B|B]; [|reflexivity]. cbn [andb]. unfold poly_at.
  destruct (Z.eqb_spec (it - d) n) as [->|C].
  - assert (0 < IZR n) by (apply IZR_lt; lia).
    replace (1 - IZR n / IZR n) with 0 by (field; lra). rewrite fpow_zero by exact P. cbn. f_equal. lra.
  - rewrite fpow_pos by (apply ratio_lt; lia). reflexivity.
Qed.

Lemma poly_train i f p n d it0 k v : 0 < p -> (0 < n)%Z -> (0 < k)%nat ->
  exists w, train (poly_on_batch_begin i f p n d) it0 k v = Ok w /\
   let last := (it0 + Z.of_nat k - 1)%Z in
   ((last <= d)%Z -> w = v) /\
   ((d < last < d + n)%Z -> w = (i - f) * Rpower (1 - IZR (last - d) / IZR n) p + f) /\
   ((it0 <= d + n <= last)%Z -> w = f) /\
   ((d + n < it0)%Z -> w = v).
Proof.
  intros P N K.
  destruct (train_ext (poly_on_batch_begin i f p n d) (fun it => Z.ltb 0 (it - d) && Z.leb (it - d) n)%bool
     (fun it => poly_at i f p n (it - d)) it0 (it0 + Z.of_nat k)
     (fun it w _ => poly_step i f p n d it w P) k it0 v) as (w & E & Nn & M); [lia|lia|].
  exists w. split; [exact E|]. cbn zeta. repeat split.
  - intros L. apply Nn. intros x X. destruct (Z.ltb_spec 0 (x - d)); [lia|reflexivity].
  - intros L. rewrite (M (it0 + Z.of_nat k - 1)%Z); [|lia| |intros; lia].
    + unfold poly_at. destruct (Z.eqb_spec (it0 + Z.of_nat k - 1 - d) n); [lia|reflexivity].
    + apply andb_true_iff. split; [apply Z.ltb_lt; lia|apply Z.leb_le; lia].
  - intros L. rewrite (M (d + n)%Z); [|lia| |].
    + unfold poly_at. replace (d + n - d)%Z with n by lia. rewrite Z.eqb_refl. reflexivity.
    + apply andb_true_iff. split; [apply Z.ltb_lt; lia|apply Z.leb_le; lia].
    + intros x X. apply andb_false_iff. right. apply Z.leb_gt. lia.
  - intros L. apply Nn. intros x X. apply andb_false_iff. right. apply Z.leb_gt. lia.
Qed.

(** ExponentialDecay *)
Lemma truthy_some r : r <> 0 -> truthy (Some r) = true.
Proof. intros H. cbn. destruct (Req_EM_T r 0); [contradiction|reflexivity]. Qed.
Lemma ztruthy_some n : n <> 0%Z -> ztruthy (Some n) = true.
Proof. intros H. cbn. destruct (Z.eqb_spec n 0); [contradiction|reflexivity]. Qed.

Lemma plain_init i r n : r <> 0 -> n <> 0%Z -> exp_init i None (Some r) (Some n) = Ok (Plain i r, Some n).
Proof. intros R0 N0. unfold exp_init. rewrite (truthy_some r R0), (ztruthy_some n N0). reflexivity. Qed.
Lemma floored_init i f r : f <> 0 -> r <> 0 -> exp_init i (Some f) (Some r) None = Ok (Floored i r f, None).
Proof. intros F0 R0. unfold exp_init. rewrite (truthy_some f F0), (truthy_some r R0). reflexivity. Qed.
Lemma towards_init i f n : f <> 0 -> n <> 0%Z -> exp_init i (Some f) None (Some n) = Ok (Towards i f n, Some n).
Proof. intros F0 N0. unfold exp_init. rewrite (truthy_some f F0), (ztruthy_some n N0). reflexivity. Qed.

Lemma bounded_step d n dl it v (val : Z -> R) : (0 < n)%Z -> (forall s, (0 < s)%Z -> decay_func d s = Ok (val s)) ->
  exp_on_batch_begin d (Some n) dl it v =
  Ok (if (Z.ltb 0 (it - dl) && Z.leb (it - dl) n)%bool then val (it - dl)%Z else v).
Proof.
  intros N V. unfold exp_on_batch_begin, get_global_step. rewrite ztruthy_some by lia. cbn [negb orb].
  destruct (Z.ltb_spec 0 (it - dl)) as [A|A]; [|reflexivity].
  destruct (Z.leb_spec (it - dl) n) as [B|B]; [|reflexivity]. cbn [andb]. apply V, A.
Qed.
Lemma unbounded_step d dl it v (val : Z -> R) : (forall s, (0 < s)%Z -> decay_func d s = Ok (val s)) ->
  exp_on_batch_begin d None dl it v = Ok (if Z.ltb 0 (it - dl) then val (it - dl)%Z else v).
Proof.
  intros V. unfold exp_on_batch_begin, get_global_step. cbn [ztruthy negb orb].
  destruct (Z.ltb_spec 0 (it - dl)) as [A|A]; [|reflexivity]. cbn [andb]. apply V, A.
Qed.

Lemma bounded_train d n dl it0 k v val : (0 < n)%Z -> (0 < k)%nat ->
  (forall s, (0 < s)%Z -> decay_func d s = Ok (val s)) ->
  exists w, train (exp_on_batch_begin d (Some n) dl) it0 k v = Ok w /\
   let last := (it0 + Z.of_nat k - 1)%Z in
   ((last <= dl)%Z -> w = v) /\
   ((dl < last)%Z -> (it0 <= dl + n)%Z -> w = val (Z.min (last - dl) n)) /\
   ((dl + n < it0)%Z -> w = v).
Proof.
  intros N K V.
  destruct (train_ext (exp_on_batch_begin d (Some n) dl) (fun it => Z.ltb 0 (it - dl) && Z.leb (it - dl) n)%bool
     (fun it => val (it - dl)%Z) it0 (it0 + Z.of_nat k)
     (fun it w _ => bounded_step d n dl it w val N V) k it0 v) as (w & E & Nn & M); [lia|lia|].
  exists w. split; [exact E|]. cbn zeta. repeat split.
  - intros L. apply Nn. intros x X. destruct (Z.ltb_spec 0 (x - dl)); [lia|reflexivity].
  - intros L L'. destruct (Z.min_spec (it0 + Z.of_nat k - 1 - dl) n) as [[A ->]|[A ->]].
    + apply (M (it0 + Z.of_nat k - 1)%Z); [lia| |intros; lia].
      apply andb_true_iff. split; [apply Z.ltb_lt; lia|apply Z.leb_le; lia].
    + rewrite (M (dl + n)%Z); [f_equal; lia|lia| |].
      * apply andb_true_iff. split; [apply Z.ltb_lt; lia|apply Z.leb_le; lia].
      * intros x X. apply andb_false_iff. right. apply Z.leb_gt. lia.
  - intros L. apply Nn. intros x X. apply andb_false_iff. right. apply Z.leb_gt. lia.
Qed.

Lemma unbounded_train d dl it0 k v val : (0 < k)%nat ->
  (forall s, (0 < s)%Z -> decay_func d s = Ok (val s)) ->
  exists w, train (exp_on_batch_begin d None dl) it0 k v = Ok w /\
   let last := (it0 + Z.of_nat k - 1)%Z in
   ((last <= dl)%Z -> w = v) /\ ((dl < last)%Z -> w = val (last - dl)%Z).
Proof.
  intros K V.
  destruct (train_ext (exp_on_batch_begin d None dl) (fun it => Z.ltb 0 (it - dl))
     (fun it => val (it - dl)%Z) it0 (it0 + Z.of_nat k)
     (fun it w _ => unbounded_step d dl it w val V) k it0 v) as (w & E & Nn & M); [lia|lia|].
  exists w. split; [exact E|]. cbn zeta. repeat split.
  - intros L. apply Nn. intros x X. destruct (Z.ltb_spec 0 (x - dl)); [lia|reflexivity].
  - intros L. apply (M (it0 + Z.of_nat k - 1)%Z); [lia|apply Z.ltb_lt; lia|intros; lia].
Qed.

Lemma plain_func i r s : decay_func (Plain i r) s = Ok (i * r ^ Z.to_nat s).
Proof. reflexivity. Qed.
Lemma towards_func i f n s : 0 < f / i -> decay_func (Towards i f n) s = Ok (i * Rpower (f / i) (IZR s / IZR n)).
Proof.
  intros H. cbn. destruct (Req_EM_T i 0) as [->|].
  - unfold Rdiv in H. rewrite Rinv_0, Rmult_0_r in H. lra.
  - rewrite fpow_pos by exact H. reflexivity.
Qed.
