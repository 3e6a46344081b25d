(** C53 and C69: the decay callbacks. *)
From Coq Require Import String.
From Coq Require Import Reals ZArith List Bool Lia Lra.
From Verif.Base Require Import Py.
From Verif.Keras Require Import Callbacks CallbackProofs.
Import ListNotations.
Local Open Scope R_scope.

(* ------------------------------------------------------------------------ *)
(** * C53 *)

(** PolynomialDecay, after [k] batches from iteration [it0] on, the last at iteration [last]:
    untouched up to the delay, then the documented polynomial, then the final value for ever;
    training that starts when the decay is over leaves the value it finds. *)
Theorem C53_polynomial_decay i f p n d it0 k v :
  0 < p -> (0 < n)%Z -> (0 < k)%nat ->
  exists w, train (poly_on_batch_begin i f p n d) it0 k v = Ok w /\
   let last := (it0 + Z.of_nat k - 1)%Z in
   ((last <= d)%Z -> w = v) /\
   ((d < last < d + n)%Z -> w = (i - f) * Rpower (1 - IZR (last - d) / IZR n) p + f) /\
   ((it0 <= d + n <= last)%Z -> w = f) /\
   ((d + n < it0)%Z -> w = v).
Proof. exact (poly_train i f p n d it0 k v). Qed.
Print Assumptions C53_polynomial_decay.

(** ExponentialDecay with a rate and a number of steps. *)
Theorem C53_exponential_rate_and_steps i r n d it0 k v :
  r <> 0 -> (0 < n)%Z -> (0 < k)%nat ->
  exists dec m w, exp_init i None (Some r) (Some n) = Ok (dec, m) /\
   train (exp_on_batch_begin dec m d) it0 k v = Ok w /\
   let last := (it0 + Z.of_nat k - 1)%Z in
   ((last <= d)%Z -> w = v) /\
   ((d < last)%Z -> (it0 <= d + n)%Z -> w = i * r ^ Z.to_nat (Z.min (last - d) n)) /\
   ((d + n < it0)%Z -> w = v).
Proof.
  intros R0 N K. destruct (bounded_train (Plain i r) n d it0 k v _ N K (fun s _ => plain_func i r s)) as (w & E & H).
  exists (Plain i r), (Some n), w. split; [apply plain_init; [exact R0|lia]|]. split; [exact E|exact H].
Qed.
Print Assumptions C53_exponential_rate_and_steps.

(** With a rate and a final value. *)
Theorem C53_exponential_rate_and_final i f r d it0 k v :
  f <> 0 -> r <> 0 -> (0 < k)%nat ->
  exists dec m w, exp_init i (Some f) (Some r) None = Ok (dec, m) /\
   train (exp_on_batch_begin dec m d) it0 k v = Ok w /\
   let last := (it0 + Z.of_nat k - 1)%Z in
   ((last <= d)%Z -> w = v) /\
   ((d < last)%Z -> w = Rmax (i * r ^ Z.to_nat (last - d)) f).
Proof.
  intros F0 R0 K. destruct (unbounded_train (Floored i r f) d it0 k v _ K (fun s _ => eq_refl)) as (w & E & H).
  exists (Floored i r f), None, w. split; [apply floored_init; assumption|]. split; [exact E|exact H].
Qed.
Print Assumptions C53_exponential_rate_and_final.

(** With a final value (of the sign of the initial one) and a number of steps. *)
Theorem C53_exponential_final_and_steps i f n d it0 k v :
  0 < f / i -> (0 < n)%Z -> (0 < k)%nat ->
  exists dec m w, exp_init i (Some f) None (Some n) = Ok (dec, m) /\
   train (exp_on_batch_begin dec m d) it0 k v = Ok w /\
   let last := (it0 + Z.of_nat k - 1)%Z in
   ((last <= d)%Z -> w = v) /\
   ((d < last)%Z -> (it0 <= d + n)%Z ->
      w = i * Rpower (f / i) (IZR (Z.min (last - d) n) / IZR n)) /\
   ((it0 <= d + n <= last)%Z -> w = f) /\
   ((d + n < it0)%Z -> w = v).
Proof.
  intros Fi N K.
  destruct (bounded_train (Towards i f n) n d it0 k v _ N K (fun s _ => towards_func i f n s Fi)) as (w & E & H1 & H2 & H3).
  assert (I0 : i <> 0) by (intros ->; unfold Rdiv in Fi; rewrite Rinv_0, Rmult_0_r in Fi; lra).
  assert (F0 : f <> 0) by (intros ->; unfold Rdiv in Fi; rewrite Rmult_0_l in Fi; lra).
  exists (Towards i f n), (Some n), w. split; [apply towards_init; [exact F0|lia]|]. split; [exact E|].
  cbn zeta in *. split; [exact H1|]. split; [exact H2|]. split; [|exact H3].
  intros L. rewrite H2 by lia. rewrite Z.min_r by lia.
  assert (0 < IZR n) by (apply IZR_lt; lia). replace (IZR n / IZR n) with 1 by (field; lra).
  rewrite Rpower_1 by exact Fi. field. exact I0.
Qed.
Print Assumptions C53_exponential_final_and_steps.

(** A hyperparameter that the optimizer does not have is refused. *)
Theorem C53_unknown_hyperparameter attrs h :
  on_train_begin attrs h = Ok tt <-> (In h attrs /\ In "iterations"%string attrs).
Proof.
  unfold on_train_begin.
  assert (X : forall s, existsb (String.eqb s) attrs = true <-> In s attrs).
  { intros s. rewrite existsb_exists. split; [intros (x & I & E); apply String.eqb_eq in E; subst; exact I|].
    intros I. exists s. split; [exact I|apply String.eqb_refl]. }
  rewrite <- !X. destruct (existsb (String.eqb h) attrs); cbn [negb].
  - destruct (existsb (String.eqb "iterations") attrs); cbn [negb]; intuition discriminate.
  - intuition discriminate.
Qed.
Print Assumptions C53_unknown_hyperparameter.

(** A learning rate from 1 to 1/4 in four steps, after a delay of two: six batches and many more. *)
Example C53_example :
  (forall m, train (poly_on_batch_begin 1 (1/4) 2 4 2) 0 (7 + m) 1 = Ok (1/4)) /\
  (forall m, train (poly_on_batch_begin 1 (1/4) 2 4 2) 0 3 m = Ok m) /\
  (forall m, exists d n, exp_init 1 (Some (1/4)) None (Some 4%Z) = Ok (d, n) /\
     train (exp_on_batch_begin d n 2) 0 (7 + m) 1 = Ok (1/4)).
Proof.
  split; [|split].
  - intros m. destruct (C53_polynomial_decay 1 (1/4) 2 4 2 0 (7 + m) 1) as (w & E & _ & _ & H & _); [lra|lia|lia|].
    rewrite E. f_equal. apply H. lia.
  - intros m. destruct (C53_polynomial_decay 1 (1/4) 2 4 2 0 3 m) as (w & E & H & _); [lra|lia|lia|].
    rewrite E. f_equal. apply H. reflexivity || (cbn; lia).
  - intros m. destruct (C53_exponential_final_and_steps 1 (1/4) 4 2 0 (7 + m) 1) as (d & n & w & I & E & _ & _ & H & _); [lra|lia|lia|].
    exists d, n. split; [exact I|]. rewrite E. f_equal. apply H. lia.
Qed.

(* ------------------------------------------------------------------------ *)
(** * C69 *)

Definition given {A} (x : option A) : nat := match x with Some _ => 1 | None => 0 end.

(** The constructor accepts exactly two of the three options. *)
Theorem C69_exactly_two_options_refuted :
  ~ (forall i f r n, is_ok (exp_init i f r n) = true <-> (given f + given r + given n = 2)%nat).
Proof.
  intros H. (* a final value of zero *)
  destruct (H 1 (Some 0) (Some (1/2)) None) as [_ H']. specialize (H' eq_refl). unfold exp_init, truthy in H'.
  destruct (Req_EM_T 0 0) as [_|]; [|lra]. cbn [andb ztruthy] in H'.
  rewrite andb_false_r in H'. discriminate H'.
Qed.
Print Assumptions C69_exactly_two_options_refuted.

(** It also accepts all three when one of them is zero, and the zero is then ignored. *)
Theorem C69_three_options_accepted :
  exists i f r n, (given f + given r + given n = 3)%nat /\ is_ok (exp_init i f r n) = true.
Proof.
  exists 1, (Some 0), (Some (1/2)), (Some 10%Z). split; [reflexivity|]. unfold exp_init, truthy.
  destruct (Req_EM_T 0 0); [|lra]. destruct (Req_EM_T (1/2) 0); [lra|]. reflexivity.
Qed.
Print Assumptions C69_three_options_accepted.

(** What holds: the rule, when the values given are not zero. *)
Theorem C69_exactly_two_options_partial i f r n :
  f <> Some 0 -> r <> Some 0 -> n <> Some 0%Z ->
  (is_ok (exp_init i f r n) = true <-> (given f + given r + given n = 2)%nat) /\
  (is_ok (exp_init i f r n) = false -> exp_init i f r n = Raise ValueError).
Proof.
  intros F0 R0 N0. unfold exp_init.
  destruct f as [f|], r as [r|], n as [n|];
    rewrite ?(truthy_some f) by congruence; rewrite ?(truthy_some r) by congruence;
    rewrite ?(ztruthy_some n) by congruence; cbn; repeat split; intros; try reflexivity; try discriminate.
Qed.
Print Assumptions C69_exactly_two_options_partial.
Example C69_example : Some (1/2) <> Some 0 /\ Some 10%Z <> Some 0%Z /\
  is_ok (exp_init 1 None (Some (1/2)) (Some 10%Z)) = true /\ is_ok (exp_init 1 (Some 1) (Some (1/2)) (Some 10%Z)) = false.
Proof.
  split; [intros [= ?]; lra|]. split; [discriminate|]. split.
  - apply C69_exactly_two_options_partial; [discriminate|intros [= ?]; lra|discriminate|reflexivity].
  - destruct (is_ok _) eqn:E; [|reflexivity]. apply C69_exactly_two_options_partial in E; [discriminate|intros [= ?]; lra|intros [= ?]; lra|discriminate].
Qed.
