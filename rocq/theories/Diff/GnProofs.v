(** Second derivatives through the inputs of the losses: the Hessian and the Gauss-Newton matrix. *)
From Coq Require Import List Arith Bool Reals Lra Lia.
From Coquelicot Require Import Coquelicot.
From Verif.Base Require Import Py.
From Verif.Curv Require Import Model Spec.
From Verif.Diff Require Import Model Spec GraphProofs DerivProofs ShapeProofs JacProofs HessProofs.
Import ListNotations.
Open Scope list_scope.
Open Scope R_scope.

Section Graphs.
Variable O : ops.
Notation graph := (graph O).
Notation moved := (moved O).
Notation tan := (tan O).
Notation lin := (lin O).
Notation lin2 := (lin2 O).
Notation sec := (sec O).
Notation node_at := (node_at O).
Notation at_rest := (at_rest O).

(** Second tangents when the nodes of [stops] are held. *)
Fixpoint secs (stops : list nat) (x u v : nat -> R) (G : graph) (i : nat) : R :=
  match G with
  | [] => 0
  | nd :: G' =>
      if Nat.eqb i (length G')
      then (if mem i stops then 0 else lin2 x nd (tan stops x u G') (tan stops x v G') (secs stops x u v G'))
      else secs stops x u v G' i
  end.
Lemma secs_derive env stops base e u v x G : smooth O -> wf O G ->
  (forall i, (i < length G)%nat -> moved env stops base e G i = x i) ->
  forall i, is_derive (fun t => tan stops (moved env stops base (fun j => e j + t * v j) G) u G i) 0 (secs stops x u v G i).
Proof.
  intro Sm. induction G as [|nd G IH]; intros W X i; [exact (derive_const 0 0)|].
  pose proof W as (W1 & W2 & W3).
  assert (X' : forall j, (j < length G)%nat -> moved env stops base e G j = x j).
  { intros j Hj. rewrite <- X by (cbn; lia). symmetry. apply moved_stable, Hj. }
  specialize (IH W3 X').
  assert (Ev : forall t j, tan stops (moved env stops base (fun j => e j + t * v j) (nd :: G)) u G j
                         = tan stops (moved env stops base (fun j => e j + t * v j) G) u G j).
  { intros t j. apply tan_values; [exact W3|]. intros k Hk. apply moved_stable, Hk. }
  cbn [GraphProofs.tan secs]. destruct (Nat.eqb_spec i (length G)) as [->|_].
  - destruct (mem (length G) stops); [apply (is_derive_eq _ _ (0 + 0)); [apply derive_plus; apply derive_const|ring]|].
    pose (xc := fun j t => moved env stops base (fun j => e j + t * v j) G j).
    pose (Tc := fun j t => tan stops (moved env stops base (fun j => e j + t * v j) G) u G j).
    apply (derive_ext (fun t => u (length G) + lin (fun j => xc j t) nd (fun j => Tc j t))).
    { intro t. f_equal. apply lin_ext.
      - intros a Ha. unfold xc. symmetry. apply moved_stable, W1, Ha.
      - intros a Ha. unfold Tc. symmetry. apply Ev. }
    assert (C0 : forall j, (j < length G)%nat -> xc j 0 = x j).
    { intros j Hj. unfold xc. rewrite <- X' by exact Hj. apply moved_ext. intro; ring. }
    assert (T0 : forall j, Tc j 0 = tan stops x u G j).
    { intro j. unfold Tc. apply tan_values; [exact W3|exact C0]. }
    apply (is_derive_eq _ _ (0 + lin2 (fun j => xc j 0) nd (fun j => Tc j 0) (tan stops x v G) (secs stops x u v G))).
    + apply derive_plus; [apply derive_const|].
      apply derive_lin; [exact Sm|exact W2| |intros a _; apply IH].
      intros a _. apply tan_derive; [exact W3|exact X'|apply smooth_chains; assumption].
    + rewrite Rplus_0_l. destruct nd as [k|r| |p args|a b|a b]; cbn [DerivProofs.lin2 args_of] in *; try reflexivity.
      * assert (E : map (fun j => xc j 0) args = map x args) by (apply map_ext_in; intros j Hj; apply C0, W1, Hj).
        rewrite E. f_equal. apply map2_ext. intros k a Ha. rewrite T0. reflexivity.
      * rewrite !C0, !T0 by (apply W1; cbn; auto). reflexivity.
  - apply (derive_ext (fun t => tan stops (moved env stops base (fun j => e j + t * v j) G) u G i)); [|apply IH].
    intro t. symmetry. apply Ev.
Qed.
Lemma derive_along (f : nat -> R -> R) (d : nat -> R) xs cs : (forall j, is_derive (f j) 0 (d j)) ->
  is_derive (fun t => rsum (map2 (fun j c => c * f j t) xs cs)) 0 (rsum (map2 (fun j c => c * d j) xs cs)).
Proof.
  intro H. revert cs. induction xs as [|j xs IH]; intros [|c cs]; try exact (derive_const 0 0).
  rewrite map2_cons, rsum_cons.
  apply (derive_ext (fun t : R => c * f j t + rsum (map2 (fun j c => c * f j t) xs cs))).
  { intro t. rewrite map2_cons, rsum_cons. reflexivity. }
  apply derive_plus; [|apply IH]. apply (is_derive_eq _ _ (0 * f j 0 + c * d j)); [|ring].
  apply (derive_prod (fun _ => c)); [apply derive_const|apply H].
Qed.
Lemma secs_along env stops zs a v G i : smooth O -> wf O G ->
  secs stops (at_rest env G) (along zs a) v G i
  = rsum (map2 (fun z c => c * secs stops (at_rest env G) (delta z) v G i) zs a).
Proof.
  intros Sm W.
  assert (D : forall u, is_derive (fun t : R => tan stops (moved env stops (at_rest env G) (fun j => no_move j + t * v j) G) u G i) 0
                          (secs stops (at_rest env G) u v G i)).
  { intro u. apply secs_derive; [exact Sm|exact W|]. intros j _. apply moved_rest. reflexivity. }
  apply (derive_unique _ 0 _ _ (D (along zs a))).
  eapply derive_ext; [|apply (derive_along (fun z t => tan stops (moved env stops (at_rest env G) (fun j => no_move j + t * v j) G) (delta z) G i)
    (fun z => secs stops (at_rest env G) (delta z) v G i) zs a); intro z; apply D].
  intro t. cbv beta. symmetry. apply tan_along.
Qed.

(** ** Paths *)
Lemma uses_le stops G y x : wf O G -> uses O stops G y x -> (x <= y)%nat.
Proof.
  intros W H. induction H as [x|y nd a x E N Ha _ IH]; [lia|]. apply (wf_at O G y nd W E) in Ha. lia.
Qed.
Lemma tan_at0 stops x v G i : (length G <= i)%nat -> tan stops x v G i = 0.
Proof.
  induction G as [|nd G IH]; intro H; [reflexivity|]. cbn in *. destruct (Nat.eqb_spec i (length G)); [lia|]. apply IH. lia.
Qed.
Lemma secs_stable stops x u v : stable O (secs stops x u v).
Proof. intros nd G i H. cbn. destruct (Nat.eqb_spec i (length G)); [lia|reflexivity]. Qed.

Lemma lin2_ext x nd T T' U U' Q Q' :
  (forall a, In a (args_of O nd) -> T a = T' a) -> (forall a, In a (args_of O nd) -> U a = U' a) ->
  (forall a, In a (args_of O nd) -> Q a = Q' a) -> lin2 x nd T U Q = lin2 x nd T' U' Q'.
Proof.
  intros HT HU HQ. destruct nd as [k|r| |p args|a b|a b]; cbn [DerivProofs.lin2 args_of] in *; try reflexivity.
  - f_equal. apply map2_ext. intros k a Ha. rewrite HT, HQ by exact Ha. f_equal. f_equal. f_equal.
    apply map2_ext. intros l b Hb. rewrite HU by exact Hb. reflexivity.
  - rewrite !HQ by (cbn; auto). reflexivity.
  - rewrite !HQ, !HT, !HU by (cbn; auto). reflexivity.
Qed.
Lemma lin2_add x nd T U Q Q' : lin2 x nd T U (fun a => Q a + Q' a) = lin2 x nd T U Q + lin x nd Q'.
Proof.
  destruct nd as [k|r| |p args|a b|a b]; cbn [DerivProofs.lin2 GraphProofs.lin]; try ring.
  set (f := fun k => ev O (dp O p k) (map x args)).
  set (h := fun k => rsum (map2 (fun l b => ev O (dp O (dp O p k) l) (map x args) * U b) (seq 0 (length args)) args)).
  change (rsum (map2 (fun k a => h k * T a + f k * (Q a + Q' a)) (seq 0 (length args)) args)
    = rsum (map2 (fun k a => h k * T a + f k * Q a) (seq 0 (length args)) args) + rsum (map2 (fun k a => f k * Q' a) (seq 0 (length args)) args)).
  clearbody f h. generalize (seq 0 (length args)) as ks. induction args as [|a args IH]; intros [|k ks]; try (rewrite ?map2_nil_r; cbn; ring).
  rewrite !map2_cons, !rsum_cons, IH. ring.
Qed.

Section Through.
Variables (x : nat -> R) (zs wrt : list nat).
(** What a direction does to the inputs. *)
Definition onto (T : nat -> R) : nat -> R := fun i => if mem i zs then T i else 0.
Definition inside (v : nat -> R) : Prop := forall i, ~ In i wrt -> v i = 0.
(** Node [i] depends on the tensors only through the inputs. *)
Definition through (G : graph) (i : nat) : Prop := forall w, In w wrt -> uses O zs G i w -> In w zs.

Lemma tan_through v G i nd0 (h : graph) : inside v -> wf O G -> nd0 = h ++ G -> through nd0 i -> (i < length G)%nat ->
  tan [] x v G i = tan zs x (onto (tan [] x v nd0)) G i.
Proof.
  intros Hv. revert i h. induction G as [|nd G IH]; intros i h W E0 Th Hi; [cbn in Hi; lia|].
  destruct W as (W1 & W2 & W3).
  assert (E1 : nd0 = (h ++ [nd]) ++ G) by (rewrite <- app_assoc; exact E0).
  destruct (Nat.eq_dec i (length G)) as [->|N].
  - rewrite !tan_top. cbn [mem existsb].
    assert (Et : tan [] x v nd0 (length G) = tan [] x v (nd :: G) (length G)).
    { rewrite E0. apply (stable_ext O); [apply tan_stable|cbn; lia]. }
    unfold onto at 1. destruct (mem (length G) zs) eqn:M.
    + rewrite Et, tan_top. cbn [mem existsb]. ring.
    + assert (Nz : ~ In (length G) zs) by (intro I; apply mem_In in I; congruence).
      rewrite Hv.
      2: { intro I. apply Nz, (Th _ I). constructor. }
      f_equal. apply lin_ext; [reflexivity|]. intros a Ha. apply (IH a (h ++ [nd]) W3 E1); [|apply W1, Ha].
      intros w Iw Uw. apply (Th w Iw). apply (uses_arg O zs nd0 _ nd a); [|exact Nz|exact Ha|exact Uw].
      rewrite E0, node_at_ext by (cbn; lia). cbn. rewrite Nat.eqb_refl. reflexivity.
  - rewrite !tan_stable by (cbn in Hi; lia). apply (IH i (h ++ [nd]) W3 E1 Th). cbn in Hi. lia.
Qed.
Lemma sec_stable u v : stable O (sec x u v).
Proof. intros nd G i H. cbn. destruct (Nat.eqb_spec i (length G)); [lia|reflexivity]. Qed.
Lemma sec_top u v nd G : sec x u v (nd :: G) (length G) = lin2 x nd (tan [] x u G) (tan [] x v G) (sec x u v G).
Proof. cbn. rewrite Nat.eqb_refl. reflexivity. Qed.
Lemma secs_top u v nd G : secs zs x u v (nd :: G) (length G)
  = if mem (length G) zs then 0 else lin2 x nd (tan zs x u G) (tan zs x v G) (secs zs x u v G).
Proof. cbn. rewrite Nat.eqb_refl. reflexivity. Qed.
Lemma sec_through u v G i G0 (h : graph) : inside u -> inside v -> wf O G -> G0 = h ++ G -> through G0 i -> (i < length G)%nat ->
  sec x u v G i
  = secs zs x (onto (tan [] x u G0)) (onto (tan [] x v G0)) G i + tan zs x (onto (sec x u v G0)) G i.
Proof.
  intros Hu Hv. revert i h. induction G as [|nd G IH]; intros i h W E0 Th Hi; [cbn in Hi; lia|].
  destruct W as (W1 & W2 & W3).
  assert (E1 : G0 = (h ++ [nd]) ++ G) by (rewrite <- app_assoc; exact E0).
  destruct (Nat.eq_dec i (length G)) as [->|N].
  - assert (Es : sec x u v G0 (length G) = sec x u v (nd :: G) (length G)).
    { rewrite E0. apply (stable_ext O); [apply sec_stable|cbn; lia]. }
    rewrite secs_top, tan_top. change (onto (sec x u v G0) (length G)) with (if mem (length G) zs then sec x u v G0 (length G) else 0). destruct (mem (length G) zs) eqn:M; [rewrite Es; ring|].
    assert (Nz : ~ In (length G) zs) by (intro I; apply mem_In in I; congruence).
    assert (Th' : forall a, In a (args_of O nd) -> through G0 a).
    { intros a Ha w Iw Uw. apply (Th w Iw). apply (uses_arg O zs G0 _ nd a); [|exact Nz|exact Ha|exact Uw].
      rewrite E0, node_at_ext by (cbn; lia). cbn. rewrite Nat.eqb_refl. reflexivity. }
    rewrite sec_top.
    rewrite (lin2_ext x nd _ (tan zs x (onto (tan [] x u G0)) G) _ (tan zs x (onto (tan [] x v G0)) G) _
      (fun a => secs zs x (onto (tan [] x u G0)) (onto (tan [] x v G0)) G a + tan zs x (onto (sec x u v G0)) G a)).
    + rewrite lin2_add. ring.
    + intros a Ha. apply (tan_through u G a G0 (h ++ [nd])); [exact Hu|exact W3|exact E1|apply Th', Ha|apply W1, Ha].
    + intros a Ha. apply (tan_through v G a G0 (h ++ [nd])); [exact Hv|exact W3|exact E1|apply Th', Ha|apply W1, Ha].
    + intros a Ha. apply (IH a (h ++ [nd]) W3 E1); [apply Th', Ha|apply W1, Ha].
  - rewrite sec_stable, secs_stable, tan_stable by (cbn in Hi; lia). apply (IH i (h ++ [nd]) W3 E1 Th). cbn in Hi. lia.
Qed.

(** Tensors that are not computed from one another: holding them fixed makes no difference. *)
Lemma tan_unused v G i : wf O G -> (forall j, uses O [] G i j -> v j = 0) -> tan [] x v G i = 0.
Proof.
  intros W H. destruct (Nat.lt_ge_cases i (length G)) as [Hi|Hi]; [|apply tan_at0, Hi].
  revert H. induction i as [i IH] using lt_wf_ind. intro H. destruct (node_at_some O G i Hi) as (nd & E).
  rewrite (tan_at O [] x v G i nd W E). cbn [mem existsb]. rewrite H by constructor.
  rewrite lin_zero; [ring|]. intros a Ha. pose proof (proj1 (wf_at O G i nd W E) a Ha).
  apply IH; [assumption|lia|]. intros j Hj. apply H. apply (uses_arg O [] G i nd a); auto.
Qed.
Lemma tan_apart v G i : wf O G -> inside v ->
  (forall w w', In w wrt -> In w' wrt -> uses O [] G w w' -> w = w') ->
  tan [] x v G i = tan wrt x v G i.
Proof.
  intros W Hv A. destruct (Nat.lt_ge_cases i (length G)) as [Hi|Hi]; [|rewrite !tan_at0 by exact Hi; reflexivity].
  revert Hi. induction i as [i IH] using lt_wf_ind. intro Hi. destruct (node_at_some O G i Hi) as (nd & E).
  rewrite (tan_at O [] x v G i nd W E), (tan_at O wrt x v G i nd W E). cbn [mem existsb].
  destruct (mem i wrt) eqn:M.
  - apply mem_In in M. rewrite lin_zero; [ring|]. intros a Ha. pose proof (proj1 (wf_at O G i nd W E) a Ha) as La.
    apply tan_unused; [exact W|]. intros j Uj. apply Hv. intro Ij.
    assert (j = i) by (symmetry; apply A; [exact M|exact Ij|apply (uses_arg O [] G i nd a); auto]).
    subst. apply uses_le in Uj; [lia|exact W].
  - f_equal. apply lin_ext; [reflexivity|]. intros a Ha. pose proof (proj1 (wf_at O G i nd W E) a Ha) as La. apply IH; lia.
Qed.
End Through.

Lemma along_map (zs : list nat) (f : nat -> R) i : NoDup zs -> along zs (map f zs) i = onto zs f i.
Proof.
  unfold along, onto. induction zs as [|z zs IH]; intro Nd; [reflexivity|].
  inversion Nd as [|? ? Nz Nd']; subst. cbn [map]. rewrite map2_cons, rsum_cons, (IH Nd'). change (mem i (z :: zs)) with (Nat.eqb i z || mem i zs)%bool.
  destruct (Nat.eqb_spec i z) as [->|_]; [|rewrite orb_false_l; ring].
  rewrite orb_true_l. destruct (mem z zs) eqn:M; [apply mem_In in M; tauto|ring].
Qed.
Lemma along_inside wrt cs : inside wrt (along wrt cs).
Proof.
  intros i Ni. unfold along. revert cs. induction wrt as [|w l IH]; intros [|c cs]; try reflexivity.
  rewrite map2_cons, rsum_cons, IH by (intro I; apply Ni; right; exact I).
  destruct (Nat.eqb_spec i w) as [->|_]; [destruct Ni; left; reflexivity|ring].
Qed.
Lemma delta_inside wrt w : In w wrt -> inside wrt (delta w).
Proof. intros I i Ni. unfold delta. destruct (Nat.eqb_spec i w) as [->|_]; [tauto|reflexivity]. Qed.
Lemma secs_ext stops x u u' v v' G i : (forall j, u j = u' j) -> (forall j, v j = v' j) ->
  secs stops x u v G i = secs stops x u' v' G i.
Proof.
  intros Hu Hv. revert i. induction G as [|nd G IH]; intro i; [reflexivity|]. cbn.
  destruct (Nat.eqb i (length G)); [|apply IH]. destruct (mem i stops); [reflexivity|].
  apply lin2_ext; intros a _; [apply tan_ext, Hu|apply tan_ext, Hv|apply IH].
Qed.

(** The Hessian is the Gauss-Newton matrix plus what the second derivatives of the inputs
    contribute. *)
Lemma decomposition env G loss zs wrt x0 V : smooth O -> wf O G -> (loss < length G)%nat -> NoDup zs ->
  (forall w, In w wrt -> uses O zs G loss w -> In w zs) ->
  (forall w w', In w wrt -> In w' wrt -> uses O [] G w w' -> w = w') ->
  In x0 wrt -> inside wrt V ->
  let x := at_rest env G in
  sec x (delta x0) V G loss
  = rsum (map2 (fun z c => c * secs zs x (delta z) (along zs (map (tan wrt x V G) zs)) G loss) zs (map (tan wrt x (delta x0) G) zs))
    + rsum (map2 (fun z c => c * tan zs x (delta z) G loss) zs (map (sec x (delta x0) V G) zs)).
Proof.
  intros Sm W Hl Nd Th A I0 HV x. subst x.
  rewrite (sec_through (at_rest env G) zs wrt (delta x0) V G loss G [] (delta_inside _ _ I0) HV W eq_refl Th Hl).
  f_equal.
  - rewrite <- (secs_along env zs zs) by assumption. apply secs_ext; intro j.
    + rewrite along_map by exact Nd. unfold onto. destruct (mem j zs); [|reflexivity].
      apply tan_apart; [exact W|apply delta_inside, I0|exact A].
    + rewrite along_map by exact Nd. unfold onto. destruct (mem j zs); [|reflexivity].
      apply tan_apart; [exact W|exact HV|exact A].
  - rewrite <- tan_along. apply tan_ext. intro j. rewrite along_map by exact Nd. reflexivity.
Qed.
End Graphs.
