(** Hessian products, and the two Jacobian products as adjoint operators. *)
From Coq Require Import List Arith Bool Reals Lra Lia.
From Coquelicot Require Import Coquelicot.
From Verif.Base Require Import Py.
From Verif.Curv Require Import Model Spec.
From Verif.Diff Require Import Model Spec GraphProofs DerivProofs ShapeProofs JacProofs.
Import ListNotations.
Open Scope list_scope.
Open Scope R_scope.

Section Graphs.
Variable O : ops.
Notation graph := (graph O).
Notation moved := (moved O).
Notation tan := (tan O).
Notation node_at := (node_at O).
Notation at_rest := (at_rest O).

Lemma stands_for_unique env G r D D' : stands_for O env G r D -> stands_for O env G r D' -> D = D'.
Proof. unfold stands_for. destruct r; congruence. Qed.

(** ** Sums *)
Lemma swap_zip {A B} (F : A -> B -> R) (ys : list A) (xs : list B) (us vs : list R) :
  rsum (map2 (fun u y => u * rsum (map2 (fun x v => v * F y x) xs vs)) us ys)
  = rsum (map2 (fun x v => v * rsum (map2 (fun u y => u * F y x) us ys)) xs vs).
Proof.
  revert us. induction ys as [|y ys IH]; intros us.
  - rewrite map2_nil_r. cbn. revert vs. induction xs as [|x xs IHx]; intros [|v vs]; try reflexivity.
    rewrite map2_cons, rsum_cons, <- IHx, map2_nil_r. cbn. ring.
  - destruct us as [|u us].
    + cbn. clear IH. revert vs. induction xs as [|x xs IHx]; intros [|v vs]; try reflexivity.
      rewrite map2_cons, rsum_cons, <- IHx. cbn. ring.
    + rewrite map2_cons, rsum_cons, IH. clear IH. revert vs. induction xs as [|x xs IHx]; intros [|v vs]; try (cbn; ring).
      rewrite !map2_cons, !rsum_cons, <- IHx. ring.
Qed.
Lemma zip_map2 (f g : nat -> R) ys gs :
  rsum (map (fun p => f (snd p) * g (fst p)) (zip ys gs)) = rsum (map2 (fun u y => u * g y) (map f gs) ys).
Proof.
  revert gs. induction ys as [|y ys IH]; intros [|c gs]; try reflexivity.
  cbn [zip map]. rewrite map2_cons, !rsum_cons, IH. reflexivity.
Qed.
Lemma map2_F2 (h : nat -> R) us ys bs : Forall2 (fun y b => b = h y) ys bs ->
  rsum (map2 Rmult us bs) = rsum (map2 (fun u y => u * h y) us ys).
Proof.
  intro H. revert us. induction H as [|y b ys bs -> _ IH]; intros [|u us]; try (rewrite ?map2_nil_r; reflexivity).
  rewrite !map2_cons, !rsum_cons, IH. reflexivity.
Qed.
Lemma map2_F2r (h : nat -> R) vs xs bs : Forall2 (fun x b => b = h x) xs bs ->
  rsum (map2 Rmult bs vs) = rsum (map2 (fun x v => v * h x) xs vs).
Proof.
  intro H. revert vs. induction H as [|x b xs bs -> _ IH]; intros [|v vs]; try reflexivity.
  rewrite !map2_cons, !rsum_cons, IH. ring.
Qed.

Lemma Forall2_impl_local {A B} (P Q : A -> B -> Prop) l m : (forall a b, P a b -> Q a b) -> Forall2 P l m -> Forall2 Q l m.
Proof. intros H F. induction F; constructor; auto. Qed.

(** ** The Hessian *)
Section Hessian.
Variables (env : nat -> R) (G : graph) (loss : nat) (wrt : list nat).
Hypothesis Sm : smooth O.
Hypothesis U : user_graph O G.
Hypothesis Hl : (loss < length G)%nat.
Hypothesis Hw : nodes_of O G wrt.
Hypothesis Us : forall x, In x wrt -> uses O [] G loss x.
Let X e := moved env [] no_move e.
Let G1 : graph := Const 1 :: G.
Let st1 := back O [] (length G1) (seed O (G1, fun _ => None) (zip [loss] [length G])).

Lemma U1 : user_graph O G1.
Proof.
  destruct U as (W & N). split.
  - split; [intros a []|]. split; [discriminate|exact W].
  - intro i. cbn. destruct (Nat.eqb i (length G)); [discriminate|apply N].
Qed.
Lemma pairs1 y g : In (y, g) (zip [loss] [length G]) -> (y < length G1)%nat /\ (g < length G1)%nat.
Proof. intros [[= <- <-]|[]]. cbn. lia. Qed.
Lemma shape1 : grown O G1 (fst st1) /\ (forall j c, snd st1 j = Some c -> (c < length (fst st1))%nat) /\
  forall x, In x wrt -> snd st1 x <> None.
Proof.
  destruct (pass_plain O G1 [] (zip [loss] [length G]) (proj1 U1) pairs1) as (A & B & C).
  split; [exact A|]. split; [exact B|]. intros x Ix. apply (C loss (length G) x (or_introl eq_refl)).
  apply uses_more, Us, Ix.
Qed.
Lemma wf_GG : wf O (fst st1).
Proof. apply (grown_wf O G1); [apply Sm|apply U1|apply shape1]. Qed.
Lemma GG_ext : exists h, fst st1 = h ++ G.
Proof.
  destruct (grown_ext O _ _ (proj1 shape1)) as (h & E). exists (h ++ [Const 1]). rewrite E, <- app_assoc. reflexivity.
Qed.
Lemma user_GG : user_graph O (fst st1).
Proof.
  split; [exact wf_GG|]. intros i E.
  assert (C : clean O (fst st1) i = true).
  { apply (grown_clean O G1); [apply Sm|apply U1|intros j Hj; apply user_clean; [exact U1|exact Hj]|apply shape1|].
    apply (node_at_lt O _ _ _ E). }
  rewrite (clean_at O _ i Nan wf_GG E) in C. discriminate.
Qed.

Lemma grad_at e x c : (forall j, (length G <= j)%nat -> e j = 0) -> (x < length G)%nat -> snd st1 x = Some c ->
  X e (fst st1) c = tan [] (X e G) (delta x) G loss.
Proof.
  intros He Hx Ec.
  pose proof (grad_values O env e G1 (proj1 U1) (fun j H => He j (Nat.le_trans _ _ _ (Nat.le_succ_diag_r _) H))
    [] (zip [loss] [length G]) x pairs1 (Nat.lt_lt_succ_r _ _ Hx)) as V.
  cbv zeta in V. fold st1 in V. unfold acc in V. rewrite Ec in V. fold (X e) in V. rewrite V.
  cbn [zip map fst snd]. rewrite rsum_cons. cbn [fst snd].
  assert (E1 : X e G1 (length G) = 1).
  { unfold X, G1. rewrite moved_top. cbn [mem existsb real_node]. rewrite He by lia. ring. }
  assert (E2 : tan [] (X e G1) (delta x) G1 loss = tan [] (X e G) (delta x) G loss).
  { unfold G1 at 2. rewrite tan_stable by exact Hl. apply tan_values; [apply U|].
    intros j Hj. unfold X, G1. apply moved_stable, Hj. }
  rewrite E1, E2. cbn. ring.
Qed.
Lemma grad_along v x c : (forall j, (length G <= j)%nat -> v j = 0) -> (x < length G)%nat -> snd st1 x = Some c ->
  tan [] (at_rest env (fst st1)) v (fst st1) c = sec O (at_rest env G) (delta x) v G loss.
Proof.
  intros Hv Hx Ec.
  pose proof (tan_derive O env [] no_move no_move v (at_rest env (fst st1)) (fst st1) wf_GG (fun _ _ => eq_refl)
    (smooth_chains O _ _ Sm wf_GG) c) as D1.
  pose proof (sec_derive O env no_move no_move (delta x) v (at_rest env G) G Sm (proj1 U) (fun _ _ => eq_refl) loss) as D2.
  apply (derive_unique _ 0 _ _ D1).
  apply (derive_ext (fun t : R => tan [] (moved env [] no_move (fun j : nat => no_move j + t * v j) G) (delta x) G loss)); [|exact D2].
  intro t. symmetry. apply (grad_at (fun j => no_move j + t * v j)); [|exact Hx|exact Ec].
  intros j Hj. rewrite Hv by exact Hj. unfold no_move. ring.
Qed.
Lemma delta_small x : (x < length G)%nat -> forall j, (length G <= j)%nat -> delta x j = 0.
Proof. intros H j Hj. unfold delta. destruct (Nat.eqb_spec j x); [lia|reflexivity]. Qed.
Lemma along_small xs cs : nodes_of O G xs -> forall j, (length G <= j)%nat -> along xs cs j = 0.
Proof.
  intros H j Hj. unfold along. revert cs. induction xs as [|x xs IH]; intros [|c cs]; try reflexivity.
  rewrite map2_cons, rsum_cons, IH by (intros i Hi; apply H; right; exact Hi).
  assert (x < length G)%nat by (apply H; left; reflexivity). destruct (Nat.eqb_spec j x); [lia|ring].
Qed.

Lemma hessian_ok vecs : nodes_of O G vecs -> length vecs = length wrt ->
  exists G' rs, multiply_hessian O G loss wrt vecs = Ok (G', rs) /\
    Forall2 (fun x r => stands_for O env G' r (sec O (at_rest env G) (delta x) (along wrt (map (at_rest env G) vecs)) G loss) /\
                        stands_for O env G' r (rsum (map2 (fun x' c => c * sec O (at_rest env G) (delta x) (delta x') G loss) wrt (map (at_rest env G) vecs))))
      wrt rs.
Proof.
  intros Hv Lv. unfold multiply_hessian. unfold gradients at 1. fold G1. fold st1.
  destruct shape1 as (Gr & Lt & Some1).
  assert (E : exists gs, all_some (map (snd st1) wrt) = Some gs /\ Forall2 (fun x c => snd st1 x = Some c) wrt gs).
  { clear -Some1. induction wrt as [|x l IH]; [exists []; split; [reflexivity|constructor]|].
    destruct IH as (gs & E & F); [intros; apply Some1; right; assumption|]. cbn [map all_some].
    destruct (snd st1 x) as [c|] eqn:Ex; [|destruct (Some1 x (or_introl eq_refl) Ex)].
    exists (c :: gs). rewrite E. split; [reflexivity|constructor; assumption]. }
  destruct E as (gs & E & F). rewrite E.
  destruct GG_ext as (h & Eh).
  assert (Hlen : (length G <= length (fst st1))%nat) by (rewrite Eh, app_length; lia).
  assert (Hgs : nodes_of O (fst st1) gs).
  { clear -F Lt. induction F as [|x c l gs Ec _ IH]; intros i [].
    - subst. apply (Lt x i Ec).
    - apply IH. assumption. }
  pose proof (gradients_ok O env (fst st1) gs wrt vecs [] (proj1 Sm) user_GG Hgs) as K.
  destruct (gradients O (fst st1) gs wrt vecs []) as [G' rs].
  destruct K as (_ & _ & K).
  { intros i Hi. specialize (Hw i Hi). lia. }
  { intros i Hi. specialize (Hv i Hi). lia. }
  exists G', rs. split; [reflexivity|].
  assert (Val : forall x, In x wrt ->
    rsum (map (fun p => at_rest env (fst st1) (snd p) * tan [] (at_rest env (fst st1)) (delta x) (fst st1) (fst p)) (zip gs vecs))
    = rsum (map2 (fun x' c => c * sec O (at_rest env G) (delta x) (delta x') G loss) wrt (map (at_rest env G) vecs))).
  { intros x Ix. assert (Hx : (x < length G)%nat) by (apply Hw, Ix).
    assert (Gn : forall l gs', Forall2 (fun x c => snd st1 x = Some c) l gs' -> (forall i, In i l -> (i < length G)%nat) ->
      forall vs, nodes_of O G vs ->
      rsum (map (fun p => at_rest env (fst st1) (snd p) * tan [] (at_rest env (fst st1)) (delta x) (fst st1) (fst p)) (zip gs' vs))
      = rsum (map2 (fun x' c => c * sec O (at_rest env G) (delta x) (delta x') G loss) l (map (at_rest env G) vs))).
    { intros l gs' F'. induction F' as [|x' c l gs' Ec _ IH]; intros Hw' [|w vs] Hvs; try reflexivity.
      cbn [zip map]. rewrite map2_cons, !rsum_cons. cbn [fst snd].
      rewrite IH; [|intros; apply Hw'; right; assumption|intros i Hi; apply Hvs; right; exact Hi].
      f_equal. rewrite (grad_along (delta x) x' c); [|apply delta_small, Hx|apply Hw'; left; reflexivity|exact Ec].
      rewrite (sec_sym O _ (delta x') (delta x)) by (exact Sm || apply U). f_equal.
      unfold at_rest, Spec.at_rest. rewrite Eh. apply (stable_ext O); [apply moved_stable|]. apply Hvs. left; reflexivity. }
    apply Gn; assumption. }
  assert (Val2 : forall x, In x wrt ->
    sec O (at_rest env G) (delta x) (along wrt (map (at_rest env G) vecs)) G loss
    = rsum (map2 (fun x' c => c * sec O (at_rest env G) (delta x) (delta x') G loss) wrt (map (at_rest env G) vecs))).
  { intros x Ix. destruct (snd st1 x) as [c|] eqn:Ec; [|destruct (Some1 x Ix Ec)].
    rewrite <- (grad_along _ x c (along_small wrt _ Hw) (Hw x Ix) Ec), tan_along.
    assert (T : forall x', In x' wrt -> tan [] (at_rest env (fst st1)) (delta x') (fst st1) c = sec O (at_rest env G) (delta x) (delta x') G loss).
    { intros x' I'. apply grad_along; [apply delta_small, Hw, I'|apply Hw, Ix|exact Ec]. }
    revert T. generalize (map (at_rest env G) vecs) as cs. clear. induction wrt as [|x' l IH]; intros [|c' cs] T; try reflexivity.
    rewrite !map2_cons, !rsum_cons, IH by (intros; apply T; right; assumption). rewrite T by (left; reflexivity). reflexivity. }
  assert (All : forall l rs', Forall2 (fun x r =>
      (forall c, r = Some c -> (c < length G')%nat) /\
      stands_for O env G' r
        (rsum (map (fun p => at_rest env (fst st1) (snd p) * tan [] (at_rest env (fst st1)) (delta x) (fst st1) (fst p)) (zip gs vecs))) /\
      (forall y g, In (y, g) (zip gs vecs) -> uses O [] (fst st1) y x -> r <> None)) l rs' -> (forall x, In x l -> In x wrt) ->
    Forall2 (fun x r => stands_for O env G' r (sec O (at_rest env G) (delta x) (along wrt (map (at_rest env G) vecs)) G loss) /\
                        stands_for O env G' r (rsum (map2 (fun x' c => c * sec O (at_rest env G) (delta x) (delta x') G loss) wrt (map (at_rest env G) vecs))))
      l rs').
  { intros l rs' K'. induction K' as [|x r l rs' (_ & Hr & _) _ IH]; intro All; constructor.
    - assert (Ix : In x wrt) by (apply All; left; reflexivity). rewrite (Val x Ix) in Hr.
      rewrite (Val2 x Ix). split; exact Hr.
    - apply IH. intros; apply All; right; assumption. }
  apply All; [exact K|trivial].
Qed.
End Hessian.
End Graphs.
