(** C57, mode "empirical": what is backpropagated is the gradient of the total loss. *)
From Coq Require Import Reals List Arith Lra Lia.
From Verif.Base Require Import Py ListFacts.
From Verif.Curv Require Import Model Spec VecProofs LossProofs GradProofs CompProofs MomentProofs EstProofs NormalProofs.
Import ListNotations.
Local Open Scope R_scope.

(** Let [gs] be the gradients of the losses by their own inputs.  The gradient that is
    backpropagated has the shapes of the tensors, and its product with any direction [u] is the
    change of the total loss along [u]: the sum over the losses of coefficient times gradient
    times the change of the loss's inputs along [u]. *)
Theorem C57_empirical_mode :
  forall c jacs gs,
    c_jac c = concat jacs ->
    Forall2 (fun lc js => own_jacobians (c_wrt c) (fst lc) js) (c_losses c) jacs ->
    Forall2 (fun lc g => input_like (fst lc) g) (c_losses c) gs ->
    exists t, grads_empirical c gs = Ok t /\ wrt_like (c_wrt c) t /\
      forall u xs,
        Forall2 (fun p x => own_inputs (fst (fst p)) (snd p) u x) (zip (c_losses c) jacs) xs ->
        tdot t u = rsum (map2 (fun lc gx => snd lc * ldot (fst gx) (snd gx)) (c_losses c) (zip gs xs)).
Proof.
  intros c jacs gs EJ HJ HG.
  set (sc := flatten (map2 (fun lc g => lscale (snd lc) g) (c_losses c) gs)).
  exists (grad_all (zeros (c_wrt c)) (c_jac c) sc).
  destruct (grad_all_spec (c_wrt c) (c_jac c) sc (zeros (c_wrt c))) as [S E].
  { rewrite EJ. exact (own_grads _ _ _ HJ). }
  { apply zeros_shape. }
  split; [|split; [exact S|]].
  - unfold grads_empirical, multiply_jacobian_transpose. fold sc. cbv zeta.
    replace (Nat.eqb (length sc) (length (c_jac c))) with true; [reflexivity|]. symmetry. apply Nat.eqb_eq.
    rewrite EJ. unfold sc. clear - HJ HG. revert gs HG.
    induction HJ as [|[l co] js ls jacs [Lj _] _ IH]; intros gs HG; inversion HG as [|? g ? gs' Hg0 Hgs]; subst; [reflexivity|].
    rewrite map2_cons, flatten_cons. cbn [concat]. rewrite !app_length, (IH gs' Hgs). f_equal. rewrite Lj.
    cbn [fst snd] in *. destruct l, g; try contradiction; reflexivity.
  - intros u xs HX. rewrite E, zeros_tdot, EJ, Rplus_0_l. unfold sc.
    clear - HJ HG HX. revert gs xs HG HX.
    induction HJ as [|[l co] js ls jacs Hj HJ IH]; intros gs xs HG HX; inversion HG as [|? g ? gs' Hg0 Hgs]; subst.
    + cbn in HX. inversion HX; subst. reflexivity.
    + cbn [zip] in HX. inversion HX as [|? x ? xs' Hx HXs]; subst. cbn [fst snd] in *.
      cbn [zip]. rewrite !map2_cons, flatten_cons. cbn [concat fst snd]. rewrite map_app.
      rewrite (one_loss_sum l js u x co g) by assumption. rewrite (IH gs' xs' Hgs HXs). reflexivity.
Qed.
Print Assumptions C57_empirical_mode.

(** A normal loss with two inputs and coefficient 3 and one with one input and coefficient 5. *)
Example C57_empirical_example :
  let j1 := [[ [[1; 0]; [2]] ]] in let j2 := [[ [[0; 1]; [1]] ]] in let j3 := [[ [[1; 1]; [0]] ]] in
  let ls := [(NormalMeanVariance 1 [[1]] [[2]], 3); (NormalMean 1 [[4]] 7, 5)] in
  Forall2 (fun lc js => own_jacobians [2; 1]%nat (fst lc) js) ls [[j1; j2]; [j3]] /\
  Forall2 (fun lc g => input_like (fst lc) g) ls [V2 [[1]] [[1]]; V1 [[2]]] /\
  exists t, grads_empirical (mkComp ls [2; 1]%nat [j1; j2; j3]) [V2 [[1]] [[1]]; V1 [[2]]] = Ok t /\
    tdot t [[1; 0]; [1]] = 22.
Proof.
  cbv zeta. split; [repeat constructor|]. split; [repeat constructor|].
  eexists. split; [reflexivity|].
  unfold tdot, dot, rsum, map2, grad_all, grad_tensor, grad_row, tadd, radd, tscale, rscale, map2. cbn.
  unfold map2. cbn. lra.
Qed.
