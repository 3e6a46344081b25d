(** C124: Jacobian and Hessian products are derivatives. *)
From Coq Require Import List Arith Bool Reals Lra Lia.
From Coquelicot Require Import Coquelicot.
From Verif.Base Require Import Py.
From Verif.Curv Require Import Model Spec.
From Verif.Diff Require Import Model Spec GraphProofs DerivProofs ShapeProofs JacProofs HessProofs Arith.
Import ListNotations.
Open Scope list_scope.
Open Scope R_scope.

(** The product of the Jacobian with vectors, as one curvature product after the other uses it: for
    every graph of any operations that can be differentiated at the current values, every choice of
    tensors and of vectors, the result for the [k]-th input of the losses is the derivative of that
    input when the tensors move along the vectors and nothing else that they are computed from
    does.  No NaN of the placeholders gets into it.  The result is a tensor if the input depends on
    one of the tensors; otherwise it may be None and the derivative is zero. *)
Theorem C124_jacobian_partial (O : ops) env G inputs wrt vecs :
  typed O -> user_graph O G -> differentiable_at O env G ->
  nodes_of O G inputs -> nodes_of O G wrt -> nodes_of O G vecs -> length vecs = length wrt ->
  let (G', rs) := multiply_jacobian O G inputs wrt vecs in
  length rs = length inputs /\
  forall k y, nth_error inputs k = Some y ->
    exists r D, nth_error rs k = Some r /\ stands_for O env G' r D /\
      derivative (fun e => after O env wrt G e y) no_move (along wrt (map (at_rest O env G) vecs)) D /\
      ((exists x, In x wrt /\ uses O wrt G y x) -> r <> None).
Proof.
  intros Ty U Df Hi Hw Hv Lv. unfold multiply_jacobian.
  pose proof (forward_ok O env G inputs wrt wrt Ty U Hi Hw vecs Hv Lv) as F.
  assert (L : length (snd (fwd_gradients O G inputs wrt vecs wrt)) = length inputs).
  { unfold fwd_gradients. destruct (gradients O (repeat Nan (length inputs) ++ G) inputs wrt (seq (length G) (length inputs)) wrt) as [Ga l].
    destruct (zeros_for_none O Ga l) as [Gb ds]. unfold gradients. cbn [snd]. rewrite map_length, seq_length. reflexivity. }
  destruct (fwd_gradients O G inputs wrt vecs wrt) as [G' rs]. split; [exact L|].
  intros k y Hk. destruct (F k y Hk) as (r & E & St & Us).
  exists r, (GraphProofs.tan O wrt (at_rest O env G) (along wrt (map (at_rest O env G) vecs)) G y).
  split; [exact E|]. split; [exact St|]. split; [|exact Us].
  apply after_derive; [apply U|exact Df].
Qed.
Print Assumptions C124_jacobian_partial.

(** The product of the transposed Jacobian with vectors, one number for each input of the losses:
    for each tensor, the derivative of the inputs, weighted by the vectors and added up, when that
    tensor alone moves and the others are held where they are. *)
Theorem C124_jacobian_transpose_partial (O : ops) env G inputs wrt loss_vecs :
  typed O -> user_graph O G -> differentiable_at O env G ->
  nodes_of O G inputs -> nodes_of O G wrt -> nodes_of O G loss_vecs -> length loss_vecs = length inputs ->
  let (G', rs) := multiply_jacobian_transpose O G inputs wrt loss_vecs in
  Forall2 (fun x r => exists D, stands_for O env G' r D /\
    derivative (fun e => rsum (map2 (fun u y => u * after O env wrt G e y) (map (at_rest O env G) loss_vecs) inputs))
               no_move (along [x] [1]) D /\
    ((exists y, In y inputs /\ uses O wrt G y x) -> r <> None)) wrt rs.
Proof.
  intros Ty U Df Hi Hw Hu Lu. unfold multiply_jacobian_transpose.
  pose proof (gradients_ok O env G inputs wrt loss_vecs wrt Ty U Hi Hw Hu) as F.
  destruct (gradients O G inputs wrt loss_vecs wrt) as [G' rs]. destruct F as (_ & _ & F).
  assert (Lk : forall (us : list nat) y, length us = length inputs -> In y inputs -> exists u, In (y, u) (zip inputs us)).
  { clear. induction inputs as [|y' l IH]; intros us y L I; [destruct I|].
    destruct us as [|u us]; [discriminate|]. destruct I as [<-|I]; [exists u; left; reflexivity|].
    destruct (IH us y) as (u' & I'); [cbn in L; lia|exact I|]. exists u'. right. exact I'. }
  eapply Forall2_impl_local; [|exact F]. clear F. intros x r (_ & St & Us). cbv beta in *.
  eexists. split; [exact St|]. split.
  - rewrite (zip_map2 (at_rest O env G) (fun y => GraphProofs.tan O wrt (at_rest O env G) (delta x) G y)).
    unfold derivative. clear St Us Lk.
    assert (D : forall y, derivative (fun e => after O env wrt G e y) no_move (along [x] [1])
                  (GraphProofs.tan O wrt (at_rest O env G) (delta x) G y)).
    { intro y. rewrite (tan_ext O wrt _ (delta x) (along [x] [1])); [apply after_derive; [apply U|exact Df]|].
      intro j. unfold delta, along. cbn. destruct (Nat.eqb j x); ring. }
    unfold derivative in D. generalize (map (at_rest O env G) loss_vecs) as us. clear -D.
    induction inputs as [|y l IH]; intros [|u us]; try (rewrite ?map2_nil_r; exact (derive_const 0 0)).
    rewrite map2_cons, rsum_cons.
    apply (derive_ext (fun t : R => u * after O env wrt G (fun i => no_move i + t * along [x] [1] i) y
      + rsum (map2 (fun u y => u * after O env wrt G (fun i => no_move i + t * along [x] [1] i) y) us l))).
    { intro t. rewrite map2_cons, rsum_cons. reflexivity. }
    apply derive_plus; [|apply IH].
    apply (is_derive_eq _ _ (0 * after O env wrt G (fun i => no_move i + 0 * along [x] [1] i) y
      + u * GraphProofs.tan O wrt (at_rest O env G) (delta x) G y)); [|ring].
    apply (derive_prod (fun _ => u)); [apply derive_const|apply D].
  - intros (y & Iy & Uy). destruct (Lk loss_vecs y Lu Iy) as (u & I). apply (Us y u I Uy).
Qed.
Print Assumptions C124_jacobian_transpose_partial.

(** The two products belong to one matrix and its transpose: <u, J v> = <J' u, v>. *)
Theorem C124_adjoint (O : ops) env G inputs wrt vecs loss_vecs :
  typed O -> user_graph O G ->
  nodes_of O G inputs -> nodes_of O G wrt -> nodes_of O G vecs -> nodes_of O G loss_vecs ->
  length vecs = length wrt -> length loss_vecs = length inputs ->
  exists jv jtu,
    (let (G1, rs) := multiply_jacobian O G inputs wrt vecs in Forall2 (stands_for O env G1) rs jv) /\
    (let (G2, rs) := multiply_jacobian_transpose O G inputs wrt loss_vecs in Forall2 (stands_for O env G2) rs jtu) /\
    rsum (map2 Rmult (map (at_rest O env G) loss_vecs) jv)
    = rsum (map2 Rmult jtu (map (at_rest O env G) vecs)).
Proof.
  intros Ty U Hi Hw Hv Hu Lv Lu.
  set (v := map (at_rest O env G) vecs). set (u := map (at_rest O env G) loss_vecs).
  set (F := fun y x => GraphProofs.tan O wrt (at_rest O env G) (delta x) G y).
  exists (map (fun y => rsum (map2 (fun x c => c * F y x) wrt v)) inputs),
         (map (fun x => rsum (map2 (fun c y => c * F y x) u inputs)) wrt). split; [|split].
  - unfold multiply_jacobian. pose proof (forward_ok O env G inputs wrt wrt Ty U Hi Hw vecs Hv Lv) as K.
    assert (L : length (snd (fwd_gradients O G inputs wrt vecs wrt)) = length inputs).
    { unfold fwd_gradients. destruct (gradients O (repeat Nan (length inputs) ++ G) inputs wrt (seq (length G) (length inputs)) wrt) as [Ga l].
      destruct (zeros_for_none O Ga l) as [Gb ds]. unfold gradients. cbn [snd]. rewrite map_length, seq_length. reflexivity. }
    destruct (fwd_gradients O G inputs wrt vecs wrt) as [G' rs]. cbn [snd] in L. clear -K L.
    revert rs L K. induction inputs as [|y l IH]; intros [|r rs] L K; try discriminate; cbn [map]; constructor.
    + destruct (K 0%nat y eq_refl) as (r' & [= <-] & St & _). rewrite tan_along in St. exact St.
    + apply IH; [cbn in L; lia|]. intros k y' Hk. apply (K (S k) y' Hk).
  - unfold multiply_jacobian_transpose. pose proof (gradients_ok O env G inputs wrt loss_vecs wrt Ty U Hi Hw Hu) as K.
    destruct (gradients O G inputs wrt loss_vecs wrt) as [G' rs]. destruct K as (_ & _ & K).
    assert (K' : Forall2 (fun x r => stands_for O env G' r (rsum (map2 (fun c y => c * F y x) u inputs))) wrt rs).
    { eapply Forall2_impl_local; [|exact K]. intros x r (_ & St & _).
      rewrite (zip_map2 (at_rest O env G) (fun y => GraphProofs.tan O wrt (at_rest O env G) (delta x) G y)) in St. exact St. }
    assert (T : forall (h : nat -> R) l rs, Forall2 (fun x r => stands_for O env G' r (h x)) l rs -> Forall2 (stands_for O env G') rs (map h l)).
    { clear. intros h l rs K. induction K; cbn [map]; constructor; assumption. }
    apply T, K'.
  - assert (M : forall h l, Forall2 (fun (x : nat) (b : R) => b = h x) l (map h l)).
    { clear. intros h l. induction l; cbn [map]; constructor; auto. }
    rewrite (map2_F2 (fun y => rsum (map2 (fun x c => c * F y x) wrt v)) u inputs).
    2: { apply M. }
    rewrite (map2_F2r (fun x => rsum (map2 (fun c y => c * F y x) u inputs)) v wrt).
    2: { apply M. }
    apply (swap_zip F).
Qed.
Print Assumptions C124_adjoint.

(** Products with the Hessian of the total loss.  For smooth operations, if the loss depends on
    every one of the tensors: no error, and the result for a tensor [x] is the derivative, along
    the vectors, of the partial derivative of the loss by [x].  Here [grad e] is that partial
    derivative when the nodes have been moved by [e]; dependencies between the tensors are
    followed (see C124_wrt_dependencies_refuted). *)
Theorem C124_hessian_partial (O : ops) env G loss wrt vecs :
  smooth O -> user_graph O G -> (loss < length G)%nat -> nodes_of O G wrt -> nodes_of O G vecs ->
  length vecs = length wrt -> (forall x, In x wrt -> uses O [] G loss x) ->
  exists G' rs, multiply_hessian O G loss wrt vecs = Ok (G', rs) /\
    Forall2 (fun x r => exists (grad : (nat -> R) -> R) D,
      (forall e, derivative (fun e => after O env [] G e loss) e (along [x] [1]) (grad e)) /\
      derivative grad no_move (along wrt (map (at_rest O env G) vecs)) D /\
      stands_for O env G' r D) wrt rs.
Proof.
  intros Sm U Hl Hw Hv Lv Us.
  destruct (hessian_ok O env G loss wrt Sm U Hl Hw Us vecs Hv Lv) as (G' & rs & E & F).
  exists G', rs. split; [exact E|]. eapply Forall2_impl_local; [|exact F]. intros x r (St & _).
  exists (fun e => GraphProofs.tan O [] (moved O env [] no_move e G) (delta x) G loss).
  exists (sec O (at_rest O env G) (delta x) (along wrt (map (at_rest O env G) vecs)) G loss).
  split; [|split; [|exact St]].
  - intro e. unfold derivative, after.
    apply (derive_ext (fun t : R => moved O env [] no_move (fun i => e i + t * along [x] [1] i) G loss)).
    { intro t. apply moved_base. }
    rewrite (tan_ext O [] _ (delta x) (along [x] [1])).
    + apply tan_derive; [apply U|reflexivity|]. apply smooth_chains; [exact Sm|apply U].
    + intro j. unfold delta, along. cbn. destruct (Nat.eqb j x); ring.
  - unfold derivative. apply (sec_derive O env no_move no_move); [exact Sm|apply U|reflexivity].
Qed.
Print Assumptions C124_hessian_partial.

(** The matrix of these products is symmetric: <u, H v> = <v, H u>. *)
Theorem C124_symmetric (O : ops) env G loss wrt us vs :
  smooth O -> user_graph O G -> (loss < length G)%nat -> nodes_of O G wrt ->
  nodes_of O G us -> nodes_of O G vs -> length us = length wrt -> length vs = length wrt ->
  (forall x, In x wrt -> uses O [] G loss x) ->
  exists Gu ru hu Gv rv hv,
    multiply_hessian O G loss wrt us = Ok (Gu, ru) /\ Forall2 (stands_for O env Gu) ru hu /\
    multiply_hessian O G loss wrt vs = Ok (Gv, rv) /\ Forall2 (stands_for O env Gv) rv hv /\
    rsum (map2 Rmult (map (at_rest O env G) us) hv) = rsum (map2 Rmult (map (at_rest O env G) vs) hu).
Proof.
  intros Sm U Hl Hw Hu Hv Lu Lv Us.
  destruct (hessian_ok O env G loss wrt Sm U Hl Hw Us us Hu Lu) as (Gu & ru & Eu & Fu).
  destruct (hessian_ok O env G loss wrt Sm U Hl Hw Us vs Hv Lv) as (Gv & rv & Ev & Fv).
  set (H := fun x x' => sec O (at_rest O env G) (delta x) (delta x') G loss) in *.
  set (u := map (at_rest O env G) us) in *. set (v := map (at_rest O env G) vs) in *.
  exists Gu, ru, (map (fun x => rsum (map2 (fun x' c => c * H x x') wrt u)) wrt),
         Gv, rv, (map (fun x => rsum (map2 (fun x' c => c * H x x') wrt v)) wrt).
  assert (T : forall (P : nat -> option nat -> Prop) (G' : graph O) (h : nat -> R) l rs,
    Forall2 (fun x r => P x r /\ stands_for O env G' r (h x)) l rs -> Forall2 (stands_for O env G') rs (map h l)).
  { clear. intros P G' h l rs F. induction F as [|x r l rs (_ & St) _ IH]; cbn [map]; constructor; assumption. }
  split; [exact Eu|]. split; [apply (T _ _ _ _ _ Fu)|]. split; [exact Ev|]. split; [apply (T _ _ _ _ _ Fv)|].
  assert (M : forall h l, Forall2 (fun (x : nat) (b : R) => b = h x) l (map h l)).
  { clear. intros h l. induction l; cbn [map]; constructor; auto. }
  rewrite (map2_F2 _ u wrt _ (M _ _)), (map2_F2 _ v wrt _ (M _ _)), (swap_zip H).
  assert (Sy : forall l m, rsum (map2 (fun c y => c * H y m) u l) = rsum (map2 (fun x' c => c * H m x') l u)).
  { intros l m. generalize u as w. induction l as [|x l IH]; intros [|c w]; try (rewrite ?map2_nil_r; reflexivity).
    rewrite !map2_cons, !rsum_cons, IH. f_equal. f_equal. unfold H. apply sec_sym; [exact Sm|apply U]. }
  assert (Q : forall l w, rsum (map2 (fun x c => c * rsum (map2 (fun c' y => c' * H y x) u wrt)) l w)
    = rsum (map2 (fun c x => c * rsum (map2 (fun x' c' => c' * H x x') wrt u)) w l)).
  { intro l. induction l as [|x l IH]; intros [|c w]; try reflexivity.
    rewrite !map2_cons, !rsum_cons, IH, Sy. reflexivity. }
  apply Q.
Qed.
Print Assumptions C124_symmetric.

(* ------------------------------------------------------------------------ *)
(** * What does not hold *)

(** A loss whose inputs depend on none of the tensors: its Jacobian product is None instead of
    zeros, so that the next step (multiplying it by the curvature of the loss) fails. *)
Theorem C124_jacobian_none_refuted :
  exists (G : graph arithmetic) inputs wrt vecs,
    user_graph arithmetic G /\ (forall env, differentiable_at arithmetic env G) /\
    nodes_of arithmetic G inputs /\ nodes_of arithmetic G wrt /\ nodes_of arithmetic G vecs /\
    length vecs = length wrt /\ snd (multiply_jacobian arithmetic G inputs wrt vecs) = [None].
Proof.
  exists [Leaf 1; Leaf 0], [1%nat], [0%nat], [1%nat].
  split; [|split; [|split; [|split; [|split; [|split; reflexivity]]]]].
  - split; [cbn; intuition discriminate|]. intros [|[|i]]; cbn; discriminate.
  - intros env [|[|i]] p args; cbn; discriminate.
  - intros i [<-|[]]; cbn; lia.
  - intros i [<-|[]]; cbn; lia.
  - intros i [<-|[]]; cbn; lia.
Qed.
Print Assumptions C124_jacobian_none_refuted.

(** A tensor that the loss does not depend on, among others: the Jacobian product exists, the
    Hessian product raises AttributeError. *)
Theorem C124_hessian_raises_refuted :
  exists (G : graph arithmetic) loss wrt vecs,
    user_graph arithmetic G /\ (loss < length G)%nat /\ nodes_of arithmetic G wrt /\ nodes_of arithmetic G vecs /\
    length vecs = length wrt /\ (exists x, In x wrt /\ uses arithmetic [] G loss x) /\
    (exists c, snd (multiply_jacobian arithmetic G [loss] wrt vecs) = [Some c]) /\
    multiply_hessian arithmetic G loss wrt vecs = Raise AttributeError.
Proof.
  exists [Mul 0 0; Leaf 1; Leaf 0], 2%nat, [0%nat; 1%nat], [0%nat; 1%nat].
  split; [|split; [|split; [|split; [|split; [|split; [|split]]]]]].
  - split; [cbn; intuition (subst; try discriminate; lia)|]. intros [|[|[|i]]]; cbn; discriminate.
  - cbn; lia.
  - intros i [<-|[<-|[]]]; cbn; lia.
  - intros i [<-|[<-|[]]]; cbn; lia.
  - reflexivity.
  - exists 0%nat. split; [left; reflexivity|]. apply (uses_arg _ _ _ _ (Mul 0 0) 0); [reflexivity|intros []|left; reflexivity|constructor].
  - eexists. reflexivity.
  - reflexivity.
Qed.
Print Assumptions C124_hessian_raises_refuted.

(** The values of results, for examples. *)
Lemma jacobian_value (O : ops) env G y wrt vecs D : smooth O -> user_graph O G ->
  nodes_of O G [y] -> nodes_of O G wrt -> nodes_of O G vecs -> length vecs = length wrt ->
  (exists x, In x wrt /\ uses O wrt G y x) ->
  GraphProofs.tan O wrt (at_rest O env G) (along wrt (map (at_rest O env G) vecs)) G y = D ->
  exists c, let (G', rs) := multiply_jacobian O G [y] wrt vecs in rs = [Some c] /\ value O env G' c = Some D.
Proof.
  intros Sm U Hy Hw Hv Lv Us E.
  pose proof (forward_ok O env G [y] wrt wrt (proj1 Sm) U Hy Hw vecs Hv Lv) as F.
  assert (L : length (snd (fwd_gradients O G [y] wrt vecs wrt)) = 1%nat).
  { unfold fwd_gradients. destruct (gradients O (repeat Nan (length [y]) ++ G) [y] wrt (seq (length G) (length [y])) wrt) as [Ga l].
    destruct (zeros_for_none O Ga l) as [Gb ds]. reflexivity. }
  unfold multiply_jacobian. destruct (fwd_gradients O G [y] wrt vecs wrt) as [G' rs].
  destruct (F 0%nat y eq_refl) as (r & Er & St & Ne). specialize (Ne Us). rewrite E in St.
  destruct rs as [|r' [|? ?]]; try discriminate. injection Er as ->.
  destruct r as [c|]; [|congruence]. exists c. split; [reflexivity|exact St].
Qed.
Lemma hessian_value (O : ops) env G loss x wrt vecs D : smooth O -> user_graph O G -> (loss < length G)%nat ->
  nodes_of O G (x :: wrt) -> nodes_of O G vecs -> length vecs = length (x :: wrt) ->
  (forall x', In x' (x :: wrt) -> uses O [] G loss x') -> D <> 0 ->
  sec O (at_rest O env G) (delta x) (along (x :: wrt) (map (at_rest O env G) vecs)) G loss = D ->
  exists G' c rs, multiply_hessian O G loss (x :: wrt) vecs = Ok (G', Some c :: rs) /\ value O env G' c = Some D.
Proof.
  intros Sm U Hl Hw Hv Lv Us N E.
  destruct (hessian_ok O env G loss (x :: wrt) Sm U Hl Hw Us vecs Hv Lv) as (G' & rs & Eh & F).
  inversion F as [|? r ? rs' (St & _) _]; subst. destruct r as [c|]; [|exfalso; apply N; exact St].
  exists G', c, rs'. split; [exact Eh|exact St].
Qed.

Definition dependent : graph arithmetic := [Const 0; Const 1; Mul 1 1; Mul 0 0; Leaf 0].
Lemma dependent_user : user_graph arithmetic dependent.
Proof. split; [cbn; intuition (subst; try discriminate; lia)|]. intros [|[|[|[|[|i]]]]]; cbn; discriminate. Qed.
Lemma dependent_uses x : In x [0%nat; 1%nat] -> uses arithmetic [] dependent 2 x.
Proof.
  intros [<-|[<-|[]]].
  - apply (uses_arg _ _ _ _ (Mul 1 1) 1); [reflexivity|intros []|left; reflexivity|].
    apply (uses_arg _ _ _ _ (Mul 0 0) 0); [reflexivity|intros []|left; reflexivity|constructor].
  - apply (uses_arg _ _ _ _ (Mul 1 1) 1); [reflexivity|intros []|left; reflexivity|constructor].
Qed.
(** Tensors of which one is computed from another: the Jacobian (and so the Fisher and
    Gauss-Newton) products hold the others fixed, the Hessian product does not.  Here the second
    tensor is the square of the first, the loss is the square of the second, and the vector moves
    the first only: held fixed, nothing changes, but the Hessian product is 12. *)
Theorem C124_wrt_dependencies_refuted :
  exists (G : graph arithmetic) env loss wrt vecs,
    user_graph arithmetic G /\ (loss < length G)%nat /\ nodes_of arithmetic G wrt /\ nodes_of arithmetic G vecs /\
    length vecs = length wrt /\ (forall x, In x wrt -> uses arithmetic [] G loss x) /\
    (forall e, after arithmetic env wrt G (fun i => no_move i + e * along wrt (map (at_rest arithmetic env G) vecs) i) loss
               = after arithmetic env wrt G no_move loss) /\
    (exists c, let (G', rs) := multiply_jacobian arithmetic G [loss] wrt vecs in
       rs = [Some c] /\ value arithmetic env G' c = Some 0) /\
    exists G' c rs, multiply_hessian arithmetic G loss wrt vecs = Ok (G', Some c :: rs) /\
      value arithmetic env G' c = Some 12.
Proof.
  exists dependent, (fun _ => 1), 2%nat, [0%nat; 1%nat], [3%nat; 4%nat].
  split; [|split; [|split; [|split; [|split; [|split; [|split; [|split]]]]]]].
  - exact dependent_user.
  - cbn; lia.
  - intros i [<-|[<-|[]]]; cbn; lia.
  - intros i [<-|[<-|[]]]; cbn; lia.
  - reflexivity.
  - exact dependent_uses.
  - intro e. unfold after, along, at_rest, no_move. cbn. ring.
  - apply jacobian_value.
    + exact arithmetic_smooth.
    + exact dependent_user.
    + intros i [<-|[]]; cbn; lia.
    + intros i [<-|[<-|[]]]; cbn; lia.
    + intros i [<-|[<-|[]]]; cbn; lia.
    + reflexivity.
    + exists 1%nat. split; [right; left; reflexivity|].
      apply (uses_arg _ _ _ _ (Mul 1 1) 1); [reflexivity|intros [[=]|[[=]|[]]]|left; reflexivity|constructor].
    + unfold along, at_rest, no_move. cbn. ring.
  - apply (hessian_value _ _ _ _ 0); try reflexivity; try lra.
    + exact arithmetic_smooth.
    + exact dependent_user.
    + cbn; lia.
    + intros i [<-|[<-|[]]]; cbn; lia.
    + intros i [<-|[<-|[]]]; cbn; lia.
    + exact dependent_uses.
    + unfold along, at_rest, no_move, delta. cbn. ring.
Qed.
Print Assumptions C124_wrt_dependencies_refuted.

(* ------------------------------------------------------------------------ *)
(** * The hypotheses can be met *)

(** A graph that meets the hypotheses of all theorems: two variables, [a * exp b], a sum, a square,
    and two fed vectors. *)
Definition sample : graph arithmetic :=
  [Leaf 3; Leaf 2; Mul 3 3; Add 2 0; Apply (O := arithmetic) (2%nat, Times (Arg 0) (Exp (Arg 1))) [0%nat; 1%nat]; Leaf 1; Leaf 0].

Example sample_user : user_graph arithmetic sample.
Proof.
  split.
  - cbn. repeat split; try (intros a H; intuition (subst; lia)); try discriminate. intros p args [= <- <-]. reflexivity.
  - intros [|[|[|[|[|[|[|i]]]]]]]; cbn; discriminate.
Qed.
Example sample_differentiable env : differentiable_at arithmetic env sample.
Proof. intros i p args E. destruct p as [n f]. apply compute_chain. Qed.
Example sample_smooth : smooth arithmetic.
Proof. exact arithmetic_smooth. Qed.
Example sample_nodes : nodes_of arithmetic sample [0%nat; 1%nat] /\ nodes_of arithmetic sample [5%nat; 6%nat]
  /\ (forall x, In x [0%nat; 1%nat] -> uses arithmetic [] sample 4 x).
Proof.
  split; [|split].
  - intros i [<-|[<-|[]]]; cbn; lia.
  - intros i [<-|[<-|[]]]; cbn; lia.
  - assert (H : forall x, In x [0%nat; 1%nat] -> uses arithmetic [] sample 2 x).
    { intros x Hx. apply (uses_arg _ _ _ _ (Apply (O := arithmetic) (2%nat, Times (Arg 0) (Exp (Arg 1))) [0%nat; 1%nat]) x);
        [reflexivity|intros []|exact Hx|constructor]. }
    intros x Hx. apply (uses_arg _ _ _ _ (Mul 3 3) 3); [reflexivity|intros []|left; reflexivity|].
    apply (uses_arg _ _ _ _ (Add 2 0) 2); [reflexivity|intros []|left; reflexivity|]. apply H, Hx.
Qed.
(** With a = 1, b = 0 and the vectors (1, 2): the loss (a e^b + a)^2 changes at the rate 16, the
    gradient by a at the rate 8 + 2 * 8. *)
Definition sample_env (k : nat) : R := match k with 0%nat => 1 | 1%nat => 0 | 2%nat => 1 | _ => 2 end.
Example sample_jacobian : exists c, let (G', rs) := multiply_jacobian arithmetic sample [4%nat] [0%nat; 1%nat] [5%nat; 6%nat] in
  rs = [Some c] /\ value arithmetic sample_env G' c = Some 16.
Proof.
  destruct sample_nodes as (N1 & N2 & Us).
  apply jacobian_value; [exact sample_smooth|exact sample_user|intros i [<-|[]]; cbn; lia|exact N1|exact N2|reflexivity| |].
  - exists 0%nat. split; [left; reflexivity|].
    apply (uses_arg _ _ _ _ (Mul 3 3) 3); [reflexivity|intros [[=]|[[=]|[]]]|left; reflexivity|].
    apply (uses_arg _ _ _ _ (Add 2 0) 0); [reflexivity|intros [[=]|[[=]|[]]]|right; left; reflexivity|constructor].
  - unfold along, at_rest, no_move. cbn. rewrite !Rplus_0_r, exp_0. ring.
Qed.
Example sample_hessian : exists G' c rs, multiply_hessian arithmetic sample 4 [0%nat; 1%nat] [5%nat; 6%nat] = Ok (G', Some c :: rs)
  /\ value arithmetic sample_env G' c = Some 24.
Proof.
  destruct sample_nodes as (N1 & N2 & Us).
  apply hessian_value; [exact sample_smooth|exact sample_user|cbn; lia|exact N1|exact N2|reflexivity|exact Us|lra|].
  unfold along, at_rest, no_move, delta. cbn. rewrite !Rplus_0_r, exp_0. ring.
Qed.
