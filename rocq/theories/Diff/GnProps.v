(** C125: Hessian products are Gauss-Newton products plus what the curvature of the network adds. *)
From Coq Require Import List Arith Bool Reals Lra Lia.
From Coquelicot Require Import Coquelicot.
From Verif.Base Require Import Py.
From Verif.Curv Require Import Model Spec.
From Verif.Diff Require Import Model Spec GraphProofs DerivProofs ShapeProofs JacProofs HessProofs GnProofs Arith GnSpec Props.
Import ListNotations.
Open Scope list_scope.
Open Scope R_scope.

Section Facts.
Variable O : ops.
Lemma delta_along x j : delta x j = along [x] [1] j.
Proof. unfold delta, along. cbn. destruct (Nat.eqb j x); ring. Qed.
Lemma after_at env stops G e v y : smooth O -> wf O G ->
  derivative (fun e => after O env stops G e y) e v
    (GraphProofs.tan O stops (moved O env stops (at_rest O env G) e G) v G y).
Proof.
  intros Sm W. unfold derivative, after. apply tan_derive; [exact W|reflexivity|apply smooth_chains; assumption].
Qed.
Lemma second_is env stops G y z v D : smooth O -> wf O G -> second_derivative O env stops G y z v D <->
  D = secs O stops (at_rest O env G) (delta z) v G y.
Proof.
  intros Sm W.
  assert (S1 : derivative (fun e => GraphProofs.tan O stops (moved O env stops (at_rest O env G) e G) (delta z) G y) no_move v
            (secs O stops (at_rest O env G) (delta z) v G y)).
  { unfold derivative. apply secs_derive; [exact Sm|exact W|]. intros i _. apply moved_rest. reflexivity. }
  assert (S2 : forall e, derivative (fun e => after O env stops G e y) e (along [z] [1])
     (GraphProofs.tan O stops (moved O env stops (at_rest O env G) e G) (delta z) G y)).
  { intro e. rewrite (tan_ext O stops _ (delta z) (along [z] [1])) by (apply delta_along). apply after_at; assumption. }
  split.
  - intros (grad & H1 & H2). apply (derive_unique _ 0 _ _ H2).
    eapply derive_ext; [|exact S1]. intro t. cbv beta. apply (derive_unique _ 0 _ _ (S2 _) (H1 _)).
  - intros ->. eexists. split; [exact S2|exact S1].
Qed.
Lemma secs_nil x u v G i : secs O [] x u v G i = sec O x u v G i.
Proof.
  revert i. induction G as [|nd G IH]; intro i; [reflexivity|]. cbn. destruct (Nat.eqb i (length G)); [|apply IH].
  apply lin2_ext; [reflexivity|reflexivity|intros a _; apply IH].
Qed.
Lemma F2_map {A B} (P : A -> B -> Prop) (f : A -> B) l : (forall a, In a l -> P a (f a)) -> Forall2 P l (map f l).
Proof. induction l as [|a l IH]; intro H; cbn [map]; constructor; [apply H; left; reflexivity|apply IH; intros; apply H; right; assumption]. Qed.
Lemma F2_eq {A} (f : A -> R) l m : Forall2 (fun a b => b = f a) l m -> m = map f l.
Proof. intro F. induction F; cbn [map]; congruence. Qed.
Lemma F2_length_map {A B} (P : A -> B -> Prop) l m : Forall2 P l m -> length l = length m.
Proof. intro F. induction F; cbn; congruence. Qed.
Lemma F2_of {A} (P : nat -> A -> Prop) (Q : A -> R -> Prop) (f : nat -> R) l rs :
  (forall x r, P x r -> Q r (f x)) -> Forall2 P l rs -> Forall2 Q rs (map f l).
Proof. intros H F. induction F; cbn [map]; constructor; auto. Qed.
End Facts.

(** Take a graph of smooth operations, a total loss, the inputs of the losses (distinct nodes) and
    tensors that the loss depends on through these inputs only and that are not computed from one
    another.  Let [jv] be the Jacobian product with the vectors, and let [loss_vecs] hold the
    curvature of the loss, as a function of its inputs, times [jv]: this is what a loss's
    multiply_ggn computes (C56).  Then the Gauss-Newton product - the transposed Jacobian
    product with [loss_vecs] - and the Hessian product differ, at every tensor, exactly by the
    second derivatives of the inputs, weighted by the gradient of the loss. *)
Theorem C125_gauss_newton (O : ops) env G loss inputs wrt vecs loss_vecs jv :
  smooth O -> user_graph O G -> (loss < length G)%nat ->
  nodes_of O G inputs -> nodes_of O G wrt -> nodes_of O G vecs -> nodes_of O G loss_vecs ->
  length vecs = length wrt -> NoDup inputs ->
  (forall w, In w wrt -> uses O [] G loss w) -> only_through O G loss inputs wrt -> independent O G wrt ->
  (let (GJ, rs) := multiply_jacobian O G inputs wrt vecs in Forall2 (stands_for O env GJ) rs jv) ->
  Forall2 (fun z u => second_derivative O env inputs G loss z (along inputs jv) (at_rest O env G u)) inputs loss_vecs ->
  exists G1 r1 hs cs gs,
    multiply_hessian O G loss wrt vecs = Ok (G1, r1) /\ Forall2 (stands_for O env G1) r1 hs /\
    (let (G2, r2) := multiply_jacobian_transpose O G inputs wrt loss_vecs in Forall2 (stands_for O env G2) r2 cs) /\
    Forall2 (fun z g => derivative (fun e => after O env inputs G e loss) no_move (along [z] [1]) g) inputs gs /\
    length hs = length wrt /\ length cs = length wrt /\
    forall k x, nth_error wrt k = Some x -> exists qs,
      Forall2 (fun z q => second_derivative O env [] G z x (along wrt (map (at_rest O env G) vecs)) q) inputs qs /\
      nth k hs 0 = nth k cs 0 + rsum (map2 Rmult gs qs).
Proof.
  intros Sm U Hl Hz Hw Hv Hu Lv Nd Us Th A HJ HL. pose proof (proj1 U) as W.
  set (x := at_rest O env G). set (V := along wrt (map x vecs)).
  (* the Jacobian product *)
  assert (EJ : jv = map (GraphProofs.tan O wrt x V G) inputs).
  { unfold multiply_jacobian in HJ. pose proof (forward_ok O env G inputs wrt wrt (proj1 Sm) U Hz Hw vecs Hv Lv) as K.
    assert (L : length (snd (fwd_gradients O G inputs wrt vecs wrt)) = length inputs).
    { unfold fwd_gradients. destruct (gradients O (repeat Nan (length inputs) ++ G) inputs wrt (seq (length G) (length inputs)) wrt) as [Ga l].
      destruct (zeros_for_none O Ga l) as [Gb ds]. unfold gradients. cbn [snd]. rewrite map_length, seq_length. reflexivity. }
    destruct (fwd_gradients O G inputs wrt vecs wrt) as [GJ rs]. cbn [snd] in L. fold x in K. fold V in K.
    clear -K L HJ. revert rs jv L K HJ. generalize inputs as l. induction l as [|z l IH]; intros [|r rs] jv L K HJ; try discriminate.
    - inversion HJ. reflexivity.
    - inversion HJ as [|? j ? jv' Hj HJ']; subst. cbn [map]. f_equal.
      + destruct (K 0%nat z eq_refl) as (r' & [= <-] & St & _). apply (stands_for_unique O _ _ _ _ _ Hj St).
      + apply (IH rs); [cbn in L; lia| |exact HJ']. intros k y Hk. apply (K (S k) y Hk). }
  (* the curvature of the loss *)
  assert (EL : map x loss_vecs = map (fun z => secs O inputs x (delta z) (along inputs jv) G loss) inputs).
  { assert (M : forall l m, Forall2 (fun z u => second_derivative O env inputs G loss z (along inputs jv) (at_rest O env G u)) l m ->
      map x m = map (fun z => secs O inputs x (delta z) (along inputs jv) G loss) l).
    { intros l m F. induction F as [|z u l m Hzu _ IH]; cbn [map]; [reflexivity|].
      f_equal; [|exact IH]. apply (second_is O env inputs G loss z _ _ Sm W). exact Hzu. }
    apply M, HL. }
  destruct (hessian_ok O env G loss wrt Sm U Hl Hw Us vecs Hv Lv) as (G1 & r1 & E1 & F1).
  set (c := fun x0 => rsum (map2 (fun z c => c * secs O inputs x (delta z) (along inputs jv) G loss) inputs
                             (map (GraphProofs.tan O wrt x (delta x0) G) inputs))).
  exists G1, r1, (map (fun x0 => sec O x (delta x0) V G loss) wrt), (map c wrt),
         (map (fun z => GraphProofs.tan O inputs x (delta z) G loss) inputs).
  split; [exact E1|]. split.
  { eapply F2_of; [|exact F1]. intros x0 r (St & _). exact St. }
  split.
  { unfold multiply_jacobian_transpose. pose proof (gradients_ok O env G inputs wrt loss_vecs wrt (proj1 Sm) U Hz Hw Hu) as K.
    destruct (gradients O G inputs wrt loss_vecs wrt) as [G2 r2]. destruct K as (_ & _ & K).
    eapply F2_of; [|exact K]. intros x0 r (_ & St & _). cbv beta in St.
    rewrite (zip_map2 (at_rest O env G) (fun y => GraphProofs.tan O wrt (at_rest O env G) (delta x0) G y)) in St.
    fold x in St. rewrite EL in St. unfold c.
    assert (E : forall (f h : nat -> R) l, rsum (map2 (fun u y => u * f y) (map h l) l) = rsum (map2 (fun z c => c * h z) l (map f l))).
    { clear. intros f h l. induction l as [|z l IH]; [reflexivity|]. cbn [map]. rewrite !map2_cons, !rsum_cons, IH. ring. }
    rewrite E in St. exact St. }
  split.
  { apply F2_map. intros z _. rewrite (tan_ext O inputs _ (delta z) (along [z] [1])) by (apply delta_along).
    apply after_derive; [exact W|]. intros i p args E. apply (smooth_chains O x G Sm W i p args E). }
  split; [apply map_length|]. split; [apply map_length|].
  intros k x0 Hk. exists (map (sec O x (delta x0) V G) inputs). split.
  - apply F2_map. intros z _. apply (second_is O env [] G z x0 _ _ Sm W). symmetry. apply secs_nil.
  - assert (I0 : In x0 wrt) by (apply (nth_error_In _ _ Hk)).
    assert (En : forall f : nat -> R, nth k (map f wrt) 0 = f x0).
    { intro f. apply nth_error_nth. rewrite nth_error_map, Hk. reflexivity. }
    rewrite !En. unfold c. rewrite EJ.
    pose proof (decomposition O env G loss inputs wrt x0 V Sm W Hl Nd Th A I0 (along_inside wrt _)) as Dc.
    cbv zeta in Dc. fold x in Dc. rewrite Dc. f_equal.
    assert (E : forall (f h : nat -> R) l, rsum (map2 (fun z c => c * f z) l (map h l)) = rsum (map2 Rmult (map f l) (map h l))).
    { clear. intros f h l. induction l as [|z l IH]; [reflexivity|]. cbn [map]. rewrite !map2_cons, !rsum_cons, IH. ring. }
    apply E.
Qed.
Print Assumptions C125_gauss_newton.

(** So when the inputs of the losses are affine functions of the tensors (a linear model, or the
    last layer of any network), Gauss-Newton and Hessian products are the same. *)
Theorem C125_affine (O : ops) env G loss inputs wrt vecs loss_vecs jv :
  smooth O -> user_graph O G -> (loss < length G)%nat ->
  nodes_of O G inputs -> nodes_of O G wrt -> nodes_of O G vecs -> nodes_of O G loss_vecs ->
  length vecs = length wrt -> NoDup inputs ->
  (forall w, In w wrt -> uses O [] G loss w) -> only_through O G loss inputs wrt -> independent O G wrt ->
  (forall z, In z inputs -> affine_in O env G wrt z) ->
  (let (GJ, rs) := multiply_jacobian O G inputs wrt vecs in Forall2 (stands_for O env GJ) rs jv) ->
  Forall2 (fun z u => second_derivative O env inputs G loss z (along inputs jv) (at_rest O env G u)) inputs loss_vecs ->
  exists G1 r1 hs,
    multiply_hessian O G loss wrt vecs = Ok (G1, r1) /\ Forall2 (stands_for O env G1) r1 hs /\
    (let (G2, r2) := multiply_jacobian_transpose O G inputs wrt loss_vecs in Forall2 (stands_for O env G2) r2 hs).
Proof.
  intros Sm U Hl Hz Hw Hv Hu Lv Nd Us Th A Af HJ HL. pose proof (proj1 U) as W.
  destruct (C125_gauss_newton O env G loss inputs wrt vecs loss_vecs jv Sm U Hl Hz Hw Hv Hu Lv Nd Us Th A HJ HL)
    as (G1 & r1 & hs & cs & gs & E1 & F1 & F2 & _ & L1 & L2 & Q).
  exists G1, r1, hs. split; [exact E1|]. split; [exact F1|].
  assert (E : hs = cs); [|rewrite E; exact F2].
  apply (nth_ext _ _ 0 0); [congruence|]. intros k Hk.
  destruct (nth_error wrt k) as [x|] eqn:Ek; [|apply nth_error_None in Ek; lia].
  destruct (Q k x Ek) as (qs & Fq & ->).
  assert (Z : rsum (map2 Rmult gs qs) = 0); [|rewrite Z; ring].
  assert (Zq : forall q, In q qs -> q = 0).
  { assert (Fz : Forall2 (fun (z : nat) q => q = 0) inputs qs).
    { clear -Fq Af Sm W Ek. revert Fq Af. generalize inputs as l. intros l Fq Af.
      induction Fq as [|z q l qs (grad & H1 & H2) _ IH]; constructor.
      - destruct (Af z (or_introl eq_refl) x (nth_error_In _ _ Ek)) as (d & Hd).
        apply (derive_unique _ 0 _ _ H2). eapply derive_ext; [|exact (derive_const d 0)].
        intro t. cbv beta. symmetry.
        specialize (H1 (fun i => no_move i + t * along wrt (map (at_rest O env G) vecs) i)).
        specialize (Hd (map (Rmult t) (map (at_rest O env G) vecs))).
        apply (derive_unique _ 0 _ _ H1). eapply derive_ext; [|exact Hd]. intro s. cbv beta.
        unfold after. apply moved_ext. intro i. f_equal. unfold no_move. rewrite Rplus_0_l.
        generalize (map (at_rest O env G) vecs) as cs. unfold along. clear.
        induction wrt as [|w l IH]; intros [|c cs]; try (cbn; ring).
        cbn [map]. rewrite !map2_cons, !rsum_cons, IH. destruct (Nat.eqb i w); ring.
      - apply IH. intros; apply Af; right; assumption. }
    clear -Fz. induction Fz; intros q' []; subst; auto. }
  clear -Zq. revert qs Zq. induction gs as [|g gs IH]; intros [|q qs] Zq; try reflexivity.
  rewrite map2_cons, rsum_cons, IH by (intros; apply Zq; right; assumption). rewrite (Zq q) by (left; reflexivity). ring.
Qed.
Print Assumptions C125_affine.

(* ------------------------------------------------------------------------ *)
(** * The hypotheses can be met, and are needed *)

(** Linear regression on one example: w a + b, squared error; the vectors are fed. *)
Definition regression : graph arithmetic :=
  [Leaf 5; Leaf 4; Leaf 3; Mul 4 4; Add 3 1; Mul 2 0; Leaf 2; Leaf 1; Leaf 0].
Lemma regression_user : user_graph arithmetic regression.
Proof.
  split; [cbn; intuition (subst; try discriminate; lia)|].
  intros [|[|[|[|[|[|[|[|[|i]]]]]]]]]; cbn; discriminate.
Qed.
Ltac step nd a := apply (uses_arg _ _ _ _ nd a); [reflexivity|cbn; intuition discriminate|cbn; auto|].
Lemma regression_uses w : In w [0%nat; 1%nat] -> uses arithmetic [] regression 5 w.
Proof.
  intros [<-|[<-|[]]].
  - step (@Mul arithmetic 4 4) 4%nat. step (@Add arithmetic 3 1) 3%nat. step (@Mul arithmetic 2 0) 0%nat. constructor.
  - step (@Mul arithmetic 4 4) 4%nat. step (@Add arithmetic 3 1) 1%nat. constructor.
Qed.
Lemma leaf_uses (O : ops) stops G i x : (forall nd, node_at O G i = Some nd -> args_of O nd = []) -> uses O stops G i x -> x = i.
Proof. intros H Ux. inversion Ux as [|? nd a ? E N Ha]; subst; [reflexivity|]. rewrite (H nd E) in Ha. destruct Ha. Qed.
Lemma regression_through : only_through arithmetic regression 5 [4%nat] [0%nat; 1%nat].
Proof.
  intros w Iw Uw. inversion Uw as [|? nd a ? E N Ha Ua]; subst; [destruct Iw as [[=]|[[=]|[]]]|].
  cbn in E. injection E as <-. assert (a = 4%nat) by (destruct Ha as [<-|[<-|[]]]; reflexivity). subst.
  inversion Ua as [|? nd' a' ? E' N' Ha' Ua']; subst; [left; reflexivity|]. destruct N'. left. reflexivity.
Qed.
Lemma regression_independent : independent arithmetic regression [0%nat; 1%nat].
Proof.
  intros w w' Iw Iw' Uw. symmetry. refine (leaf_uses _ _ _ _ _ _ Uw).
  intros nd. destruct Iw as [<-|[<-|[]]]; cbn; intros [= <-]; reflexivity.
Qed.
Lemma regression_affine env : affine_in arithmetic env regression [0%nat; 1%nat] 4.
Proof.
  intros w Iw. exists (if Nat.eqb w 0 then env 2%nat else 1). intro cs. unfold derivative.
  assert (K : forall t, after arithmetic env [] regression (fun i => along [0%nat; 1%nat] cs i + t * along [w] [1] i) 4
    = (after arithmetic env [] regression (along [0%nat; 1%nat] cs) 4) + t * (if Nat.eqb w 0 then env 2%nat else 1)).
  { intro t.
    assert (H0 : forall i, (2 <= i)%nat -> along [0%nat; 1%nat] cs i = 0).
    { intros i Hi. apply (along_inside [0%nat; 1%nat]). intros [<-|[<-|[]]]; lia. }
    assert (H1 : forall i, along [w] [1] i = if Nat.eqb i w then 1 else 0) by (intro i; symmetry; apply delta_along).
    unfold after. cbn [Spec.moved Nat.eqb length regression mem existsb real_node].
    rewrite !H1, !(H0 2%nat), !(H0 3%nat), !(H0 4%nat) by lia.
    destruct Iw as [<-|[<-|[]]]; cbn [Nat.eqb]; ring. }
  apply (derive_ext (fun t : R => after arithmetic env [] regression (along [0%nat; 1%nat] cs) 4 + t * (if Nat.eqb w 0 then env 2%nat else 1))).
  - intro t. symmetry. apply K.
  - apply derive_line.
Qed.
(** With a = 3 and the vectors (1, 1), the input moves by 4; the curvature of the square is 2, so
    that the loss vector is 8. *)
Definition regression_env (k : nat) : R := match k with 2%nat => 3 | 5%nat => 8 | _ => 1 end.
Lemma regression_curvature : Forall2 (fun z u => second_derivative arithmetic regression_env [4%nat] regression 5 z (along [4%nat] [4])
  (at_rest arithmetic regression_env regression u)) [4%nat] [8%nat].
Proof.
  constructor; [|constructor]. apply second_is; [exact arithmetic_smooth|apply regression_user|].
  unfold at_rest, no_move, along, delta. cbn. ring.
Qed.
Lemma regression_jacobian :
  let (GJ, rs) := multiply_jacobian arithmetic regression [4%nat] [0%nat; 1%nat] [6%nat; 7%nat] in
  Forall2 (stands_for arithmetic regression_env GJ) rs [4].
Proof.
  destruct (jacobian_value arithmetic regression_env regression 4 [0%nat; 1%nat] [6%nat; 7%nat] 4) as (c & K).
  - exact arithmetic_smooth.
  - exact regression_user.
  - intros i [<-|[]]; cbn; lia.
  - intros i [<-|[<-|[]]]; cbn; lia.
  - intros i [<-|[<-|[]]]; cbn; lia.
  - reflexivity.
  - exists 1%nat. split; [right; left; reflexivity|]. step (@Add arithmetic 3 1) 1%nat. constructor.
  - unfold at_rest, no_move, along. cbn. ring.
  - destruct (multiply_jacobian arithmetic regression [4%nat] [0%nat; 1%nat] [6%nat; 7%nat]) as [GJ rs].
    destruct K as (-> & K). constructor; [exact K|constructor].
Qed.
Example regression_same : exists G1 r1 hs,
    multiply_hessian arithmetic regression 5 [0%nat; 1%nat] [6%nat; 7%nat] = Ok (G1, r1) /\
    Forall2 (stands_for arithmetic regression_env G1) r1 hs /\
    (let (G2, r2) := multiply_jacobian_transpose arithmetic regression [4%nat] [0%nat; 1%nat] [8%nat] in
     Forall2 (stands_for arithmetic regression_env G2) r2 hs).
Proof.
  apply (C125_affine arithmetic regression_env regression 5 [4%nat] [0%nat; 1%nat] [6%nat; 7%nat] [8%nat] [4]).
  - exact arithmetic_smooth.
  - exact regression_user.
  - cbn; lia.
  - intros i [<-|[]]; cbn; lia.
  - intros i [<-|[<-|[]]]; cbn; lia.
  - intros i [<-|[<-|[]]]; cbn; lia.
  - intros i [<-|[]]; cbn; lia.
  - reflexivity.
  - constructor; [intros []|constructor].
  - exact regression_uses.
  - exact regression_through.
  - exact regression_independent.
  - intros z [<-|[]]. apply regression_affine.
  - exact regression_jacobian.
  - exact regression_curvature.
Qed.

(** Not so for other inputs: the square of a variable, twice.  The loss has no curvature as a
    function of its input, so that the Gauss-Newton product is zero; the Hessian product is 4. *)
Definition squares : graph arithmetic := [Const 0; Const 1; Add 1 1; Mul 0 0; Leaf 0].
Example squares_differ : exists G1 c rs,
  multiply_hessian arithmetic squares 2 [0%nat] [3%nat] = Ok (G1, Some c :: rs) /\ value arithmetic (fun _ => 1) G1 c = Some 4 /\
  second_derivative arithmetic (fun _ => 1) [1%nat] squares 2 1 (along [1%nat] [2]) (at_rest arithmetic (fun _ => 1) squares 4) /\
  let (G2, r2) := multiply_jacobian_transpose arithmetic squares [1%nat] [0%nat] [4%nat] in
  Forall2 (stands_for arithmetic (fun _ => 1) G2) r2 [0].
Proof.
  assert (Us : user_graph arithmetic squares).
  { split; [cbn; intuition (subst; try discriminate; lia)|]. intros [|[|[|[|[|i]]]]]; cbn; discriminate. }
  destruct (hessian_value arithmetic (fun _ => 1) squares 2 0 [] [3%nat] 4) as (G1 & c & rs & E & V).
  - exact arithmetic_smooth.
  - exact Us.
  - cbn; lia.
  - intros i [<-|[]]; cbn; lia.
  - intros i [<-|[]]; cbn; lia.
  - reflexivity.
  - intros x [<-|[]]. step (@Add arithmetic 1 1) 1%nat. step (@Mul arithmetic 0 0) 0%nat. constructor.
  - lra.
  - unfold at_rest, no_move, along, delta. cbn. ring.
  - exists G1, c, rs. split; [exact E|]. split; [exact V|]. split.
    + apply second_is; [exact arithmetic_smooth|apply Us|]. unfold at_rest, no_move, along, delta. cbn. ring.
    + cbn. constructor; [|constructor]. cbn. f_equal. ring.
Qed.
