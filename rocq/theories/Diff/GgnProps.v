(** C127: the Fisher and Gauss-Newton products, from the Jacobian product to the transposed one. *)
From Coq Require Import List Arith Bool Reals Lra Lia.
From Coquelicot Require Import Coquelicot.
From Verif.Base Require Import Py.
From Verif.Curv Require Import Model Spec.
From Verif.Diff Require Import Model Spec GraphProofs DerivProofs ShapeProofs JacProofs HessProofs GnProofs Arith GnSpec Props GnProps Ggn GgnSpec GgnProofs.
Import ListNotations.
Open Scope list_scope.
Open Scope R_scope.

Section Facts.
Variable O : ops.
Lemma moves_is env G wrt v z d : smooth O -> wf O G ->
  moves O env G wrt v z d <-> d = GraphProofs.tan O wrt (at_rest O env G) v G z.
Proof.
  intros Sm W. pose proof (after_derive O env wrt G v z W (fun i p args E => smooth_chains O (at_rest O env G) G Sm W i p args E)) as K.
  split; [|intros ->; exact K]. intro H. exact (derive_unique _ 0 _ _ H K).
Qed.
Lemma F2_iff {A B} (P Q : A -> B -> Prop) l m : (forall a b, P a b -> Q a b) -> Forall2 P l m -> Forall2 Q l m.
Proof. apply Forall2_impl_local. Qed.
Lemma moves_map env G wrt v l ds : smooth O -> wf O G ->
  Forall2 (moves O env G wrt v) l ds -> ds = map (GraphProofs.tan O wrt (at_rest O env G) v G) l.
Proof. intros Sm W F. apply F2_eq. eapply F2_iff; [|exact F]. intros z d. exact (proj1 (moves_is env G wrt v z d Sm W)). Qed.
Lemma curv_map env G loss zs v l us : smooth O -> wf O G ->
  Forall2 (fun z u => second_derivative O env zs G loss z v u) l us ->
  us = map (fun z => secs O zs (at_rest O env G) (delta z) v G loss) l.
Proof. intros Sm W F. apply F2_eq. eapply F2_iff; [|exact F]. intros z d. exact (proj1 (second_is O env zs G loss z v d Sm W)). Qed.
Lemma swap_maps (f g : nat -> R) l : rsum (map2 (fun z c => c * f z) l (map g l)) = rsum (map2 Rmult (map f l) (map g l)).
Proof. induction l as [|z l IH]; [reflexivity|]. cbn [map]. rewrite !map2_cons, !rsum_cons, IH. ring. Qed.
Lemma weights_add (a b : nat -> R) ws vs : rsum (map2 (fun w v => v * (a w + b w)) ws vs)
  = rsum (map2 (fun w v => v * a w) ws vs) + rsum (map2 (fun w v => v * b w) ws vs).
Proof. revert vs. induction ws as [|w ws IH]; intros [|v vs]; try (cbn; ring). rewrite !map2_cons, !rsum_cons, IH. ring. Qed.
Lemma weights_scale (a : nat -> R) k ws vs : rsum (map2 (fun w v => v * (a w * k)) ws vs)
  = rsum (map2 (fun w v => v * a w) ws vs) * k.
Proof. revert vs. induction ws as [|w ws IH]; intros [|v vs]; try (cbn; ring). rewrite !map2_cons, !rsum_cons, IH. ring. Qed.
Lemma weights_ext (a b : nat -> R) ws vs : (forall w, a w = b w) ->
  rsum (map2 (fun w v => v * a w) ws vs) = rsum (map2 (fun w v => v * b w) ws vs).
Proof. intro E. revert vs. induction ws as [|w ws IH]; intros [|v vs]; try reflexivity. rewrite !map2_cons, !rsum_cons, IH, E. reflexivity. Qed.
Lemma weights_zero ws vs : rsum (map2 (fun (w : nat) v => v * 0) ws vs) = 0.
Proof. revert vs. induction ws as [|w ws IH]; intros [|v vs]; try reflexivity. rewrite map2_cons, rsum_cons, IH. ring. Qed.
Lemma exchange (T : nat -> nat -> R) (h : nat -> R) zs ws vs :
  rsum (map2 (fun w v => v * rsum (map2 (fun z c => c * h z) zs (map (T w) zs))) ws vs)
  = rsum (map2 (fun z c => c * h z) zs (map (fun z => rsum (map2 (fun w v => v * T w z) ws vs)) zs)).
Proof.
  induction zs as [|z zs IH]; [apply weights_zero|]. cbn [map]. rewrite map2_cons, rsum_cons, <- IH.
  rewrite <- weights_scale, <- weights_add. apply weights_ext. intro w. rewrite map2_cons, rsum_cons. reflexivity.
Qed.
Lemma weigh (g : nat -> R) ws vs : rsum (map2 Rmult (map g ws) vs) = rsum (map2 (fun w v => v * g w) ws vs).
Proof. revert vs. induction ws as [|w ws IH]; intros [|v vs]; try reflexivity. cbn [map]. rewrite !map2_cons, !rsum_cons, IH. ring. Qed.

(** The form v' G v of a product. *)
Lemma quadratic env G loss inputs wrt (c : list R) V : smooth O -> wf O G ->
  let x := at_rest O env G in
  rsum (map2 Rmult (map (fun x0 => rsum (map2 (fun z c => c * secs O inputs x (delta z) V G loss) inputs
                                     (map (GraphProofs.tan O wrt x (delta x0) G) inputs))) wrt) c)
  = rsum (map2 (fun z d => d * secs O inputs x (delta z) V G loss) inputs
            (map (GraphProofs.tan O wrt x (along wrt c) G) inputs)).
Proof.
  intros Sm W x. rewrite weigh.
  rewrite (exchange (fun w z => GraphProofs.tan O wrt x (delta w) G z) (fun z => secs O inputs x (delta z) V G loss)).
  f_equal. f_equal. apply map_ext. intro z. symmetry. apply tan_along.
Qed.
End Facts.

(** Take a graph of smooth operations, a loss in it, the inputs of the losses and tensors that
    each input is computed from.  Let [jv] be the change of the inputs when the tensors move along
    the vectors, and [us] the curvature of the loss, as a function of its inputs, times [jv].  If
    the products of the losses compute this, then the whole product succeeds, and for each tensor
    returns the change of the inputs by this tensor, weighted with [us]: the transposed Jacobian
    times the curvature times the Jacobian times the vectors.  The placeholders that the Jacobian
    product has left in the graph have no effect. *)
Theorem C127_ggn_product_partial (O : ops) env G loss inputs wrt vecs product jv us :
  smooth O -> user_graph O G -> nodes_of O G inputs -> nodes_of O G wrt -> nodes_of O G vecs -> length vecs = length wrt ->
  (forall z, In z inputs -> exists w, In w wrt /\ uses O wrt G z w) ->
  multiplies_curvature O env G loss inputs product ->
  Forall2 (moves O env G wrt (along wrt (map (at_rest O env G) vecs))) inputs jv ->
  Forall2 (fun z u => second_derivative O env inputs G loss z (along inputs jv) u) inputs us ->
  exists G2 rs, multiply_ggn O product G inputs wrt vecs = Ok (G2, rs) /\
    Forall2 (fun w r => exists ds, Forall2 (moves O env G wrt (along [w] [1])) inputs ds /\
                          stands_for O env G2 r (rsum (map2 Rmult us ds))) wrt rs.
Proof.
  intros Sm U Hz Hw Hv Lv Dep HP Fj Fu. pose proof (proj1 U) as W.
  destruct (ggn_ok O env G loss inputs wrt vecs product Sm U Hz Hw Hv Lv Dep HP) as (G2 & rs & E & F).
  exists G2, rs. split; [exact E|]. eapply F2_iff; [|exact F]. intros w r St. cbv beta in St.
  exists (map (GraphProofs.tan O wrt (at_rest O env G) (delta w) G) inputs). split.
  - apply F2_map. intros z _. apply moves_is; [exact Sm|exact W|]. apply tan_ext. intro j. apply delta_along.
  - rewrite (curv_map O env G loss inputs _ _ _ Sm W Fu), (moves_map O env G wrt _ _ _ Sm W Fj), <- swap_maps. exact St.
Qed.
Print Assumptions C127_ggn_product_partial.

(** The matrix is symmetric: b' G a = a' G b. *)
Theorem C127_symmetric_partial (O : ops) env G loss inputs wrt a b product :
  smooth O -> user_graph O G -> nodes_of O G inputs -> nodes_of O G wrt ->
  nodes_of O G a -> length a = length wrt -> nodes_of O G b -> length b = length wrt ->
  (forall z, In z inputs -> exists w, In w wrt /\ uses O wrt G z w) ->
  multiplies_curvature O env G loss inputs product ->
  exists Ga ra da Gb rb db,
    multiply_ggn O product G inputs wrt a = Ok (Ga, ra) /\ Forall2 (stands_for O env Ga) ra da /\
    multiply_ggn O product G inputs wrt b = Ok (Gb, rb) /\ Forall2 (stands_for O env Gb) rb db /\
    length da = length wrt /\ length db = length wrt /\
    rsum (map2 Rmult da (map (at_rest O env G) b)) = rsum (map2 Rmult db (map (at_rest O env G) a)).
Proof.
  intros Sm U Hz Hw Ha La Hb Lb Dep HP. pose proof (proj1 U) as W.
  destruct (ggn_ok O env G loss inputs wrt a product Sm U Hz Hw Ha La Dep HP) as (Ga & ra & Ea & Fa).
  destruct (ggn_ok O env G loss inputs wrt b product Sm U Hz Hw Hb Lb Dep HP) as (Gb & rb & Eb & Fb).
  eexists Ga, ra, (map _ wrt), Gb, rb, (map _ wrt).
  split; [exact Ea|]. split; [eapply F2_of; [|exact Fa]; intros x r St; exact St|].
  split; [exact Eb|]. split; [eapply F2_of; [|exact Fb]; intros x r St; exact St|].
  split; [apply map_length|]. split; [apply map_length|].
  cbv beta. rewrite !quadratic by assumption. rewrite <- !(secs_along O env) by assumption. apply secs_sym; assumption.
Qed.
Print Assumptions C127_symmetric_partial.

(** If the loss is convex in its inputs, the matrix is positive semi-definite: v' G v >= 0, whatever
    the network computes. *)
Theorem C127_positive_partial (O : ops) env G loss inputs wrt vecs product :
  smooth O -> user_graph O G -> nodes_of O G inputs -> nodes_of O G wrt -> nodes_of O G vecs -> length vecs = length wrt ->
  (forall z, In z inputs -> exists w, In w wrt /\ uses O wrt G z w) ->
  multiplies_curvature O env G loss inputs product -> curvature_psd O env G loss inputs ->
  exists G2 rs ds, multiply_ggn O product G inputs wrt vecs = Ok (G2, rs) /\ Forall2 (stands_for O env G2) rs ds /\
    length ds = length wrt /\ 0 <= rsum (map2 Rmult ds (map (at_rest O env G) vecs)).
Proof.
  intros Sm U Hz Hw Hv Lv Dep HP Psd. pose proof (proj1 U) as W.
  destruct (ggn_ok O env G loss inputs wrt vecs product Sm U Hz Hw Hv Lv Dep HP) as (G2 & rs & E & F).
  eexists G2, rs, (map _ wrt). split; [exact E|]. split; [eapply F2_of; [|exact F]; intros x r St; exact St|].
  split; [apply map_length|]. cbv beta. rewrite quadratic by assumption. rewrite swap_maps.
  apply Psd; [apply map_length|]. apply F2_map. intros z _. apply second_is; [exact Sm|exact W|reflexivity].
Qed.
Print Assumptions C127_positive_partial.

(** Where the loss reaches the tensors through its inputs only, the Hessian product is this product
    plus the second derivatives of the inputs weighted with the gradient of the loss. *)
Theorem C127_hessian_partial (O : ops) env G loss inputs wrt vecs product :
  smooth O -> user_graph O G -> (loss < length G)%nat ->
  nodes_of O G inputs -> nodes_of O G wrt -> nodes_of O G vecs -> length vecs = length wrt -> NoDup inputs ->
  (forall z, In z inputs -> exists w, In w wrt /\ uses O wrt G z w) ->
  (forall w, In w wrt -> uses O [] G loss w) -> only_through O G loss inputs wrt -> independent O G wrt ->
  multiplies_curvature O env G loss inputs product ->
  exists G1 r1 hs G2 r2 cs gs,
    multiply_hessian O G loss wrt vecs = Ok (G1, r1) /\ Forall2 (stands_for O env G1) r1 hs /\
    multiply_ggn O product G inputs wrt vecs = Ok (G2, r2) /\ Forall2 (stands_for O env G2) r2 cs /\
    Forall2 (fun z g => derivative (fun e => after O env inputs G e loss) no_move (along [z] [1]) g) inputs gs /\
    length hs = length wrt /\ length cs = length wrt /\
    forall k x, nth_error wrt k = Some x -> exists qs,
      Forall2 (fun z q => second_derivative O env [] G z x (along wrt (map (at_rest O env G) vecs)) q) inputs qs /\
      nth k hs 0 = nth k cs 0 + rsum (map2 Rmult gs qs).
Proof.
  intros Sm U Hl Hz Hw Hv Lv Nd Dep Us Th A HP. pose proof (proj1 U) as W.
  destruct (hessian_ok O env G loss wrt Sm U Hl Hw Us vecs Hv Lv) as (G1 & r1 & E1 & F1).
  destruct (ggn_ok O env G loss inputs wrt vecs product Sm U Hz Hw Hv Lv Dep HP) as (G2 & r2 & E2 & F2).
  set (x := at_rest O env G) in *. set (V := along wrt (map x vecs)) in *.
  eexists G1, r1, (map (fun x0 => sec O x (delta x0) V G loss) wrt), G2, r2, (map _ wrt),
    (map (fun z => GraphProofs.tan O inputs x (delta z) G loss) inputs).
  split; [exact E1|]. split; [eapply F2_of; [|exact F1]; intros x0 r (St & _); exact St|].
  split; [exact E2|]. split; [eapply F2_of; [|exact F2]; intros x0 r St; exact St|].
  split.
  { apply F2_map. intros z _. rewrite (tan_ext O inputs _ (delta z) (along [z] [1])) by (apply delta_along).
    apply after_derive; [exact W|]. intros i p args E. apply (smooth_chains O x G Sm W i p args E). }
  split; [apply map_length|]. split; [apply map_length|].
  intros k x0 Hk. exists (map (sec O x (delta x0) V G) inputs). split.
  - apply F2_map. intros z _. apply (second_is O env [] G z x0 _ _ Sm W). symmetry. apply secs_nil.
  - assert (I0 : In x0 wrt) by (apply (nth_error_In _ _ Hk)).
    assert (En : forall f : nat -> R, nth k (map f wrt) 0 = f x0).
    { intro f. apply nth_error_nth. rewrite nth_error_map, Hk. reflexivity. }
    rewrite !En.
    pose proof (decomposition O env G loss inputs wrt x0 V Sm W Hl Nd Th A I0 (along_inside wrt _)) as Dc.
    cbv zeta in Dc. fold x in Dc. rewrite Dc. f_equal. apply swap_maps.
Qed.
Print Assumptions C127_hessian_partial.

(* ------------------------------------------------------------------------ *)
(** * The hypotheses can be met, and are needed *)

(** Linear regression with squared error, whose curvature is 2. *)
Definition square_product (G : graph arithmetic) (js : list nat) : graph arithmetic * list nat :=
  match js with
  | j :: _ => (Mul (length G) j :: Const 2 :: G, [S (length G)])
  | [] => (G, [])
  end.
Lemma square_curvature env (v : nat -> R) :
  secs arithmetic [4%nat] (at_rest arithmetic env regression) (delta 4) v regression 5 = 2 * v 4%nat.
Proof. unfold delta. cbn. ring. Qed.
Lemma along_one (v : R) : along [4%nat] [v] 4%nat = v.
Proof. unfold along. cbn. ring. Qed.
Lemma square_multiplies env : multiplies_curvature arithmetic env regression 5 [4%nat] square_product.
Proof.
  intros before js jv W L F. destruct js as [|j [|j' js]]; try discriminate. inversion F as [|? v ? jv' Ev F']; subst. inversion F'; subst.
  unfold square_product. set (G1 := before ++ regression) in *. split; [|split].
  - now exists [Mul (length G1) j; Const 2].
  - assert (Hj : (j < length G1)%nat) by (exact (clean_lt arithmetic _ _ (value_clean arithmetic env _ _ _ Ev))).
    cbn [wf args_of length]. split; [|split; [discriminate|split; [intros a []|split; [discriminate|exact W]]]].
    intros a [<-|[<-|[]]]; lia.
  - constructor; [|constructor]. exists (2 * v). split.
    + assert (Hj : (j < length G1)%nat) by (exact (clean_lt arithmetic _ _ (value_clean arithmetic env _ _ _ Ev))).
      cbn [value length]. rewrite Nat.eqb_refl. cbn [node_value value]. rewrite Nat.eqb_refl. cbn [node_value].
      destruct (Nat.eqb_spec j (length G1)) as [->|_]; [lia|]. now rewrite Ev.
    + apply (proj2 (second_is arithmetic env [4%nat] regression 5 4 _ _ arithmetic_smooth (proj1 regression_user))).
      now rewrite square_curvature, along_one.
Qed.
Lemma regression_dep z : In z [4%nat] -> exists w, In w [0%nat; 1%nat] /\ uses arithmetic [0%nat; 1%nat] regression z w.
Proof. intros [<-|[]]. exists 1%nat. split; [right; left; reflexivity|]. step (@Add arithmetic 3 1) 1%nat. constructor. Qed.
Lemma nodes_small l : forallb (fun i => Nat.ltb i 9) l = true -> nodes_of arithmetic regression l.
Proof. intros H i Hi. rewrite forallb_forall in H. specialize (H i Hi). apply Nat.ltb_lt in H. exact H. Qed.
Lemma square_psd env : curvature_psd arithmetic env regression 5 [4%nat].
Proof.
  intros cs us L F. destruct cs as [|c [|c' cs]]; try discriminate.
  rewrite (curv_map arithmetic env regression 5 [4%nat] _ _ _ arithmetic_smooth (proj1 regression_user) F).
  cbn [map]. rewrite map2_cons, rsum_cons, square_curvature, along_one. cbn. nra.
Qed.
(** With a = 3 and the vectors (1, 1) the input moves by 4, so the products are 2 * 4 * 3 and
    2 * 4 * 1. *)
Example C127_regression : exists G2 rs,
  multiply_ggn arithmetic square_product regression [4%nat] [0%nat; 1%nat] [6%nat; 7%nat] = Ok (G2, rs) /\
  Forall2 (stands_for arithmetic regression_env G2) rs [24; 8].
Proof.
  destruct (C127_ggn_product_partial arithmetic regression_env regression 5 [4%nat] [0%nat; 1%nat] [6%nat; 7%nat] square_product [4] [8])
    as (G2 & rs & E & F); try (apply nodes_small; reflexivity).
  - exact arithmetic_smooth.
  - exact regression_user.
  - reflexivity.
  - exact regression_dep.
  - apply square_multiplies.
  - constructor; [|constructor]. apply (proj2 (moves_is arithmetic _ _ _ _ _ _ arithmetic_smooth (proj1 regression_user))).
    unfold at_rest, no_move, along. cbn. ring.
  - constructor; [|constructor]. apply (proj2 (second_is arithmetic _ _ _ _ _ _ _ arithmetic_smooth (proj1 regression_user))).
    rewrite square_curvature, along_one. ring.
  - exists G2, rs. split; [exact E|].
    inversion F as [|? r0 ? l0 (d0 & M0 & S0) F0]; subst. inversion F0 as [|? r1 ? l1 (d1 & M1 & S1) F1]; subst. inversion F1; subst.
    apply (moves_map arithmetic _ _ _ _ _ _ arithmetic_smooth (proj1 regression_user)) in M0.
    apply (moves_map arithmetic _ _ _ _ _ _ arithmetic_smooth (proj1 regression_user)) in M1.
    subst d0 d1. cbn [map] in S0, S1. rewrite map2_cons, rsum_cons in S0, S1.
    constructor; [|constructor; [|constructor]].
    + eapply eq_ind; [exact S0|]. unfold at_rest, no_move, along. cbn. ring.
    + eapply eq_ind; [exact S1|]. unfold at_rest, no_move, along. cbn. ring.
Qed.
Example C127_regression_positive : exists G2 rs ds,
  multiply_ggn arithmetic square_product regression [4%nat] [0%nat; 1%nat] [6%nat; 7%nat] = Ok (G2, rs) /\
  Forall2 (stands_for arithmetic regression_env G2) rs ds /\ length ds = 2%nat /\
  0 <= rsum (map2 Rmult ds (map (at_rest arithmetic regression_env regression) [6%nat; 7%nat])).
Proof.
  apply (C127_positive_partial arithmetic regression_env regression 5); try (apply nodes_small; reflexivity).
  - exact arithmetic_smooth.
  - exact regression_user.
  - reflexivity.
  - exact regression_dep.
  - apply square_multiplies.
  - apply square_psd.
Qed.

(** The hypotheses about the Hessian are met too. *)
Example C127_regression_hessian : exists G1 r1 hs G2 r2 cs,
  multiply_hessian arithmetic regression 5 [0%nat; 1%nat] [6%nat; 7%nat] = Ok (G1, r1) /\
  Forall2 (stands_for arithmetic regression_env G1) r1 hs /\
  multiply_ggn arithmetic square_product regression [4%nat] [0%nat; 1%nat] [6%nat; 7%nat] = Ok (G2, r2) /\
  Forall2 (stands_for arithmetic regression_env G2) r2 cs.
Proof.
  destruct (C127_hessian_partial arithmetic regression_env regression 5 [4%nat] [0%nat; 1%nat] [6%nat; 7%nat] square_product)
    as (G1 & r1 & hs & G2 & r2 & cs & gs & E1 & F1 & E2 & F2 & _); try (apply nodes_small; reflexivity).
  - exact arithmetic_smooth.
  - exact regression_user.
  - cbn; lia.
  - reflexivity.
  - constructor; [intros []|constructor].
  - exact regression_dep.
  - exact regression_uses.
  - exact regression_through.
  - exact regression_independent.
  - apply square_multiplies.
  - exists G1, r1, hs, G2, r2, cs. tauto.
Qed.

(** An input of a loss that none of the tensors is used for: there is no product at all, although
    the matrix is just zero.  Here the products are asked for by a tensor that the network does not
    use. *)
Theorem C127_unused_input_refuted : exists (O : ops) env G loss inputs wrt vecs product,
  smooth O /\ user_graph O G /\ nodes_of O G inputs /\ nodes_of O G wrt /\ nodes_of O G vecs /\ length vecs = length wrt /\
  multiplies_curvature O env G loss inputs product /\
  multiply_ggn O product G inputs wrt vecs = Raise TypeError.
Proof.
  exists arithmetic, regression_env, regression, 5%nat, [4%nat], [7%nat], [6%nat], square_product.
  split; [exact arithmetic_smooth|]. split; [exact regression_user|].
  split; [apply nodes_small; reflexivity|]. split; [apply nodes_small; reflexivity|]. split; [apply nodes_small; reflexivity|].
  split; [reflexivity|]. split; [apply square_multiplies|]. reflexivity.
Qed.
Print Assumptions C127_unused_input_refuted.
